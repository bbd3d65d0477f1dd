(** Round trip of one instruction. *)
From Verif Require Import Base Words WordsProofs Operand OperandProofs BinaryParse ParseSpec BinaryParseProofs.
From Verif Require Import TextLex TextSpec TextProofs ParseNumber NumberSpec NumberProofs NamedIds NamedIdsProofs.
From Verif Require Import Assembler Disassembler RoundTripSpec TokenReader RoundTripOperand RoundTripPattern RoundTripToken RoundTripStep RoundTripLoop.
Local Open Scope N_scope.
Set Default Proof Using "Type".

(** The words of the text of an instruction *)
Definition inst_toks (g : grammar) (t : tables) (nm : N -> list N) (i : pinst) : list (list N) :=
  (if i_result_id i =? 0 then [] else [c_percent :: nm (i_result_id i); [61]]) ++
  (79 :: 112 :: t_op_name t (i_opcode i)) :: toks_of g t nm i (i_operands i).

(** *** What the parser did *)
Record parsed (g : grammar) (words : list N) (st st2 : pstate) (i : pinst) (fw wc op : N) (ts : list otype)
    (st1 : pstate) (c1 : cur) : Prop := {
  pd_first : nth_error words (word_index st) = Some fw;
  pd_split : opcode_split fw = (wc, op);
  pd_wc : 1 <= wc;
  pd_op : g_opcode g op = Some ts;
  pd_trace : ptrace g words (word_index st) op wc st1 c1
    {| word_index := S (word_index st); id_to_type_id := id_to_type_id st; number_info := number_info st; imports := imports st |}
    {| c_ext := 0; c_type := 0; c_result := 0; c_words := [fw]; c_ops := []; c_exp := push_operand_types ts [] |};
  pd_opt : match c_exp c1 with [] => false | ty :: _ => negb (is_optional ty) end = false;
  pd_end : (word_index st + N.to_nat wc = word_index st1)%nat;
  pd_number : record_number_type g words Little (word_index st) op wc (c_result c1) st1 = Some st2;
  pd_inst : i = {| i_words := firstn (N.to_nat wc) (skipn (word_index st) words);
                   i_num_words := wc; i_opcode := op; i_ext_type := c_ext c1;
                   i_type_id := c_type c1; i_result_id := c_result c1; i_operands := c_ops c1;
                   i_num_operands := N.of_nat (List.length (c_ops c1)) mod 2 ^ 16 |};
  pd_fit : (word_index st1 <= length words)%nat
}.
Lemma parse_parsed g words st tr st2 tr2 :
  parse_instruction g false (fun _ _ => SPV_SUCCESS) words Little st tr = IDone st2 tr2 ->
  exists i fw wc op ts st1 c1, parsed g words st st2 i fw wc op ts st1 c1 /\ tr2 = tr ++ [EInst i].
Proof.
  unfold parse_instruction. destruct (peek_at words Little (word_index st)) as [fw|] eqn:PK; [|discriminate].
  destruct (opcode_split fw) as [wc op] eqn:SP. destruct (N.ltb_spec wc 1) as [|W1]; [discriminate|]. cbv zeta.
  destruct (g_opcode g op) as [ts|] eqn:GO; [|discriminate].
  destruct (operand_loop g false words Little (word_index st) op wc (N.to_nat wc) (length (push_operand_types ts []))
    {| word_index := S (word_index st); id_to_type_id := id_to_type_id st; number_info := number_info st; imports := imports st |}
    (with_exp {| c_ext := 0; c_type := 0; c_result := 0; c_words := [fw]; c_ops := []; c_exp := [] |} (push_operand_types ts [])))
    as [st1 c1|code retry sta ca|] eqn:OL.
  2:{ destruct retry; [|discriminate].
      pose proof (operand_loop_inv g false words Little (word_index st) op wc (fun _ _ => True)) as LI.
      cbv beta in LI. match type of OL with operand_loop _ _ _ _ _ _ _ ?n ?m ?s ?cc = _ =>
        specialize (LI ltac:(auto) n m s cc I); rewrite OL in LI end.
      destruct LI as [_ LI]. specialize (LI eq_refl). discriminate LI. }
  2:{ discriminate. }
  destruct (match c_exp c1 with [] => false | ty :: _ => negb (is_optional ty) end) eqn:OPT; [discriminate|].
  destruct (Nat.eqb_spec (word_index st + N.to_nat wc) (word_index st1)) as [EN|]; [cbn [negb]|discriminate].
  destruct (record_number_type g words Little (word_index st) op wc (c_result c1) st1) as [st2'|] eqn:RN; [|discriminate].
  unfold call. cbn [Z.eqb SPV_SUCCESS]. intros H. change (0 =? 0)%Z with true in H. cbv iota in H. injection H as E1 E2. subst st2'.
  assert (NE : nth_error words (word_index st) = Some fw).
  { unfold peek_at in PK. destruct (nth_error words (word_index st)) as [w0|]; [|discriminate PK]. cbn in PK. congruence. }
  assert (BD : (word_index st1 <= length words)%nat).
  { pose proof (operand_loop_inv g false words Little (word_index st) op wc
      (fun s _ => (word_index st < word_index s <= length words)%nat)) as LI. cbv beta in LI.
    assert (X : (word_index st < length words)%nat) by (apply nth_error_Some; congruence).
    match type of OL with operand_loop _ _ _ _ _ _ _ ?n ?m ?s ?cc = _ =>
      specialize (fun A => LI A n m s cc); rewrite OL in LI end.
    apply LI; [|cbn [word_index]; lia]. intros s c ty p s' c' B1 B2 B3 B4. apply parse_op_ok in B4; [|lia].
    destruct B4 as (wd & o & _ & _ & (B5 & B6) & _). lia. }
  eexists _, fw, wc, op, ts, st1, c1. split; [|symmetry; exact E2].
  constructor; try assumption; try reflexivity.
  apply loop_ptrace in OL; [exact OL|exact (split_wc _ _ _ SP)|cbn [word_index]; lia].
Qed.

(** *** The shapes of the two numeric types *)
Section Shapes.
Variable g : grammar.
Variable words : list N.
Variable io : nat.
Variable op wc : N.
Variable st1 : pstate.
Variable c1 : cur.
Hypothesis OPT : match c_exp c1 with [] => false | ty :: _ => negb (is_optional ty) end = false.
Notation pt := (ptrace g words io op wc st1 c1).
Set Default Proof Using "All".

Definition int_op (off : N) : poperand :=
  {| o_offset := off; o_num_words := 1; o_type := T_LITERAL_INTEGER; o_kind := NK_UNSIGNED_INT; o_bit_width := 32; o_encoding := 0 |}.

Lemma step_result st c p : pt st c -> c_exp c = T_RESULT_ID :: p ->
  exists word st' c', nth_error words (word_index st) = Some word /\ word_index st' = S (word_index st) /\
    c_exp c' = p /\ c_ops c' = c_ops c ++ [plain_op (N.of_nat (word_index st - io)) T_RESULT_ID] /\ pt st' c'.
Proof.
  intros TR E. destruct TR as [GE|st c ty q word st' c' o nw LT TF NE PC NW WI TR].
  { rewrite E in OPT. discriminate OPT. }
  rewrite E in TF. cbv in TF. injection TF as <- <-.
  assert (X : exists sta, st' = sta /\ c' = with_result (with_exp c p) word /\ o = plain_op (N.of_nat (word_index st - io)) T_RESULT_ID).
  { clear - PC. inversion PC; subst; try (destruct H; discriminate); try discriminate. eexists. split; [reflexivity|]. split; reflexivity. }
  destruct X as (sta & -> & -> & ->). cbn in NW. assert (nw = 1%nat) by lia. subst nw.
  exists word, (bump sta 1), (with_op (with_result (with_exp c p) word) (plain_op (N.of_nat (word_index st - io)) T_RESULT_ID)).
  cbn [bump word_index with_op with_result with_exp c_exp c_ops]. split; [exact NE|]. split; [lia|]. auto.
Qed.
Lemma step_int st c p : pt st c -> c_exp c = T_LITERAL_INTEGER :: p ->
  exists word st' c', nth_error words (word_index st) = Some word /\ word_index st' = S (word_index st) /\
    c_exp c' = p /\ c_ops c' = c_ops c ++ [int_op (N.of_nat (word_index st - io))] /\ pt st' c'.
Proof.
  intros TR E. destruct TR as [GE|st c ty q word st' c' o nw LT TF NE PC NW WI TR].
  { rewrite E in OPT. discriminate OPT. }
  rewrite E in TF. cbv in TF. injection TF as <- <-.
  assert (X : c' = with_exp c p /\ o = int_op (N.of_nat (word_index st - io))).
  { clear - PC. inversion PC; subst; try (destruct H; discriminate); try discriminate. split; reflexivity. }
  destruct X as (-> & ->). cbn in NW. assert (nw = 1%nat) by lia. subst nw.
  exists word, (bump st' 1), (with_op (with_exp c p) (int_op (N.of_nat (word_index st - io)))).
  cbn [bump word_index with_op with_exp c_exp c_ops]. split; [exact NE|]. split; [lia|]. auto.
Qed.
Lemma step_enc st c : (forall v ts, g_operand g T_OPTIONAL_FPENCODING v = Some ts -> ts = []) ->
  pt st c -> c_exp c = [T_OPTIONAL_FPENCODING] -> (st1 = st /\ c1 = c) \/
  exists word ts, nth_error words (word_index st) = Some word /\ word_index st1 = S (word_index st) /\
    g_operand g T_OPTIONAL_FPENCODING word = Some ts /\
    c_ops c1 = c_ops c ++ [plain_op (N.of_nat (word_index st - io)) T_FPENCODING].
Proof.
  intros TE TR E. destruct TR as [GE|st c ty q word st' c' o nw LT TF NE PC NW WI TR]; [left; auto|]. right.
  rewrite E in TF. cbv in TF. injection TF as <- <-.
  assert (X : exists ts, g_operand g T_OPTIONAL_FPENCODING word = Some ts /\ c_exp c' = push_operand_types ts [] /\
     c_ops c' = c_ops c /\ o = plain_op (N.of_nat (word_index st - io)) T_FPENCODING).
  { clear - PC. inversion PC; subst; try (destruct H; discriminate); try discriminate. exists ts. cbn. auto. }
  destruct X as (ts & GO & CE & CO & ->). cbn in NW. assert (nw = 1%nat) by lia. subst nw.
  exists word, ts. rewrite (TE _ _ GO) in CE. cbn in CE.
  assert (Y : forall s d, pt s d -> c_exp d = [] -> st1 = s /\ c1 = d).
  { clear. intros s d TR E. destruct TR as [GE|s d ty q word st' c' o nw LT TF NE PC NW WI TR]; [auto|]. rewrite E in TF. discriminate TF. }
  destruct (Y _ _ TR CE) as [-> ->]. cbn [bump word_index with_op c_ops]. rewrite CO. split; [exact NE|]. split; [lia|]. auto.
Qed.
Lemma done_empty st c : pt st c -> c_exp c = [] -> st1 = st /\ c1 = c.
Proof.
  intros TR E. destruct TR as [GE|s d ty q word st' c' o nw LT TF NE PC NW WI TR]; [auto|]. rewrite E in TF. discriminate TF.
Qed.

Lemma int_shape st c : pt st c -> c_exp c = [T_RESULT_ID; T_LITERAL_INTEGER; T_LITERAL_INTEGER] -> word_index st = S io -> c_ops c = [] ->
  word_index st1 = (io + 4)%nat /\ c_ops c1 = [plain_op 1 T_RESULT_ID; int_op 2; int_op 3].
Proof.
  intros TR E W O. destruct (step_result _ _ _ TR E) as (w1 & sa & ca & N1 & W1 & E1 & O1 & TR1).
  destruct (step_int _ _ _ TR1 E1) as (w2 & sb & cb & N2 & W2 & E2 & O2 & TR2).
  destruct (step_int _ _ _ TR2 E2) as (w3 & sc & cc & N3 & W3 & E3 & O3 & TR3).
  destruct (done_empty _ _ TR3 E3) as [-> ->]. split; [lia|]. rewrite O3, O2, O1, O.
  replace (word_index st - io)%nat with 1%nat by lia. replace (word_index sa - io)%nat with 2%nat by lia.
  replace (word_index sb - io)%nat with 3%nat by lia. reflexivity.
Qed.
Lemma float_shape st c : (forall v ts, g_operand g T_OPTIONAL_FPENCODING v = Some ts -> ts = []) ->
  pt st c -> c_exp c = [T_RESULT_ID; T_LITERAL_INTEGER; T_OPTIONAL_FPENCODING] -> word_index st = S io -> c_ops c = [] ->
  (word_index st1 = (io + 3)%nat /\ c_ops c1 = [plain_op 1 T_RESULT_ID; int_op 2]) \/
  (word_index st1 = (io + 4)%nat /\ c_ops c1 = [plain_op 1 T_RESULT_ID; int_op 2; plain_op 3 T_FPENCODING] /\
   exists e ts, nth_error words (io + 3) = Some e /\ g_operand g T_OPTIONAL_FPENCODING e = Some ts).
Proof.
  intros TE TR E W O. destruct (step_result _ _ _ TR E) as (w1 & sa & ca & N1 & W1 & E1 & O1 & TR1).
  destruct (step_int _ _ _ TR1 E1) as (w2 & sb & cb & N2 & W2 & E2 & O2 & TR2).
  destruct (step_enc _ _ TE TR2 E2) as [[-> ->]|(w3 & ts & N3 & W3 & GO & O3)].
  - left. split; [lia|]. rewrite O2, O1, O.
    replace (word_index st - io)%nat with 1%nat by lia. replace (word_index sa - io)%nat with 2%nat by lia. reflexivity.
  - right. split; [lia|]. split.
    + rewrite O3, O2, O1, O.
      replace (word_index st - io)%nat with 1%nat by lia. replace (word_index sa - io)%nat with 2%nat by lia.
      replace (word_index sb - io)%nat with 3%nat by lia. reflexivity.
    + exists w3, ts. replace (io + 3)%nat with (word_index sb) by lia. auto.
Qed.
End Shapes.

Lemma nth_skipn_cons {A} k (l : list A) x : nth_error l k = Some x -> skipn k l = x :: skipn (S k) l.
Proof. revert l. induction k as [|k IH]; intros [|a l] H; try discriminate; [injection H as ->; reflexivity|]. exact (IH l H). Qed.

Section Passed.
Variable t : tables.
Variable op : N.
Variable ts : list otype.
Lemma lead_passed off P k : pinv t op ts off P ->
  match P with [] => false | ty :: _ => negb (is_optional ty) end = false ->
  (forall j, (j <= k)%nat -> exists ty, nth_error (lead t op) j = Some ty /\ is_optional ty = false) -> (k + 2 <= off)%nat.
Proof.
  intros PI OPT H. destruct PI as [k0 tail LK TS _ _|off p _ L _|off p OS L3 _].
  - destruct (Nat.le_gt_cases k0 k) as [LE|]; [|lia]. exfalso. destruct (H k0 LE) as (ty & E & NO).
    rewrite (nth_skipn_cons _ _ _ E) in OPT. cbn in OPT. rewrite NO in OPT. discriminate OPT.
  - destruct (H k (le_n _)) as (ty & E & _). assert (k < length (lead t op))%nat by (apply nth_error_Some; congruence). lia.
  - destruct (Nat.le_gt_cases k 1) as [|G2]; [lia|]. exfalso. destruct (H 2%nat ltac:(lia)) as (ty & E & NO).
    rewrite (lead_switch t op OS) in E. cbn in E. injection E as <-. discriminate NO.
Qed.
Lemma result_passed off P j : pinv t op ts off P ->
  match P with [] => false | ty :: _ => negb (is_optional ty) end = false ->
  nth_error (lead t op) j = Some T_RESULT_ID -> (j + 2 <= off)%nat.
Proof.
  intros PI OPT R. apply (lead_passed _ _ _ PI OPT). intros k L. destruct (lead_before t op j k R L) as [->|[[-> ->] E]]; eauto.
Qed.
Lemma type_passed off P : pinv t op ts off P ->
  match P with [] => false | ty :: _ => negb (is_optional ty) end = false ->
  nth_error (lead t op) 0 = Some T_TYPE_ID -> (2 <= off)%nat.
Proof.
  intros PI OPT R. apply (lead_passed _ _ 0 PI OPT). intros k L. assert (k = 0)%nat by lia. subst k. eauto.
Qed.
Lemma import_passed off P : pinv t op ts off P ->
  match P with [] => false | ty :: _ => negb (is_optional ty) end = false ->
  op = OpExtInstImport -> (2 < off)%nat.
Proof.
  intros PI OPT E. pose proof (lead_passed _ _ 1 PI OPT) as H. rewrite (lead_import t op E) in H.
  apply H. intros [|[|j]] L; [exists T_RESULT_ID; split; reflexivity|exists T_LITERAL_STRING; split; reflexivity|lia].
Qed.
Lemma lead_no_none : Forall (fun ty => ty <> T_NONE) (lead t op).
Proof.
  unfold lead. repeat match goal with |- context [if ?b then _ else _] => destruct b end;
    repeat (constructor; [discriminate|]); constructor.
Qed.
End Passed.

Lemma lead_type_result t op : In T_TYPE_ID (lead t op) -> existsb (otype_eqb T_RESULT_ID) (lead t op) = true ->
  nth_error (lead t op) 0 = Some T_TYPE_ID /\ nth_error (lead t op) 1 = Some T_RESULT_ID.
Proof.
  unfold lead. repeat match goal with |- context [if ?b then _ else _] => destruct b end; cbn; intuition (discriminate || auto).
Qed.

Section Inst.
Variable g : grammar.
Variable t : tables.
Hypothesis K : tables_ok g t.
Variable nm : N -> list N.
Variable words : list N.
Hypothesis WOK : Forall word_ok words.
Variable D : N -> Prop.
Variable r : N -> N.
Hypothesis NV : forall id, D id -> is_valid_id (nm id) = true.
Hypothesis RINJ : forall a b, D a -> D b -> r a = r b -> a = b.

Lemma push_all op ts : g_opcode g op = Some ts -> push_operand_types ts [] = ts.
Proof using K.
  intros GO. destruct (tk_op _ _ K _ _ GO) as (tail & -> & F & _). rewrite push_operand_types_spec, app_nil_r.
  assert (FN : Forall (fun ty => ty <> T_NONE) (lead t op ++ tail)).
  { apply Forall_app. split; [exact (lead_no_none t op tail)|]. rewrite Forall_forall in F |- *. intros a IN ->. specialize (F _ IN). discriminate F. }
  clear GO. induction FN as [|a l NA FN IH]; [reflexivity|]. cbn [filter]. rewrite IH.
  unfold not_none. destruct a; try reflexivity. congruence.
Qed.

Lemma upd_same {A} (f : N -> option A) k v : upd f k v k = Some v.
Proof. unfold upd. rewrite N.eqb_refl. reflexivity. Qed.
Lemma upd_other {A} (f : N -> option A) k v k' : k' <> k -> upd f k v k' = f k'.
Proof. unfold upd. intros H. destruct (N.eqb_spec k' k); congruence. Qed.

Lemma op_token op ts : g_opcode g op = Some ts -> starts_with_op (79 :: 112 :: t_op_name t op) = true /\
  word (79 :: 112 :: t_op_name t op) /\ name_eqb (79 :: 112 :: t_op_name t op) op_unknown = false.
Proof using K.
  intros GO. destruct (tk_op_name _ _ K _ _ GO) as (NT & HD & NU). split; [|split].
  - destruct (t_op_name t op) as [|c l]; [destruct NT as [X _]; exact (False_ind _ (X eq_refl))|]. cbn in HD |- *.
    clear - HD. apply andb_true_iff. split; apply N.leb_le; lia.
  - apply name_word. destruct NT as [_ F]. split; [discriminate|]. constructor; [|constructor; [|exact F]].
    + right. left. clear. lia.
    + right. right. left. clear. lia.
  - destruct (name_eqb _ _) eqn:E; [|reflexivity]. apply name_eqb_eq in E. injection E as E. exact (False_ind _ (NU E)).
Qed.

Lemma inst_main st x st2 i fw wc op ts st1 c1 ids2 more fuel iop :
  parsed g words st st2 i fw wc op ts st1 c1 -> mrel D r st x -> printable_inst g t i ->
  Forall D (inst_ids i) -> name_ids (x_ids x) (map nm (inst_ids i)) = Some (map r (inst_ids i), ids2) ->
  fresh_start more -> (length (toks_of g t nm i (i_operands i)) <= fuel)%nat ->
  Forall (fun o => otype_eqb (o_type o) T_RESULT_ID = false -> operand_token (emit_operand g t nm i o)) (i_operands i) /\
  (i_result_id i <> 0 -> D (i_result_id i)) /\ (t_has_result t op = negb (i_result_id i =? 0)) /\
  fresh_start (inst_toks g t nm i ++ more) /\
  exists x2 ai2, encode_opcode g t T fuel iop x (inst_toks g t nm i ++ more) = AOk (x2, ai2, more) /\
    a_words ai2 = renamed r i /\ x_ids x2 = ids2 /\ mrel D r st2 x2.
Proof using All.
  intros P M PR DI NI FS LF. destruct P as [FW SP W1 GO TR OPT EN RN II FIT].
  set (io := word_index st) in *.
  pose proof (split_wc _ _ _ SP) as WC.
  assert (IW : i_words i = firstn (N.to_nat wc) (skipn io words)) by (rewrite II; reflexivity).
  assert (IOP : i_opcode i = op) by (rewrite II; reflexivity).
  assert (IEXT : i_ext_type i = c_ext c1) by (rewrite II; reflexivity).
  assert (IOPS : i_operands i = c_ops c1) by (rewrite II; reflexivity).
  assert (IRES : i_result_id i = c_result c1) by (rewrite II; reflexivity).
  assert (INW : i_num_words i = wc) by (rewrite II; reflexivity).
  clear II. destruct PR as (PF & PE & PO). rewrite IOP in PF, PE.
  rewrite (push_all _ _ GO) in TR.
  destruct (tk_op _ _ K _ _ GO) as (tail & TS & FT & OL).
  set (sta := {| word_index := S io; id_to_type_id := id_to_type_id st; number_info := number_info st; imports := imports st |}) in *.
  set (ca := {| c_ext := 0; c_type := 0; c_result := 0; c_words := [fw]; c_ops := []; c_exp := ts |}) in *.
  set (ai0 := {| a_opcode := op; a_ext := 0; a_rtype := 0; a_words := [0] |}).
  assert (PI : pinv t op ts (word_index sta - io) (c_exp ca)).
  { cbn [sta ca word_index c_exp]. replace (S io - io)%nat with 1%nat by lia. exact (pinv_start t op ts tail TS FT OL). }
  assert (L0 : lrel g t words D r io op i st x sta ca x ai0).
  { constructor; cbn [sta ca ai0 word_index c_ext c_type c_result c_ops a_opcode a_ext a_rtype a_words id_to_type_id number_info imports flat_map length].
    all: replace (S io - io)%nat with 1%nat by lia.
    all: try reflexivity; try lia; intros; try lia; try reflexivity.
    - auto. }
  set (rid := if t_has_result t op then c_percent :: nm (c_result c1) else []).
  assert (PRN : Forall (printable_operand g t i) (c_ops c1)) by (rewrite <- IOPS; exact PO).
  destruct (loop_main g t K nm words WOK D r NV io wc op ts i st x GO WC ltac:(lia) IW IOP M st1 c1 EN IEXT PRN OPT
              rid eq_refl more FS sta ca TR x ai0 (c_ops c1) ids2 fuel (2 + length ts)%nat L0 PI eq_refl)
    as (FTK & x2 & ai2 & AL & X2 & L2 & PI2).
  { rewrite <- IOPS. exact DI. }
  { rewrite <- IOPS. exact NI. }
  { rewrite <- IOPS. exact LF. }
  { cbn. lia. }
  assert (OFFW : (word_index st1 - io)%nat = N.to_nat wc) by lia.
  assert (FW32 : fw < 2 ^ 32) by (rewrite Forall_forall in WOK; apply WOK; eapply nth_error_In; exact FW).
  assert (MK : opcode_make wc op = fw).
  { pose proof (make_split fw FW32) as MS. rewrite SP in MS. exact MS. }
  (* the result *)
  assert (HR : forall j, nth_error (lead t op) j = Some T_RESULT_ID ->
     D (c_result c1) /\ c_result c1 <> 0 /\ nth (S j) (a_words ai2) 0 = r (c_result c1) /\
     id_to_type_id st (c_result c1) = None /\
     id_to_type_id st1 = upd (id_to_type_id st) (c_result c1) (if g_generates_type g op then c_result c1 else c_type c1)).
  { intros j E. exact (l_res _ _ _ _ _ _ _ _ _ _ _ _ _ _ L2 j E (result_passed t op ts _ _ j PI2 OPT E)). }
  assert (HRB : (t_has_result t op = true /\ c_result c1 <> 0 /\ exists j, nth_error (lead t op) j = Some T_RESULT_ID) \/
                (t_has_result t op = false /\ c_result c1 = 0 /\ forall j, nth_error (lead t op) j <> Some T_RESULT_ID)).
  { rewrite (tk_result _ _ K). destruct (existsb (otype_eqb T_RESULT_ID) (lead t op)) eqn:EX.
    - left. apply existsb_exists in EX. destruct EX as (a & IN & E). apply otype_eqb_eq in E. subst a.
      apply In_nth_error in IN. destruct IN as [j E]. split; [reflexivity|]. split; [apply (HR j E)|eauto].
    - right. assert (NO : forall j, nth_error (lead t op) j <> Some T_RESULT_ID).
      { intros j E. apply nth_error_In in E. assert (X : existsb (otype_eqb T_RESULT_ID) (lead t op) = true).
        { apply existsb_exists. exists T_RESULT_ID. split; [exact E|reflexivity]. } congruence. }
      split; [reflexivity|]. split; [exact (l_res0 _ _ _ _ _ _ _ _ _ _ _ _ _ _ L2 NO)|exact NO]. }
  assert (HRE : t_has_result t op = negb (i_result_id i =? 0)).
  { rewrite IRES. destruct HRB as [(-> & NZ & _)|(-> & Z & _)].
    - destruct (N.eqb_spec (c_result c1) 0); [congruence|reflexivity].
    - rewrite Z. reflexivity. }
  destruct (op_token _ _ GO) as (OT1 & OT2 & OT3).
  set (name := 79 :: 112 :: t_op_name t op) in *.
  assert (IT : inst_toks g t nm i = (if t_has_result t op then [rid; [61]] else []) ++ name :: toks_of g t nm i (c_ops c1)).
  { unfold inst_toks. rewrite IOPS, IOP, HRE. unfold rid. rewrite HRE, IRES. destruct (c_result c1 =? 0); reflexivity. }
  split; [rewrite IOPS; exact FTK|]. split.
  { rewrite IRES. intros NZ. destruct HRB as [(_ & _ & j & E)|(_ & Z & _)]; [apply (HR j E)|congruence]. }
  split; [exact HRE|]. split.
  { right. rewrite IT. unfold rid. destruct (t_has_result t op).
    - unfold start_of_new_inst. cbn [app rd_advance rd_op rd_word token_reader starts_with_op].
      assert (X : match nm (c_result c1) with ch1 :: ch2 :: _ => (c_percent =? 79) && (ch1 =? 112) && (65 <=? ch2) && (ch2 <=? 90) | _ => false end = false)
        by (destruct (nm (c_result c1)) as [|? [|? ?]]; reflexivity).
      assert (X' : starts_with_op (c_percent :: nm (c_result c1)) = false) by exact X.
      cbn [starts_with_op] in X'. rewrite X'. change (c_percent =? c_percent) with true. cbn [negb].
      change (name_eqb [61] [61]) with true. cbn [negb]. rewrite OT1. reflexivity.
    - unfold start_of_new_inst. cbn [app rd_advance rd_op rd_word token_reader]. rewrite OT1. reflexivity. }
  (* the end of the instruction *)
  assert (LEN : length (a_words ai2) = N.to_nat wc) by (rewrite (l_len _ _ _ _ _ _ _ _ _ _ _ _ _ _ L2); exact OFFW).
  pose proof (l_words _ _ _ _ _ _ _ _ _ _ _ _ _ _ L2) as AW.
  assert (REN : forall o, ren r i o = (if is_id_type (o_type o) then map r (operand_words i o) else operand_words i o)) by reflexivity.
  assert (FIN : exists x3, finish_opcode g t x2 ai2 = AOk (x3, {| a_opcode := op; a_ext := a_ext ai2; a_rtype := a_rtype ai2;
                   a_words := renamed r i |}) /\ x_ids x3 = ids2 /\ mrel D r st2 x3).
  { destruct L2 as [_ LOP _ _ _ LTY LTY0 LRES LRES0 LUNRES _ LTYPES LVALS LINFO LIMP LIMPORT].
    assert (WL : (N.of_nat (length (a_words ai2)) = wc)%N) by (rewrite LEN; lia).
    assert (RW : opcode_make wc op :: tl (a_words ai2) = renamed r i).
    { unfold renamed. rewrite IW, (nth_skipn_cons _ _ _ FW), IOPS.
      destruct (N.to_nat wc) eqn:Z; [lia|]. cbn [firstn app]. rewrite MK, AW. reflexivity. }
    unfold finish_opcode. rewrite LOP, WL, RW.
    replace (65535 <? wc) with false by (symmetry; apply N.ltb_ge; lia).
    rewrite <- X2.
    destruct M as [MT MVN MV MI MD].
    (* what is not a result stays *)
    assert (IMPS : forall id, D id -> x_imports x2 (r id) = imports st1 id).
    { intros id Did. destruct (N.eq_dec op OpExtInstImport) as [E|NE].
      - destruct (LIMPORT E (import_passed t op ts _ _ PI2 OPT E)) as (ty & -> & ->).
        destruct (HR 0%nat ltac:(rewrite (lead_import t op E); reflexivity)) as (DR & _ & _).
        destruct (N.eq_dec id (c_result c1)) as [->|NI']; [rewrite !upd_same; reflexivity|].
        rewrite !upd_other; [apply MI; exact Did|exact NI'|]. intros H. apply NI'. apply RINJ; assumption.
      - destruct (LIMP (or_introl NE)) as [-> ->]. apply MI. exact Did. }
    assert (IMPD : forall id, imports st1 id <> None -> id_to_type_id st1 id <> None).
    { intros id. destruct (N.eq_dec op OpExtInstImport) as [E|NE].
      - destruct (LIMPORT E (import_passed t op ts _ _ PI2 OPT E)) as (ty & _ & ->).
        destruct (HR 0%nat ltac:(rewrite (lead_import t op E); reflexivity)) as (DR & _ & _ & _ & ->).
        destruct (N.eq_dec id (c_result c1)) as [->|NI']; [rewrite !upd_same; discriminate|].
        rewrite !upd_other by exact NI'. intros H. apply MD. right. exact H.
      - destruct (LIMP (or_introl NE)) as [_ ->]. intros H. assert (X : id_to_type_id st id <> None) by (apply MD; right; exact H).
        destruct HRB as [(_ & _ & j & E)|(_ & _ & NO)].
        + destruct (HR j E) as (_ & _ & _ & _ & ->).
          destruct (N.eq_dec id (c_result c1)) as [->|NI']; [rewrite !upd_same; discriminate|].
          rewrite upd_other by exact NI'. exact X.
        + rewrite (LUNRES (fun j E => False_ind _ (NO j E))). exact X. }
    destruct (g_generates_type g op) eqn:GT.
    - destruct (tk_generates _ _ K _ GT) as [HB HT].
      assert (R0 : nth_error (lead t op) 0 = Some T_RESULT_ID).
      { destruct HRB as [(_ & _ & j & E)|(X & _)]; [|congruence].
        destruct (lead_before t op j 0 E ltac:(lia)) as [<-|[_ ET]]; [exact E|]. exfalso.
        rewrite (tk_type _ _ K) in HT. assert (X : existsb (otype_eqb T_TYPE_ID) (lead t op) = true).
        { apply existsb_exists. exists T_TYPE_ID. split; [eapply nth_error_In; exact ET|reflexivity]. } congruence. }
      destruct (HR 0%nat R0) as (DR & NZ & NTH & UND & DEF).
      set (res := c_result c1) in *.
      assert (ND : number_info st res = None).
      { destruct (number_info st res) eqn:E; [|reflexivity]. exfalso. apply (MD res); [left; congruence|exact UND]. }
      assert (XT : x_types x2 (r res) = None) by (rewrite LTYPES, (MT res DR), ND; reflexivity).
      assert (AW2 : exists rest, a_words ai2 = 0 :: r res :: rest).
      { rewrite AW in NTH, LEN |- *. pose proof (result_passed t op ts _ _ 0 PI2 OPT R0) as PP. rewrite OFFW in PP.
        destruct (flat_map _ (c_ops c1)) as [|a rest]; [cbn in LEN; lia|]. cbn in NTH. subst a. exists rest. reflexivity. }
      destruct AW2 as (rest & AW2).
      (* the record of the type *)
      assert (FIN2 : forall info, st2 = {| word_index := word_index st1; id_to_type_id := id_to_type_id st1;
                 number_info := upd (number_info st1) res info; imports := imports st1 |} ->
               mrel D r st2 {| x_ids := x_ids x2; x_types := upd (x_types x2) (r res) (conv info); x_values := x_values x2; x_imports := x_imports x2 |}).
      { intros info ->. constructor; cbn [x_types x_values x_imports number_info id_to_type_id imports].
        - intros id Did. rewrite LTYPES, LINFO. destruct (N.eq_dec id res) as [->|NI']; [rewrite !upd_same; reflexivity|].
          rewrite !upd_other; [apply MT; exact Did|exact NI'|]. intros H. apply NI'. apply RINJ; assumption.
        - intros id Did. rewrite DEF, LVALS. destruct (N.eq_dec id res) as [->|NI']; [rewrite upd_same; discriminate|].
          rewrite upd_other by exact NI'. apply MVN. exact Did.
        - intros id ty Did. rewrite DEF, LVALS. destruct (N.eq_dec id res) as [->|NI']; [rewrite upd_same; congruence|].
          rewrite upd_other by exact NI'. apply MV. exact Did.
        - exact IMPS.
        - intros id [H|H]; [|apply IMPD; exact H]. rewrite DEF. destruct (N.eq_dec id res) as [->|NI']; [rewrite upd_same; discriminate|].
          rewrite upd_other in H by exact NI'. rewrite upd_other by exact NI'. apply MD. left. rewrite <- LINFO. exact H. }
      unfold record_type_definition. rewrite AW2, LOP, XT.
      assert (OW1 : forall o k e, o_offset o = N.of_nat k -> o_num_words o = 1 -> (k < N.to_nat wc)%nat ->
        peek_at words Little (io + k) = Some e -> operand_words i o = [e]).
      { intros o k e O1 O2 LK PK. unfold peek_at in PK. destruct (nth_error words (io + k)) as [e'|] eqn:NE; [|discriminate PK].
        cbn in PK. injection PK as ->. unfold operand_words. rewrite O1, O2, Nat2N.id, IW. change (N.to_nat 1) with 1%nat.
        rewrite (nth_skipn_cons k _ e); [reflexivity|]. rewrite nth_error_firstn' by exact LK. rewrite nth_error_skipn'. exact NE. }
      unfold record_number_type in RN. rewrite GT in RN. cbv zeta in RN. fold res in RN.
      destruct (N.eqb_spec op OpTypeInt) as [EI|NEI].
      + destruct (int_shape g words io op wc st1 c1 OPT sta ca TR) as [WI CO].
        { cbn [ca c_exp]. rewrite TS, (OL ltac:(rewrite EI; reflexivity)), EI, app_nil_r. reflexivity. }
        { reflexivity. } { reflexivity. }
        assert (W4 : N.to_nat wc = 4%nat) by lia.
        destruct (peek_at words Little (io + 3)) as [s|] eqn:PS; [|discriminate RN].
        destruct (peek_at words Little (io + 2)) as [w|] eqn:PW; [|discriminate RN]. injection RN as RN.
        assert (RST : rest = [w; s]).
        { rewrite AW2, CO in AW. cbn [flat_map] in AW. rewrite !REN in AW. cbn [plain_op int_op o_type is_id_type] in AW.
          rewrite (OW1 (int_op 2) 2%nat w eq_refl eq_refl ltac:(lia) PW), (OW1 (int_op 3) 3%nat s eq_refl eq_refl ltac:(lia) PS) in AW.
          destruct (operand_words i (plain_op 1 T_RESULT_ID)) as [|a [|b l]] eqn:OR;
            [| |exfalso; apply (f_equal (@length N)) in OR; unfold operand_words in OR; rewrite firstn_length in OR; cbn [plain_op o_num_words length] in OR; lia].
          - exfalso. apply (f_equal (@length N)) in AW. rewrite <- AW2, LEN in AW. cbn in AW. lia.
          - cbn in AW. injection AW as _ ->. reflexivity. }
        rewrite RST. eexists. split; [reflexivity|]. split; [reflexivity|].
        pose proof (FIN2 _ (eq_sym RN)) as F2. unfold conv in F2. cbn [n_kind n_width n_encoding] in F2.
        destruct (s =? 0); exact F2.
      + destruct (N.eqb_spec op OpTypeFloat) as [EF|NEF].
        * destruct (float_shape g words io op wc st1 c1 OPT sta ca (fun v l H => proj1 (tk_enc _ _ K v l H)) TR) as [[WI CO]|(WI & CO & e & l & NE & GE)].
          { cbn [ca c_exp]. rewrite TS, (OL ltac:(rewrite EF; reflexivity)), EF, app_nil_r. reflexivity. }
          { reflexivity. } { reflexivity. }
          -- assert (W3 : N.to_nat wc = 3%nat) by lia.
             destruct (peek_at words Little (io + 2)) as [w|] eqn:PW; [|discriminate RN].
             replace (4 <=? wc) with false in RN by (symmetry; apply N.leb_gt; lia). injection RN as RN.
             assert (RST : rest = [w]).
             { rewrite AW2, CO in AW. cbn [flat_map] in AW. rewrite !REN in AW. cbn [plain_op int_op o_type is_id_type] in AW.
               rewrite (OW1 (int_op 2) 2%nat w eq_refl eq_refl ltac:(lia) PW) in AW.
               destruct (operand_words i (plain_op 1 T_RESULT_ID)) as [|a [|b l]] eqn:OR;
                 [| |exfalso; apply (f_equal (@length N)) in OR; unfold operand_words in OR; rewrite firstn_length in OR; cbn [plain_op o_num_words length] in OR; lia].
               - exfalso. apply (f_equal (@length N)) in AW. rewrite <- AW2, LEN in AW. cbn in AW. lia.
               - cbn in AW. injection AW as _ ->. reflexivity. }
             rewrite RST. eexists. split; [reflexivity|]. split; [reflexivity|]. exact (FIN2 _ (eq_sym RN)).
          -- assert (W4 : N.to_nat wc = 4%nat) by lia.
             destruct (peek_at words Little (io + 2)) as [w|] eqn:PW; [|discriminate RN].
             replace (4 <=? wc) with true in RN by (symmetry; apply N.leb_le; lia).
             assert (PE3 : peek_at words Little (io + 3) = Some e) by (unfold peek_at; rewrite NE; reflexivity).
             rewrite PE3 in RN. injection RN as RN.
             assert (RST : rest = [w; e] /\ exists a, i_words i = [fw; a; w; e]).
             { split.
               - rewrite AW2, CO in AW. cbn [flat_map] in AW. rewrite !REN in AW. cbn [plain_op int_op o_type is_id_type] in AW.
                 rewrite (OW1 (int_op 2) 2%nat w eq_refl eq_refl ltac:(lia) PW), (OW1 (plain_op 3 T_FPENCODING) 3%nat e eq_refl eq_refl ltac:(lia) PE3) in AW.
                 destruct (operand_words i (plain_op 1 T_RESULT_ID)) as [|a [|b l']] eqn:OR;
                   [| |exfalso; apply (f_equal (@length N)) in OR; unfold operand_words in OR; rewrite firstn_length in OR; cbn [plain_op o_num_words length] in OR; lia].
                 + exfalso. apply (f_equal (@length N)) in AW. rewrite <- AW2, LEN in AW. cbn in AW. lia.
                 + cbn in AW. injection AW as _ ->. reflexivity.
               - unfold peek_at in PW. destruct (nth_error words (io + 2)) as [w'|] eqn:NW; [|discriminate PW]. cbn in PW. injection PW as ->.
                 assert (exists a, nth_error words (io + 1) = Some a) as [a NA].
                 { destruct (nth_error words (io + 1)) eqn:X; [eauto|]. apply nth_error_None in X. lia. }
                 exists a. rewrite IW, W4. rewrite (nth_skipn_cons _ _ _ FW).
                 replace (S io) with (io + 1)%nat by lia. rewrite (nth_skipn_cons _ _ _ NA).
                 replace (S (io + 1)) with (io + 2)%nat by lia. rewrite (nth_skipn_cons _ _ _ NW).
                 replace (S (io + 2)) with (io + 3)%nat by lia. rewrite (nth_skipn_cons _ _ _ NE). reflexivity. }
             destruct RST as (RST & a & IWS). rewrite RST.
             destruct (g_operand g T_FPENCODING e) as [lt|] eqn:GF; [|destruct (tk_enc _ _ K _ _ GE) as [_ X]; congruence].
             assert (VW : valid_width_for_encoding (g_fp_encoding g e) w = true).
             { pose proof (fun k => PE EF _ _ _ _ k IWS) as H. clear - H. unfold valid_width_for_encoding.
               destruct (g_fp_encoding g e) as [|q]; [reflexivity|].
               do 11 (try destruct q as [q|q|]); cbn in H |- *; try reflexivity; rewrite (H _ eq_refl); reflexivity. }
             rewrite VW. eexists. split; [reflexivity|]. split; [reflexivity|]. exact (FIN2 _ (eq_sym RN)).
        * injection RN as RN. eexists. split; [reflexivity|]. split; [reflexivity|]. exact (FIN2 _ (eq_sym RN)).
    - assert (st2 = st1) by (unfold record_number_type in RN; rewrite GT in RN; congruence). subst st2. clear RN.
      destruct (t_has_type t op) eqn:HT.
      + assert (T0 : nth_error (lead t op) 0 = Some T_TYPE_ID /\ nth_error (lead t op) 1 = Some T_RESULT_ID).
        { pose proof (tk_type_result _ _ K _ HT) as HB. rewrite (tk_type _ _ K) in HT. rewrite (tk_result _ _ K) in HB.
          clear - HT HB. apply existsb_exists in HT. destruct HT as (a & IN & E). apply otype_eqb_eq in E. subst a.
          destruct (lead_type_result t op IN HB) as [X Y]. split; assumption. }
        destruct T0 as [T0 T1].
        destruct (LTY T0 (type_passed t op ts _ _ PI2 OPT T0)) as (TNZ & DT & RTY & N1).
        destruct (HR 1%nat T1) as (DR & NZ & NTH & UND & DEF).
        set (res := c_result c1) in *.
        assert (XV : x_values x2 (r res) = None) by (rewrite LVALS; apply MVN; assumption).
        pose proof (result_passed t op ts _ _ 1 PI2 OPT T1) as PP. rewrite OFFW in PP.
        destruct (a_words ai2) as [|a0 [|a1 [|a2 rest]]] eqn:AWE; cbn [length] in LEN; try lia.
        cbn in N1, NTH. subst a1 a2. unfold record_type_id_for_value. rewrite AWE, XV.
        eexists. split; [reflexivity|]. split; [reflexivity|].
        constructor; cbn [x_types x_values x_imports].
        * intros id Did. rewrite LTYPES, LINFO. apply MT. exact Did.
        * intros id Did. rewrite DEF, LVALS. destruct (N.eq_dec id res) as [->|NI']; [rewrite upd_same; discriminate|].
          rewrite !upd_other; [apply MVN; exact Did| |exact NI']. intros H. apply NI'. apply RINJ; assumption.
        * intros id ty Did. rewrite DEF, LVALS. destruct (N.eq_dec id res) as [->|NI'].
          { rewrite !upd_same. intros H _ _. injection H as <-. auto. }
          rewrite !upd_other; [apply MV; exact Did| |exact NI']. intros H. apply NI'. apply RINJ; assumption.
        * exact IMPS.
        * intros id [H|H]; [|apply IMPD; exact H]. rewrite DEF. destruct (N.eq_dec id res) as [->|NI']; [rewrite upd_same; discriminate|].
          rewrite upd_other by exact NI'. apply MD. left. rewrite <- LINFO. exact H.
      + eexists. split; [reflexivity|]. split; [reflexivity|].
        assert (T0 : nth_error (lead t op) 0 <> Some T_TYPE_ID).
        { intros E. rewrite (tk_type _ _ K) in HT. assert (X : existsb (otype_eqb T_TYPE_ID) (lead t op) = true).
          { apply existsb_exists. exists T_TYPE_ID. split; [eapply nth_error_In; exact E|reflexivity]. } congruence. }
        pose proof (LTY0 T0) as TZ.
        assert (ID : forall id, id_to_type_id st1 id = id_to_type_id st id \/
          (id_to_type_id st1 id = Some 0 /\ id_to_type_id st id = None)).
        { intros id. destruct HRB as [(_ & _ & j & E)|(_ & _ & NO)].
          - destruct (HR j E) as (_ & _ & _ & UND & ->). destruct (N.eq_dec id (c_result c1)) as [->|NI'].
            + right. rewrite upd_same, TZ. auto.
            + left. apply upd_other. exact NI'.
          - left. rewrite (LUNRES (fun j E => False_ind _ (NO j E))). reflexivity. }
        constructor.
        * intros id Did. rewrite LTYPES, LINFO. apply MT. exact Did.
        * intros id Did H. rewrite LVALS. apply MVN; [exact Did|]. destruct (ID id) as [E|[E _]]; congruence.
        * intros id ty Did H N1 N2. rewrite LVALS. apply MV; try assumption. destruct (ID id) as [E|[E _]]; congruence.
        * exact IMPS.
        * intros id [H|H]; [|apply IMPD; exact H]. destruct (ID id) as [E|[E _]]; [|congruence].
          rewrite E. apply MD. left. rewrite <- LINFO. exact H. }
  destruct FIN as (x3 & FIN & X3 & M3).
  exists x3. eexists. split; [|split; [|split; [exact X3|exact M3]]].
  - unfold encode_opcode. rewrite IT.
    assert (PK : rd_peek T (((if t_has_result t op then [rid; [61]] else []) ++ name :: toks_of g t nm i (c_ops c1)) ++ more) =
      Some (if t_has_result t op then c_percent else 79)).
    { unfold rid. destruct (t_has_result t op); reflexivity. }
    rewrite PK. assert (NB : ((if t_has_result t op then c_percent else 79) =? c_bang) = false) by (destruct (t_has_result t op); reflexivity).
    rewrite NB.
    assert (RO : read_opcode T (((if t_has_result t op then [rid; [61]] else []) ++ name :: toks_of g t nm i (c_ops c1)) ++ more) =
      AOk (rid, name, toks_of g t nm i (c_ops c1) ++ more)).
    { unfold rid. destruct (t_has_result t op).
      - unfold read_opcode. cbn [app rd_advance rd_op rd_word token_reader].
        assert (X : starts_with_op (c_percent :: nm (c_result c1)) = false) by (cbn; destruct (nm (c_result c1)) as [|? [|? ?]]; reflexivity).
        rewrite X. change (c_percent =? c_percent) with true. cbn [negb]. change (name_eqb [61] [61]) with true. cbn [negb].
        rewrite OT1. reflexivity.
      - unfold read_opcode. cbn [app rd_advance rd_op rd_word token_reader]. rewrite OT1. reflexivity. }
    rewrite RO. cbv zeta. rewrite OT3. change (skipn 2 name) with (t_op_name t op). rewrite PF.
    assert (NR : match rid with [] => true | _ => false end = negb (t_has_result t op)) by (unfold rid; destruct (t_has_result t op); reflexivity).
    rewrite NR, GO. destruct (t_has_result t op) eqn:HB; cbn [negb andb]; fold ai0; cbn [ca c_exp] in AL; rewrite AL, FIN; reflexivity.
  - reflexivity.
Qed.
End Inst.
