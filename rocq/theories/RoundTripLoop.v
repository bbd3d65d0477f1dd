(** Round trip of the operands of one instruction: the assembler's loop over the words of the
    text follows the parser's loop over the words of the module. *)
From Verif Require Import Base Words WordsProofs Operand OperandProofs BinaryParse ParseSpec BinaryParseProofs.
From Verif Require Import TextLex TextSpec TextProofs ParseNumber NumberSpec NumberProofs NamedIds NamedIdsProofs.
From Verif Require Import Assembler Disassembler RoundTripSpec TokenReader RoundTripOperand RoundTripPattern RoundTripToken RoundTripStep.
Local Open Scope N_scope.
Set Default Proof Using "Type".
Notation T := token_reader.

Section Trace.
Variable g : grammar.
Variable words : list N.
Variable io : nat.
Variable op wc : N.
Variable st1 : pstate.
Variable c1 : cur.

(** The run of the parser's loop *)
Inductive ptrace : pstate -> cur -> Prop :=
| pt_done : (io + N.to_nat wc <= word_index st1)%nat -> ptrace st1 c1
| pt_step st c ty p word st' c' o nw :
    (word_index st < io + N.to_nat wc)%nat -> take_first_matchable (c_exp c) = Some (ty, p) ->
    nth_error words (word_index st) = Some word ->
    pcase g words io op ty word (N.of_nat (word_index st - io)) st (with_exp c p) st' c' o ->
    o_num_words o = N.of_nat nw -> word_index st' = word_index st ->
    ptrace (bump st' nw) (with_op c' o) -> ptrace st c.

Lemma loop_ptrace : wc < 2 ^ 16 -> forall w z st c, (io < word_index st)%nat ->
  operand_loop g false words Little io op wc w z st c = LDone st1 c1 -> ptrace st c.
Proof.
  intros WC. induction w as [w IHw] using (well_founded_induction lt_wf).
  induction z as [z IHz] using (well_founded_induction lt_wf).
  intros st c LP H. rewrite operand_loop_eq in H.
  destruct (Nat.ltb_spec (word_index st) (io + N.to_nat wc)) as [Hlt|Hge].
  2:{ injection H as E1 E2. rewrite E1 in Hge. rewrite E1, E2. now apply pt_done. }
  assert (H' : match take_first_matchable (c_exp c) with
          | None => LStuck
          | Some (ty, p) =>
              match parse_operand g false words Little io op ty st (with_exp c p) with
              | Stuck => LStuck
              | Err e r => LErr e r st (with_exp c p)
              | Ok (st', c') =>
                  if (word_index st' =? word_index st)%nat then
                    match z with
                    | O => LStuck
                    | S z' => operand_loop g false words Little io op wc w z' st' c'
                    end
                  else
                    match w with
                    | O => LStuck
                    | S w' => operand_loop g false words Little io op wc w' (List.length (c_exp c')) st' c'
                    end
              end
          end = LDone st1 c1) by (destruct (c_exp c); [discriminate H|exact H]).
  clear H. destruct (take_first_matchable (c_exp c)) as [[ty p]|] eqn:TF; [|discriminate H'].
  destruct (parse_operand g false words Little io op ty st (with_exp c p)) as [[st' c']|e r0|] eqn:PO; try discriminate H'.
  unfold parse_operand in PO. destruct (_ <=? _)%nat; [discriminate PO|].
  destruct (peek_at words Little (word_index st)) as [word|] eqn:PK; [|discriminate PO].
  destruct (parse_operand_switch g false words Little io op ty word st (with_exp c p)) as [[[sta ca] o]|e r0|] eqn:SW; try discriminate PO.
  apply pcase_intro in SW. cbv zeta in PO. destruct (_ <? _)%nat; [discriminate PO|].
  assert (OFF : N.of_nat (word_index st - io) mod 2 ^ 16 = N.of_nat (word_index st - io)).
  { apply N.mod_small. change (2 ^ 16) with 65536 in *. lia. }
  rewrite OFF in SW.
  assert (WI : word_index sta = word_index st) by (clear - SW; destruct SW; reflexivity).
  assert (E : st' = bump sta (N.to_nat (o_num_words o)) /\ c' = with_op ca o).
  { cbn in PO. injection PO as <- <-. split; reflexivity. }
  destruct E as [-> ->].
  assert (NE : nth_error words (word_index st) = Some word).
  { unfold peek_at in PK. destruct (nth_error words (word_index st)) as [w0|]; [|discriminate PK]. cbn in PK. congruence. }
  eapply pt_step; [exact Hlt|exact TF|exact NE|exact SW|symmetry; apply N2Nat.id|exact WI|].
  destruct (Nat.eqb _ _).
  - destruct z as [|z']; [discriminate H'|]. apply (IHz z' ltac:(lia)); [|exact H']. cbn [bump word_index]. lia.
  - destruct w as [|w']; [discriminate H'|]. eapply (IHw w' ltac:(lia)); [|exact H']. cbn [bump word_index]. lia.
Qed.

Lemma ptrace_mono st c : ptrace st c -> (word_index st <= word_index st1)%nat.
Proof. induction 1 as [|st c ty p word st' c' o nw LT TF NE PC NW WI TR IH]; [lia|]. cbn [bump word_index] in IH. lia. Qed.
Lemma ptrace_ops st c : ptrace st c -> exists rest, c_ops c1 = c_ops c ++ rest.
Proof.
  induction 1 as [|st c ty p word st' c' o nw LT TF NE PC NW WI TR [rest IH]]; [exists []; symmetry; apply app_nil_r|].
  cbn [with_op c_ops] in IH.
  assert (CO : c_ops c' = c_ops c) by (clear - PC; destruct PC; reflexivity).
  rewrite IH, CO, <- app_assoc. eauto.
Qed.
Lemma ptrace_ext st c : ptrace st c -> (4 <= word_index st - io)%nat -> c_ext c1 = c_ext c.
Proof.
  induction 1 as [|st c ty p word st' c' o nw LT TF NE PC NW WI TR IH]; intros O4; [reflexivity|].
  cbn [with_op c_ext bump word_index] in IH. rewrite IH by lia. clear - PC O4.
  destruct PC; try reflexivity. lia.
Qed.
End Trace.

(** *** Lexical facts *)
Lemma start_false w l : operand_token w -> hd [] l <> [61] -> start_of_new_inst T (w :: l) = Some false.
Proof.
  intros ((WB & NE) & NO & N61 & _) H. unfold start_of_new_inst. cbn [rd_advance rd_op rd_word token_reader]. rewrite NO.
  destruct w as [|c w]; [congruence|]. destruct (c =? c_percent); [|reflexivity]. cbn [negb].
  destruct l as [|v l]; [reflexivity|]. destruct (name_eqb v [61]) eqn:E; [|reflexivity].
  apply name_eqb_eq in E. cbn in H. congruence.
Qed.
(** What may follow an instruction *)
Definition fresh_start (more : list (list N)) : Prop := more = [] \/ start_of_new_inst T more = Some true.
Lemma fresh_hd more : fresh_start more -> hd [] more <> [61].
Proof.
  intros [->|H]; [discriminate|]. destruct more as [|w l]; [discriminate|]. cbn. intros ->. discriminate H.
Qed.

Lemma asm_expand g t rid w z x i ty p l : take_first_matchable l = Some (ty, p) -> (2 + length l <= z)%nat ->
  forall pos, exists z', (ty = T_RESULT_ID -> (2 + length p <= z')%nat) /\
  asm_loop g t T rid w z x i l pos = asm_loop g t T rid w (S z') x i (ty :: p) pos.
Proof.
  intros TF LZ pos. destruct (take_first_case _ _ _ TF) as [(a & r & -> & [(E & -> & ->)|E]) NX].
  - cbn [length] in LZ. destruct z as [|z']; [lia|]. exists z'. split; [lia|reflexivity].
  - destruct z as [|z]; [lia|]. rewrite (asm_loop_eq _ _ _ _ _ (S z)). rewrite E.
    destruct z as [|z']; [cbn in LZ; lia|]. exists z'. split; [|reflexivity].
    intros ->. destruct a; discriminate E.
Qed.

(** The end of an instruction *)
Lemma asm_end g t rid w z x i l more : fresh_start more -> (2 + length l <= z)%nat ->
  match l with [] => false | ty :: _ => negb (is_optional ty) end = false ->
  asm_loop g t T rid w z x i l more = AOk (x, i, more, true).
Proof.
  intros FS LZ OPT. destruct l as [|a r].
  { destruct z; [cbn in LZ; lia|]. rewrite asm_loop_eq. reflexivity. }
  apply negb_false_iff in OPT.
  assert (TF : exists ty p, take_first_matchable (a :: r) = Some (ty, p) /\ is_optional ty = true /\ ty <> T_RESULT_ID).
  { destruct a; try discriminate OPT; cbv [take_first_matchable take_first_loop expand_once]; do 2 eexists; (split; [reflexivity|]);
      (split; [reflexivity|discriminate]). }
  destruct TF as (ty & p & TF & OP & NR). destruct (asm_expand g t rid w z x i ty p _ TF LZ more) as (z' & _ & ->).
  rewrite asm_loop_eq. destruct (take_first_case _ _ _ TF) as [_ NX]. rewrite NX.
  assert (NB : otype_eqb ty T_RESULT_ID = false) by (destruct (otype_eqb ty T_RESULT_ID) eqn:E; [apply otype_eqb_eq in E; congruence|reflexivity]).
  rewrite NB. cbn [andb rd_advance token_reader]. destruct FS as [->|FS]; [rewrite OP; reflexivity|].
  destruct more as [|m l]; [rewrite OP; reflexivity|]. rewrite FS, OP. reflexivity.
Qed.

Section Loop.
Variable g : grammar.
Variable t : tables.
Hypothesis K : tables_ok g t.
Variable nm : N -> list N.
Variable words : list N.
Hypothesis WOK : Forall word_ok words.
Variable D : N -> Prop.
Variable r : N -> N.
Hypothesis NV : forall id, D id -> is_valid_id (nm id) = true.
Variable io : nat.
Variable wc op : N.
Variable ts : list otype.
Variable i : pinst.
Variable st0 : pstate.
Variable x0 : actx.
Hypothesis G : g_opcode g op = Some ts.
Hypothesis WC : wc < 2 ^ 16.
Hypothesis FIT : (io + N.to_nat wc <= length words)%nat.
Hypothesis IW : i_words i = firstn (N.to_nat wc) (skipn io words).
Hypothesis IOP : i_opcode i = op.
Hypothesis M0 : mrel D r st0 x0.
Variable st1 : pstate.
Variable c1 : cur.
Hypothesis END : (io + N.to_nat wc = word_index st1)%nat.
Hypothesis IEXT : i_ext_type i = c_ext c1.
Hypothesis PRN : Forall (printable_operand g t i) (c_ops c1).
Hypothesis OPT : match c_exp c1 with [] => false | ty :: _ => negb (is_optional ty) end = false.
Set Default Proof Using "All".

Notation pt := (ptrace g words io op wc st1 c1).
Notation off st := (word_index st - io)%nat.
Notation lrel := (lrel g t words D r io op i st0 x0).
Definition toks_of (ops : list poperand) : list (list N) :=
  flat_map (fun o => if otype_eqb (o_type o) T_RESULT_ID then [] else [emit_operand g t nm i o]) ops.
Definition ids_of (ops : list poperand) : list N :=
  map (operand_word i) (filter (fun o => is_id_type (o_type o)) ops).

Lemma operand_has_words ty word o st c st' c' nw : pcase g words io op ty word (N.of_nat (off st)) st c st' c' o ->
  printable_operand g t i o -> o_num_words o = N.of_nat nw -> (1 <= nw)%nat.
Proof.
  intros PC PR NW. destruct (Nat.eq_dec nw 0) as [Z|]; [|lia]. exfalso. rewrite Z in NW.
  assert (X : o_type o = T_TYPED_LITERAL_NUMBER).
  { destruct PC; cbn in NW; try discriminate NW; try reflexivity; exfalso; lia. }
  unfold printable_operand in PR. rewrite X in PR.
  assert (E : operand_words i o = []) by (unfold operand_words; rewrite NW; reflexivity).
  rewrite E in PR. destruct (number_read t o [] 0%Z {| a_opcode := 0; a_ext := 0; a_rtype := 0; a_words := [] |} PR NW) as (_ & _ & L).
  cbn in L. lia.
Qed.

(** Once the result has been read it stays *)
Lemma ptrace_result st c : pt st c -> (io < word_index st)%nat -> pinv t op ts (off st) (c_exp c) ->
  (forall j, nth_error (lead t op) j = Some T_RESULT_ID -> (j + 2 <= off st)%nat) -> c_result c1 = c_result c.
Proof.
  intros TR. pose proof PRN as PRN'. revert TR.
  induction 1 as [|st c ty p word st' c' o nw LT TF NE PC NW WI TR IH]; intros LP PI RES; [reflexivity|].
  assert (PR : printable_operand g t i o).
  { destruct (ptrace_ops _ _ _ _ _ _ _ _ _ TR) as [rest E]. rewrite Forall_forall in PRN'. apply PRN'. rewrite E.
    apply in_or_app. left. apply in_or_app. right. left. reflexivity. }
  pose proof (operand_has_words _ _ _ _ _ _ _ _ PC PR NW) as G1.
  destruct (pstep g t K words op ts io _ _ _ _ _ _ _ _ _ _ _ PI TF PC NW G1) as [PI' LC].
  cbn [with_op c_exp c_result bump word_index] in IH. rewrite WI in IH.
  replace (word_index st + nw - io)%nat with (off st + nw)%nat in IH by lia.
  rewrite IH; [|lia|exact PI'|intros j E; specialize (RES j E); lia].
  clear - PC RES LC. destruct PC; try reflexivity. subst ty. pose proof (loc_result _ _ _ _ LC) as LR. specialize (RES _ LR).
  pose proof (loc_pos _ _ _ _ _ LC). lia.
Qed.

Variable rid : list N.
Hypothesis RID : rid = (if t_has_result t op then c_percent :: nm (c_result c1) else []).
Variable more : list (list N).
Hypothesis MORE : fresh_start more.

Lemma toks_hd ops : Forall (fun o => otype_eqb (o_type o) T_RESULT_ID = false -> operand_token (emit_operand g t nm i o)) ops ->
  hd [] (toks_of ops ++ more) <> [61].
Proof.
  induction 1 as [|o ops H F IH]; cbn [toks_of flat_map app]; [apply fresh_hd; exact MORE|].
  destruct (otype_eqb (o_type o) T_RESULT_ID); [exact IH|]. cbn. destruct (H eq_refl) as (_ & _ & N & _). exact N.
Qed.

Lemma loop_main st c : pt st c -> forall x ai rest ids2 wf zf,
  lrel st c x ai -> pinv t op ts (off st) (c_exp c) -> c_ops c1 = c_ops c ++ rest ->
  Forall D (ids_of rest) -> name_ids (x_ids x) (map nm (ids_of rest)) = Some (map r (ids_of rest), ids2) ->
  (length (toks_of rest) <= wf)%nat -> (2 + length (c_exp c) <= zf)%nat ->
  Forall (fun o => otype_eqb (o_type o) T_RESULT_ID = false -> operand_token (emit_operand g t nm i o)) rest /\
  exists x2 ai2, asm_loop g t T rid wf zf x ai (c_exp c) (toks_of rest ++ more) = AOk (x2, ai2, more, true) /\
    x_ids x2 = ids2 /\ lrel st1 c1 x2 ai2 /\ pinv t op ts (off st1) (c_exp c1).
Proof.
  induction 1 as [GE|st c ty p word st' c' o nw LT TF NE PC NW WI TR IH];
    intros x ai rest ids2 wf zf L PI OPS DI NI LW LZ.
  - assert (rest = []) by (rewrite <- (app_nil_r (c_ops c1)) in OPS at 1; apply app_inv_head in OPS; congruence). subst rest.
    cbn in NI. injection NI as <-. cbn [toks_of flat_map app]. split; [constructor|].
    exists x, ai. split; [apply asm_end; auto|]. split; [reflexivity|]. split; [exact L|exact PI].
  - destruct (ptrace_ops _ _ _ _ _ _ _ _ _ TR) as [rest' OPS']. cbn [with_op c_ops] in OPS'.
    assert (CO : c_ops c' = c_ops c) by (clear - PC; destruct PC; reflexivity).
    assert (RS : rest = o :: rest').
    { rewrite OPS', CO, <- app_assoc in OPS. apply app_inv_head in OPS. symmetry. exact OPS. }
    subst rest. clear OPS.
    assert (PR : printable_operand g t i o).
    { rewrite Forall_forall in PRN. apply PRN. rewrite OPS'. apply in_or_app. left. apply in_or_app. right. left. reflexivity. }
    pose proof (operand_has_words _ _ _ _ _ _ _ _ PC PR NW) as G1.
    destruct (pstep g t K words op ts io _ _ _ _ _ _ _ _ _ _ _ PI TF PC NW G1) as [PI' LC].
    pose proof (ptrace_mono _ _ _ _ _ _ _ _ _ TR) as MO. cbn [bump word_index] in MO. rewrite WI, <- END in MO.
    pose proof (l_pos _ _ _ _ _ _ _ _ _ _ _ _ _ _ L) as LP.
    assert (OFF : o_offset o = N.of_nat (off st)) by (clear - PC; destruct PC; reflexivity).
    assert (OW : operand_word i o = word).
    { unfold operand_word. rewrite IW, OFF, Nat2N.id. apply nth_error_nth. rewrite nth_error_firstn' by lia.
      rewrite nth_error_skipn'. replace (io + off st)%nat with (word_index st) by lia. exact NE. }
    assert (IDS : exists ids', (if is_id_type (o_type o) then D word /\ assign_or_get (x_ids x) (nm word) = Some (ids', r word)
                          else ids' = x_ids x) /\ Forall D (ids_of rest') /\
                     name_ids ids' (map nm (ids_of rest')) = Some (map r (ids_of rest'), ids2)).
    { revert DI NI. unfold ids_of. cbn [filter]. destruct (is_id_type (o_type o)).
      - cbn [map]. rewrite OW. intros DI NI. inversion DI as [|? ? D1 D2]; subst. cbn [name_ids] in NI.
        destruct (assign_or_get (x_ids x) (nm (operand_word i o))) as [[ids' id]|] eqn:AG; [|discriminate NI].
        destruct (name_ids ids' _) as [[l c2]|] eqn:NN; [|discriminate NI]. injection NI as E1 E2 <-. subst id l.
        exists ids'. auto.
      - intros DI NI. exists (x_ids x). auto. }
    destruct IDS as (ids' & ID & DI' & NI').
    assert (EXT : ty = T_EXTENSION_INSTRUCTION_NUMBER -> i_ext_type i = c_ext c).
    { intros ->. destruct (loc_number _ _ _ _ LC) as [_ O4]. rewrite IEXT.
      rewrite (ptrace_ext _ _ _ _ _ _ _ _ _ TR) by (cbn [bump word_index]; lia). cbn [with_op c_ext].
      clear - PC. inversion PC; try reflexivity; try discriminate; destruct H; discriminate. }
    destruct (encode_step g t K nm words WOK D r NV io wc op ts i st0 x0 G WC FIT IW IOP M0 ty p word st c x ai st' c' o nw ids'
                L LC PC NE NW LT ltac:(lia) PR EXT ID) as (x' & ai' & EO & XI & TK & _ & L' & _ & RES & _).
    destruct (asm_expand g t rid wf zf x ai ty p _ TF LZ (toks_of (o :: rest') ++ more)) as (z' & LZ' & ->).
    destruct (take_first_case _ _ _ TF) as [_ NX].
    assert (PI2 : pinv t op ts (word_index (bump st' nw) - io) (c_exp (with_op c' o))).
    { cbn [bump word_index with_op c_exp]. rewrite WI. replace (word_index st + nw - io)%nat with (off st + nw)%nat by lia. exact PI'. }
    specialize (IH x' ai' rest' ids2).
    rewrite asm_loop_eq, NX. cbn [toks_of flat_map] in LW |- *. fold (toks_of rest') in LW |- *.
    assert (TY : otype_eqb (o_type o) T_RESULT_ID = otype_eqb ty T_RESULT_ID).
    { clear - PC. destruct PC; subst; try reflexivity; try (destruct H as [-> | ->]; reflexivity).
      - destruct H as [H| ->]; [destruct ty; try discriminate H; reflexivity|reflexivity].
      - destruct ty; try discriminate H; reflexivity. }
    rewrite TY in LW |- *. destruct (otype_eqb ty T_RESULT_ID) eqn:TR'.
    + apply otype_eqb_eq in TR'. subst ty. pose proof (loc_result _ _ _ _ LC) as LR.
      assert (HR : t_has_result t op = true).
      { rewrite (tk_result _ _ K). apply existsb_exists. exists T_RESULT_ID. split; [eapply nth_error_In; exact LR|reflexivity]. }
      assert (CR : c_result c1 = word).
      { rewrite (ptrace_result _ _ TR); [apply RES; reflexivity|cbn [bump word_index]; lia|exact PI2|].
        intros j E. rewrite (lead_result_unique t op j (off st - 1) E LR). cbn [bump word_index]. pose proof (loc_pos _ _ _ _ _ LC). lia. }
      assert (EM : emit_operand g t nm i o = c_percent :: nm word).
      { assert (OT : o_type o = T_RESULT_ID) by (apply otype_eqb_eq; exact TY).
        unfold emit_operand. fold (operand_word i o). rewrite OW, OT. reflexivity. }
      rewrite RID, HR, CR. cbn [negb andb app length] in LW |- *. rewrite <- EM, EO.
      rewrite RID, HR, CR, <- EM in IH.
      assert (PE : c_exp c' = p) by (inversion PC; try reflexivity; try discriminate; destruct H; discriminate).
      destruct (IH wf z' ltac:(rewrite XI in *; exact L')) as (F & x2 & ai2 & AL & X2 & L2); auto.
      * rewrite XI. exact NI'.
      * cbn [with_op c_exp]. rewrite PE. apply LZ'. reflexivity.
      * split; [constructor; [congruence|exact F]|]. exists x2, ai2. cbn [with_op c_exp] in AL. rewrite PE in AL. auto.
    + cbn [andb app length] in LW |- *. destruct wf as [|wf]; [lia|].
      assert (FR : forall zf, (2 + length (c_exp c') <= zf)%nat -> _) by
        (intros zf0 LZ0; exact (IH wf zf0 L' PI2 OPS' DI' ltac:(rewrite XI; exact NI') ltac:(lia) LZ0)).
      destruct (FR (2 + length (c_exp c'))%nat (le_n _)) as (F & x2 & ai2 & AL & X2 & L2).
      split; [constructor; [intros _; exact TK|exact F]|]. exists x2, ai2. split; [|auto].
      cbn [rd_advance token_reader]. rewrite (start_false _ _ TK (toks_hd _ F)). cbn [rd_word token_reader].
      rewrite EO. exact AL.
Qed.
End Loop.
