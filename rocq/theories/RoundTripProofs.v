(** Round trip of a module: the parser's run, the assembler's run over the words of the text,
    and the text itself. *)
From Coq Require Import String.
From Verif Require Import Base Words WordsProofs Operand OperandProofs BinaryParse ParseSpec BinaryParseProofs.
From Verif Require Import TextLex TextSpec TextProofs ParseNumber NumberSpec NumberProofs NamedIds IdSpec NamedIdsProofs P_NameMapper.
From Verif Require Import Assembler Disassembler RoundTripSpec TokenReader RoundTripOperand RoundTripPattern RoundTripToken RoundTripStep RoundTripLoop RoundTripInst.
Local Open Scope N_scope.
Local Open Scope list_scope.
Set Default Proof Using "Type".

(** *** The words of the operands of an instruction tile it *)
Lemma ptrace_tile g t words io op wc i st1 c1 :
  i_words i = firstn (N.to_nat wc) (skipn io words) -> (io + N.to_nat wc = word_index st1)%nat ->
  forall st c, ptrace g words io op wc st1 c1 st c -> (io < word_index st)%nat ->
  exists rest, c_ops c1 = c_ops c ++ rest /\
    flat_map (operand_words i) rest = firstn (word_index st1 - word_index st) (skipn (word_index st) words) /\
    Forall (fun o => is_id_type (o_type o) = true -> operand_words i o = [operand_word i o]) rest /\
    (Forall (printable_operand g t i) rest -> (length rest <= word_index st1 - word_index st)%nat).
Proof.
  intros IW END. induction 1 as [GE|st c ty p word st' c' o nw LT TF NE PC NW WI TR IH]; intros LP.
  { exists []. rewrite app_nil_r, Nat.sub_diag. repeat split; auto. }
  cbn [bump word_index with_op c_ops] in IH. specialize (IH ltac:(lia)). destruct IH as (rest & CO & FM & FI & CT).
  pose proof (ptrace_mono _ _ _ _ _ _ _ _ _ TR) as MO. cbn [bump word_index] in MO.
  assert (CO' : c_ops c' = c_ops c) by (clear - PC; destruct PC; reflexivity).
  assert (OO : o_offset o = N.of_nat (word_index st - io)) by (clear - PC; destruct PC; reflexivity).
  assert (OW : operand_words i o = firstn nw (skipn (word_index st) words)).
  { unfold operand_words. rewrite IW, OO, NW, !Nat2N.id.
    rewrite skipn_firstn_comm, firstn_firstn, skipn_skipn_add. f_equal; [lia|f_equal; lia]. }
  assert (OW1 : operand_word i o = word).
  { unfold operand_word. rewrite IW, OO, Nat2N.id.
    apply nth_error_nth. rewrite nth_error_firstn' by lia. rewrite nth_error_skipn'.
    replace (io + (word_index st - io))%nat with (word_index st) by lia. exact NE. }
  exists (o :: rest). split; [|split; [|split]].
  - rewrite CO, CO', <- app_assoc. reflexivity.
  - cbn [flat_map]. rewrite FM, OW, WI.
    replace (word_index st1 - word_index st)%nat with (nw + (word_index st1 - (word_index st + nw)))%nat by lia.
    rewrite <- (firstn_skipn nw (skipn (word_index st) words)) at 2. rewrite skipn_skipn_add.
    rewrite firstn_app. f_equal.
    + rewrite firstn_firstn. f_equal. lia.
    + assert (L : length (firstn nw (skipn (word_index st) words)) = nw \/ (length words < word_index st + nw)%nat)
        by (rewrite firstn_length, skipn_length; lia).
      destruct L as [L|L].
      * rewrite L. f_equal. lia.
      * rewrite !skipn_all2 by lia. rewrite !firstn_nil. reflexivity.
  - constructor; [|exact FI]. intros ID. assert (N1 : nw = 1%nat).
    { assert (o_num_words o = 1); [|lia]. clear - PC ID. destruct PC; try reflexivity; discriminate ID. }
    rewrite OW, OW1, N1. rewrite (nth_skipn_cons _ _ _ NE). reflexivity.
  - intros F. inversion F as [|? ? P1 P2]; subst. specialize (CT P2). cbn [length].
    assert (1 <= nw)%nat; [|lia]. clear - PC P1 NW.
    destruct (Nat.eq_dec nw 0) as [Z|]; [|lia]. exfalso. rewrite Z in NW.
    assert (X : o_type o = T_TYPED_LITERAL_NUMBER).
    { clear - PC NW. assert (Y : o_type o = T_TYPED_LITERAL_NUMBER \/ exists n, o_num_words o = N.of_nat (S n)).
      { destruct PC; try (right; exists 0%nat; reflexivity); try (left; reflexivity); right; exists (length s / 4)%nat; cbn [o_num_words]; rewrite Nat.add_1_r; reflexivity. }
      destruct Y as [Y|[n Y]]; [exact Y|]. rewrite NW in Y. apply Nat2N.inj in Y. discriminate Y. }
    unfold printable_operand in P1. rewrite X in P1.
    assert (E : operand_words i o = []) by (unfold operand_words; rewrite NW; reflexivity).
    rewrite E in P1. destruct (number_read t o [] 0%Z {| a_opcode := 0; a_ext := 0; a_rtype := 0; a_words := [] |} P1 NW) as (_ & _ & L).
    cbn in L. lia.
Qed.

Lemma parsed_tile g t words st st2 i fw wc op ts st1 c1 : parsed g words st st2 i fw wc op ts st1 c1 ->
  i_words i = fw :: flat_map (operand_words i) (i_operands i) /\
  Forall (fun o => is_id_type (o_type o) = true -> operand_words i o = [operand_word i o]) (i_operands i) /\
  (printable_inst g t i -> reported_operands i = i_operands i) /\
  (length (inst_ids i) <= length (i_operands i))%nat /\ word_index st1 = word_index st2 /\
  (printable_inst g t i -> (length (i_operands i) < N.to_nat wc)%nat).
Proof.
  intros [FW SP W1 GO TR OPT EN RN II FIT].
  assert (IW : i_words i = firstn (N.to_nat wc) (skipn (word_index st) words)) by (rewrite II; reflexivity).
  destruct (ptrace_tile g t words _ op wc i st1 c1 IW EN _ _ TR) as (rest & CO & FM & FI & CT); [cbn; lia|].
  cbn [c_ops app word_index] in CO, FM, CT.
  assert (IO : i_operands i = rest) by (rewrite II; exact CO).
  split; [|split; [rewrite IO; exact FI|split; [|split; [|split]]]].
  - rewrite IO, FM, IW. rewrite (nth_skipn_cons _ _ _ FW).
    destruct (N.to_nat wc) as [|k] eqn:Z; [lia|]. cbn [firstn]. f_equal. f_equal. lia.
  - intros (_ & _ & PO). rewrite IO in PO. specialize (CT PO). unfold reported_operands. apply firstn_all2.
    rewrite II. cbn [i_num_operands i_operands]. rewrite CO. pose proof (split_wc _ _ _ SP) as WC.
    rewrite N.mod_small; [lia|]. change (2 ^ 16) with 65536 in *. lia.
  - unfold inst_ids. rewrite map_length. clear. induction (i_operands i) as [|o l IH]; [apply le_n|]. cbn. destruct (is_id_type _); cbn; lia.
  - unfold record_number_type in RN. cbv zeta in RN.
    repeat match type of RN with
    | (if ?b then _ else _) = _ => destruct b
    | match ?b with Some _ => _ | None => _ end = _ => destruct b
    | None = Some _ => discriminate RN
    | Some _ = Some _ => injection RN as <-
    end; reflexivity.
  - intros (_ & _ & PO). rewrite IO in PO. specialize (CT PO). rewrite IO. lia.
Qed.

(** Renaming by a function that fixes the ids of an instruction *)
Lemma renamed_fix g (t : tables) words st st2 i fw wc op ts st1 c1 r : parsed g words st st2 i fw wc op ts st1 c1 ->
  (forall id, In id (inst_ids i) -> r id = id) -> renamed r i = i_words i.
Proof.
  intros P F. destruct (parsed_tile g t _ _ _ _ _ _ _ _ _ _ P) as (W & FI & _).
  unfold renamed. rewrite W. cbn [firstn app]. f_equal.
  unfold inst_ids in F. revert F FI. generalize (i_operands i) as l. clear. induction l as [|o l IH]; intros F FI; [reflexivity|].
  inversion FI as [|? ? F1 F2]; subst. cbn [flat_map]. rewrite IH; [|intros id IN; apply F; cbn; destruct (is_id_type _); [right|]; exact IN|exact F2].
  f_equal. destruct (is_id_type (o_type o)) eqn:E; [|reflexivity]. rewrite (F1 eq_refl). cbn. rewrite F; [reflexivity|]. cbn. rewrite E. left. reflexivity.
Qed.

(** *** The run of the parser *)
Inductive insts (g : grammar) (words : list N) : pstate -> list pinst -> Prop :=
| is_end st : (length words <= word_index st)%nat -> insts g words st []
| is_step st st2 i fw wc op ts st1 c1 l : parsed g words st st2 i fw wc op ts st1 c1 -> insts g words st2 l ->
    insts g words st (i :: l).

Notation quiet := (fun (_ : list event) (_ : event) => SPV_SUCCESS).
Lemma module_insts g words : forall fuel st tr tr',
  module_loop g false quiet words Little fuel st tr = Some (SPV_SUCCESS, tr') ->
  exists l, tr' = tr ++ map EInst l /\ insts g words st l.
Proof.
  induction fuel as [|f IH]; intros st tr tr' H; cbn [module_loop] in H.
  all: destruct (Nat.ltb_spec (word_index st) (length words)) as [Lt|Ge];
    [|injection H as <-; exists []; rewrite app_nil_r; split; [reflexivity|apply is_end; exact Ge]].
  - discriminate.
  - pose proof (parse_instruction_ok g false quiet words Little st tr) as P. cbv zeta in P.
    destruct (parse_instruction g false quiet words Little st tr) as [st2 tr2|code tr2|] eqn:PI; [|exfalso|discriminate H].
    + destruct (parse_parsed _ _ _ _ _ _ PI) as (i & fw & wc & op & ts & st1 & c1 & PD & ->).
      destruct (IH _ _ _ H) as (l & -> & IN). exists (i :: l). rewrite <- app_assoc. split; [reflexivity|].
      eapply is_step; eassumption.
    + destruct P as [P|[(c & NC & P)|(i & st' & _ & _ & _ & P)]]; [discriminate P| |discriminate P].
      injection P as -> ->. injection H as E _. contradiction.
Qed.

(** *** The assembler's run over the words *)
Section Run.
Variable g : grammar.
Variable t : tables.
Hypothesis K : tables_ok g t.
Variable nm : N -> list N.
Variable words : list N.
Hypothesis WOK : Forall word_ok words.
Variable D : N -> Prop.
Variable r : N -> N.
Hypothesis NV : forall id, D id -> is_valid_id (nm id) = true.
Hypothesis RINJ : forall a b, D a -> D b -> r a = r b -> a = b.
Set Default Proof Using "All".

Definition all_toks (l : list pinst) : list (list N) := flat_map (inst_toks g t nm) l.

Lemma inst_fresh i ts more : g_opcode g (i_opcode i) = Some ts -> fresh_start (inst_toks g t nm i ++ more).
Proof.
  intros GO. destruct (op_token g t K _ _ GO) as (OT1 & _ & _). right. unfold inst_toks.
  destruct (i_result_id i =? 0).
  - unfold start_of_new_inst. cbn [app rd_advance rd_op rd_word token_reader]. rewrite OT1. reflexivity.
  - unfold start_of_new_inst. cbn [app rd_advance rd_op rd_word token_reader].
    assert (X : starts_with_op (c_percent :: nm (i_result_id i)) = false) by (cbn; destruct (nm (i_result_id i)) as [|? [|? ?]]; reflexivity).
    rewrite X. change (c_percent =? c_percent) with true. cbn [negb]. change (name_eqb [61] [61]) with true. cbn [negb]. rewrite OT1. reflexivity.
Qed.
Lemma insts_fresh st l : insts g words st l -> fresh_start (all_toks l).
Proof.
  intros [st0 _|st0 st2 i fw wc op ts st1 c1 l0 P _]; [left; reflexivity|].
  cbn [all_toks flat_map]. apply (inst_fresh i ts). destruct P as [_ _ _ GO _ _ _ _ -> _]. exact GO.
Qed.
Lemma inst_toks_nonempty i : (1 <= length (inst_toks g t nm i))%nat.
Proof using Type. unfold inst_toks. rewrite app_length. cbn [length]. lia. Qed.
Lemma toks_of_le i : (length (toks_of g t nm i (i_operands i)) <= length (inst_toks g t nm i))%nat.
Proof using Type. unfold inst_toks. rewrite app_length. cbn [length]. lia. Qed.

Lemma name_ids_app a : forall c b ids c', name_ids c (a ++ b) = Some (ids, c') ->
  exists ia ib cm, ids = ia ++ ib /\ length ia = length a /\ name_ids c a = Some (ia, cm) /\ name_ids cm b = Some (ib, c').
Proof.
  induction a as [|n a IH]; intros c b ids c' H.
  - exists [], ids, c. auto.
  - cbn [app name_ids] in H |- *. destruct (assign_or_get c n) as [[cn id]|]; [|discriminate H].
    destruct (name_ids cn (a ++ b)) as [[ids1 c2]|] eqn:E; [|discriminate H]. injection H as <- <-.
    destruct (IH _ _ _ _ E) as (ia & ib & cm & -> & L & E1 & E2). exists (id :: ia), ib, cm. rewrite E1. cbn. auto.
Qed.

Lemma run_insts iop opfuel : forall l st x fuel acc ids2, insts g words st l -> l <> [] -> mrel D r st x ->
  Forall (printable_inst g t) l -> Forall D (module_ids l) ->
  name_ids (x_ids x) (map nm (module_ids l)) = Some (map r (module_ids l), ids2) ->
  (length (all_toks l) <= fuel)%nat -> (length (all_toks l) <= opfuel)%nat ->
  Forall (fun i => Forall (fun o => otype_eqb (o_type o) T_RESULT_ID = false -> operand_token (emit_operand g t nm i o)) (i_operands i)
             /\ (i_result_id i <> 0 -> D (i_result_id i)) /\ exists ts, g_opcode g (i_opcode i) = Some ts) l /\
  exists x2, instructions_loop g t T fuel iop opfuel x (all_toks l) acc = AOk (x2, acc ++ map (renamed r) l) /\ x_ids x2 = ids2.
Proof.
  induction l as [|i l IH]; intros st x fuel acc ids2 IN N0 M PR DI NI F1 F2; [congruence|].
  inversion IN as [|st0 st2 i0 fw wc op ts st1 c1 l0 P IN2]; subst.
  inversion PR as [|? ? PR1 PR2]; subst. cbn [module_ids flat_map] in DI, NI. apply Forall_app in DI. destruct DI as [DI1 DI2].
  rewrite map_app in NI. destruct (name_ids_app _ _ _ _ _ NI) as (ia & ib & cm & E & LE & NI1 & NI2).
  rewrite map_app in E. rewrite map_length in LE.
  assert (EE : map r (inst_ids i) = ia /\ map r (flat_map inst_ids l) = ib).
  { clear - E LE. assert (LR : length (map r (inst_ids i)) = length ia) by (rewrite map_length; symmetry; exact LE). clear LE. revert E LR. generalize (map r (inst_ids i)) (map r (flat_map inst_ids l)). clear.
    intros a b. revert ia. induction a as [|y a IH]; intros [|z ia] E L; cbn in *; try discriminate; auto.
    injection E as -> E. destruct (IH ia E) as [-> ->]; [congruence|auto]. }
  destruct EE as [<- <-].
  cbn [all_toks flat_map] in F1, F2 |- *. fold (all_toks l) in *. rewrite app_length in F1, F2.
  pose proof (inst_toks_nonempty i) as NE. pose proof (toks_of_le i) as TL.
  destruct (inst_main g t K nm words WOK D r NV RINJ st x st2 i fw wc op ts st1 c1 cm (all_toks l) opfuel iop P M PR1 DI1 NI1
     (insts_fresh _ _ IN2) ltac:(lia)) as (FT & RD & _ & _ & x2 & ai2 & EO & AW & XI & M2).
  assert (GO : exists ts, g_opcode g (i_opcode i) = Some ts) by (destruct P as [_ _ _ GO _ _ _ _ -> _]; exists ts; exact GO).
  destruct fuel as [|fuel]; [lia|]. cbn [instructions_loop]. rewrite EO. cbn [rd_advance token_reader].
  assert (LC : l = [] \/ l <> []) by (destruct l; [left; reflexivity|right; discriminate]).
  destruct LC as [LC|NL].
  - rewrite LC in NI2 |- *. cbn [all_toks flat_map]. split; [constructor; [auto|constructor]|]. exists x2. cbn [map]. rewrite AW. split; [reflexivity|].
    cbn in NI2. congruence.
  - destruct (all_toks l) as [|w ws] eqn:ET.
    { exfalso. destruct l as [|k l]; [congruence|]. cbn in ET. apply (f_equal (@length (list N))) in ET.
      rewrite app_length in ET. pose proof (inst_toks_nonempty k). cbn in ET. lia. }
    rewrite <- ET in *.
    destruct (IH st2 x2 fuel (acc ++ [a_words ai2]) ids2 IN2 NL M2 PR2 DI2) as (FF & x3 & LO & X3); try lia.
    { rewrite XI. exact NI2. }
    split; [constructor; [auto|exact FF]|]. exists x3. rewrite LO, AW, <- app_assoc. auto.
Qed.
End Run.

(** *** The text *)
Lemma white_gap c : white c -> gap [c].
Proof. intros H. apply gap_white; [exact H|apply gap_nil]. Qed.
Lemma gap_ending g0 e : gap g0 -> ending e -> ending (g0 ++ e).
Proof.
  intros G [g1 G1|g1 s G1 C|g1 rest G1|g1 s rest G1 C]; rewrite ?app_assoc.
  - apply end_gap. apply gap_app; assumption.
  - apply end_comment; [apply gap_app; assumption|exact C].
  - apply end_nul. apply gap_app; assumption.
  - apply end_comment_nul; [apply gap_app; assumption|exact C].
Qed.
Lemma lay_gap g0 ws text : gap g0 -> layout ws text -> layout ws (g0 ++ text).
Proof.
  intros G [g1 E|g1 w e G1 W E|g1 w ws' sep text' G1 W S S0 W0 L].
  - apply lay_end. apply gap_ending; assumption.
  - rewrite app_assoc. apply lay_last; [apply gap_app; assumption|assumption..].
  - rewrite app_assoc. apply lay_word; [apply gap_app; assumption|assumption..].
Qed.
Lemma lay_cons w c ws text : word w -> white c -> layout ws text -> layout (w :: ws) (w ++ c :: text).
Proof.
  intros W C L. destruct ws as [|v ws].
  - assert (E : ending (c :: text)).
    { inversion L as [g1 E| |]; subst. apply (gap_ending [c]); [apply white_gap; exact C|exact E]. }
    exact (lay_last [] w (c :: text) gap_nil W E).
  - refine (lay_word [] w (v :: ws) [c] text gap_nil W (white_gap _ C) _ _ L); discriminate.
Qed.
Lemma white_space : white c_space.
Proof. left. reflexivity. Qed.
Lemma white_nl : white c_nl.
Proof. right. right. right. reflexivity. Qed.
Lemma spaces_gap n : gap (spaces n).
Proof. induction n; [apply gap_nil|]. apply gap_white; [apply white_space|exact IHn]. Qed.

Lemma lay_ops (f : poperand -> list N) : forall ops w0 more text, word w0 ->
  Forall (fun o => otype_eqb (o_type o) T_RESULT_ID = false -> word (f o)) ops -> layout more text ->
  layout (w0 :: flat_map (fun o => if otype_eqb (o_type o) T_RESULT_ID then [] else [f o]) ops ++ more)
    (w0 ++ flat_map (fun o => if otype_eqb (o_type o) T_RESULT_ID then [] else c_space :: f o) ops ++ c_nl :: text).
Proof.
  induction ops as [|o ops IH]; intros w0 more text W F L.
  - cbn [flat_map app]. apply lay_cons; [exact W|apply white_nl|exact L].
  - inversion F as [|? ? F1 F2]; subst. cbn [flat_map]. destruct (otype_eqb (o_type o) T_RESULT_ID).
    + cbn [app]. apply IH; assumption.
    + cbn [app]. apply lay_cons; [exact W|apply white_space|]. rewrite <- app_assoc. apply IH; auto.
Qed.

Section Text.
Variable g : grammar.
Variable t : tables.
Hypothesis K : tables_ok g t.
Variable nm : N -> list N.
Variable indent : bool.
Set Default Proof Using "All".

Lemma name_text_word w : is_valid_id w = true -> word (c_percent :: w).
Proof.
  intros V. split; [|discriminate]. destruct w as [|c w]; [discriminate V|]. unfold is_valid_id in V.
  apply wb_plain; [unfold special, white; vm_compute; intuition discriminate|].
  induction (c :: w) as [|a l IH]; [apply wb_nil|]. cbn in V. apply andb_true_iff in V. destruct V as [V1 V2].
  apply wb_plain; [|exact (IH V2)]. unfold is_id_char in V1. unfold special, white. clear - V1. lia.
Qed.

Lemma inst_layout i ts more text : g_opcode g (i_opcode i) = Some ts -> reported_operands i = i_operands i ->
  Forall (fun o => otype_eqb (o_type o) T_RESULT_ID = false -> operand_token (emit_operand g t nm i o)) (i_operands i) ->
  (i_result_id i <> 0 -> is_valid_id (nm (i_result_id i)) = true) ->
  layout more text -> layout (inst_toks g t nm i ++ more) (emit_instruction g t nm indent i ++ text).
Proof.
  intros GO RO FO RV L. destruct (op_token g t K _ _ GO) as (_ & OW & _).
  assert (LO : layout ((79 :: 112 :: t_op_name t (i_opcode i)) :: toks_of g t nm i (i_operands i) ++ more)
    ((79 :: 112 :: t_op_name t (i_opcode i)) ++
     flat_map (fun o => if otype_eqb (o_type o) T_RESULT_ID then [] else c_space :: emit_operand g t nm i o) (i_operands i) ++ c_nl :: text)).
  { apply lay_ops; [exact OW| |exact L]. eapply Forall_impl; [|exact FO]. intros o H E. apply (H E). }
  unfold emit_instruction, inst_toks. rewrite RO.
  destruct (i_result_id i =? 0) eqn:Z; cbn [negb].
  - rewrite <- !app_assoc. apply lay_gap; [destruct indent; [apply spaces_gap|apply gap_nil]|].
    cbn [app] in LO |- *. rewrite <- !app_assoc. exact LO.
  - apply N.eqb_neq in Z. cbv zeta. rewrite <- !app_assoc. apply lay_gap; [destruct indent; [apply spaces_gap|apply gap_nil]|].
    cbn [app] in LO |- *. rewrite <- !app_assoc. cbn [app].
    match goal with |- layout _ (c_percent :: ?a ++ c_space :: ?b) => change (layout ((c_percent :: a) :: [61] :: (79 :: 112 :: t_op_name t (i_opcode i)) ::
        toks_of g t nm i (i_operands i) ++ more) ((c_percent :: a) ++ c_space :: b)) end.
    apply lay_cons; [apply name_text_word; exact (RV Z)|apply white_space|].
    match goal with |- layout _ (61 :: c_space :: ?b) => change (61 :: c_space :: b) with ([61] ++ c_space :: b) end.
    apply lay_cons; [|apply white_space|exact LO].
    split; [|discriminate]. apply wb_plain; [unfold special, white; intuition discriminate|apply wb_nil].
Qed.
End Text.

Section Module.
Variable g : grammar.
Variable t : tables.
Hypothesis K : tables_ok g t.
Variable words : list N.
Hypothesis WOK : Forall word_ok words.
Set Default Proof Using "All".

Definition st_start : pstate :=
  {| word_index := 5; id_to_type_id := fun _ => None; number_info := fun _ => None; imports := fun _ => None |}.

Lemma run_module nm l r keep c2 iop fuel : insts g words st_start l -> l <> [] -> Forall (printable_inst g t) l ->
  (forall id, In id (module_ids l) -> is_valid_id (nm id) = true) ->
  (forall a b, In a (module_ids l) -> In b (module_ids l) -> r a = r b -> a = b) ->
  name_ids (init_ctx keep) (map nm (module_ids l)) = Some (map r (module_ids l), c2) ->
  (length (all_toks g t nm l) <= fuel)%nat ->
  Forall (fun i => Forall (fun o => otype_eqb (o_type o) T_RESULT_ID = false -> operand_token (emit_operand g t nm i o)) (i_operands i)
             /\ (i_result_id i <> 0 -> In (i_result_id i) (module_ids l)) /\ exists ts, g_opcode g (i_opcode i) = Some ts) l /\
  exists x2, run g t T fuel iop keep (all_toks g t nm l) = AOk (x2, map (renamed r) l) /\ x_ids x2 = c2.
Proof.
  intros IN N0 PR NV RI NI LF.
  destruct (run_insts g t K nm words WOK (fun id => In id (module_ids l)) r NV RI iop fuel l st_start (init_actx keep) fuel [] c2 IN N0)
    as (FF & x2 & LO & X2); auto.
  { constructor; cbn; auto; try discriminate. intros id [H|H]; congruence. }
  { apply Forall_forall. auto. }
  split; [exact FF|]. exists x2. split; [|exact X2].
  unfold run. cbn [rd_advance rd_has_text token_reader].
  destruct (all_toks g t nm l) as [|w ws] eqn:ET; [|exact LO].
  exfalso. destruct l as [|k l']; [congruence|]. cbn in ET. apply (f_equal (@length (list N))) in ET.
  rewrite app_length in ET. pose proof (inst_toks_nonempty g t nm k). cbn in ET. lia.
Qed.

Lemma insts_facts st l : insts g words st l -> Forall (fun i => forall r, (forall id, In id (inst_ids i) -> r id = id) -> renamed r i = i_words i) l /\
  Forall (fun i => printable_inst g t i -> reported_operands i = i_operands i) l.
Proof.
  induction 1 as [|st st2 i fw wc op ts st1 c1 l P IN IH]; [split; constructor|]. destruct IH as [IH1 IH2].
  split; constructor; auto.
  - intros r F. exact (renamed_fix g t _ _ _ _ _ _ _ _ _ _ r P F).
  - destruct (parsed_tile g t _ _ _ _ _ _ _ _ _ _ P) as (_ & _ & X & _). exact X.
Qed.
Lemma insts_words st l : insts g words st l -> (word_index st <= length words)%nat ->
  flat_map i_words l = skipn (word_index st) words.
Proof.
  induction 1 as [st GE|st st2 i fw wc op ts st1 c1 l P IN IH]; intros LE.
  - rewrite skipn_all2 by exact GE. reflexivity.
  - destruct (parsed_tile g t _ _ _ _ _ _ _ _ _ _ P) as (_ & _ & _ & _ & W & _). destruct P as [FW SP W1 GO TR OPT EN RN II FIT].
    cbn [flat_map]. rewrite IH by lia. rewrite II. cbn [i_words]. rewrite <- W, <- EN, <- skipn_skipn_add. apply firstn_skipn.
Qed.
Lemma module_ids_length st l : insts g words st l -> Forall (printable_inst g t) l -> (word_index st <= length words)%nat ->
  (length (module_ids l) <= length words - word_index st)%nat.
Proof.
  induction 1 as [st GE|st st2 i fw wc op ts st1 c1 l P IN IH]; intros PR LE; [cbn; lia|].
  inversion PR as [|? ? PR1 PR2]; subst.
  destruct (parsed_tile g t _ _ _ _ _ _ _ _ _ _ P) as (_ & _ & _ & L1 & W & L2). specialize (L2 PR1).
  destruct P as [FW SP W1 GO TR OPT EN RN II FIT]. specialize (IH PR2 ltac:(lia)).
  cbn [module_ids flat_map]. rewrite app_length. fold (module_ids l). lia.
Qed.

Lemma module_layout nm indent l : Forall (fun i => reported_operands i = i_operands i) l ->
  (forall id, In id (module_ids l) -> is_valid_id (nm id) = true) ->
  forall l0, Forall (fun i => Forall (fun o => otype_eqb (o_type o) T_RESULT_ID = false -> operand_token (emit_operand g t nm i o)) (i_operands i)
             /\ (i_result_id i <> 0 -> In (i_result_id i) (module_ids l)) /\ exists ts, g_opcode g (i_opcode i) = Some ts) l0 ->
  Forall (fun i => reported_operands i = i_operands i) l0 ->
  layout (all_toks g t nm l0) (flat_map (emit_instruction g t nm indent) l0).
Proof.
  intros _ NV l0 F. induction F as [|i l0 (F1 & F2 & ts & F3) F IH]; intros RO.
  - apply lay_end, end_gap, gap_nil.
  - inversion RO as [|? ? R1 R2]; subst. cbn [all_toks flat_map]. apply (inst_layout g t K nm indent i ts); auto.
Qed.

Lemma print_nat_comment n : comment_body (print_nat n).
Proof.
  clear. pose proof (print_nat_text n) as U. unfold print_nat in *. unfold comment_body.
  assert (X : forall f m acc, Forall (fun c : N => c <> 10 /\ c <> 0) acc -> Forall (fun c : N => c <> 10 /\ c <> 0) (dec_digits f m acc)).
  { induction f as [|f IH]; intros m acc H; cbn [dec_digits]; [exact H|].
    assert (Y : Forall (fun c : N => c <> 10 /\ c <> 0) ((48 + m mod 10) :: acc)) by (constructor; [generalize (m mod 10); intros; lia|exact H]).
    cbv zeta. destruct (m / 10 =? 0); [exact Y|apply IH; exact Y]. }
  apply X. constructor.
Qed.
Lemma comment_app a b : comment_body a -> comment_body b -> comment_body (a ++ b).
Proof. clear. intros A B. apply Forall_app. split; assumption. Qed.
Lemma header_gap version generator bound schema : gap (emit_header t version generator bound schema).
Proof.
  pose proof (tk_generator _ _ K (N.shiftr generator 16)) as TG.
  pose proof print_nat_comment as PC.
  assert (LIT : forall s, forallb (fun c => negb (c =? 10) && negb (c =? 0)) s = true -> comment_body s).
  { clear. intros s H. apply Forall_forall. intros c IN. rewrite forallb_forall in H. specialize (H _ IN). lia. }
  assert (NLC : forall s rest, comment_body s -> gap rest -> gap ((59 :: s) ++ [c_nl] ++ rest)) by (intros; apply gap_comment; assumption).
  unfold emit_header.
  match goal with |- context [bytes_of "; Generator: " ++ ?a ++ ?b ++ ?c ++ ?d ++ ?e ++ ?r] =>
    replace (bytes_of "; Generator: " ++ a ++ b ++ c ++ d ++ e ++ r) with (([59] ++ tl (bytes_of "; Generator: ") ++ a ++ b ++ c ++ d) ++ e ++ r)
      by (rewrite <- !app_assoc; reflexivity) end.
  match goal with |- context [bytes_of "; Version: " ++ ?a ++ ?b ++ ?c ++ ?e ++ ?r] =>
    replace (bytes_of "; Version: " ++ a ++ b ++ c ++ e ++ r) with (([59] ++ tl (bytes_of "; Version: ") ++ a ++ b ++ c) ++ e ++ r)
      by (rewrite <- !app_assoc; reflexivity) end.
  match goal with |- context [bytes_of "; Bound: " ++ ?a ++ ?e ++ ?r] =>
    replace (bytes_of "; Bound: " ++ a ++ e ++ r) with (([59] ++ tl (bytes_of "; Bound: ") ++ a) ++ e ++ r)
      by (rewrite <- !app_assoc; reflexivity) end.
  match goal with |- context [bytes_of "; Schema: " ++ ?a ++ ?e] =>
    replace (bytes_of "; Schema: " ++ a ++ e) with (([59] ++ tl (bytes_of "; Schema: ") ++ a) ++ e ++ [])
      by (rewrite app_nil_r; rewrite <- !app_assoc; reflexivity) end.
  change (bytes_of "; SPIR-V") with (59 :: tl (bytes_of "; SPIR-V")).
  repeat (apply NLC; [|]); try apply gap_nil; repeat apply comment_app; try apply PC; try exact TG; try (apply LIT; vm_compute; reflexivity).
  destruct (bytes_eqb _ _); [|constructor].
  repeat apply comment_app; try apply PC; apply LIT; reflexivity.
Qed.
End Module.

(** *** Naming *)
Lemma dense_renaming (nm : N -> list N) (ids : list N) : (forall a b, In a ids -> In b ids -> nm a = nm b :> list N -> a = b) ->
  N.of_nat (length ids) + 2 < 2 ^ 32 ->
  exists r c2, name_ids (init_ctx []) (map nm ids) = Some (map r ids, c2) /\
    (forall a b, In a ids -> In b ids -> r a = r b -> a = b) /\
    (forall id, In id ids -> exists k, position (first_appearances [] (map nm ids)) (nm id) k /\ r id = 1 + N.of_nat k) /\
    bound c2 = 1 + N.of_nat (length (first_appearances [] (map nm ids))) /\
    (forall n, In n (map nm ids) <-> In n (map fst (named c2))).
Proof.
  intros INJ L. destruct (name_ids_dense (map nm ids) (init_ctx []) inv0_init) as (out & c2 & E & I & FA & F2 & _).
  { cbn. rewrite map_length. lia. }
  cbn [init_ctx named map app] in FA.
  set (r := fun id => match find_name (named c2) (nm id) with Some v => v | None => 0 end).
  assert (OUT : out = map r ids).
  { clear - F2 I. revert out F2. induction ids as [|a ids IH]; intros out F2; inversion F2 as [|? ? ? ? H1 H2]; subst; [reflexivity|].
    cbn [map]. f_equal; [|apply IH; exact H2]. destruct H1 as [k H1]. apply nth_error_In in H1.
    unfold r. rewrite (find_name_In _ _ _ (i0_nodup _ I) H1). reflexivity. }
  assert (RV : forall id, In id ids -> exists k, nth_error (named c2) k = Some (nm id, r id)).
  { intros id IN. assert (X : In (nm id) (map fst (named c2))).
    { rewrite FA. apply first_appearances_In. split; [apply in_map; exact IN|intros []]. }
    apply in_map_iff in X. destruct X as ([n v] & EN & X). cbn in EN. subst n. unfold r.
    rewrite (find_name_In _ _ _ (i0_nodup _ I) X). apply In_nth_error. exact X. }
  exists r, c2. split; [rewrite E, OUT; reflexivity|]. split; [|split; [|split]].
  - intros a b IA IB EQ. destruct (RV a IA) as [ka HA], (RV b IB) as [kb HB].
    pose proof (i0_val _ I _ _ _ HA) as VA. pose proof (i0_val _ I _ _ _ HB) as VB.
    assert (ka = kb) by lia. subst kb. apply INJ; [exact IA|exact IB|congruence].
  - intros id IN. destruct (RV id IN) as [k H]. exists k. split; [|exact (i0_val _ I _ _ _ H)].
    unfold position. rewrite <- FA, nth_error_map, H. reflexivity.
  - rewrite (i0_bound _ I), <- FA, map_length. reflexivity.
  - intros n. rewrite FA, first_appearances_In. cbn. tauto.
Qed.

Lemma print_nat_parse v : v < 2 ^ 32 -> parse_number_unsigned 32 (print_nat v) = Some v.
Proof.
  intros L. apply numeric_parse.
  - destruct (print_nat_chars v) as [N0 F]. unfold is_valid_id. destruct (print_nat v); [congruence|]. apply forallb_forall. apply Forall_forall. exact F.
  - split; [|exact L]. exists false. apply print_nat_text.
Qed.
Lemma preserved_naming keep ids : (forall id, In id ids -> In id keep /\ id < 2 ^ 32 - 1) ->
  forall b, exists c2, name_ids (mkIdCtx [] b 1 keep) (map print_nat ids) = Some (ids, c2) /\
    bound c2 = (if match ids with [] => true | _ => false end then b else N.max b (1 + max_id ids)).
Proof.
  induction ids as [|a ids IH]; intros H b; [eexists; split; reflexivity|].
  destruct (H a (or_introl eq_refl)) as [KA LA]. cbn [map name_ids assign_or_get preserve].
  destruct keep as [|k0 keep0] eqn:EK; [destruct KA|]. rewrite <- EK in *.
  unfold assign_or_get. cbn [preserve]. rewrite EK, <- EK.
  rewrite print_nat_parse by lia. rewrite (proj2 (mem_In a keep) KA). cbn [named bound next_id].
  assert (S1 : succ32 a = a + 1) by (unfold succ32; apply N.mod_small; lia).
  destruct (IH (fun id IN => H id (or_intror IN)) (N.max b (succ32 a))) as (c2 & E & B).
  rewrite E. exists c2. split; [reflexivity|]. rewrite B, S1. cbn [max_id fold_right]. destruct ids; cbn [fold_right]; [|unfold max_id; cbn [fold_right]]; lia.
Qed.

(** *** The round trip *)
Lemma in_firstn {A} (x : A) n l : In x (firstn n l) -> In x l.
Proof. intros H. rewrite <- (firstn_skipn n l). apply in_or_app. left. exact H. Qed.
Lemma in_skipn {A} (x : A) n l : In x (skipn n l) -> In x l.
Proof. intros H. rewrite <- (firstn_skipn n l). apply in_or_app. right. exact H. Qed.
Lemma inst_id_lt words l st g id : Forall word_ok words -> insts g words st l -> In id (module_ids l) -> id < 2 ^ 32.
Proof.
  intros W. induction 1 as [st GE|st st2 i fw wc op ts st1 c1 l P IN IH]; intros H; [destruct H|].
  cbn [module_ids flat_map] in H. apply in_app_or in H. destruct H as [H|H]; [|exact (IH H)].
  unfold inst_ids in H. apply in_map_iff in H. destruct H as (o & <- & _). unfold operand_word.
  destruct P as [_ _ _ _ _ _ _ _ -> _]. cbn [i_words].
  destruct (nth_in_or_default (N.to_nat (o_offset o)) (firstn (N.to_nat wc) (skipn (word_index st) words)) 0) as [X|X].
  - rewrite Forall_forall in W. apply W. apply in_firstn, in_skipn in X. exact X.
  - rewrite X. reflexivity.
Qed.

Lemma parse_insts g words hdr l : binary_endianness words = Some Little ->
  binary_parse g false quiet words = Some (SPV_SUCCESS, hdr :: map EInst l) ->
  exists v ge b s, (5 <= length words)%nat /\ (exists m, hdr = EHeader Little m v ge b s) /\ insts g words st_start l.
Proof.
  intros BE BP. unfold binary_parse in BP. destruct (Nat.ltb_spec (length words) 5) as [|L5]; [discriminate BP|].
  rewrite BE in BP. destruct (header_get g words Little) as [[[[[m v] ge] b] s]|] eqn:HG; [|discriminate BP].
  cbv zeta in BP. change (negb (SPV_SUCCESS =? SPV_SUCCESS)%Z) with false in BP. cbv iota in BP.
  destruct (module_insts _ _ _ _ _ _ BP) as (l' & E & IN). injection E as -> E.
  assert (l' = l). { clear - E. revert l' E. induction l as [|a l IH]; intros [|b l'] E; try discriminate; [reflexivity|]. injection E as -> E. f_equal. apply IH. exact E. }
  subst l'. exists v, ge, b, s. split; [exact L5|]. split; [|exact IN].
  exists m. reflexivity.
Qed.

Lemma disassemble_text g t nm header indent words m v ge b s l :
  binary_parse g false quiet words = Some (SPV_SUCCESS, EHeader Little m v ge b s :: map EInst l) ->
  disassemble g t nm header indent words =
  Some (inl ((if header then emit_header t v ge b s else []) ++ flat_map (emit_instruction g t nm indent) l)).
Proof.
  intros H. unfold disassemble. rewrite H. change (SPV_SUCCESS =? SPV_SUCCESS)%Z with true. cbv iota. f_equal. f_equal.
  cbn [flat_map emit_event]. f_equal. clear. induction l as [|i l IH]; [reflexivity|]. cbn [map flat_map emit_event]. f_equal. exact IH.
Qed.

Section RoundTrip.
Variable g : grammar.
Variable t : tables.
Hypothesis K : tables_ok g t.
Variable words : list N.
Hypothesis WOK : Forall word_ok words.
Variable l : list pinst.
Hypothesis IN : insts g words st_start l.
Hypothesis PR : Forall (printable_inst g t) l.
Set Default Proof Using "All".

(** The text is a layout of the words of the instructions *)
Lemma text_layout nm indent gp : (forall id, In id (module_ids l) -> is_valid_id (nm id) = true) ->
  (forall a b, In a (module_ids l) -> In b (module_ids l) -> nm a = nm b -> a = b) ->
  N.of_nat (length (module_ids l)) + 2 < 2 ^ 32 -> gap gp ->
  layout (all_toks g t nm l) (gp ++ flat_map (emit_instruction g t nm indent) l).
Proof.
  intros NV INJ LN G. apply lay_gap; [exact G|].
  destruct (list_eq_dec N.eq_dec (map (fun _ => 0) l) []) as [Z|Z].
  { destruct l; [|discriminate Z]. apply lay_end, end_gap, gap_nil. }
  assert (N0 : l <> []) by (intros E; apply Z; rewrite E; reflexivity).
  destruct (dense_renaming nm (module_ids l) INJ LN) as (r & c2 & NI & RI & _).
  destruct (run_module g t K words WOK nm l r [] c2 0 (length (all_toks g t nm l)) IN N0 PR NV RI NI (le_n _)) as (FF & _).
  destruct (insts_facts g t K words WOK _ _ IN) as [_ RO].
  apply (module_layout g t K words WOK nm indent l); auto.
  - apply Forall_forall. intros i IL. rewrite Forall_forall in RO, PR. auto.
  - apply Forall_forall. intros i IL. rewrite Forall_forall in RO, PR. auto.
Qed.

Lemma assemble_gap keep gp : gap gp ->
  assemble g t keep gp = AOk [0x07230203; t_version t; 0x00070000; 1; 0].
Proof using Type.
  intros G. assert (A : advance gp = (true, [])) by (rewrite <- (app_nil_r gp), gap_advance by exact G; reflexivity).
  unfold assemble, assemble_with.
  assert (R : forall f iop k, run g t text_reader f iop k gp = AOk (init_actx k, [])).
  { intros. unfold run. cbn [rd_advance text_reader]. rewrite A. reflexivity. }
  destruct keep; rewrite !R; reflexivity.
Qed.

Lemma module_named nm indent gp : (forall id, In id (module_ids l) -> is_valid_id (nm id) = true) ->
  (forall a b, In a (module_ids l) -> In b (module_ids l) -> nm a = nm b -> a = b) ->
  N.of_nat (length (module_ids l)) + 2 < 2 ^ 32 -> gap gp ->
  exists r, (forall id, In id (module_ids l) ->
      exists k, position (first_appearances [] (map nm (module_ids l))) (nm id) k /\ r id = 1 + N.of_nat k) /\
    assemble g t false (gp ++ flat_map (emit_instruction g t nm indent) l) =
    AOk ([0x07230203; t_version t; 0x00070000; 1 + N.of_nat (length (first_appearances [] (map nm (module_ids l)))); 0] ++
         flat_map (renamed r) l).
Proof.
  intros NV INJ LN G. pose proof (text_layout nm indent gp NV INJ LN G) as LAY.
  destruct (dense_renaming nm (module_ids l) INJ LN) as (r & c2 & NI & RI & RP & B & _).
  exists r. split; [exact RP|].
  destruct (list_eq_dec N.eq_dec (map (fun _ => 0) l) []) as [Z|Z].
  { destruct l; [|discriminate Z]. cbn [flat_map]. rewrite app_nil_r. rewrite assemble_gap by exact G. reflexivity. }
  assert (N0 : l <> []) by (intros E; apply Z; rewrite E; reflexivity).
  destruct (run_module g t K words WOK nm l r [] c2 0 (length (all_toks g t nm l)) IN N0 PR NV RI NI (le_n _)) as (_ & x2 & RU & X2).
  rewrite (assemble_tokens g t false (all_toks g t nm l)); [|intros E; rewrite E in RU; unfold run in RU; cbn in RU; destruct l; [congruence|discriminate RU]|exact LAY].
  unfold assemble_with. rewrite RU, X2, B, flat_map_concat_map. reflexivity.
Qed.

Lemma module_preserved indent gp : (forall id, In id (module_ids l) -> id <> 2 ^ 32 - 1) ->
  N.of_nat (length (module_ids l)) + 2 < 2 ^ 32 -> gap gp ->
  assemble g t true (gp ++ flat_map (emit_instruction g t print_nat indent) l) =
  AOk ([0x07230203; t_version t; 0x00070000; 1 + max_id (module_ids l); 0] ++ flat_map i_words l).
Proof.
  intros TOP LN G.
  assert (NV : forall id, In id (module_ids l) -> is_valid_id (print_nat id) = true).
  { intros id _. destruct (print_nat_chars id) as [N0 F]. unfold is_valid_id. destruct (print_nat id); [congruence|]. apply forallb_forall. apply Forall_forall. exact F. }
  assert (INJ : forall a b, In a (module_ids l) -> In b (module_ids l) -> print_nat a = print_nat b -> a = b) by (intros; apply print_nat_inj; assumption).
  pose proof (text_layout print_nat indent gp NV INJ LN G) as LAY.
  destruct (dense_renaming print_nat (module_ids l) INJ LN) as (r & c2 & NI & RI & RP & B & NM).
  destruct (list_eq_dec N.eq_dec (map (fun _ => 0) l) []) as [Z|Z].
  { destruct l; [|discriminate Z]. cbn [flat_map]. rewrite app_nil_r. rewrite assemble_gap by exact G. reflexivity. }
  assert (N0 : l <> []) by (intros E; apply Z; rewrite E; reflexivity).
  destruct (run_module g t K words WOK print_nat l r [] c2 (g_op_max g) (length (all_toks g t print_nat l)) IN N0 PR NV RI NI (le_n _)) as (_ & x1 & RU1 & X1).
  rewrite (assemble_tokens g t true (all_toks g t print_nat l)); [|intros E; rewrite E in RU1; unfold run in RU1; cbn in RU1; destruct l; [congruence|discriminate RU1]|exact LAY].
  unfold assemble_with. rewrite RU1, X1. set (keep := numeric_ids (named c2)).
  assert (KP : forall id, In id (module_ids l) -> In id keep /\ id < 2 ^ 32 - 1).
  { intros id IL. pose proof (inst_id_lt _ _ _ _ _ WOK IN IL) as LT. specialize (TOP _ IL). split; [|lia].
    apply numeric_ids_In. assert (X : In (print_nat id) (map fst (named c2))) by (apply NM; apply in_map; exact IL).
    apply in_map_iff in X. destruct X as ([n v] & E & X). cbn in E. subst n. exists (print_nat id), v. split; [exact X|apply print_nat_parse; exact LT]. }
  destruct (preserved_naming keep (module_ids l) KP 1) as (c3 & NI3 & B3).
  assert (NI3' : name_ids (init_ctx keep) (map print_nat (module_ids l)) = Some (map (fun id => id) (module_ids l), c3)) by (rewrite map_id; exact NI3).
  destruct (run_module g t K words WOK print_nat l (fun id => id) keep c3 0 (length (all_toks g t print_nat l)) IN N0 PR NV (fun a b _ _ E => E) NI3' (le_n _)) as (_ & x2 & RU2 & X2).
  rewrite RU2, X2, B3. f_equal. f_equal; [f_equal; f_equal; f_equal; f_equal|].
  - destruct (module_ids l); [reflexivity|]. lia.
  - rewrite <- flat_map_concat_map. destruct (insts_facts g t K words WOK _ _ IN) as [RF _].
    clear - RF. induction RF as [|i l H F IH]; [reflexivity|]. cbn [flat_map]. rewrite IH, H; [reflexivity|auto].
Qed.
End RoundTrip.
