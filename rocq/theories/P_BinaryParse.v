(** C05, C06, C07, C08: the binary parser. *)
From Coq Require Import String.
From Verif Require Import Base Words WordsProofs Operand BinaryParse ParseSpec BinaryParseProofs BinaryParseModule ParseEndian.
Local Open Scope N_scope.
Local Open Scope list_scope.

(** *** concrete instance used by the examples *)
Definition toy : grammar := {|
  g_opcode := fun op =>
    if op =? 5 then Some [T_ID; T_LITERAL_STRING]
    else if op =? 11 then Some [T_RESULT_ID; T_LITERAL_STRING]
    else if op =? 19 then Some [T_RESULT_ID]
    else if op =? 21 then Some [T_RESULT_ID; T_LITERAL_INTEGER; T_LITERAL_INTEGER]
    else if op =? 43 then Some [T_TYPE_ID; T_RESULT_ID; T_TYPED_LITERAL_NUMBER]
    else None;
  g_operand := fun _ _ => None; g_ext_inst := fun _ _ => None; g_spec_op := fun _ => false;
  g_op_max := 10000; g_generates_type := fun op => (op =? 19) || (op =? 21);
  g_fp_encoding := fun x => x; g_version := 0x00010600 |}.
Lemma toy_ok : grammar_ok toy.
Proof.
  split; [discriminate|]. split; intros ts H; vm_compute in H; [injection H as <-; reflexivity|discriminate].
Qed.
(** OpTypeInt %1 64 0; OpConstant %1 %2 = 0x0000000900000007; OpName %2 "abc"; opcode 999 (3 words) *)
Definition sample : list N :=
  [0x07230203; 0x00010300; 0; 3; 0;
   0x00040015; 1; 64; 0;
   0x0005002b; 1; 2; 7; 9;
   0x00030005; 2; 0x00636261;
   0x000303e7; 5; 6].
Definition accept : callbacks := fun _ _ => SPV_SUCCESS.

(** *** C05 *)
(** Every word sequence, whatever its length and contents, gets a result: the parser neither
    reads outside the buffer nor loops for ever (the model's other outcome is [None]). *)
Theorem binary_parse_total : forall g hu cb words, grammar_ok g -> Forall word_ok words ->
  exists code tr, binary_parse g hu cb words = Some (code, tr).
Proof.
  intros g hu cb words G W. pose proof (binary_parse_not_stuck g hu cb words G W) as N.
  destruct (binary_parse g hu cb words) as [[code tr]|]; [eauto|contradiction].
Qed.

Lemma insts_of_map hdr l : (forall i, hdr <> EInst i) -> insts_of (hdr :: map EInst l) = l.
Proof.
  intro H. unfold insts_of. simpl. destruct hdr as [? ? ? ? ? ?|i]; [|exfalso; eapply H; reflexivity]. simpl.
  induction l; simpl; congruence.
Qed.
Lemma skipn_slice (l : list N) n : (n <= length l)%nat -> slice l n (length l) = skipn n l.
Proof. intro H. unfold slice. rewrite <- skipn_length. apply firstn_all. Qed.

(** On success the words reported to the instruction callback are, in order, exactly the words
    after the 5-word header, in host byte order. *)
Theorem reported_words_are_the_module : forall g hu cb words tr,
  binary_parse g hu cb words = Some (SPV_SUCCESS, tr) ->
  exists e, binary_endianness words = Some e /\ (5 <= length words)%nat /\
    flat_map i_words (insts_of tr) = host_words e (skipn 5 words).
Proof.
  intros g hu cb words tr H.
  destruct (binary_parse_finished _ _ _ _ _ _ H) as [[-> X]|(e & m & v & ge & b & s & BE & _ & L5 & st & l & I & D)];
    [contradiction|].
  exists e. split; [exact BE|]. split; [exact L5|]. destruct I as (-> & Lo & W & _).
  rewrite insts_of_map by (intros i X; discriminate X). rewrite (located_words _ _ _ _ _ Lo), <- W.
  destruct D as [(_ & -> & _)|[[X _]|[X _]]]; [|congruence|congruence].
  f_equal. apply skipn_slice. exact L5.
Qed.

(** Whatever the result, the words reported so far are a prefix of those words. *)
Theorem reported_words_are_a_prefix : forall g hu cb words code tr,
  binary_parse g hu cb words = Some (code, tr) ->
  tr = [] \/ exists e n, binary_endianness words = Some e /\
    flat_map i_words (insts_of tr) = firstn n (host_words e (skipn 5 words)).
Proof.
  intros g hu cb words code tr H.
  destruct (binary_parse_finished _ _ _ _ _ _ H) as [[-> X]|(e & m & v & ge & b & s & BE & _ & L5 & st & l & I & D)];
    [auto|]. right.
  exists e, (end_of 5 l - 5)%nat. split; [exact BE|]. destruct I as (-> & Lo & W & _).
  rewrite insts_of_map by (intros i X; discriminate X). rewrite (located_words _ _ _ _ _ Lo).
  unfold host_words. rewrite firstn_map. reflexivity.
Qed.

(** Every reported instruction: as many words as declared in its first word, whose low half is
    the opcode; its operands are concrete and tile the words from offset 1 to the word count.
    (With the option to pass unknown instructions through, an instruction may come without
    operands.) *)
Theorem reported_instructions_are_tiled : forall g hu cb words code tr i,
  Forall word_ok words ->
  binary_parse g hu cb words = Some (code, tr) -> In i (insts_of tr) ->
  (exists w r, i_words i = w :: r /\ i_num_words i = w / 2 ^ 16 /\ i_opcode i = w mod 2 ^ 16) /\
  length (i_words i) = N.to_nat (i_num_words i) /\
  ((tiles 1 (i_operands i) (i_num_words i) /\ Forall (fun o => is_concrete (o_type o) = true) (i_operands i))
   \/ (hu = true /\ i_operands i = [])).
Proof.
  intros g hu cb words code tr i Wok H In_i.
  destruct (binary_parse_finished _ _ _ _ _ _ H) as [[-> X]|(e & m & v & ge & b & s & BE & _ & L5 & st & l & I & D)];
    [contradiction|].
  destruct I as (-> & Lo & W & _). rewrite insts_of_map in In_i by (intros j X; discriminate X).
  destruct (located_in _ _ _ _ _ _ Lo In_i) as (p & (fw & Pk & Sp) & Wc & Bd & Iw & Ops & _).
  assert (Fw : fw < 2 ^ 32).
  { destruct (peek_some words e Wok p) as (w & Pk' & Hw); [lia|]. congruence. }
  split.
  - unfold peek_at in Pk. destruct (nth_error words p) as [w0|] eqn:N0; [|discriminate]. injection Pk as <-.
    rewrite Iw. exists (fix_word w0 e), (host_words e (slice words (S p) (p + N.to_nat (i_num_words i)))).
    rewrite <- (slice_app words p (S p)) by lia. rewrite (slice_one _ _ _ N0).
    split; [reflexivity|]. rewrite (opcode_split_arith _ Fw) in Sp. injection Sp as <- <-. auto.
  - split.
    + rewrite Iw. unfold host_words. rewrite map_length. unfold slice. rewrite firstn_length, skipn_length. lia.
    + destruct Ops as [[(T & C & _) _]|]; [left|right; assumption]. split; [|exact C].
      rewrite N2Nat.id in T. exact T.
Qed.

(** The reported operand count is the number of operands whenever every operand has a word;
    in general it is that number modulo 2^16 (a 16-bit field). *)
Lemma tiles_length ops : forall a b, tiles a ops b -> Forall (fun o => 1 <= o_num_words o) ops ->
  a + N.of_nat (length ops) <= b.
Proof.
  induction ops as [|o r IH]; intros a b T F; cbn [tiles length] in *; [lia|].
  destruct T as [_ T]. apply IH in T; [|exact (Forall_inv_tail F)]. pose proof (Forall_inv F). cbv beta in *. lia.
Qed.
Theorem reported_operand_count : forall g hu cb words code tr i,
  Forall word_ok words ->
  binary_parse g hu cb words = Some (code, tr) -> In i (insts_of tr) ->
  i_num_operands i = N.of_nat (length (i_operands i)) mod 2 ^ 16 /\
  (Forall (fun o => 1 <= o_num_words o) (i_operands i) ->
   i_num_operands i = N.of_nat (length (i_operands i))).
Proof.
  intros g hu cb words code tr i Wok H In_i.
  pose proof (reported_instructions_are_tiled _ _ _ _ _ _ _ Wok H In_i) as ((w & r & _ & Hn & _) & _ & T).
  destruct (binary_parse_finished _ _ _ _ _ _ H) as [[-> X]|(e & m & v & ge & b & s & BE & _ & L5 & st & l & I & D)];
    [contradiction|].
  destruct I as (-> & Lo & W & _). rewrite insts_of_map in In_i by (intros j X; discriminate X).
  destruct (located_in _ _ _ _ _ _ Lo In_i) as (p & (fw & Pk & Sp) & Wc & Bd & Iw & Ops & No).
  split; [exact No|]. intro F. rewrite No. apply N.mod_small.
  destruct T as [[T _]|[_ ->]]; [|reflexivity].
  pose proof (tiles_length _ _ _ T F). pose proof (split_wc _ _ _ Sp). lia.
Qed.

Example parse_sample :
  exists tr, binary_parse toy true accept sample = Some (SPV_SUCCESS, tr) /\
    length tr = 5%nat /\ map i_result_id (insts_of tr) = [1; 2; 0; 0] /\
    map i_num_operands (insts_of tr) = [3; 3; 2; 0].
Proof. vm_compute. eexists. repeat split. Qed.
Example parse_sample_strict : exists tr, binary_parse toy false accept sample = Some (SPV_ERROR_INVALID_BINARY, tr)
  /\ length tr = 4%nat.
Proof. vm_compute. eexists. repeat split. Qed.

(** *** C06 *)
(** A callback that does not look at the endianness argument of the header callback. *)
Definition ignores_endianness (cb : callbacks) : Prop :=
  forall tr ev, cb (map flip tr) (flip ev) = cb tr ev.

(** The full property fails: OpExtInstImport names are decoded from the raw words. *)
Definition import_module : list N :=
  [0x07230203; 0x00010300; 0; 2; 0; 0x0005000b; 1; 0x6e65704f; 0x732e4c43; 0x00006474].
Theorem parse_endian_independent_refuted : exists g words cb,
  grammar_ok g /\ Forall word_ok words /\ ignores_endianness cb /\
  (exists tr, binary_parse g false cb words = Some (SPV_SUCCESS, tr)) /\
  (exists code tr, binary_parse g false cb (map bswap words) = Some (code, tr) /\ code <> SPV_SUCCESS).
Proof.
  exists toy, import_module, accept. split; [exact toy_ok|]. split; [repeat constructor|].
  split; [intros tr ev; reflexivity|]. split; [vm_compute; eexists; reflexivity|].
  vm_compute. eexists _, _. split; [reflexivity|discriminate].
Qed.

(** It holds for every module none of whose instructions is an OpExtInstImport (opcode 11):
    a little-endian module and its byte-swapped image give the same result code and the same
    callbacks, except for the endianness argument of the header callback. *)
Theorem parse_endian_independent_partial : forall g hu cb words,
  Forall word_ok words -> ignores_endianness cb ->
  hd 0 words = 0x07230203 ->
  (forall p w, inst_start words p -> nth_error words p = Some w -> w mod 2 ^ 16 <> 11) ->
  binary_parse g hu cb (map bswap words) =
  match binary_parse g hu cb words with
  | Some (code, tr) => Some (code, map flip tr)
  | None => None
  end.
Proof.
  intros g hu cb words W C H N. apply binary_parse_swap; auto. rewrite H. vm_compute. discriminate.
Qed.
Lemma flip_keeps_instructions : forall tr, insts_of (map flip tr) = insts_of tr.
Proof.
  intro tr. unfold insts_of. induction tr as [|ev tr IH]; simpl; auto. rewrite IH.
  destruct ev; reflexivity.
Qed.
Example endian_sample :
  (forall p w, inst_start sample p -> nth_error sample p = Some w -> w mod 2 ^ 16 <> 11) /\
  (exists tr, binary_parse toy true accept (map bswap sample) = Some (SPV_SUCCESS, tr) /\ length tr = 5%nat).
Proof.
  split; [|vm_compute; eexists; split; reflexivity].
  assert (K : forall p, inst_start sample p -> In p [5; 9; 14; 17; 20]%nat).
  { intros p S. induction S as [|p w S IH N]; [simpl; auto|].
    simpl in IH. destruct IH as [<-|[<-|[<-|[<-|[<-|[]]]]]]; vm_compute in N; try discriminate;
      injection N as <-; vm_compute; auto 8. }
  intros p w S N. apply K in S. simpl in S.
  destruct S as [<-|[<-|[<-|[<-|[<-|[]]]]]]; vm_compute in N; try discriminate; injection N as <-; discriminate.
Qed.

(** *** C07 *)
(** Over all instructions reported, the words of the result-id operands are pairwise
    different; the reported result id and type id of an instruction are the words of its
    (last) result-id and type-id operands, 0 if it has none. *)
Theorem result_ids_unique : forall g hu cb words code tr,
  binary_parse g hu cb words = Some (code, tr) ->
  NoDup (flat_map (words_of_type T_RESULT_ID) (insts_of tr)) /\
  NoDup (filter (fun r => negb (r =? 0)) (map i_result_id (insts_of tr))).
Proof.
  intros g hu cb words code tr H.
  destruct (binary_parse_finished _ _ _ _ _ _ H) as [[-> X]|(e & m & v & ge & b & s & BE & _ & L5 & st & l & I & D)];
    [split; constructor|].
  destruct I as (-> & Lo & W & N1 & _ & N2 & _). rewrite insts_of_map by (intros j X; discriminate X).
  split; assumption.
Qed.
Theorem reported_ids_match_operands : forall g hu cb words code tr i,
  binary_parse g hu cb words = Some (code, tr) -> In i (insts_of tr) ->
  (i_result_id i = last (words_of_type T_RESULT_ID i) 0 /\
   i_type_id i = last (words_of_type T_TYPE_ID i) 0) \/ (hu = true /\ i_operands i = []).
Proof.
  intros g hu cb words code tr i H In_i.
  destruct (binary_parse_finished _ _ _ _ _ _ H) as [[-> X]|(e & m & v & ge & b & s & BE & _ & L5 & st & l & I & D)];
    [contradiction|].
  destruct I as (-> & Lo & _). rewrite insts_of_map in In_i by (intros j X; discriminate X).
  destruct (located_in _ _ _ _ _ _ Lo In_i) as (p & _ & _ & _ & _ & Ops & _). tauto.
Qed.
(** No id operand of a reported instruction is 0. *)
Theorem id_operands_non_zero : forall g hu cb words code tr i o,
  binary_parse g hu cb words = Some (code, tr) -> In i (insts_of tr) ->
  In o (i_operands i) -> is_id_type (o_type o) = true ->
  o_num_words o = 1 /\ nth_error (i_words i) (N.to_nat (o_offset o)) = Some (operand_word i o) /\
  operand_word i o <> 0.
Proof.
  intros g hu cb words code tr i o H In_i In_o It.
  destruct (binary_parse_finished _ _ _ _ _ _ H) as [[-> X]|(e & m & v & ge & b & s & BE & _ & L5 & st & l & I & D)];
    [contradiction|].
  destruct I as (-> & Lo & _). rewrite insts_of_map in In_i by (intros j X; discriminate X).
  destruct (located_in _ _ _ _ _ _ Lo In_i) as (p & _ & _ & Bd & Iw & Ops & _).
  destruct Ops as [[(T & _ & Idn) _]|[_ X]]; [|rewrite X in In_o; contradiction].
  rewrite Forall_forall in Idn. destruct (Idn o In_o It) as (w & Pk & Nz & Nw).
  destruct (tiles_in o _ _ _ T In_o) as [_ Ob]. split; [exact Nw|].
  unfold peek_at in Pk. destruct (nth_error words (p + N.to_nat (o_offset o))) as [w0|] eqn:N0; [|discriminate].
  injection Pk as <-.
  assert (E : nth_error (i_words i) (N.to_nat (o_offset o)) = Some (fix_word w0 e)).
  { rewrite Iw. unfold host_words. rewrite nth_error_map. unfold slice.
    rewrite nth_error_firstn' by lia. rewrite nth_error_skipn', N0. reflexivity. }
  unfold operand_word. rewrite (nth_error_nth _ _ 0 E). auto.
Qed.
Theorem duplicate_result_id_rejected : forall g hu cb words tr i j a b,
  binary_parse g hu cb words = Some (SPV_SUCCESS, tr) ->
  nth_error (insts_of tr) a = Some i -> nth_error (insts_of tr) b = Some j -> a <> b ->
  i_result_id i <> 0 -> i_result_id i <> i_result_id j.
Proof.
  intros g hu cb words tr i j a b H Ha Hb Ne Nz E.
  destruct (result_ids_unique _ _ _ _ _ _ H) as [_ N].
  assert (K : forall l a b, NoDup (filter (fun r => negb (r =? 0)) (map i_result_id l)) -> (a < b)%nat ->
    forall i j, nth_error l a = Some i -> nth_error l b = Some j -> i_result_id i <> 0 -> i_result_id i = i_result_id j -> False).
  { clear. induction l as [|x l IH]; intros a b N L i j Ha Hb Nz E; [destruct a; discriminate|].
    destruct b as [|b]; [lia|]. simpl in Hb, N.
    destruct a as [|a].
    - simpl in Ha. injection Ha as ->. apply N.eqb_neq in Nz. rewrite Nz in N. simpl in N. inversion N; subst.
      apply H1. apply filter_In. rewrite Nz. split; [|reflexivity]. apply in_map_iff. exists j. split; auto.
      eapply nth_error_In; eauto.
    - simpl in Ha. eapply (IH a b); eauto; [|lia]. destruct (negb _); [inversion N; assumption|assumption]. }
  destruct (Nat.lt_trichotomy a b) as [L|[L|L]]; [eapply K; eauto|contradiction|].
  eapply (K _ b a N L); eauto. congruence.
Qed.
Example duplicate_rejected_sample :
  exists code tr, binary_parse toy false accept [0x07230203; 0x00010300; 0; 2; 0; 0x00020013; 1; 0x00020013; 1] = Some (code, tr)
    /\ code = SPV_ERROR_INVALID_ID.
Proof. vm_compute. eexists _, _. split; reflexivity. Qed.

(** *** C08 *)
Lemma all_ok_stops cb tr code : all_ok cb tr -> code <> SPV_SUCCESS \/ code = SPV_SUCCESS -> stops_at_first_failure cb tr code.
Proof.
  intros A _ k ev H. split; [intros _; exact (A k ev H)|]. intros _ X. elim X. exact (A k ev H).
Qed.

(** The header callback comes first; every callback but the last returned success; if the last
    one did not, its code is the result. *)
Theorem callbacks_stop_at_first_failure : forall g hu cb words code tr,
  binary_parse g hu cb words = Some (code, tr) ->
  stops_at_first_failure cb tr code /\
  (tr = [] \/ exists e m v ge b s l, tr = EHeader e m v ge b s :: map EInst l).
Proof.
  intros g hu cb words code tr H.
  destruct (binary_parse_finished _ _ _ _ _ _ H) as [[-> X]|(e & m & v & ge & b & s & BE & _ & L5 & st & l & I & D)].
  { split; [|auto]. intros k ev Hk. destruct k; discriminate. }
  split; [|right; destruct I as (-> & _); exists e, m, v, ge, b, s, l; reflexivity].
  destruct D as [(_ & _ & A)|[[_ A]|(_ & tr0 & ev & -> & A & C)]].
  - apply all_ok_stops; auto. destruct (Z.eq_dec code SPV_SUCCESS); auto.
  - apply all_ok_stops; auto. destruct (Z.eq_dec code SPV_SUCCESS); auto.
  - intros k x Hk. rewrite app_length. simpl. split.
    + intro Lt. rewrite nth_error_app1 in Hk by lia.
      rewrite firstn_app. replace (k - length tr0)%nat with O by lia. rewrite app_nil_r. apply A. exact Hk.
    + intros Eq _. assert (k = length tr0) by lia. subst k.
      rewrite nth_error_app2, Nat.sub_diag in Hk by lia. injection Hk as <-.
      rewrite firstn_app, firstn_all, Nat.sub_diag. simpl. rewrite app_nil_r. auto.
Qed.

(** The callbacks do not influence what is parsed: the run is the run with always-successful
    callbacks, cut after the first failing callback. *)
Theorem callbacks_only_cut_the_run : forall g hu cb words code tr code' tr',
  binary_parse g hu cb words = Some (code, tr) ->
  binary_parse g hu (fun _ _ => SPV_SUCCESS) words = Some (code', tr') ->
  (code = code' /\ tr = tr') \/
  (exists tr0 ev rest, tr = tr0 ++ [ev] /\ tr' = tr ++ rest /\ code = cb tr0 ev /\ code <> SPV_SUCCESS).
Proof.
  intros g hu cb words code tr code' tr' H1 H2.
  destruct (binary_parse_prefix _ _ _ _ _ _ _ _ H1 H2) as [X|(tr0 & ev & A & B & C & rest & D)]; [auto|].
  right. exists tr0, ev, rest. auto.
Qed.

(** A parse that does not succeed although every callback did stopped in front of an
    instruction: what was reported is a proper prefix of the module. *)
Theorem error_reports_preceding_instructions : forall g hu words code tr,
  binary_parse g hu (fun _ _ => SPV_SUCCESS) words = Some (code, tr) -> tr <> [] ->
  exists e l, binary_endianness words = Some e /\ insts_of tr = l /\
    exists n, (n <= length words - 5)%nat /\ flat_map i_words l = firstn n (host_words e (skipn 5 words)) /\
      (code = SPV_SUCCESS -> n = (length words - 5)%nat).
Proof.
  intros g hu words code tr H Ne.
  destruct (binary_parse_finished _ _ _ _ _ _ H) as [[-> X]|(e & m & v & ge & b & s & BE & _ & L5 & st & l & I & D)];
    [contradiction|].
  exists e, l. split; [exact BE|]. destruct I as (-> & Lo & W & _).
  split; [apply insts_of_map; intros i X; discriminate X|].
  exists (end_of 5 l - 5)%nat. pose proof (located_end _ _ _ l 5 L5 Lo). split; [lia|].
  split.
  - rewrite (located_words _ _ _ _ _ Lo). unfold host_words. rewrite firstn_map. reflexivity.
  - intro Sc. destruct D as [(_ & Wi & _)|[[X _]|[X _]]]; [lia|congruence|congruence].
Qed.

Example failing_callback_sample :
  let cb := fun tr (ev : event) => if (length tr =? 2)%nat then (-7)%Z else SPV_SUCCESS in
  exists tr, binary_parse toy true cb sample = Some ((-7)%Z, tr) /\ length tr = 3%nat.
Proof. vm_compute. eexists. split; reflexivity. Qed.

Print Assumptions binary_parse_total.
Print Assumptions reported_words_are_the_module.
Print Assumptions reported_words_are_a_prefix.
Print Assumptions reported_instructions_are_tiled.
Print Assumptions reported_operand_count.
Print Assumptions parse_endian_independent_refuted.
Print Assumptions parse_endian_independent_partial.
Print Assumptions result_ids_unique.
Print Assumptions reported_ids_match_operands.
Print Assumptions id_operands_non_zero.
Print Assumptions duplicate_result_id_rejected.
Print Assumptions callbacks_stop_at_first_failure.
Print Assumptions callbacks_only_cut_the_run.
Print Assumptions error_reports_preceding_instructions.
