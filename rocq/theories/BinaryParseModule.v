(** Module-level proofs about the binary parser model. *)
From Verif Require Import Base Words WordsProofs Operand OperandProofs BinaryParse ParseSpec BinaryParseProofs.
Local Open Scope N_scope.

Section Module.
Variable g : grammar.
Variable hu : bool.
Variable cb : callbacks.
Variable words : list N.
Variable e : endianness.

(** The instructions lie one after the other from word [pos] on. *)
Fixpoint located (pos : nat) (l : list pinst) : Prop :=
  match l with
  | [] => True
  | i :: r => good_inst hu words e pos i /\ located (pos + N.to_nat (i_num_words i)) r
  end.
Fixpoint end_of (pos : nat) (l : list pinst) : nat :=
  match l with [] => pos | i :: r => end_of (pos + N.to_nat (i_num_words i)) r end.
Lemma located_app l i : forall pos, located pos l -> good_inst hu words e (end_of pos l) i -> located pos (l ++ [i]).
Proof. induction l; simpl; intros pos L G; auto. destruct L. auto. Qed.
Lemma end_of_app l i : forall pos, end_of pos (l ++ [i]) = (end_of pos l + N.to_nat (i_num_words i))%nat.
Proof. induction l; simpl; auto. Qed.
Lemma end_of_ge l : forall pos, (pos <= end_of pos l)%nat.
Proof. induction l as [|i l IH]; simpl; intros; auto. specialize (IH (pos + N.to_nat (i_num_words i))%nat). lia. Qed.
Lemma located_words l : forall pos, located pos l ->
  flat_map i_words l = host_words e (slice words pos (end_of pos l)).
Proof.
  induction l as [|i l IH]; intros pos L; simpl.
  - unfold slice. rewrite Nat.sub_diag. reflexivity.
  - destruct L as [G L]. rewrite (IH _ L). destruct G as (_ & _ & _ & -> & _).
    unfold host_words. rewrite <- map_app. f_equal. apply slice_app; [lia|apply end_of_ge].
Qed.
Lemma located_in l i : forall pos, located pos l -> In i l -> exists p, good_inst hu words e p i.
Proof. induction l as [|a l IH]; simpl; intros pos L I; [contradiction|]. destruct L, I as [->|I]; eauto. Qed.

Definition result_ids (l : list pinst) : list N := filter (fun r => negb (r =? 0)) (map i_result_id l).

Definition inv (hdr : event) (st : pstate) (tr : list event) (l : list pinst) : Prop :=
  tr = hdr :: map EInst l /\ located 5 l /\ word_index st = end_of 5 l /\
  NoDup (result_ids l) /\ (forall r, In r (result_ids l) -> id_to_type_id st r <> None) /\
  NoDup (flat_map (words_of_type T_RESULT_ID) l) /\
  (forall r, In r (flat_map (words_of_type T_RESULT_ID) l) -> id_to_type_id st r <> None).
Definition all_ok (tr : list event) : Prop :=
  forall k ev, nth_error tr k = Some ev -> cb (firstn k tr) ev = SPV_SUCCESS.

Lemma NoDup_app' {A} (a b : list A) : NoDup a -> NoDup b -> (forall x, In x a -> ~ In x b) -> NoDup (a ++ b).
Proof.
  intros Ha Hb D. induction a as [|x a IH]; simpl; auto. inversion Ha; subst. constructor.
  - intro I. apply in_app_or in I. destruct I as [I|I]; [auto|]. eapply D; [left; reflexivity|exact I].
  - apply IH; auto. intros y I. apply D. right; auto.
Qed.

Lemma inv_step hdr st tr l i st' : inv hdr st tr l -> good_inst hu words e (word_index st) i ->
  ids_step st st' i -> word_index st' = (word_index st + N.to_nat (i_num_words i))%nat ->
  inv hdr st' (tr ++ [EInst i]) (l ++ [i]).
Proof.
  intros (T & L & W & N & D & N2 & D2) G (Mono & Res & Nd & Fresh) W'. unfold inv.
  split; [rewrite T; simpl; rewrite map_app; reflexivity|].
  split; [apply located_app; auto; rewrite <- W; exact G|].
  split; [rewrite end_of_app; lia|].
  assert (Two : NoDup (flat_map (words_of_type T_RESULT_ID) (l ++ [i])) /\
    (forall r, In r (flat_map (words_of_type T_RESULT_ID) (l ++ [i])) -> id_to_type_id st' r <> None)).
  { rewrite flat_map_app. simpl. rewrite app_nil_r. split.
    - apply NoDup_app'; auto. intros r I1 I2. apply D2 in I1. apply Fresh in I2. tauto.
    - intros r I. apply in_app_or in I. destruct I as [I|I]; [auto|apply Fresh; exact I]. }
  rewrite <- and_assoc. split; [|exact Two].
  unfold result_ids in *. rewrite map_app, filter_app. simpl.
  destruct (N.eqb_spec (i_result_id i) 0) as [Z|NZ]; simpl.
  - rewrite app_nil_r. split; auto.
  - destruct Res as [|[Un Def]]; [contradiction|]. split.
    + apply NoDup_snoc; auto. intro I. apply D in I. contradiction.
    + intros r I. apply in_app_or in I. destruct I as [I|[<-|[]]]; auto.
Qed.

Lemma all_ok_snoc tr ev : all_ok tr -> cb tr ev = SPV_SUCCESS -> all_ok (tr ++ [ev]).
Proof.
  intros A C k x H. destruct (lt_eq_lt_dec k (length tr)) as [[L|L]|L].
  - rewrite nth_error_app1 in H by lia. rewrite firstn_app. replace (k - length tr)%nat with O by lia.
    rewrite app_nil_r. apply A; auto.
  - subst k. rewrite nth_error_app2, Nat.sub_diag in H by lia. injection H as <-.
    rewrite firstn_app, firstn_all, Nat.sub_diag. simpl. rewrite app_nil_r. exact C.
  - exfalso. assert (k < length (tr ++ [ev]))%nat by (apply nth_error_Some; congruence).
    rewrite app_length in *. simpl in *. lia.
Qed.

(** The end of a run: success at the end of the buffer, a parse error, or a failing callback. *)
Definition finished (hdr : event) (code : Z) (tr : list event) : Prop :=
  exists st l, inv hdr st tr l /\
    ((code = SPV_SUCCESS /\ word_index st = length words /\ all_ok tr) \/
     (code <> SPV_SUCCESS /\ all_ok tr) \/
     (code <> SPV_SUCCESS /\ exists tr0 ev, tr = tr0 ++ [ev] /\ all_ok tr0 /\ cb tr0 ev = code)).

Lemma located_end l : forall pos, (pos <= length words)%nat -> located pos l -> (end_of pos l <= length words)%nat.
Proof. induction l as [|i l IH]; simpl; intros pos H L; auto. destruct L as [(_ & _ & B & _) L]. apply IH; auto. Qed.

Lemma module_loop_finished hdr : (5 <= length words)%nat -> forall fuel st tr l code tr',
  inv hdr st tr l -> all_ok tr ->
  module_loop g hu cb words e fuel st tr = Some (code, tr') -> finished hdr code tr'.
Proof.
  intro L5. induction fuel as [|f IH]; intros st tr l code tr' I A H; cbn [module_loop] in H.
  all: destruct (Nat.ltb_spec (word_index st) (length words)) as [Lt|Ge];
    [|injection H as <- <-; exists st, l; split; [exact I|]; left; split; [reflexivity|]; split; [|exact A];
      destruct I as (_ & Lo & W & _); pose proof (located_end l 5 L5 Lo); lia].
  - discriminate.
  - pose proof (parse_instruction_ok g hu cb words e st tr) as P. cbv zeta in P.
    destruct P as [P|[(c & Hc & P)|(i & st' & G & Ids & W' & P)]]; rewrite P in H.
    + discriminate.
    + injection H as <- <-. exists st, l. split; auto.
    + pose proof (inv_step _ _ _ _ _ _ I G Ids W') as I'.
      unfold call in H. cbv zeta in H. destruct (Z.eqb_spec (cb tr (EInst i)) SPV_SUCCESS) as [Z|NZ].
      * eapply IH; eauto. apply all_ok_snoc; auto.
      * injection H as <- <-. exists st', (l ++ [i]). split; auto. right; right. split; auto.
        exists tr, (EInst i). auto.
Qed.

(** *** never stuck *)
Hypothesis Wok : Forall word_ok words.
Hypothesis G : grammar_ok g.

Lemma parse_op_simple io op ty st c st' c' : (io < word_index st)%nat ->
  ty = T_RESULT_ID \/ ty = T_LITERAL_INTEGER ->
  parse_operand g hu words e io op ty st c = Ok (st', c') ->
  c_exp c' = c_exp c /\ word_index st' = S (word_index st).
Proof.
  intros L Ty H. unfold parse_operand in H.
  destruct (_ <=? _)%nat; [discriminate|]. destruct (peek_at _ _ _) as [word|]; [|discriminate].
  destruct (parse_operand_switch g hu words e io op ty word st c) as [[[st1 c1] o]|?|] eqn:S; try discriminate.
  assert (X : c_exp c1 = c_exp c /\ o_num_words o = 1 /\ word_index st1 = word_index st).
  { clear H. unfold parse_operand_switch in S.
    destruct Ty as [-> | ->]; unfold parse_operand_switch_with in S; cbv zeta in S; brk S;
      injection S as <- <- <-; auto. }
  destruct X as (X1 & X2 & X3). cbv zeta in H. destruct (_ <? _)%nat; [discriminate|].
  injection H as <- <-. cbn [c_exp word_index]. rewrite X2, X3. split; auto. change (N.to_nat 1) with 1%nat. lia.
Qed.

Lemma type_int_words io op wc w z st c st' c' : c_exp c = [T_RESULT_ID; T_LITERAL_INTEGER; T_LITERAL_INTEGER] ->
  word_index st = S io ->
  operand_loop g hu words e io op wc w z st c = LDone st' c' ->
  match c_exp c' with [] => false | t :: _ => negb (is_optional t) end = false -> (io + 4 <= word_index st')%nat.
Proof.
  intros Ex W OL End.
  pose proof (operand_loop_inv g hu words e io op wc (fun s d => 
    (c_exp d = [T_RESULT_ID; T_LITERAL_INTEGER; T_LITERAL_INTEGER] /\ word_index s = S io) \/
    (c_exp d = [T_LITERAL_INTEGER; T_LITERAL_INTEGER] /\ word_index s = S (S io)) \/
    (c_exp d = [T_LITERAL_INTEGER] /\ word_index s = S (S (S io))) \/
    (c_exp d = [] /\ word_index s = S (S (S (S io)))))) as I.
  cbv beta in I. specialize (fun X => I X w z st c (or_introl (conj Ex W))). rewrite OL in I.
  destruct I as [[[X Y]|[[X Y]|[[X Y]|[X Y]]]] _].
  - intros s d ty p s' d' [[X Y]|[[X Y]|[[X Y]|[X Y]]]] _ T P; rewrite X in T; try discriminate T;
      vm_compute in T; injection T as <- <-; (apply parse_op_simple in P; [|lia|auto]);
      cbn [c_exp with_exp] in P; destruct P as [P1 P2]; rewrite P1, P2, Y; auto 7.
  - rewrite X in End. discriminate.
  - rewrite X in End. discriminate.
  - rewrite X in End. discriminate.
  - lia.
Qed.

Lemma type_float_words io op wc w z st c r st' c' : c_exp c = T_RESULT_ID :: T_LITERAL_INTEGER :: r ->
  word_index st = S io ->
  operand_loop g hu words e io op wc w z st c = LDone st' c' ->
  match c_exp c' with [] => false | t :: _ => negb (is_optional t) end = false -> (io + 3 <= word_index st')%nat.
Proof.
  intros Ex W OL End.
  pose proof (operand_loop_inv g hu words e io op wc (fun s d => 
    (c_exp d = T_RESULT_ID :: T_LITERAL_INTEGER :: r /\ word_index s = S io) \/
    (c_exp d = T_LITERAL_INTEGER :: r /\ word_index s = S (S io)) \/
    (S (S (S io)) <= word_index s)%nat)) as I.
  cbv beta in I. specialize (fun X => I X w z st c (or_introl (conj Ex W))). rewrite OL in I.
  destruct I as [[[X Y]|[[X Y]|X]] _].
  - intros s d ty p s' d' [[X Y]|[[X Y]|X]] _ T P.
    + rewrite X in T. vm_compute in T. injection T as <- <-. apply parse_op_simple in P; [|lia|auto].
      cbn [c_exp with_exp] in P. destruct P as [P1 P2]. rewrite P1, P2, Y. auto.
    + rewrite X in T. vm_compute in T. injection T as <- <-. apply parse_op_simple in P; [|lia|auto].
      cbn [c_exp with_exp] in P. destruct P as [P1 P2]. rewrite P2, Y. auto.
    + apply parse_op_ok in P; [|lia]. destruct P as (? & ? & _ & _ & (P & _) & _). right; right. lia.
  - rewrite X in End. discriminate.
  - rewrite X in End. discriminate.
  - lia.
Qed.

Lemma parse_instruction_not_stuck st tr : (word_index st < length words)%nat ->
  parse_instruction g hu cb words e st tr <> IStuck.
Proof.
  intro L. unfold parse_instruction.
  destruct (peek_some words e Wok (word_index st) L) as [fw [Pk Fok]]. rewrite Pk.
  destruct (opcode_split fw) as [wc op] eqn:Sp.
  destruct (N.ltb_spec wc 1) as [|Hwc]; [discriminate|].
  cbv zeta.
  assert (EU : forall io s c, emit_as_unknown cb words e io fw op wc s c tr <> IStuck).
  { intros io s c. unfold emit_as_unknown.
    destruct (Nat.ltb_spec (length words) (io + N.to_nat wc)); [discriminate|].
    destruct (if requires_conversion e then peek_range words e (S io) (N.to_nat wc - 1) else Some []) eqn:R.
    - unfold call. cbv zeta. destruct (_ =? _)%Z; discriminate.
    - exfalso. destruct (requires_conversion e); [|discriminate].
      eapply peek_range_some; [|eassumption]. lia. }
  destruct (g_opcode g op) as [types|] eqn:Go.
  2:{ destruct (negb hu); [discriminate|apply EU]. }
  match goal with |- context [operand_loop ?a ?b ?c ?d ?io ?o ?wc ?n ?m ?s ?cc] =>
    pose proof (operand_loop_not_stuck a b c d Wok io o wc G n m s cc) as NS;
    pose proof (operand_loop_inv a b c d io o wc (linv words e io (id_to_type_id s))) as LI;
    set (s0 := s) in *; set (cc0 := cc) in *;
    destruct (operand_loop a b c d io o wc n m s0 cc0) as [st1 c1|code retry st1 c1|] eqn:OL end.
  - destruct (match c_exp c1 with [] => false | t :: _ => negb (is_optional t) end) eqn:End; [discriminate|].
    destruct (Nat.eqb_spec (word_index st + N.to_nat wc) (word_index st1)) as [Eq|]; simpl negb; cbv iota; [|discriminate].
    destruct (record_number_type g words e (word_index st) op wc (c_result c1) st1) as [st2|] eqn:RN.
    { unfold call. cbv zeta. destruct (_ =? _)%Z; discriminate. }
    exfalso.
    assert (I0 : linv words e (word_index st) (id_to_type_id s0) s0 cc0).
    { unfold linv, good_ops. unfold s0, cc0. cbn [word_index c_ops c_words c_result with_exp id_to_type_id].
      repeat match goal with |- _ /\ _ => split end; auto; try lia; try constructor.
      - change (1 = N.of_nat (S (word_index st) - word_index st)). lia.
      - unfold peek_at in Pk. destruct (nth_error words (word_index st)) as [w0|] eqn:N0; [|discriminate].
        injection Pk as <-. rewrite (slice_one _ _ _ N0). destruct (requires_conversion e); reflexivity.
      - intros k v H. congruence.
      - contradiction.
      - contradiction. }
    assert (Bd : (word_index st1 <= length words)%nat).
    { specialize (fun X => LI X (N.to_nat wc) (length (push_operand_types types [])) s0 cc0 I0).
      rewrite OL in LI. apply LI.
      intros; eapply linv_step; eauto. eapply split_wc; eauto. }
    destruct G as (_ & Gi & Gf).
    unfold record_number_type in RN. cbv zeta in RN.
    destruct (g_generates_type g op); [|discriminate].
    destruct (N.eqb_spec op OpTypeInt) as [->|].
    + specialize (Gi _ Go). subst types.
      assert (X : (word_index st + 4 <= word_index st1)%nat).
      { eapply type_int_words; [| |exact OL|exact End]; [reflexivity|reflexivity]. }
      destruct (peek_some words e Wok (word_index st + 3)) as [a [Pa _]]; [lia|].
      destruct (peek_some words e Wok (word_index st + 2)) as [b [Pb _]]; [lia|].
      rewrite Pa, Pb in RN. discriminate.
    + destruct (N.eqb_spec op OpTypeFloat) as [->|]; [|discriminate].
      destruct (Gf _ Go) as [r ->].
      assert (X : (word_index st + 3 <= word_index st1)%nat).
      { eapply type_float_words with (r := filter not_none r); [| |exact OL|exact End]; [|reflexivity].
        unfold cc0. cbn [c_exp with_exp]. rewrite push_operand_types_spec, app_nil_r. reflexivity. }
      destruct (peek_some words e Wok (word_index st + 2)) as [b [Pb _]]; [lia|]. rewrite Pb in RN.
      destruct (N.leb_spec 4 wc); [|discriminate].
      destruct (peek_some words e Wok (word_index st + 3)) as [a [Pa _]]; [lia|]. rewrite Pa in RN. discriminate.
  - destruct retry; [apply EU|discriminate].
  - exfalso. apply NS; [| | |reflexivity].
    + unfold s0. cbn [word_index]. lia.
    + unfold s0. cbn [word_index]. lia.
    + unfold cc0. cbn [c_exp with_exp]. apply lead_le.
Qed.

Lemma module_loop_not_stuck : forall fuel st tr, (length words - word_index st <= fuel)%nat ->
  module_loop g hu cb words e fuel st tr <> None.
Proof.
  induction fuel as [|f IH]; intros st tr H; cbn [module_loop];
    destruct (Nat.ltb_spec (word_index st) (length words)) as [Lt|Ge]; try discriminate; [lia|].
  pose proof (parse_instruction_not_stuck st tr Lt) as NS.
  pose proof (parse_instruction_ok g hu cb words e st tr) as P. cbv zeta in P.
  destruct P as [P|[(c & Hc & P)|(i & st' & Gi & Ids & W' & P)]]; rewrite P in *; try congruence.
  unfold call. cbv zeta. destruct (_ =? _)%Z; [|discriminate]. apply IH.
  destruct Gi as (_ & Gi & _). lia.
Qed.
End Module.

(** *** binary_parse *)
Lemma binary_parse_finished g hu cb words code tr : binary_parse g hu cb words = Some (code, tr) ->
  (tr = [] /\ code <> SPV_SUCCESS) \/
  exists e m v ge b s, binary_endianness words = Some e /\ header_get g words e = Some (m, v, ge, b, s) /\
    (5 <= length words)%nat /\ finished hu cb words e (EHeader e m v ge b s) code tr.
Proof.
  unfold binary_parse. intro H.
  destruct (Nat.ltb_spec (length words) 5) as [|L5]; [injection H as <- <-; left; split; [auto|discriminate]|].
  destruct (binary_endianness words) as [e|] eqn:BE; [|injection H as <- <-; left; split; [auto|discriminate]].
  destruct (header_get g words e) as [[[[[m v] ge] b] s]|] eqn:HG;
    [|injection H as <- <-; left; split; [auto|discriminate]].
  right. exists e, m, v, ge, b, s. split; [reflexivity|]. split; [exact HG|]. split; [exact L5|]. cbv zeta in H.
  set (hdr := EHeader e m v ge b s) in *.
  set (st0 := {| word_index := 5; id_to_type_id := fun _ => None;
                 number_info := fun _ => None; imports := fun _ => None |}) in *.
  assert (I0 : inv hu words e hdr st0 [hdr] []).
  { unfold inv. simpl. repeat split; auto; try constructor. }
  destruct (Z.eqb_spec (cb [] hdr) SPV_SUCCESS) as [Z|NZ]; simpl negb in H; cbv iota in H.
  - eapply module_loop_finished; [exact L5|exact I0| |exact H].
    intros [|k] ev Hk; [injection Hk as <-; exact Z|]. destruct k; discriminate.
  - injection H as <- <-. exists st0, []. split; [exact I0|]. right; right. split; [exact NZ|].
    exists [], hdr. repeat split. intros k ev Hk. destruct k; discriminate.
Qed.

Lemma binary_parse_not_stuck g hu cb words : grammar_ok g -> Forall word_ok words ->
  binary_parse g hu cb words <> None.
Proof.
  intros G W. unfold binary_parse. destruct (_ <? _)%nat; [discriminate|].
  destruct (binary_endianness words) as [e|]; [|discriminate].
  destruct (header_get g words e) as [[[[[m v] ge] b] s]|]; [|discriminate]. cbv zeta.
  destruct (negb _); [discriminate|]. apply module_loop_not_stuck; auto. cbn [word_index]. lia.
Qed.
