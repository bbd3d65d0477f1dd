(** Property C22: compacting ids renames the ids of a module to 1..n and changes nothing else. *)
From Coq Require FinFun.
From Verif Require Import Base OperandTypes IrModule CompactIds IrSpec CompactIdsProofs.
Local Open Scope N_scope.

(** A module whose trailing line instructions refer to no id. *)
Definition no_trailing_ids (m : ir_module) : Prop := Forall (fun l => line_ids l = []) (trailing m).

(** The numbers 1..n. *)
Definition one_to (n : nat) : list N := map N.of_nat (seq 1 n).

(** [m'] is [m] with the ids renamed, in order of first occurrence, to 1, 2, 3, ... *)
Definition renumbered (m m' : ir_module) : Prop :=
  let ids := first_occurrences [] (insts_ids (insts m)) in
  exists f,
    map f ids = one_to (length ids) /\
    insts m' = map (rename_inst f) (insts m) /\
    trailing m' = map (rename_line f) (trailing m) /\
    bound m' = N.of_nat (length ids) + 1.

Lemma one_to_values n : one_to n = map (fun i => N.of_nat i + 1) (seq 0 n).
Proof. unfold one_to. rewrite <- seq_shift, map_map. apply map_ext. intro. lia. Qed.

Lemma rename_line_no_ids f l : line_ids l = [] -> rename_line f l = l.
Proof.
  unfold line_ids. intro H. apply app_eq_nil in H as [H1 H2]. apply app_eq_nil in H2 as [H2 H3].
  destruct l as [oc ops sc il]; unfold rename_line; simpl in *.
  assert (Hs : forall x, scope_ids x = [] -> rename_scope f x = x).
  { intro x. unfold scope_ids, rename_scope. destruct (N.eqb_spec x 0); [congruence | discriminate]. }
  rewrite (Hs _ H2), (Hs _ H3). f_equal. clear -H1.
  induction ops as [|[t ws] ops IH]; [reflexivity|]. simpl in *. apply app_eq_nil in H1 as [Ho H1].
  rewrite (IH H1). f_equal. unfold operand_ids, rename_operand in *. simpl in *.
  destruct (is_id_type t); [subst; reflexivity | reflexivity].
Qed.

Lemma compact_ids_core m : Forall well_formed_inst (insts m) ->
  exists m' changed f, compact_ids m = Some (m', changed) /\
    (let ids := first_occurrences [] (insts_ids (insts m)) in
     map f ids = one_to (length ids) /\ bound m' = N.of_nat (length ids) + 1) /\
    insts m' = map (rename_inst f) (insts m) /\ trailing m' = trailing m /\ (changed = false <-> m' = m).
Proof.
  intro Hw. unfold compact_ids.
  destruct (compact_insts_stage (insts m) [] Hw) as (mp & is & b & E & (X & K & V & F) & R & M). rewrite E.
  eexists _, _, (f_of mp). split; [reflexivity|]. cbn [insts trailing bound]. simpl in K.
  assert (L : length mp = length (first_occurrences [] (insts_ids (insts m)))).
  { rewrite <- K. unfold keys. rewrite map_length. reflexivity. }
  split; [|split; [|split]].
  - cbn zeta. rewrite <- L, <- K. split; [|reflexivity].
    rewrite map_f_of by (rewrite K; apply first_occurrences_spec). rewrite one_to_values. apply V. reflexivity.
  - apply R. apply ext_refl.
  - reflexivity.
  - rewrite orb_false_iff, negb_false_iff, N.eqb_eq, M. destruct m as [is0 tr0 b0]; simpl. split.
    + intros [-> ->]. reflexivity.
    + intro H. inversion H; auto.
Qed.

(** ** C22 *)
Theorem compact_ids_renumbers_partial : forall m,
  Forall well_formed_inst (insts m) -> no_trailing_ids m ->
  exists m' changed,
    compact_ids m = Some (m', changed) /\ renumbered m m' /\ (changed = true <-> m' <> m).
Proof.
  intros m Hw Ht. destruct (compact_ids_core m Hw) as (m' & c & f & E & [Hf Hb] & Hi & Htr & Hc).
  exists m', c. split; [exact E|]. split.
  - exists f. split; [exact Hf|]. split; [exact Hi|]. split; [|exact Hb].
    rewrite Htr. clear -Ht. unfold no_trailing_ids in Ht. induction Ht as [|l ls Hl _ IH]; [reflexivity|].
    simpl. rewrite <- IH, rename_line_no_ids by exact Hl. reflexivity.
  - destruct c; [|].
    + split; [intros _ H; apply Hc in H; discriminate | reflexivity].
    + split; [discriminate | intro H; exfalso; apply H, Hc; reflexivity].
Qed.

(** What renumbering means for the ids: distinct ids stay distinct, and the ids used are exactly those
    below the new bound. *)
Lemma renumbered_f (ids : list N) (f : N -> N) : map f ids = one_to (length ids) -> NoDup ids ->
  (forall x y, In x ids -> In y ids -> f x = f y -> x = y) /\
  (forall v, In v (map f ids) <-> 1 <= v < N.of_nat (length ids) + 1).
Proof.
  intros H Hn. split.
  - assert (Hnd : NoDup (map f ids)).
    { rewrite H. unfold one_to. apply FinFun.Injective_map_NoDup; [intros a b He; lia | apply seq_NoDup]. }
    clear H. induction ids as [|a ids IH]; [intros ? ? []|].
    inversion Hn; inversion Hnd; subst. intros x y [->|Hx] [->|Hy] He; auto.
    + exfalso. apply H5. rewrite He. apply in_map. exact Hy.
    + exfalso. apply H5. rewrite <- He. apply in_map. exact Hx.
  - intro v. rewrite H. unfold one_to. rewrite in_map_iff. split.
    + intros (i & <- & Hi). apply in_seq in Hi. lia.
    + intro Hv. exists (N.to_nat v). split; [lia|]. apply in_seq. lia.
Qed.

Lemma rename_scope_ids f x : f x <> 0 -> scope_ids (rename_scope f x) = map f (scope_ids x).
Proof.
  unfold scope_ids, rename_scope. destruct (N.eqb_spec x 0); [reflexivity|]. intro Hf.
  destruct (N.eqb_spec (f x) 0); [contradiction | reflexivity].
Qed.
Lemma rename_operand_ids f o : operand_ids (rename_operand f o) = map f (operand_ids o).
Proof. unfold operand_ids, rename_operand. destruct o as [t ws]. simpl. destruct (is_id_type t) eqn:E; simpl; rewrite ?E; reflexivity. Qed.
Lemma flat_map_map_ids {A} (ids : A -> list N) (r : A -> A) f l :
  (forall x, In x l -> ids (r x) = map f (ids x)) -> flat_map ids (map r l) = map f (flat_map ids l).
Proof.
  induction l as [|x l IH]; intro H; [reflexivity|]. simpl. rewrite map_app, (H x) by (left; reflexivity).
  rewrite IH; [reflexivity|]. intros y Hy. apply H. right. exact Hy.
Qed.
Lemma scope_rename_ids f x : (forall y, In y (scope_ids x) -> f y <> 0) -> scope_ids (rename_scope f x) = map f (scope_ids x).
Proof.
  intro H. destruct (N.eqb_spec x 0) as [->|Hx]; [reflexivity|]. apply rename_scope_ids. apply H.
  unfold scope_ids. destruct (N.eqb_spec x 0); [contradiction | left; reflexivity].
Qed.
Lemma rename_line_ids f l : (forall x, In x (line_ids l) -> f x <> 0) -> line_ids (rename_line f l) = map f (line_ids l).
Proof.
  intro H. unfold line_ids in *. cbn [operands lexical_scope inlined_at rename_line].
  rewrite !map_app, (flat_map_map_ids operand_ids (rename_operand f) f) by (intros; apply rename_operand_ids).
  rewrite !scope_rename_ids; [reflexivity | |]; intros y Hy; apply H; rewrite !in_app_iff; auto.
Qed.
Lemma rename_inst_ids f i : (forall x, In x (inst_ids i) -> f x <> 0) -> inst_ids (rename_inst f i) = map f (inst_ids i).
Proof.
  intro H. unfold inst_ids in *. cbn [lines body rename_inst].
  rewrite map_app, rename_line_ids by (intros x Hx; apply H; apply in_app_iff; auto).
  rewrite (flat_map_map_ids line_ids (rename_line f) f); [reflexivity|].
  intros l Hl. apply rename_line_ids. intros x Hx. apply H. apply in_app_iff. left. apply in_flat_map. eauto.
Qed.
Lemma rename_insts_ids f is : (forall x, In x (insts_ids is) -> f x <> 0) ->
  insts_ids (map (rename_inst f) is) = map f (insts_ids is).
Proof.
  intro H. apply flat_map_map_ids. intros i Hi. apply rename_inst_ids. intros x Hx. apply H.
  apply in_flat_map. eauto.
Qed.

Lemma first_occurrences_map f : forall ids seen,
  (forall x y, In x (seen ++ ids) -> In y (seen ++ ids) -> f x = f y -> x = y) ->
  first_occurrences (map f seen) (map f ids) = map f (first_occurrences seen ids).
Proof.
  induction ids as [|x ids IH]; intros seen Hinj; [reflexivity|]. simpl.
  assert (E : existsb (N.eqb (f x)) (map f seen) = existsb (N.eqb x) seen).
  { apply eq_true_iff_eq. rewrite !existsb_exists. split.
    - intros (y & Hy & He). apply in_map_iff in Hy as (z & <- & Hz). apply N.eqb_eq in He.
      exists z. split; [exact Hz|]. apply N.eqb_eq. apply Hinj; [| |exact He]; apply in_app_iff; simpl; auto.
    - intros (y & Hy & He). apply N.eqb_eq in He. subst y. exists (f x).
      split; [apply in_map; exact Hy | apply N.eqb_refl]. }
  rewrite E. destruct (existsb (N.eqb x) seen).
  - apply IH. intros a b Ha Hb. apply Hinj; rewrite in_app_iff in *; simpl; tauto.
  - simpl. f_equal. rewrite <- IH; [rewrite map_app; reflexivity|].
    intros a b Ha Hb. apply Hinj; rewrite !in_app_iff in *; simpl in *; tauto.
Qed.

Lemma map_id_on {A} (r : A -> A) l : (forall x, In x l -> r x = x) -> map r l = l.
Proof.
  induction l as [|x l IH]; intro H; [reflexivity|]. simpl. rewrite (H x) by (left; reflexivity).
  rewrite IH; [reflexivity|]. intros; apply H; right; assumption.
Qed.
Lemma rename_line_id f l : (forall x, In x (line_ids l) -> f x = x) -> rename_line f l = l.
Proof.
  intro H. unfold line_ids in H. destruct l as [oc ops sc il]; unfold rename_line; simpl in *.
  assert (Hs : forall s, (forall x, In x (scope_ids s) -> f x = x) -> rename_scope f s = s).
  { intros s Hs. unfold scope_ids, rename_scope in *. destruct (N.eqb_spec s 0); [congruence | apply Hs; left; reflexivity]. }
  rewrite !Hs by (intros x Hx; apply H; rewrite !in_app_iff; auto). f_equal.
  apply map_id_on. intros [t ws] Ho. unfold rename_operand. simpl. destruct (is_id_type t) eqn:Et; [|reflexivity].
  f_equal. apply map_id_on. intros x Hx. apply H. rewrite !in_app_iff. left. apply in_flat_map.
  exists (t, ws). split; [exact Ho|]. unfold operand_ids. simpl. rewrite Et. exact Hx.
Qed.
Lemma rename_inst_id f i : (forall x, In x (inst_ids i) -> f x = x) -> rename_inst f i = i.
Proof.
  intro H. unfold inst_ids in H. destruct i as [b ls]; unfold rename_inst; simpl in *. f_equal.
  - apply rename_line_id. intros. apply H. apply in_app_iff. auto.
  - apply map_id_on. intros l Hl. apply rename_line_id. intros x Hx. apply H. apply in_app_iff. left.
    apply in_flat_map. eauto.
Qed.

Lemma rename_well_formed f i : (forall x, In x (inst_ids i) -> f x <> 0) -> well_formed_inst i -> well_formed_inst (rename_inst f i).
Proof.
  intros Hz (H1 & H2 & H3 & H4).
  assert (W : forall l, ids_are_words l -> ids_are_words (rename_line f l)).
  { intros l Hl. unfold ids_are_words in *. cbn [operands rename_line]. apply Forall_map.
    eapply Forall_impl; [|exact Hl]. intros [t ws]. unfold rename_operand. simpl.
    destruct (is_id_type t) eqn:E; simpl; [rewrite map_length; auto | intros; congruence]. }
  assert (Z : forall s, rename_scope f s <> 0 -> s <> 0).
  { intros s Hs ->. apply Hs. reflexivity. }
  split; [apply W; exact H1|]. split; [|split].
  - cbn [lines rename_inst]. apply Forall_map. eapply Forall_impl; [|exact H2]. exact W.
  - cbn [lines body rename_inst lexical_scope rename_line]. intro Hs. apply Forall_map.
    eapply Forall_impl; [|exact (H3 (Z _ Hs))]. intros l Hl. cbn [lexical_scope rename_line]. rewrite Hl. reflexivity.
  - cbn [lines body rename_inst inlined_at rename_line]. intro Hs. apply Forall_map.
    eapply Forall_impl; [|exact (H4 (Z _ Hs))]. intros l Hl. cbn [inlined_at rename_line]. rewrite Hl. reflexivity.
Qed.

(** ** C22: compacting a second time changes nothing and says so (no condition on trailing lines). *)
Theorem compact_ids_idempotent : forall m m' changed,
  Forall well_formed_inst (insts m) ->
  compact_ids m = Some (m', changed) -> compact_ids m' = Some (m', false).
Proof.
  intros m m' c Hw E. destruct (compact_ids_core m Hw) as (m1 & c1 & f & E1 & [Hf Hb] & Hi & Ht & Hc).
  rewrite E in E1. inversion E1; subst m1 c1; clear E1.
  set (ids := first_occurrences [] (insts_ids (insts m))) in *.
  destruct (first_occurrences_spec (insts_ids (insts m)) []) as [Hnd Hin]. fold ids in Hnd, Hin.
  destruct (renumbered_f ids f Hf Hnd) as [Hinj Hrange].
  assert (In_ids : forall x, In x (insts_ids (insts m)) -> In x ids) by (intros x Hx; apply Hin; auto).
  assert (Hnz : forall x, In x (insts_ids (insts m)) -> f x <> 0).
  { intros x Hx. pose proof (proj1 (Hrange (f x)) (in_map f _ _ (In_ids x Hx))). lia. }
  assert (Hids' : insts_ids (insts m') = map f (insts_ids (insts m))) by (rewrite Hi; apply rename_insts_ids; exact Hnz).
  assert (Hocc : first_occurrences [] (insts_ids (insts m')) = one_to (length ids)).
  { rewrite Hids', <- Hf. apply (first_occurrences_map f _ []). simpl. intros x y Hx Hy. apply Hinj; auto. }
  assert (Hw' : Forall well_formed_inst (insts m')).
  { rewrite Hi. apply Forall_map. rewrite Forall_forall in *. intros i Hi'. apply rename_well_formed; [|auto].
    intros x Hx. apply Hnz. apply in_flat_map. eauto. }
  destruct (compact_ids_core m' Hw') as (m2 & c2 & g & E2 & [Hg Hb2] & Hi2 & Ht2 & Hc2).
  rewrite Hocc in Hg, Hb2.
  assert (Lo : length (one_to (length ids)) = length ids) by (unfold one_to; rewrite map_length, seq_length; reflexivity).
  rewrite Lo in Hg, Hb2.
  assert (Hgid : forall x, In x (insts_ids (insts m')) -> g x = x).
  { intros x Hx. assert (Hxo : In x (one_to (length ids))) by (rewrite <- Hocc; apply first_occurrences_spec; auto).
    clear -Hg Hxo. revert Hg Hxo. generalize (one_to (length ids)). intros l H. induction l as [|a l IH]; [intros []|].
    simpl in H. inversion H as [[H1 H2]]. intros [He|Hx]; [congruence | apply IH; congruence]. }
  assert (m2 = m').
  { destruct m2 as [is2 tr2 b2], m' as [is' tr' b']; simpl in *. subst tr2. rewrite Hi2, Hb2, Hb. f_equal.
    apply map_id_on. intros i Hi'. apply rename_inst_id. intros x Hx. apply Hgid. apply in_flat_map. eauto. }
  subst m2. rewrite E2. f_equal. f_equal. apply Hc2. reflexivity.
Qed.

(** ** C22 fails for trailing line instructions: an id used there is not renamed, although its definition
    is.  OpString is opcode 7, OpLine opcode 8. *)
Definition trailing_witness : ir_module :=
  mkModule [mkInst (mkLine 7 [(T_RESULT_ID, [5]); (T_LITERAL_STRING, [97])] 0 0) []]
    [mkLine 8 [(T_ID, [5]); (T_LITERAL_INTEGER, [1]); (T_LITERAL_INTEGER, [1])] 0 0] 6.
Theorem compact_ids_trailing_lines_refuted : exists m m' changed id,
  Forall well_formed_inst (insts m) /\ compact_ids m = Some (m', changed) /\
  In id (flat_map line_ids (trailing m)) /\ In id (insts_ids (insts m)) /\
  In id (flat_map line_ids (trailing m')) /\ ~ In id (insts_ids (insts m')) /\ bound m' <= id.
Proof.
  exists trailing_witness. eexists _, _, 5. split; [|split; [vm_compute; reflexivity|]].
  - repeat constructor; simpl; auto; intros; try congruence.
  - vm_compute. intuition (discriminate || congruence).
Qed.

(** The hypotheses hold of a module with a line, a scope and a repeated id. *)
Definition compact_example : ir_module :=
  mkModule
    [mkInst (mkLine 7 [(T_RESULT_ID, [50]); (T_LITERAL_STRING, [97])] 0 0) [];
     mkInst (mkLine 19 [(T_RESULT_ID, [9])] 0 0) [];
     mkInst (mkLine 128 [(T_TYPE_ID, [9]); (T_RESULT_ID, [7]); (T_ID, [9]); (T_ID, [7])] 30 31)
       [mkLine 8 [(T_ID, [50]); (T_LITERAL_INTEGER, [50]); (T_LITERAL_INTEGER, [9])] 30 31]] [] 100.
Example compact_example_ok :
  Forall well_formed_inst (insts compact_example) /\ no_trailing_ids compact_example /\
  compact_ids compact_example = Some
    (mkModule
      [mkInst (mkLine 7 [(T_RESULT_ID, [1]); (T_LITERAL_STRING, [97])] 0 0) [];
       mkInst (mkLine 19 [(T_RESULT_ID, [2])] 0 0) [];
       mkInst (mkLine 128 [(T_TYPE_ID, [2]); (T_RESULT_ID, [5]); (T_ID, [2]); (T_ID, [5])] 3 4)
         [mkLine 8 [(T_ID, [1]); (T_LITERAL_INTEGER, [50]); (T_LITERAL_INTEGER, [9])] 3 4]] [] 6, true).
Proof.
  split; [|split; [constructor | vm_compute; reflexivity]].
  repeat constructor; simpl; auto; intros; try congruence.
Qed.

Print Assumptions compact_ids_renumbers_partial.
Print Assumptions compact_ids_idempotent.
Print Assumptions compact_ids_trailing_lines_refuted.
