(** Proofs about the model of constant folding: the whole function. *)
From Verif Require Import Base Fold FoldSpec FoldProofs FoldProofs2 FoldProofs3 FoldProofs4 FoldProofs5.
Local Open Scope Z_scope.

Lemma mapf_nth {A B} (f : A -> fres B) l : forall r, mapf f l = FSome r ->
  length r = length l /\ forall d x, nth_error l d = Some x -> exists y, nth_error r d = Some y /\ f x = FSome y.
Proof.
  induction l as [|a l IH]; cbn; intros r E.
  - injection E as <-. split; [reflexivity|]. intros [|d] x; discriminate.
  - destruct (f a) as [| |b] eqn:Fa; try discriminate. cbn [fbind] in E.
    destruct (mapf f l) as [| |bs] eqn:M; try discriminate. cbn [fbind] in E. injection E as <-.
    destruct (IH _ eq_refl) as (L & H). split; [cbn; congruence|].
    intros [|d] x Hx; cbn in *; [injection Hx as <-; eauto|eauto].
Qed.

Lemma word_value e s w : foldable_scalar_ety e = true -> sconst_ok e s -> scalar_word s = FSome w ->
  sconst_value s = w.
Proof.
  intros F Ok E. destruct s as [b|w' s' ws|e']; cbn in E.
  - injection E as <-. destruct b; reflexivity.
  - cbn in Ok. destruct Ok as (-> & v & R & ->). cbn [foldable_scalar_ety] in F. apply Z.eqb_eq in F. subst w'.
    rewrite value_of_encode; [|right; right; left; reflexivity|exact R].
    assert (Q : get_u32_words (encode 32 s' v) = FSome (u32 v)).
    { unfold encode. cbn [Z.leb]. change (32 <=? 32) with true. cbv iota. unfold get_u32_words.
      destruct (s' && (2 ^ (32 - 1) <=? v)); cbn; unfold u32; f_equal; powers; lia. }
    rewrite Q in E. injection E as <-. unfold u32. rewrite Z.mod_small; auto.
  - injection E as <-. reflexivity.
Qed.

Section Whole.
Variables (m : fmodule) (id_map : N -> N).
Hypothesis Hm : module_ok m.
Hypothesis Hid : id_map_ok m id_map.

Lemma arg_known env id t : execution m id_map env -> fm_type m id = Some t -> foldable_scalar_type t = true ->
  known_as (fm_const m (id_map id)) (elem t) (component 0 (env id)).
Proof.
  intros X Ht F. destruct (fm_const m (id_map id)) as [c|] eqn:C; [|exact I].
  destruct t as [e|]; [|discriminate]. destruct (arg_const m id_map Hm Hid _ _ _ Ht C) as (_ & Ok).
  destruct c as [s| |]; try contradiction. exists s. split; [reflexivity|]. split; [exact Ok|].
  symmetry. apply (arg_comp m id_map Hm Hid env id (TScalar e) (CScalar s)); auto.
Qed.

Lemma scalar_args_words env args : forall ts l ws, execution m id_map env ->
  Forall2 (fun id t => fm_type m id = Some t) args ts ->
  Forall (fun t => foldable_scalar_type t = true) ts ->
  all_some (map (fun id => fm_const m (id_map id)) args) = Some l ->
  mapf (fun c => match c with CScalar s => scalar_word s | CNullVector _ _ => FSome 0 | CVector _ _ => FBad end) l = FSome ws ->
  ws = map (fun id => component 0 (env id)) args.
Proof.
  induction args as [|id args IH]; intros ts l ws X Ft Fs A M; inversion Ft as [|? t ? ts' T Ft']; subst.
  - cbn in A. injection A as <-. cbn in M. injection M as <-. reflexivity.
  - inversion Fs as [|? ? F Fs']; subst. pose proof (arg_known env id t X T F) as K.
    cbn [map all_some] in A. destruct (fm_const m (id_map id)) as [c|]; [|discriminate].
    destruct (all_some _) as [l'|] eqn:A'; [|discriminate]. injection A as <-.
    destruct K as (s & -> & Ok & V). cbn [mapf] in M.
    destruct (scalar_word s) as [| |w] eqn:W; try discriminate. cbn [fbind] in M.
    destruct (mapf _ l') as [| |ws'] eqn:M'; try discriminate. cbn [fbind] in M. injection M as <-.
    cbn [map]. f_equal; [|eapply IH; eauto].
    rewrite <- V. symmetry. destruct t as [e|]; [|discriminate]. exact (word_value e s w F Ok W).
Qed.

Lemma vector_args_words env args d : forall ts l ws, execution m id_map env ->
  Forall2 (fun id t => fm_type m id = Some t) args ts ->
  Forall (fun t => foldable_vector_type t = true /\ (d < dims t)%nat) ts ->
  all_some (map (fun id => fm_const m (id_map id)) args) = Some l ->
  mapf (vector_word d) l = FSome ws ->
  ws = map (fun id => component d (env id)) args.
Proof.
  induction args as [|id args IH]; intros ts l ws X Ft Fs A M; inversion Ft as [|? t ? ts' T Ft']; subst.
  - cbn in A. injection A as <-. cbn in M. injection M as <-. reflexivity.
  - inversion Fs as [|? ? (F & D) Fs']; subst.
    cbn [map all_some] in A. destruct (fm_const m (id_map id)) as [c|] eqn:C; [|discriminate].
    destruct (all_some _) as [l'|] eqn:A'; [|discriminate]. injection A as <-. cbn [mapf] in M.
    destruct (vector_word d c) as [| |w] eqn:W; try discriminate. cbn [fbind] in M.
    destruct (mapf _ l') as [| |ws'] eqn:M'; try discriminate. cbn [fbind] in M. injection M as <-.
    cbn [map]. f_equal; [|eapply IH; eauto].
    destruct (arg_const m id_map Hm Hid _ _ _ T C) as (Fk & Ok).
    destruct t as [|e n]; [discriminate|]. cbn [dims] in D.
    assert (L : length (comps c) = n) by (apply const_ok_comps in Ok; tauto).
    destruct (nth_error_in_range (comps c) d) as (s & Es); [lia|].
    rewrite (arg_comp m id_map Hm Hid env id (TVector e n) c d s X T C D Es).
    destruct c as [s0|e' l|e' n']; cbn in Ok; try contradiction.
    + cbn in W, Es. rewrite Es in W. destruct Ok as (<- & _ & Fo).
      pose proof (Forall_nth_error _ _ _ _ Fo Es) as Os.
      symmetry. apply (word_value e s w); auto. destruct s; auto; discriminate.
    + cbn in W. injection W as <-. cbn in Es. apply nth_error_In, repeat_spec in Es. subst s. reflexivity.
Qed.

Lemma typed_args env d ts : forall args, execution m id_map env ->
  Forall2 (fun id t => fm_type m id = Some t) args ts ->
  Forall (fun t => (d < dims t)%nat) ts ->
  typed_values ts (map (fun id => component d (env id)) args).
Proof.
  induction ts as [|t ts IH]; intros args X F D; inversion F as [|id ? args' ? T F']; subst; [constructor|].
  inversion D; subst. constructor; [|apply IH; auto].
  apply (arg_range m id_map env id t d X T). assumption.
Qed.
Lemma combine_args env d ts : forall args,
  Forall2 (fun id t => fm_type m id = Some t) args ts ->
  combine (map (fun t => ewidth (elem t)) ts) (map (fun id => component d (env id)) args) =
  map (fun id => (arg_width m id, component d (env id))) args.
Proof.
  induction ts as [|t ts IH]; intros args F; inversion F as [|id ? args' ? T F']; subst; [reflexivity|].
  cbn [map combine]. rewrite (arg_width_eq m id t T). f_equal. auto.
Qed.
Lemma satisfy_types p i ts : args_satisfy m p i = true ->
  Forall2 (fun id t => fm_type m id = Some t) (fi_args i) ts -> Forall (fun t => p t = true) ts.
Proof.
  unfold args_satisfy. intros H F. revert H. induction F as [|id t args ts' T F' IH]; intros H; constructor.
  - cbn in H. rewrite T in H. apply andb_prop in H. tauto.
  - cbn in H. apply andb_prop in H. tauto.
Qed.
Lemma well_typed_dims o r ts : well_typed o r ts -> foldable_vector_type r = true ->
  Forall (fun t => foldable_vector_type t = true) ts -> Forall (fun t => dims t = dims r) ts.
Proof.
  intros W Fr Ft.
  assert (G : forall t, same_shape r t -> dims t = dims r) by (intros t H; apply same_shape_dims in H; exact H).
  destruct o; try contradiction;
    (destruct ts as [|t1 [|t2 [|t3 [|t4 ts]]]]; try contradiction); cbn [well_typed] in W; unfold like in W;
    repeat match goal with W : _ /\ _ |- _ => destruct W end; subst;
    repeat match goal with F : Forall _ (_ :: _) |- _ => apply Forall_cons_iff in F; destruct F end;
    repeat constructor; auto.
  all: try (rewrite (same_shape_dims t1 t2) by assumption; auto).
  all: match goal with H : _ \/ _ |- _ => destruct H as [H| ->]; [auto|discriminate] end.
Qed.

Theorem fold_to_constant_right i c : inst_ok m i -> fold_to_constant m id_map i = FSome c ->
  folds_right m id_map i c.
Proof.
  intros Ok E. unfold fold_to_constant in E. cbv zeta in E.
  destruct (const_rules m i (map (fun id => fm_const m (id_map id)) (fi_args i))) as [| |c'] eqn:R; [|discriminate|].
  2:{ injection E as <-. destruct (const_rules_right m id_map Hm Hid i c' Ok R) as (Wr & Fr).
      apply retype_right; auto. }
  clear R. destruct Ok as (Ft & ts & Fts & Wt).
  destruct (foldable_by_scalar m i) eqn:FS.
  - unfold foldable_by_scalar in FS. apply andb_prop in FS. destruct FS as (FS & Sa). apply andb_prop in FS. destruct FS as (Fo & Fr).
    pose proof (satisfy_types _ _ _ Sa Fts) as St.
    destruct (fi_type i) as [e|] eqn:Ty; [|discriminate].
    assert (Es : Forall (fun t => foldable_scalar_ety (elem t) = true) ts).
    { eapply Forall_impl; [|exact St]. intros [e'|]; cbn; auto. discriminate. }
    assert (Ds : Forall (fun t => (0 < dims t)%nat) ts).
    { eapply Forall_impl; [|exact St]. intros [e'|]; cbn; auto. discriminate. }
    destruct (match all_some _ with Some l => _ | None => _ end) as [| |u] eqn:U; try discriminate.
    cbn [fbind] in E. injection E as <-.
    intros env d v X D Nd Rc. rewrite Ty in D. cbn [dims] in D. replace d with O in * by lia. clear D.
    cbn [const_value nth]. unfold result_component in Rc. rewrite Ty in Rc. cbn [elem] in Rc.
    destruct (all_some _) as [l|] eqn:A.
    + unfold fold_scalars in U. destruct (mapf _ l) as [| |ws] eqn:M; try discriminate. cbn [fbind] in U.
      pose proof (scalar_args_words env _ ts l ws X Fts St A M) as ->.
      apply (operate_words_right (fi_op i) (TScalar e) ts (map (fun id => component 0 (env id)) (fi_args i)) u v); auto.
      * exact (typed_args env 0%nat ts _ X Fts Ds).
      * cbn [elem]. rewrite (combine_args env 0%nat ts _ Fts). exact Rc.
    + unfold deviation_at in Nd. rewrite Ty in Nd.
      pose proof (typed_args env 0%nat ts _ X Fts Ds) as Tv.
      destruct (fi_args i) as [|x [|y [|z zs]]]; try discriminate.
      inversion Fts as [|? t0 ? ? T0 F1]; subst. inversion F1 as [|? t1 ? ? T1 F2]; subst. inversion F2; subst.
      inversion St as [|? ? S0 S1]; subst. inversion S1 as [|? ? S2 _]; subst.
      cbn [map] in *. rewrite (arg_width_eq m x t0 T0), (arg_width_eq m y t1 T1) in *.
      eapply (integer_op_right (fi_op i) (TScalar e) t0 t1 (fm_const m (id_map x)) (fm_const m (id_map y))
                (component 0 (env x)) (component 0 (env y)) u v); eauto using arg_known.
      intros K. apply Nd.
      replace (arg_signed m x) with (type_signed t0); [replace (arg_signed m y) with (type_signed t1); [exact K|]|].
      * unfold arg_signed, type_signed. rewrite T1. destruct t1 as [[]|[]]; reflexivity.
      * unfold arg_signed, type_signed. rewrite T0. destruct t0 as [[]|[]]; reflexivity.
  - clear FS. destruct (foldable_by_vector m i) eqn:FV; [|discriminate].
    unfold foldable_by_vector in FV. apply andb_prop in FV. destruct FV as (FV & Sa). apply andb_prop in FV. destruct FV as (Fo & Fr).
    pose proof (satisfy_types _ _ _ Sa Fts) as St.
    destruct (all_some _) as [l|] eqn:A; [|discriminate].
    destruct (fi_type i) as [|e n] eqn:Ty; [discriminate|].
    destruct (fold_vectors (fi_op i) n l) as [| |vs] eqn:V; try discriminate. cbn [fbind] in E.
    apply mk_vector_inv in E. subst c.
    assert (Es : Forall (fun t => foldable_scalar_ety (elem t) = true) ts).
    { eapply Forall_impl; [|exact St]. intros [e'|]; cbn; auto. discriminate. }
    intros env d v X D Nd Rc. rewrite Ty in D. cbn [dims] in D.
    assert (Ds : Forall (fun t => (d < dims t)%nat) ts).
    { eapply Forall_impl; [|exact (well_typed_dims _ _ _ Wt Fr St)]. cbn. intros t. lia. }
    unfold result_component in Rc. rewrite Ty in Rc. cbn [elem] in Rc.
    unfold fold_vectors in V. apply mapf_nth in V. destruct V as (L & V). rewrite seq_length in L.
    destruct (V d d) as (u & Nu & Eu).
    { rewrite nth_error_nth' with (d := O) by (rewrite seq_length; lia). rewrite seq_nth by lia. reflexivity. }
    destruct (mapf (vector_word d) l) as [| |ws] eqn:M; try discriminate. cbn [fbind] in Eu.
    pose proof (vector_args_words env _ d ts l ws X Fts) as Wd.
    assert (ws = map (fun id => component d (env id)) (fi_args i)) as ->.
    { apply Wd; auto. rewrite Forall_forall in *. auto. }
    cbn [const_value]. rewrite map_map.
    rewrite (nth_error_nth _ d 0 (x := sconst_value (mk_scalar e u))).
    + apply (operate_words_right (fi_op i) (TVector e n) ts (map (fun id => component d (env id)) (fi_args i)) u v); auto.
      * exact (typed_args env d ts _ X Fts Ds).
      * cbn [elem]. rewrite (combine_args env d ts _ Fts). exact Rc.
    + exact (map_nth_error (fun x => sconst_value (mk_scalar e x)) d vs Nu).
Qed.

Lemma retype_shaped t c : shaped t c -> shaped t (retype t c).
Proof. destruct t as [[|w s]|e n], c as [[| |]| |]; cbn; auto. Qed.
Theorem fold_to_constant_shape i c : inst_ok m i -> fold_to_constant m id_map i = FSome c ->
  length (const_value c) = dims (fi_type i).
Proof.
  intros Ok E. rewrite const_value_comps, map_length. apply shaped_length.
  unfold fold_to_constant in E. cbv zeta in E.
  destruct (const_rules m i (map (fun id => fm_const m (id_map id)) (fi_args i))) as [| |c'] eqn:R; [|discriminate|].
  2:{ injection E as <-. destruct (const_rules_right m id_map Hm Hid i c' Ok R) as ((Sh & _) & _).
      apply retype_shaped. exact Sh. }
  destruct (foldable_by_scalar m i).
  - destruct (match all_some _ with Some l => _ | None => _ end) as [| |u]; try discriminate. cbn [fbind] in E.
    destruct (fi_type i); [|discriminate]. injection E as <-. exact I.
  - destruct (foldable_by_vector m i); [|discriminate]. destruct (all_some _) as [l|]; [|discriminate].
    destruct (fi_type i) as [|e n]; [discriminate|].
    destruct (fold_vectors (fi_op i) n l) as [| |vs] eqn:V; try discriminate. cbn [fbind] in E.
    apply mk_vector_inv in E. subst c. cbn. rewrite map_length. apply mapf_nth in V. destruct V as (L & _).
    rewrite L, seq_length. reflexivity.
Qed.
End Whole.
