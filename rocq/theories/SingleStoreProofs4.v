(** Proofs about the elimination of loads of variables stored to once: the pass returns. *)
From Verif Require Import Base GraphSpec LocalElim LocalElimSpec LocalElimProofs LocalElimProofs6 SingleStore SingleStoreSpec SingleStoreProofs SingleStoreProofs2.
Local Open Scope N_scope.

Section Total.
Variable f : func.
Hypothesis WF : well_formed f.
Hypothesis PNS : pointers_not_stored f.
Hypothesis IO : in_order f.
Hypothesis IN : indices_are_numbers f.
Section Var.
Variable s : progress.
Hypothesis So : sound f s.
Variables (v : N) (vx : var).
Hypothesis Hv : In vx (vars f) /\ v_id vx = v /\ v_target vx = true.
Notation all := (all_insts f).

(** a user that makes a pointer is made from the pointer, later in the text *)
Lemma later_user p q i r : derived f v p -> In (UInst q i) (users_of f s p) -> match i with ICopy r' _ | IChain r' _ _ => r' = r | _ => False end ->
  derived f v r /\ exists k, at_idx f r k /\ forall j, at_idx f p j -> (j < k)%nat.
Proof using All.
  intros Dv U Hr. apply (user_inst f WF PNS s So v vx Hv p q i Dv) in U. destruct U as (i0 & -> & Hq & _ & Hp). apply at_pos_inst in Hq. pose proof Hq as Hk. apply In_nth_error in Hk. destruct Hk as [k Hk].
  split.
  - destruct i0; simpl in Hr; try contradiction; subst.
    + simpl in Hp. destruct Hp as [<-|Hp]; [eapply D_chain; eauto|exfalso]. destruct Hv as (Hx & E & T). rewrite <- E in Dv. exact (IN _ _ _ vx p Hq Hx T Dv Hp).
    + simpl in Hp. destruct Hp as [<-|[]]. eapply D_copy; eauto.
  - exists k. split; [exists i0; split; [exact Hk|]; destruct i0; simpl in Hr; try contradiction; subst; reflexivity|].
    intros j (y & Hy & Hyr). exact (io_before f IO k j i0 y p Hk Hy Hyr Hp).
Qed.
Lemma gather_total rec l : (forall q r a, In (UInst q (ICopy r a)) l -> rec r <> None) -> gather rec l <> None.
Proof using All.
  induction l as [|u l IH]; cbn [gather]; intros H; [discriminate|].
  assert (A : match u with UInst _ (ICopy r _) => rec r | _ => Some [] end <> None) by (destruct u as [q [| | |r a| |]|]; try discriminate; eapply H; left; reflexivity).
  destruct (match u with UInst _ (ICopy r _) => rec r | _ => Some [] end) as [us|]; [|congruence].
  assert (B : gather rec l <> None) by (apply IH; intros q r a Hi; eapply H; right; exact Hi).
  destruct (gather rec l) as [us'|]; [discriminate|congruence].
Qed.
Lemma any_user_total q l : (forall u, In u l -> q u <> None) -> any_user q l <> None.
Proof using All.
  induction l as [|u l IH]; cbn [any_user]; intros H; [discriminate|]. pose proof (H u (or_introl eq_refl)) as A. destruct (q u) as [[]|]; [discriminate| |congruence].
  apply IH. intros u' Hu. apply H. right. exact Hu.
Qed.
Lemma find_uses_step n p : derived f v p -> (forall q r a, In (UInst q (ICopy r a)) (users_of f s p) -> find_uses n f s r <> None) -> find_uses (S n) f s p <> None.
Proof using All. intros _ H. cbn [find_uses]. apply gather_total. exact H. Qed.
Lemma find_uses_total : forall n p j, derived f v p -> at_idx f p j -> (length all - j <= n)%nat -> find_uses n f s p <> None.
Proof using All.
  induction n as [|n IH]; intros p j Dv A L; [pose proof (at_bound f p j A); lia|]. apply find_uses_step; [exact Dv|]. intros q r a U.
  destruct (later_user p q (ICopy r a) r Dv U eq_refl) as (Dr & k & Ak & Lk). apply (IH r k Dr Ak). specialize (Lk j A). lia.
Qed.
Lemma feeds_step n p : derived f v p -> (forall q i r, In (UInst q i) (users_of f s p) -> match i with ICopy r' _ | IChain r' _ _ => r' = r | _ => False end -> feeds_a_store n f s r <> None) ->
  feeds_a_store (S n) f s p <> None.
Proof using All.
  intros Dv H. cbn [feeds_a_store]. apply any_user_total. intros [q i|] U; [|discriminate]. destruct i as [| |r b0 idx|r a| |]; try discriminate; eapply (H q _ r U); reflexivity.
Qed.
Lemma feeds_total : forall n p j, derived f v p -> at_idx f p j -> (length all - j <= n)%nat -> feeds_a_store n f s p <> None.
Proof using All.
  induction n as [|n IH]; intros p j Dv A L; [pose proof (at_bound f p j A); lia|]. apply feeds_step; [exact Dv|]. intros q i r U Hr.
  destruct (later_user p q i r Dv U Hr) as (Dr & k & Ak & Lk). apply (IH r k Dr Ak). specialize (Lk j A). lia.
Qed.
Lemma single_store_total n l : (forall q r b idx, In (UInst q (IChain r b idx)) l -> feeds_a_store n f s r <> None) -> forall found, single_store n f s l found <> None.
Proof using All.
  induction l as [|u l IH]; cbn [single_store]; intros H found; [discriminate|]. assert (IH' := IH (fun q r b idx Hi => H q r b idx (or_intror Hi))).
  destruct u as [q [r p vol|p a vol|r b idx|r a|r fn args|r op args]|]; try discriminate; try apply IH'.
  - destruct found; [discriminate|apply IH'].
  - pose proof (H q r b idx (or_introl eq_refl)) as A. destruct (feeds_a_store n f s r) as [[]|]; [discriminate|apply IH'|congruence].
Qed.
Lemma process_total dom : exists s', process_variable dom f v s = Some s'.
Proof using All.
  assert (Dv : derived f v v) by (destruct Hv as (Hx & E & _); eapply D_var; eauto).
  assert (Wv : whole f v v) by (destruct Hv as (Hx & E & _); eapply W_var; eauto).
  unfold process_variable. assert (A : find_uses (fuel_of f) f s v <> None).
  { apply find_uses_step; [exact Dv|]. intros q r a U. destruct (later_user v q (ICopy r a) r Dv U eq_refl) as (Dr & k & Ak & _). apply (find_uses_total _ r k Dr Ak). lia. }
  destruct (find_uses (fuel_of f) f s v) as [us|] eqn:F; [|congruence].
  assert (B : single_store (fuel_of f) f s us None <> None).
  { apply single_store_total. intros q r b idx U. destruct (find_uses_only f WF PNS s So v vx Hv _ v us _ Wv F U) as (p & Wp & Up).
    destruct (later_user p q (IChain r b idx) r (whole_derived f v p Wp) Up eq_refl) as (Dr & k & Ak & _). apply (feeds_total _ r k Dr Ak). unfold fuel_of. lia. }
  destruct (single_store (fuel_of f) f s us None) as [[[q x]|]|]; [eauto|eauto|congruence].
Qed.
End Var.
End Total.

Theorem single_store_total_run dom f : well_formed f -> pointers_not_stored f -> in_order f -> indices_are_numbers f ->
  (forall b c, In b (blocks f) -> In c (blocks f) -> reach f c -> dom (label b) (label c) = true -> dominates (succs f) (entry f) (label b) (label c)) ->
  exists g, single_store_elim dom f = Some g.
Proof.
  intros WF PNS IO IN DR. unfold single_store_elim.
  assert (H : forall l s, (forall x, In x l -> In x (vars f)) -> full f dom s -> exists s', process_variables dom f l s = Some s').
  { induction l as [|x l IH]; simpl; intros s Hl Fu; [eauto|]. destruct (v_target x) eqn:T; [|apply IH; auto].
    destruct (process_total f WF PNS IO IN s (fu_sound _ _ _ Fu) (v_id x) x (conj (Hl x (or_introl eq_refl)) (conj eq_refl T)) dom) as (s1 & E). rewrite E.
    apply IH; [auto|]. apply (full_variables f WF PNS dom DR [x] s s1); [|exact Fu|simpl; rewrite T, E; reflexivity]. intros y [<-|[]]. apply Hl. left. reflexivity. }
  destruct (H (vars f) (mkprogress (fun x => x) [])) as (s & E); [auto|apply full_start; auto|]. rewrite E. eauto.
Qed.
