(** Proofs about the elimination of loads and stores: the pass returns. *)
From Verif Require Import Base GraphSpec LocalElim LocalElimSpec LocalElimProofs.
Local Open Scope N_scope.

Section Total.
Variable f : func.
Hypothesis IO : in_order f.
Notation all := (all_insts f).

Definition at_idx (a : N) (j : nat) : Prop := exists y, nth_error all j = Some y /\ result y = Some a.
Definition below (a : N) (n : nat) : Prop := forall j, at_idx a j -> (j < n)%nat.
Definition ren_low (s : state) : Prop := forall n a, below a n -> below (st_ren s a) n.
Lemma at_bound a j : at_idx a j -> (j < length all)%nat.
Proof using Type. intros (y & H & _). apply nth_error_Some. congruence. Qed.
Lemma below_all a : below a (length all).
Proof using Type. intros j. apply at_bound. Qed.
Lemma below_le a n n' : below a n -> (n <= n')%nat -> below a n'.
Proof using Type. intros B L j H. specialize (B j H). lia. Qed.
Lemma reads_below x g a : nth_error all g = Some x -> In a (reads x) -> below a g.
Proof using IO. intros Hx Ha j (y & Hy & Hr). eapply (io_before f IO); eauto. Qed.
Lemma find_def_idx p i : find_def f p = Some i -> exists j, nth_error all j = Some i /\ at_idx p j.
Proof using Type.
  unfold find_def. intros H. apply find_some in H. destruct H as [H E]. apply In_nth_error in H. destruct H as [j Hj]. exists j. split; [exact Hj|].
  exists i. split; [exact Hj|]. destruct (result i) as [r|]; [|discriminate]. apply N.eqb_eq in E. congruence.
Qed.
Lemma get_base_total s : ren_low s -> forall n p, below p n -> get_base (S n) f (st_ren s) p <> None.
Proof using IO.
  intros RL. induction n as [|n IH]; intros p B; simpl.
  - destruct (find_var f p); [discriminate|]. destruct (find_def f p) as [i|] eqn:F; [|discriminate]. apply find_def_idx in F. destruct F as (j & _ & A). specialize (B j A). lia.
  - destruct (find_var f p); [discriminate|]. destruct (find_def f p) as [i|] eqn:F; [|discriminate]. apply find_def_idx in F. destruct F as (j & Hj & A). specialize (B j A).
    assert (L : forall a, In a (reads i) -> below (st_ren s a) n).
    { intros a Ha. apply RL. eapply below_le; [eapply reads_below; eauto|lia]. }
    destruct i; try discriminate; apply IH, L; simpl; auto.
Qed.
Lemma is_whole_total s : ren_low s -> forall n p, below p n -> is_whole (S n) f (st_ren s) p <> None.
Proof using IO.
  intros RL. induction n as [|n IH]; intros p B; simpl.
  - destruct (find_var f p); [discriminate|]. destruct (find_def f p) as [i|] eqn:F; [|discriminate]. apply find_def_idx in F. destruct F as (j & _ & A). specialize (B j A). lia.
  - destruct (find_var f p); [discriminate|]. destruct (find_def f p) as [i|] eqn:F; [|discriminate]. apply find_def_idx in F. destruct F as (j & Hj & A). specialize (B j A).
    destruct i; try discriminate. apply IH, RL. eapply below_le; [eapply reads_below; [exact Hj|simpl; auto]|lia].
Qed.
Lemma while_each_total q l : (forall i, In i l -> q i <> None) -> while_each q l <> None.
Proof using Type.
  induction l as [|i l IH]; simpl; intros H; [discriminate|]. specialize (IH (fun x Hx => H x (or_intror Hx))). destruct (q i) as [[]|] eqn:E; [exact IH|discriminate|].
  destruct (H i (or_introl eq_refl) E).
Qed.
Lemma only_supported_step n p : (forall i r, In i all -> In p (reads i) -> result i = Some r -> only_supported n f r <> None) -> only_supported (S n) f p <> None.
Proof using Type.
  intros H. simpl. destruct (existsb _ (blocks f)); [discriminate|]. apply while_each_total. intros i Hi. apply filter_In in Hi. destruct Hi as [Hi Hr].
  unfold mem_id in Hr. apply existsb_exists in Hr. destruct Hr as (a & Ha & E). apply N.eqb_eq in E. subst a.
  destruct i; simpl; try discriminate; eapply H; eauto; reflexivity.
Qed.
Lemma only_supported_total : forall n p j, at_idx p j -> (length all - j <= n)%nat -> only_supported n f p <> None.
Proof using IO.
  induction n as [|n IH]; intros p j A L; [pose proof (at_bound p j A); lia|]. apply only_supported_step. intros i r Hi Hp Hr.
  apply In_nth_error in Hi. destruct Hi as [k Hk]. destruct A as (y & Hy & Hyr).
  apply (IH r k); [exists i; auto|]. pose proof (io_before f IO k j i y p Hk Hy Hyr Hp). lia.
Qed.
Lemma refs_total p : has_only_supported_refs f p <> None.
Proof using IO.
  apply only_supported_step. intros i r Hi _ Hr. apply In_nth_error in Hi. destruct Hi as [k Hk]. apply (only_supported_total _ r k); [exists i; auto|]. lia.
Qed.
Lemma subject_total s p : ren_low s -> subject f (st_ren s) p <> None.
Proof using IO.
  intros RL. unfold subject, get_ptr, fuel_of. pose proof (get_base_total s RL (length all) p (below_all p)) as A. pose proof (is_whole_total s RL (length all) p (below_all p)) as B.
  destruct (get_base _ f (st_ren s) p) as [bb|]; [|congruence]. destruct (is_whole _ f (st_ren s) p) as [w|]; [|congruence].
  destruct bb as [v|]; [|discriminate]. destruct (is_target f v); [|discriminate]. pose proof (refs_total v) as C. destruct (has_only_supported_refs f v) as [[]|]; congruence.
Qed.

Definition T (g : nat) (s : state) : Prop :=
  ren_low s /\ (forall v q a, st_store s v = Some (q, a) -> below a g) /\ (forall v x, st_load s v = Some x -> below x g).
Lemma T_next g s : T g s -> T (S g) s.
Proof using Type. intros (A & B & C). split; [exact A|]. split; intros; eapply below_le; eauto. Qed.
Lemma T_forget g s : T g s -> T g (forget s).
Proof using Type. intros (A & B & C). split; [exact A|]. split; simpl; discriminate. Qed.
Lemma T_replace g s p r ptr vol x : T g s -> nth_error all g = Some (ILoad r ptr vol) -> below x g -> T (S g) (replace_load p r x s).
Proof using Type.
  intros (A & B & C) Hg Bx. split; [|split]; simpl.
  - intros n a Ba. simpl. unfold replace1. destruct (st_ren s a =? r) eqn:E; [|apply A, Ba]. apply N.eqb_eq in E. apply A in Ba. rewrite E in Ba.
    eapply below_le; [exact Bx|]. assert (g < n)%nat; [|lia]. apply Ba. exists (ILoad r ptr vol). auto.
  - intros v q a H. destruct (st_store s v) as [[q' a']|] eqn:Es; [|discriminate]. injection H as <- <-. unfold replace1. destruct (a' =? r).
    + eapply below_le; [exact Bx|lia].
    + eapply below_le; [eapply B; eauto|lia].
  - intros v y H. eapply below_le; [eapply C; eauto|lia].
Qed.
Lemma visit_total g p x s : nth_error all g = Some x -> T g s -> exists s', visit f p x s = Some s' /\ T (S g) s'.
Proof using IO.
  intros Hg Tg. pose proof (T_next g s Tg) as Tn. pose proof Tg as (A & B & C). unfold visit. destruct x as [r ptr vol|ptr y vol|r b0 l|r a|r fn l|r o l]; simpl; eauto.
  - pose proof (subject_total s (st_ren s ptr) A) as Su. destruct (subject f (st_ren s) (st_ren s ptr)) as [[[v []]|]|]; eauto; [| |congruence].
    + eexists. split; [reflexivity|]. unfold load_whole. destruct (st_store s v) as [[q a]|] eqn:Es; [|destruct (st_load s v) as [r'|] eqn:El].
      * eapply T_replace; [exact Tg|exact Hg|eapply B; exact Es].
      * eapply T_replace; [exact Tg|exact Hg|eapply C; exact El].
      * split; [exact A|]. destruct Tn as (_ & B' & C'). split; [exact B'|]. simpl. intros v' x. destruct (N.eq_dec v' v) as [->|Nv]; [rewrite set_eq|rewrite set_ne by exact Nv; apply C'].
        intros H. injection H as <-. intros j (y & Hy & Hyr). rewrite (io_once f IO j g y (ILoad r ptr vol) r Hy Hg Hyr eq_refl). lia.
    + eexists. split; [reflexivity|]. unfold load_part. destruct (st_store s v) as [[q a]|]; [|exact Tn]. exact Tn.
  - pose proof (subject_total s (st_ren s ptr) A) as Su. destruct (subject f (st_ren s) (st_ren s ptr)) as [[[v []]|]|]; eauto; [| |congruence].
    + eexists. split; [reflexivity|]. destruct Tn as (_ & B' & C'). unfold store_whole. destruct (match st_load s v with Some r => _ | None => _ end); (split; [exact A|]); simpl; [split; assumption|].
      split; intros v'; destruct (N.eq_dec v' v) as [->|Nv].
      * rewrite set_eq. intros q a H. injection H as <- <-. apply A. eapply below_le; [eapply reads_below; [exact Hg|simpl; auto]|lia].
      * rewrite set_ne by exact Nv. apply B'.
      * rewrite set_eq. discriminate.
      * rewrite set_ne by exact Nv. apply C'.
    + eexists. split; [reflexivity|]. destruct Tn as (_ & B' & C'). split; [exact A|]. simpl. split; intros v'; destruct (N.eq_dec v' v) as [->|Nv].
      * rewrite set_eq. discriminate.
      * rewrite set_ne by exact Nv. apply B'.
      * rewrite set_eq. discriminate.
      * rewrite set_ne by exact Nv. apply C'.
  - eexists. split; [reflexivity|]. apply T_forget, Tn.
Qed.
Lemma body_total b l : forall i g s, (forall k x, nth_error l k = Some x -> nth_error all (g + k) = Some x) -> T g s ->
  exists s', visit_body f b i l s = Some s' /\ T (g + length l) s'.
Proof using IO.
  induction l as [|x l IH]; simpl; intros i g s H Tg.
  - exists s. rewrite Nat.add_0_r. auto.
  - destruct (visit_total g (b, i) x s) as (s1 & V & T1); [rewrite <- (Nat.add_0_r g); apply H; reflexivity|exact Tg|]. rewrite V.
    destruct (IH (S i) (S g) s1) as (s2 & V2 & T2); [|exact T1|].
    + intros k y Hk. rewrite Nat.add_succ_l, <- Nat.add_succ_r. apply H. exact Hk.
    + exists s2. rewrite Nat.add_succ_r. auto.
Qed.
Lemma blocks_total l : forall b g s, (forall k x, nth_error (flat_map body l) k = Some x -> nth_error all (g + k) = Some x) -> T g s ->
  exists s', visit_blocks f b l s = Some s'.
Proof using IO.
  induction l as [|c l IH]; simpl; intros b g s H Tg; [eauto|].
  destruct (body_total b (body c) 0%nat g (forget s)) as (s1 & V & T1); [|apply T_forget, Tg|].
  - intros k x Hk. apply H. rewrite nth_error_app1; [exact Hk|]. apply nth_error_Some. congruence.
  - rewrite V. apply (IH (S b) (g + length (body c))%nat s1); [|exact T1]. intros k x Hk. rewrite <- Nat.add_assoc. apply H.
    rewrite nth_error_app2 by lia. replace (length (body c) + k - length (body c))%nat with k by lia. exact Hk.
Qed.
End Total.

Theorem elim_returns f : in_order f -> exists g, elim f = Some g.
Proof.
  intros IO. unfold elim. destruct (blocks_total f IO (blocks f) 0%nat 0%nat start) as (s & V).
  - intros k x H. exact H.
  - split; [intros n a H; exact H|]. split; simpl; discriminate.
  - rewrite V. eauto.
Qed.
