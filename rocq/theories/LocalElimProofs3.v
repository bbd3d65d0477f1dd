(** Proofs about the elimination of loads and stores: pointers. *)
From Verif Require Import Base GraphSpec LocalElim LocalElimSpec LocalElimProofs LocalElimProofs2.
Local Open Scope N_scope.

Lemma mem_id_in a l : mem_id a l = true <-> In a l.
Proof. unfold mem_id. rewrite existsb_exists. split; [intros (x & H & E); apply N.eqb_eq in E; subst; exact H|]. intros H. exists a. split; [exact H|apply N.eqb_refl]. Qed.
Lemma while_each_all q l : while_each q l = Some true -> forall i, In i l -> q i = Some true.
Proof.
  induction l as [|a l IH]; simpl; [tauto|]. intros H i [<-|Hi].
  - destruct (q a) as [[]|]; congruence.
  - destruct (q a) as [[]|]; try discriminate. auto.
Qed.
Lemma supported_user n f p i : only_supported n f p = Some true -> In i (all_insts f) -> In p (reads i) ->
  exists n', n = S n' /\ user_ok (only_supported n' f) i = Some true.
Proof.
  destruct n as [|n]; simpl; [discriminate|]. destruct (existsb _ (blocks f)); [discriminate|]. intros H Hi Hp. exists n. split; [reflexivity|].
  apply (while_each_all _ _ H). apply filter_In. split; [exact Hi|]. apply mem_id_in. exact Hp.
Qed.
Lemma supported_derived f v p : good f v -> derived f v p -> exists n, only_supported n f p = Some true.
Proof.
  intros [_ G] Dv. induction Dv as [x Hx E|r b idx Hi Dv IH|r a Hi Dv IH].
  - exists (fuel_of f). exact G.
  - destruct IH as [n IH]. destruct (supported_user n f b _ IH Hi) as (n' & -> & U); [simpl; auto|]. exists n'. exact U.
  - destruct IH as [n IH]. destruct (supported_user n f a _ IH Hi) as (n' & -> & U); [simpl; auto|]. exists n'. exact U.
Qed.
Lemma supported_no_phi n f p b x l : only_supported n f p = Some true -> In b (blocks f) -> In x (phis b) -> ~ In (p, l) (p_args x).
Proof.
  destruct n as [|n]; simpl; [discriminate|]. destruct (existsb _ (blocks f)) eqn:E; [discriminate|]. intros _ Hb Hx Hp.
  assert (T : existsb (fun b => existsb (fun x => mem_id p (map fst (p_args x))) (phis b) || mem_id p (t_args b)) (blocks f) = true); [|congruence].
  apply existsb_exists. exists b. split; [exact Hb|]. apply orb_true_iff. left. apply existsb_exists. exists x. split; [exact Hx|]. apply mem_id_in.
  apply in_map_iff. exists (p, l). auto.
Qed.
Lemma supported_no_term n f p b : only_supported n f p = Some true -> In b (blocks f) -> ~ In p (t_args b).
Proof.
  destruct n as [|n]; simpl; [discriminate|]. destruct (existsb _ (blocks f)) eqn:E; [discriminate|]. intros _ Hb Hp.
  assert (T : existsb (fun b => existsb (fun x => mem_id p (map fst (p_args x))) (phis b) || mem_id p (t_args b)) (blocks f) = true); [|congruence].
  apply existsb_exists. exists b. split; [exact Hb|]. apply orb_true_iff. right. apply mem_id_in. exact Hp.
Qed.

Section Pointers.
Variable f : func.
Hypothesis WF : well_formed f.

Lemma find_var_in id x : find_var f id = Some x -> In x (vars f) /\ v_id x = id.
Proof using Type. intros H. apply find_some in H. destruct H as [A B]. apply N.eqb_eq in B. auto. Qed.
Lemma find_var_some x : In x (vars f) -> exists y, find_var f (v_id x) = Some y.
Proof using Type.
  intros H. unfold find_var. destruct (find (fun v => v_id v =? v_id x) (vars f)) as [y|] eqn:E; [eauto|]. pose proof (find_none _ _ E x H) as N.
  simpl in N. rewrite N.eqb_refl in N. discriminate.
Qed.
Lemma find_var_self x : In x (vars f) -> find_var f (v_id x) = Some x.
Proof using WF.
  intros H. destruct (find_var_some x H) as [y E]. rewrite E. f_equal. apply find_var_in in E. destruct E as [A B].
  apply (map_inj_nodup v_id (vars f) (wf_vars f WF)); auto.
Qed.
Lemma inst_place i : In i (all_insts f) -> exists c j, In c (blocks f) /\ nth_error (body c) j = Some i.
Proof using Type.
  unfold all_insts. rewrite in_flat_map. intros (c & Hc & Hi). apply In_nth_error in Hi. destruct Hi as [j Hj]. exists c, j. auto.
Qed.
Lemma place_inst c j i : In c (blocks f) -> nth_error (body c) j = Some i -> In i (all_insts f).
Proof using Type. intros Hc Hj. unfold all_insts. apply in_flat_map. exists c. split; [exact Hc|]. eapply nth_error_In; eauto. Qed.
Lemma inst_defined i r : In i (all_insts f) -> result i = Some r -> exists c j, defined_at f r c (S j) /\ nth_error (body c) j = Some i.
Proof using Type. intros H E. destruct (inst_place i H) as (c & j & Hc & Hj). exists c, j. split; [|exact Hj]. split; [exact Hc|]. exists i. auto. Qed.
Lemma result_inj i i' r : In i (all_insts f) -> In i' (all_insts f) -> result i = Some r -> result i' = Some r -> i = i'.
Proof using WF.
  intros H H' E E'. destruct (inst_defined i r H E) as (c & j & D & N). destruct (inst_defined i' r H' E') as (c' & j' & D' & N').
  destruct (wf_once f WF _ _ _ _ _ D D') as [-> Ej]. injection Ej as ->. congruence.
Qed.
Lemma find_def_in id i : find_def f id = Some i -> In i (all_insts f) /\ result i = Some id.
Proof using Type.
  intros H. apply find_some in H. destruct H as [A B]. split; [exact A|]. destruct (result i) as [r|]; [|discriminate]. apply N.eqb_eq in B. congruence.
Qed.
Lemma find_def_self id i : In i (all_insts f) -> result i = Some id -> find_def f id = Some i.
Proof using WF.
  intros H E. destruct (find_def f id) as [i'|] eqn:F.
  - apply find_def_in in F. destruct F as [A B]. f_equal. eapply result_inj; eauto.
  - unfold find_def in F. pose proof (find_none _ _ F i H) as N. simpl in N. rewrite E, N.eqb_refl in N. discriminate.
Qed.
Lemma var_not_result x i : In x (vars f) -> In i (all_insts f) -> result i <> Some (v_id x).
Proof using WF. intros Hx Hi E. destruct (inst_defined i _ Hi E) as (c & j & D & _). exact (wf_var_ids f WF x c (S j) Hx D). Qed.
Lemma find_var_none i r : In i (all_insts f) -> result i = Some r -> find_var f r = None.
Proof using WF.
  intros Hi E. destruct (find_var f r) as [x|] eqn:F; [|reflexivity]. apply find_var_in in F. destruct F as [A <-]. destruct (var_not_result x i A Hi E).
Qed.
(** pointers made from variables are not renamed *)
Lemma derived_fixed s b i v p : renamed_passed f s b i -> derived f v p -> st_ren s p = p.
Proof using WF.
  intros P Dv. destruct (N.eq_dec (st_ren s p) p) as [|Ne]; [assumption|exfalso]. destruct (P p Ne) as (b' & c & j & q & vol & Hb & Hj & _).
  assert (Hl : In (ILoad p q vol) (all_insts f)) by (eapply place_inst; eauto using nth_error_In).
  destruct Dv as [x Hx E|r b0 idx Hi Dv|r a Hi Dv].
  - subst v. apply (var_not_result x _ Hx Hl). reflexivity.
  - discriminate (result_inj _ _ r Hl Hi eq_refl eq_refl).
  - discriminate (result_inj _ _ r Hl Hi eq_refl eq_refl).
Qed.
Lemma derived_base s b i v p : renamed_passed f s b i -> derived f v p -> forall n bb, get_base n f (st_ren s) p = Some bb -> bb = BVar v.
Proof using WF.
  intros P Dv. induction Dv as [x Hx E|r b0 idx Hi Dv IH|r a Hi Dv IH]; intros [|n] bb H; simpl in H; try discriminate.
  - subst v. rewrite (find_var_self x Hx) in H. congruence.
  - rewrite (find_var_none _ r Hi eq_refl), (find_def_self r _ Hi eq_refl) in H. rewrite (derived_fixed s b i v b0 P Dv) in H. eapply IH; eauto.
  - rewrite (find_var_none _ r Hi eq_refl), (find_def_self r _ Hi eq_refl) in H. rewrite (derived_fixed s b i v a P Dv) in H. eapply IH; eauto.
Qed.
(** a pointer to a variable the pass deals with is seen as one *)
Lemma derived_subject s b i v p : renamed_passed f s b i -> good f v -> derived f v p -> forall o, subject f (st_ren s) (st_ren s p) = Some o ->
  exists w, o = Some (v, w).
Proof using WF.
  intros P [T O] Dv o. rewrite (derived_fixed s b i v p P Dv). unfold subject, get_ptr.
  destruct (get_base (fuel_of f) f (st_ren s) p) as [bb|] eqn:Eb; [|discriminate]. rewrite (derived_base s b i v p P Dv _ _ Eb).
  destruct (is_whole (fuel_of f) f (st_ren s) p) as [w|]; [|discriminate]. rewrite T, O. intros H. injection H as <-. eauto.
Qed.
Lemma good_var v : good f v -> exists x, In x (vars f) /\ v_id x = v /\ v_target x = true.
Proof using Type.
  intros [T _]. unfold is_target in T. destruct (find_var f v) as [x|] eqn:E; [|discriminate]. apply find_var_in in E. destruct E as [A B]. exists x. auto.
Qed.

Context {D W : Type} (m : machine D W).
Hypothesis SM : sane m.
Variable fin : N -> N.                (* the renaming in the end *)

(** what is known about the values of the ids of a set *)
Record env_ok (A : N -> Prop) (e te : N -> option D) (k : N -> bool) : Prop := {
  e_sim : forall y, A y -> e y = te (fin y);
  e_chain : forall y b idx, A y -> In (IChain y b idx) (all_insts f) ->
    exists db v q ds, e b = Some db /\ as_ptr m db = Some (v, q) /\ e y = Some (of_ptr m v (q ++ ds));
  e_copy : forall y a, A y -> In (ICopy y a) (all_insts f) -> e y = e a;
  e_ptr : forall y d v q, A y -> e y = Some d -> as_ptr m d = Some (v, q) -> k v = false -> derived f v y;
  e_var : forall x, In x (vars f) -> e (v_id x) = Some (of_ptr m (v_id x) []) }.

Lemma env_sub (A B : N -> Prop) e te k : env_ok A e te k -> (forall y, B y -> A y) -> env_ok B e te k.
Proof using Type.
  intros E S. constructor.
  - intros y H. apply (e_sim _ _ _ _ E), S, H.
  - intros y b idx H. apply (e_chain _ _ _ _ E), S, H.
  - intros y a H. apply (e_copy _ _ _ _ E), S, H.
  - intros y d v q H. apply (e_ptr _ _ _ _ E), S, H.
  - apply (e_var _ _ _ _ E).
Qed.
Lemma env_known (A : N -> Prop) e te k k' : env_ok A e te k -> (forall v, k v = true -> k' v = true) -> env_ok A e te k'.
Proof using Type.
  intros E S. constructor; try apply E. intros y d v q H H1 H2 H3. apply (e_ptr _ _ _ _ E y d v q H H1 H2). destruct (k v) eqn:Ek; [|reflexivity].
  apply S in Ek. congruence.
Qed.
Lemma upd_eq {A} (g : N -> A) k x : upd g k x k = x.
Proof using Type. unfold upd. rewrite N.eqb_refl. reflexivity. Qed.
Lemma upd_ne {A} (g : N -> A) k x y : y <> k -> upd g k x y = g y.
Proof using Type. unfold upd. intros H. apply N.eqb_neq in H. rewrite H. reflexivity. Qed.

(** nothing that stays valid depends on [r] *)
Definition unneeded (A : N -> Prop) (r : N) : Prop :=
  (forall y, A y -> y <> r -> fin y <> r) /\
  (forall y b idx, A y -> y <> r -> In (IChain y b idx) (all_insts f) -> b <> r) /\
  (forall y a, A y -> y <> r -> In (ICopy y a) (all_insts f) -> a <> r) /\
  (forall x, In x (vars f) -> v_id x <> r).
(** a new value for [r] on both sides, or only on the first if the second has it under another name *)
Lemma env_update (A : N -> Prop) e te k r d te' : env_ok A e te k -> unneeded A r ->
  te' = upd te r (Some d) /\ fin r = r \/ te' = te /\ te (fin r) = Some d ->
  (forall b idx, In (IChain r b idx) (all_insts f) -> exists db v q ds, b <> r /\ e b = Some db /\ as_ptr m db = Some (v, q) /\ d = of_ptr m v (q ++ ds)) ->
  (forall a, In (ICopy r a) (all_insts f) -> a <> r /\ e a = Some d) ->
  (forall v q, as_ptr m d = Some (v, q) -> k v = false -> derived f v r) ->
  env_ok (fun y => A y \/ y = r) (upd e r (Some d)) te' k.
Proof using Type.
  intros E (U1 & U2 & U3 & U4) T Ch Co Pt. constructor.
  - intros y H. destruct (N.eq_dec y r) as [->|Ne].
    + rewrite upd_eq. destruct T as [[-> F]|[-> F]]; [rewrite F, upd_eq; reflexivity|congruence].
    + rewrite upd_ne by exact Ne. destruct H as [H|H]; [|congruence]. rewrite (e_sim _ _ _ _ E y H). destruct T as [[-> F]|[-> F]]; [|reflexivity].
      rewrite upd_ne; [reflexivity|]. apply U1; assumption.
  - intros y b idx H Hi. destruct (N.eq_dec y r) as [->|Ne].
    + destruct (Ch b idx Hi) as (db & v & q & ds & Nb & H1 & H2 & ->). exists db, v, q, ds. rewrite upd_eq, upd_ne by exact Nb. auto.
    + destruct H as [H|H]; [|congruence]. rewrite (upd_ne _ _ _ y) by exact Ne. rewrite upd_ne by (eapply U2; eauto). apply (e_chain _ _ _ _ E y b idx H Hi).
  - intros y a H Hi. destruct (N.eq_dec y r) as [->|Ne].
    + destruct (Co a Hi) as [Na H1]. rewrite upd_eq, upd_ne by exact Na. auto.
    + destruct H as [H|H]; [|congruence]. rewrite (upd_ne _ _ _ y) by exact Ne. rewrite upd_ne by (eapply U3; eauto). apply (e_copy _ _ _ _ E y a H Hi).
  - intros y d' v q H H1 H2 H3. destruct (N.eq_dec y r) as [->|Ne].
    + rewrite upd_eq in H1. injection H1 as <-. eapply Pt; eauto.
    + destruct H as [H|H]; [|congruence]. rewrite upd_ne in H1 by exact Ne. eapply (e_ptr _ _ _ _ E); eauto.
  - intros x Hx. rewrite upd_ne by (apply U4, Hx). apply (e_var _ _ _ _ E x Hx).
Qed.

(** ids the renaming so far has made equal have equal values *)
Lemma ren_env (A : N -> Prop) e te k s y : env_ok A e te k -> (forall y z, st_ren s y = st_ren s z -> fin y = fin z) -> idem s -> A y -> A (st_ren s y) ->
  e (st_ren s y) = e y.
Proof using Type.
  intros E C I H H'. rewrite (e_sim _ _ _ _ E _ H), (e_sim _ _ _ _ E _ H'). f_equal. apply C. apply I.
Qed.
Lemma used_avail c k y b' j i a : In c (blocks f) -> reach f c -> available f c k y -> defined_at f y b' (S j) -> nth_error (body b') j = Some i -> In a (reads i) ->
  available f c k a.
Proof using WF.
  intros Hc R Av Df Hn Hr. pose proof (avail_reach f c k y b' _ WF R Av Df) as R'. eapply avail_trans; eauto. eapply (wf_uses f WF); eauto. apply Df.
Qed.

(** what the pass takes a pointer for is right *)
Lemma base_right c k e te kn s b i : In c (blocks f) -> reach f c -> env_ok (available f c k) e te kn ->
  renamed_passed f s b i -> renamed_before f s -> idem s -> (forall y z, st_ren s y = st_ren s z -> fin y = fin z) ->
  forall n p v d v' q, available f c k p -> get_base n f (st_ren s) p = Some (BVar v) -> e p = Some d -> as_ptr m d = Some (v', q) -> v' = v.
Proof using WF SM.
  intros Hc R E P B I C. induction n as [|n IH]; simpl; intros p v d v' q Av H Ed Ep; [discriminate|].
  destruct (find_var f p) as [x|] eqn:F.
  - injection H as <-. apply find_var_in in F. destruct F as [Hx <-]. rewrite (e_var _ _ _ _ E x Hx) in Ed. injection Ed as <-.
    rewrite (sane_ptr m SM) in Ep. congruence.
  - destruct (find_def f p) as [i0|] eqn:Fd; [|discriminate]. apply find_def_in in Fd. destruct Fd as [Hi Hr].
    destruct (inst_defined i0 p Hi Hr) as (c' & j & Df & Hn).
    assert (Us : forall a, In a (reads i0) -> available f c k a) by (intros a Ha; exact (used_avail c k p c' j i0 a Hc R Av Df Hn Ha)).
    destruct i0 as [r ptr vol|ptr x vol|r b0 l|r a|r fn l|r o l]; simpl in Hr; try discriminate; injection Hr as ->.
    + destruct (e_chain _ _ _ _ E p b0 l Av Hi) as (db & v2 & q2 & ds & H1 & H2 & H3).
      rewrite Ed in H3. injection H3 as ->. rewrite (sane_ptr m SM) in Ep. injection Ep as <- _.
      assert (Ab : available f c k b0) by (apply Us; simpl; auto).
      eapply (IH (st_ren s b0)); [eapply ren_avail; eauto|exact H| |exact H2].
      rewrite (ren_env _ _ _ _ s b0 E C I Ab); [exact H1|]. eapply ren_avail; eauto.
    + assert (Aa : available f c k a) by (apply Us; simpl; auto).
      eapply (IH (st_ren s a)); [eapply ren_avail; eauto|exact H| |exact Ep].
      rewrite (ren_env _ _ _ _ s a E C I Aa); [|eapply ren_avail; eauto]. rewrite <- (e_copy _ _ _ _ E p a Av Hi). exact Ed.
Qed.
Lemma whole_right c k e te kn s b i : In c (blocks f) -> reach f c -> env_ok (available f c k) e te kn ->
  renamed_passed f s b i -> renamed_before f s -> idem s -> (forall y z, st_ren s y = st_ren s z -> fin y = fin z) ->
  forall n p d v' q, available f c k p -> is_whole n f (st_ren s) p = Some true -> e p = Some d -> as_ptr m d = Some (v', q) -> q = [].
Proof using WF SM.
  intros Hc R E P B I C. induction n as [|n IH]; simpl; intros p d v' q Av H Ed Ep; [discriminate|].
  destruct (find_var f p) as [x|] eqn:F.
  - apply find_var_in in F. destruct F as [Hx <-]. rewrite (e_var _ _ _ _ E x Hx) in Ed. injection Ed as <-.
    rewrite (sane_ptr m SM) in Ep. congruence.
  - destruct (find_def f p) as [i0|] eqn:Fd; [|discriminate]. apply find_def_in in Fd. destruct Fd as [Hi Hr].
    destruct (inst_defined i0 p Hi Hr) as (c' & j & Df & Hn).
    destruct i0 as [r ptr vol|ptr x vol|r b0 l|r a|r fn l|r o l]; try discriminate. injection Hr as ->.
    assert (Aa : available f c k a) by (eapply used_avail; eauto; simpl; auto).
    eapply (IH (st_ren s a)); [eapply ren_avail; eauto|exact H| |exact Ep].
    rewrite (ren_env _ _ _ _ s a E C I Aa); [|eapply ren_avail; eauto]. rewrite <- (e_copy _ _ _ _ E p a Av Hi). exact Ed.
Qed.
Lemma subject_right c k e te kn s b i : In c (blocks f) -> reach f c -> env_ok (available f c k) e te kn ->
  renamed_passed f s b i -> renamed_before f s -> idem s -> (forall y z, st_ren s y = st_ren s z -> fin y = fin z) ->
  forall p v w d v' q, available f c k p -> subject f (st_ren s) (st_ren s p) = Some (Some (v, w)) -> e p = Some d -> as_ptr m d = Some (v', q) ->
  v' = v /\ (w = true -> q = []).
Proof using WF SM.
  intros Hc R E P B I C p v w d v' q Av H Ed Ep. unfold subject in H. destruct (get_ptr f (st_ren s) (st_ren s p)) as [[[v2|] w2]|] eqn:G; try discriminate.
  destruct (is_target f v2); [|discriminate]. destruct (has_only_supported_refs f v2) as [[]|]; try discriminate. injection H as -> ->.
  unfold get_ptr in G. destruct (get_base (fuel_of f) f (st_ren s) (st_ren s p)) as [bb|] eqn:Gb; [|discriminate].
  destruct (is_whole (fuel_of f) f (st_ren s) (st_ren s p)) as [w'|] eqn:Gw; [|discriminate]. injection G as -> ->.
  assert (Ar : available f c k (st_ren s p)) by (eapply ren_avail; eauto).
  assert (Er : e (st_ren s p) = Some d) by (rewrite (ren_env _ _ _ _ s p E C I Av Ar); exact Ed).
  split; [eapply base_right; eauto|]. intros ->. eapply whole_right; eauto.
Qed.
End Pointers.
