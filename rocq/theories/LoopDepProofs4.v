(** Proofs about the loop dependence tests: the tests over one loop together, over several loops,
    over all separable subscripts, and the intersection of constraints. *)
From Verif Require Import Base Scev ScevSpec ScevProofs ScevProofs2 LoopDep LoopDepSpec LoopDepProofs LoopDepProofs2 LoopDepProofs3.
From Coq Require Import Permutation Lia ZArith.
Local Open Scope Z_scope.
Set Default Proof Using "Type".

(** * One loop *)
Lemma is_val_linear env n v : linear_value env n v <-> is_val env n v.
Proof. apply linear_value_lin. Qed.
Lemma rec_value env it l n x c v : is_val env n x -> value_of env it (NRec l n (NConst c)) v -> v = x + c * it l.
Proof. intros [_ H] V. apply value_of_val in V. destruct V as [_ <-]. cbn [val]. rewrite H. reflexivity. Qed.
Lemma const_value env it c v : value_of env it (NConst c) v -> v = c.
Proof. intros V. inversion V; auto. Qed.
Lemma recs_rec l n c : rec_free n -> recs (NRec l n (NConst c)) = [NRec l n (NConst c)].
Proof. intros R. cbn [recs]. rewrite (rec_free_recs n R). reflexivity. Qed.
Lemma loops_rec l n c : rec_free n -> loops_of (NRec l n (NConst c)) = [l].
Proof. intros R. unfold loops_of. rewrite recs_rec by auto. reflexivity. Qed.
Lemma neg_const_eqb c : c <> 0 -> node_eqb (NConst c) (create_negation (NConst c)) = false.
Proof. intros. apply node_eqb_neq. cbn. intros [= E]. lia. Qed.

Definition crossing (l : N) (s d : node) : Prop :=
  exists n n' c, c <> 0 /\ s = NRec l n (NConst c) /\ d = NRec l n' (NConst (- c)).

Section Siv.
Variables (uid addr : node -> N) (laddr : N -> N) (f : nat) (half : Z -> Z -> bool).
Hypothesis Hhalf : forall x, x <> 0 -> half x (2 * x) = true.
Variable loops : N -> loop_desc.
Variables (env : N -> Z) (l : N) (r : loop_run).
Hypothesis D : described env (loops l) r.
Hypothesis C : counts r.

Lemma siv_same n n' c e : rec_free n -> rec_free n' -> c <> 0 ->
  siv_test uid addr laddr (S (S f)) half loops l (NRec l n (NConst c)) (NRec l n' (NConst c)) e =
  or_else (strong_siv uid addr laddr (S (S f)) loops l (NRec l n (NConst c)) (NRec l n' (NConst c)) (NConst c) e)
    (fun e => SOk (false, e)).
Proof.
  intros R R' Hc. unfold siv_test. rewrite !loops_rec by auto. unfold or_else at 1 2. cbn [sbind].
  rewrite !recs_rec by auto. rewrite node_eqb_refl, neg_const_eqb by auto.
  unfold or_else. destruct (strong_siv _ _ _ _ _ _ _ _ _ _) as [[[|] e']| |]; reflexivity.
Qed.
Lemma siv_crossing n n' c e : rec_free n -> rec_free n' -> c <> 0 ->
  siv_test uid addr laddr (S (S f)) half loops l (NRec l n (NConst c)) (NRec l n' (NConst (- c))) e =
  or_else (weak_crossing_siv uid addr laddr (S (S f)) half (NRec l n (NConst c)) (NRec l n' (NConst (- c))) (NConst c) e)
    (fun e => SOk (false, e)).
Proof. clear .
  intros R R' Hc. unfold siv_test. rewrite !loops_rec by auto. unfold or_else at 1 2. cbn [sbind].
  rewrite !recs_rec by auto.
  assert (E : node_eqb (NConst c) (NConst (- c)) = false) by (apply node_eqb_neq; intros [= E]; lia). rewrite E.
  unfold or_else at 1. cbn [sbind]. cbn [create_negation]. rewrite Z.opp_involutive, node_eqb_refl. reflexivity.
Qed.
Lemma siv_source s o c e :
  siv_test uid addr laddr (S (S f)) half loops l (NConst s) (NRec l (NConst o) (NConst c)) e =
  or_else (weak_zero uid addr laddr (S (S f)) loops true l (NConst s) (NConst o) (NConst c) e)
    (fun e => SOk (false, e)).
Proof.
  unfold siv_test. change (loops_of (NConst s)) with (@nil N). cbn match. cbn [as_rec deref].
  destruct (weak_zero _ _ _ _ _ _ _ _ _ _ _) as [[[|] e']| |]; try reflexivity.
Qed.
Lemma siv_destination s o c e :
  siv_test uid addr laddr (S (S f)) half loops l (NRec l (NConst o) (NConst c)) (NConst s) e =
  or_else (weak_zero uid addr laddr (S (S f)) loops false l (NConst s) (NConst o) (NConst c) e)
    (fun e => SOk (false, e)).
Proof.
  unfold siv_test. rewrite loops_rec by exact I. unfold or_else. cbn [sbind loops_of recs flat_map nodup as_rec deref].
  change (loops_of (NConst s)) with (@nil N). cbn match.
  destruct (weak_zero _ _ _ _ _ _ _ _ _ _ _) as [[[|] e']| |]; try reflexivity.
Qed.

Lemma or_else_false k (x : bool * entry) b e' : or_else (SOk x) (fun e => SOk (false, e)) = SOk (b, e') ->
  k = fst x -> k = false -> b = false /\ e' = snd x.
Proof. destruct x as [b0 e0]. cbn. intros E -> ->. injection E as <- <-. auto. Qed.

Theorem siv_right s d e b e' : handled_pair env r l s d ->
  siv_test uid addr laddr (S (S f)) half loops l s d e = SOk (b, e') ->
  forall it it', conflict env r l it it' s d ->
    b = false /\ (fresh e -> ~ crossing l s d -> reported r e' (it l) (it' l)).
Proof using D C Hhalf.
  intros H T it it' (K & K' & v & V & V'). destruct H.
  - rewrite siv_same in T by (auto; exact I).
    destruct (strong_right uid addr laddr f loops env l r D C (NConst o) (NConst o') o o' c e) as (b0 & e0 & E & Q);
      auto; try (apply is_val_const; auto).
    rewrite E in T.
    apply (rec_value _ _ _ _ o) in V; [|apply is_val_const; auto]. apply (rec_value _ _ _ _ o') in V'; [|apply is_val_const; auto].
    destruct (Q _ _ K K' ltac:(lia)) as [-> Rp]. apply (or_else_false false) in T; auto. destruct T as [-> ->]. auto.
  - apply is_val_linear in H, H0.
    assert (S0 : r_step r <> 0) by (destruct C as [[S _]|[S _]]; rewrite S; lia).
    rewrite siv_same in T by (auto; apply H || apply H0).
    apply (rec_value _ _ _ _ x) in V; [|auto]. apply (rec_value _ _ _ _ x') in V'; [|auto].
    destruct (has_unknown (NRec l n (NConst (r_step r))) || has_unknown (NRec l n' (NConst (r_step r)))) eqn:U.
    + destruct (symbolic_right uid addr laddr f loops env l r D C n n' x x' e) as (b0 & e0 & E & Q); auto.
      unfold strong_siv in T. rewrite U, E in T. destruct (Q _ _ K K' ltac:(lia)) as [-> Rp].
      apply (or_else_false false) in T; auto. destruct T as [-> ->]. auto.
    + apply orb_false_iff in U. destruct U as [U1 U2].
      destruct (strong_right uid addr laddr f loops env l r D C n n' x x' (r_step r) e) as (b0 & e0 & E & Q); auto.
      rewrite E in T. destruct (Q _ _ K K' ltac:(lia)) as [-> Rp].
      apply (or_else_false false) in T; auto. destruct T as [-> ->]. auto.
  - apply is_val_linear in H0, H1. rewrite siv_crossing in T by (auto; apply H0 || apply H1).
    apply (rec_value _ _ _ _ x) in V; [|auto]. apply (rec_value _ _ _ _ x') in V'; [|auto].
    destruct (crossing_right uid addr laddr f env l r half n n' x x' c e) as (b0 & e0 & E & Q & _); auto.
    rewrite E in T. destruct (Q _ _ K K' ltac:(lia)) as [-> _].
    apply (or_else_false false) in T; auto. destruct T as [-> ->]. split; auto. intros _ X. exfalso. apply X.
    exists n, n', c. auto.
  - rewrite siv_source in T. apply const_value in V. apply (rec_value _ _ _ _ o) in V'; [|apply is_val_const; auto].
    destruct (weak_zero _ _ _ _ _ _ _ _ _ _ _) as [[b0 e0]| |] eqn:E; try discriminate.
    destruct (weak_zero_right uid addr laddr f loops env l r D C true f0 o c e b0 e0 H H0 E (it' l) K' ltac:(lia))
      as (-> & P).
    apply (or_else_false false) in T; auto. destruct T as [-> ->]. split; auto. intros Fe _. cbn [snd].
    specialize (P Fe). repeat split; tauto.
  - rewrite siv_destination in T. apply const_value in V'. apply (rec_value _ _ _ _ o) in V; [|apply is_val_const; auto].
    destruct (weak_zero _ _ _ _ _ _ _ _ _ _ _) as [[b0 e0]| |] eqn:E; try discriminate.
    destruct (weak_zero_right uid addr laddr f loops env l r D C false f0 o c e b0 e0 H H0 E (it l) K ltac:(lia))
      as (-> & P).
    apply (or_else_false false) in T; auto. destruct T as [-> ->]. split; auto. intros Fe _. cbn [snd].
    specialize (P Fe). repeat split; tauto.
Qed.

Theorem siv_crossing_right n n' x x' c e b e' : c <> 0 -> e_info e <> I_distance ->
  linear_value env n x -> linear_value env n' x' ->
  siv_test uid addr laddr (S (S f)) half loops l (NRec l n (NConst c)) (NRec l n' (NConst (- c))) e = SOk (b, e') ->
  e_info e' = I_distance ->
  forall it it', conflict env r l it it' (NRec l n (NConst c)) (NRec l n' (NConst (- c))) ->
    e_dist e' = 0 /\ Z.abs (it l - it' l) <= 1.
Proof using Hhalf.
  intros Hc Fe H0 H1 T I1 it it' (K & K' & v & V & V').
  apply is_val_linear in H0, H1. rewrite siv_crossing in T by (auto; apply H0 || apply H1).
  apply (rec_value _ _ _ _ x) in V; [|auto]. apply (rec_value _ _ _ _ x') in V'; [|auto].
  destruct (crossing_right uid addr laddr f env l r half n n' x x' c e) as (b0 & e0 & E & Q & _); auto.
  rewrite E in T. destruct (Q _ _ K K' ltac:(lia)) as [-> Q1].
  apply (or_else_false false) in T; auto. destruct T as [-> ->]. cbn [snd] in *. specialize (Q1 Fe I1). tauto.
Qed.

Theorem siv_defined s d e op a up v t : handled_pair env r l s d ->
  ld_cond (loops l) = Some (op, Some (NConst a), up) -> ld_init (loops l) = Some v -> ld_trip (loops l) = Some t ->
  exists b e', siv_test uid addr laddr (S (S f)) half loops l s d e = SOk (b, e').
Proof using D C Hhalf.
  intros H L1 L2 L3.
  assert (OE : forall x, exists b e', or_else (SOk x) (fun e => SOk (false, e)) = SOk (b, e')).
  { intros [[|] e0]; cbn; eauto. }
  destruct H.
  - rewrite siv_same by (auto; exact I).
    destruct (strong_right uid addr laddr f loops env l r D C (NConst o) (NConst o') o o' c e) as (b0 & e0 & -> & Q);
      auto; try (apply is_val_const; auto).
  - apply is_val_linear in H, H0.
    assert (S0 : r_step r <> 0) by (destruct C as [[S _]|[S _]]; rewrite S; lia).
    rewrite siv_same by (auto; apply H || apply H0).
    destruct (has_unknown (NRec l n (NConst (r_step r))) || has_unknown (NRec l n' (NConst (r_step r)))) eqn:U.
    + destruct (symbolic_right uid addr laddr f loops env l r D C n n' x x' e) as (b0 & e0 & E & Q); auto.
      unfold strong_siv. rewrite U, E. auto.
    + apply orb_false_iff in U. destruct U as [U1 U2].
      destruct (strong_right uid addr laddr f loops env l r D C n n' x x' (r_step r) e) as (b0 & e0 & -> & Q); auto.
  - apply is_val_linear in H0, H1. rewrite siv_crossing by (auto; apply H0 || apply H1).
    destruct (crossing_right uid addr laddr f env l r half n n' x x' c e) as (b0 & e0 & -> & Q & _); auto.
  - rewrite siv_source. destruct (weak_zero_defined uid addr laddr f loops env l r D C true f0 o c e op a up v t) as (b0 & e0 & ->); auto.
  - rewrite siv_destination. destruct (weak_zero_defined uid addr laddr f loops env l r D C false f0 o c e op a up v t) as (b0 & e0 & ->); auto.
Qed.
End Siv.

(** * Several loops *)
Lemma gcd_coefficients_spec rs : forall running g, 0 <= running -> gcd_coefficients rs running = SOk g ->
  0 <= g /\ (g | running) /\ Forall (fun '(_, c) => exists v, c = NConst v /\ (g | v)) rs.
Proof.
  induction rs as [|[o c] rs IH]; intros running g R E; cbn [gcd_coefficients] in E.
  - injection E as <-. split; auto. split; [apply Z.divide_refl | constructor].
  - destruct (const_of c) as [v|] eqn:Ec; [|discriminate]. cbn [deref] in E. apply const_of_some in Ec.
    rewrite gcd_right in E by lia. cbn [sbind] in E. apply IH in E; [|apply Z.gcd_nonneg].
    destruct E as (G & Dv & F). split; auto. split.
    + eapply Z.divide_trans; [exact Dv | apply Z.gcd_divide_l].
    + constructor; auto. exists v. split; auto. apply Z.divide_abs_r.
      eapply Z.divide_trans; [exact Dv | apply Z.gcd_divide_r].
Qed.
Lemma constant_terms_app a : forall b s, constant_terms (a ++ b) = SOk s ->
  exists x y, constant_terms a = SOk x /\ constant_terms b = SOk y /\ s = x + y.
Proof.
  induction a as [|[o c] a IH]; intros b s E; cbn [app constant_terms] in *.
  - exists 0, s. auto.
  - destruct (const_of o) as [v|]; [|discriminate]. cbn [deref] in *.
    destruct (constant_terms (a ++ b)) as [t| |] eqn:Et; try discriminate. injection E as <-.
    destruct (IH _ _ Et) as (x & y & -> & Ey & ->). cbn [sbind]. exists (v + x), y. repeat split; auto. lia.
Qed.
Lemma zsum_app a b : fold_right Z.add 0 (a ++ b) = fold_right Z.add 0 a + fold_right Z.add 0 b.
Proof. induction a; simpl; lia. Qed.

Lemma gcd_value env it g n : gcd_form n = true -> forall x,
  constant_terms (top_recs n) = SOk x ->
  Forall (fun '(_, c) => exists v, c = NConst v /\ (g | v)) (top_recs n) ->
  exists q, val env it n = x + fold_right Z.add 0 (top_consts n) + g * q.
Proof.
  induction n using node_ind'; cbn [gcd_form]; try discriminate; intros G x E F.
  - cbn in *. injection E as <-. exists 0. lia.
  - cbn [top_recs constant_terms] in E. destruct (const_of n1) as [w|] eqn:Ec; [|discriminate].
    cbn [deref sbind] in E. injection E as <-. apply const_of_some in Ec. subst n1.
    apply Forall_inv in F. cbn beta iota in F. destruct F as (v & -> & q & Hq). cbn. exists (q * it l). lia.
  - cbn [top_recs top_consts val] in *. revert x E F G. induction H as [|c cs Hc Hcs IH]; intros x E F G.
    + cbn in *. injection E as <-. exists 0. lia.
    + cbn [flat_map forallb fold_right] in *. apply andb_true_iff in G. destruct G as [G1 G2].
      apply constant_terms_app in E. destruct E as (y & z & Ey & Ez & ->).
      apply Forall_app in F. destruct F as [F1 F2].
      destruct (Hc G1 y Ey F1) as [q Hq]. destruct (IH z Ez F2 G2) as [q' Hq'].
      rewrite zsum_app, Hq, Hq'. exists (q + q'). lia.
Qed.

Theorem gcd_miv_right env it it' s d : gcd_miv_test s d = SOk true -> ~ equal_subscripts env it it' s d.
Proof.
  unfold gcd_miv_test. intros E (v & V & V').
  destruct (gcd_form s) eqn:Gs; [|discriminate]. destruct (gcd_form d) eqn:Gd; [|discriminate]. cbn [negb orb] in E.
  destruct (offsets_constant (top_recs s)); [|discriminate].
  destruct (offsets_constant (top_recs d)); [|discriminate]. cbn [negb orb] in E.
  unfold calculate_constant in E.
  destruct (constant_terms (top_recs s)) as [x| |] eqn:Ex; try discriminate. cbn [sbind] in E.
  destruct (constant_terms (top_recs d)) as [y| |] eqn:Ey; try discriminate. cbn [sbind] in E.
  destruct (gcd_coefficients (top_recs s) 0) as [g0| |] eqn:E0; try discriminate. cbn [sbind] in E.
  destruct (gcd_coefficients (top_recs d) g0) as [g| |] eqn:E1; try discriminate. cbn [sbind] in E.
  destruct (Z.eqb_spec g 0) as [|Ng]; [discriminate|]. injection E as E. apply negb_true_iff, Z.eqb_neq in E.
  apply gcd_coefficients_spec in E0; [|lia]. destruct E0 as (G0 & _ & F0).
  apply gcd_coefficients_spec in E1; [|auto]. destruct E1 as (G1 & Dg & F1).
  assert (F0' : Forall (fun '(_, c) => exists v, c = NConst v /\ (g | v)) (top_recs s)).
  { eapply Forall_impl; [|exact F0]. intros [o c] (w & -> & Dw). exists w. split; auto. eapply Z.divide_trans; eauto. }
  destruct (gcd_value env it g s Gs x Ex F0') as [q Hq].
  destruct (gcd_value env it' g d Gd y Ey F1) as [q' Hq'].
  apply value_of_val in V, V'. destruct V as [_ V]. destruct V' as [_ V'].
  apply E. apply Z.rem_divide; auto. apply Z.divide_abs_r. exists (q' - q). lia.
Qed.
Lemma coefficients_defined rs : forall running, 0 <= running -> Forall (fun '(_, c) => exists v, c = NConst v) rs ->
  exists g, gcd_coefficients rs running = SOk g /\ 0 <= g /\ (running <> 0 \/ Exists (fun '(_, c) => c <> NConst 0) rs -> g <> 0).
Proof.
  induction rs as [|[o c] rs IH]; intros running R F; cbn [gcd_coefficients].
  - exists running. split; auto. split; auto. intros [H|H]; auto. inversion H.
  - pose proof (Forall_inv_tail F) as F'. apply Forall_inv in F. cbn beta iota in F. destruct F as (v & ->). cbn [const_of deref]. rewrite gcd_right by lia. cbn [sbind].
    destruct (IH (Z.gcd running (Z.abs v)) (Z.gcd_nonneg _ _) F') as (g & E & G & NZ). exists g. split; auto. split; auto.
    intros [H|H].
    + apply NZ. left. intros Z0. apply Z.gcd_eq_0_l in Z0. auto.
    + inversion H; subst.
      * apply NZ. left. intros Z0. apply Z.gcd_eq_0_r in Z0. apply H1. f_equal. lia.
      * apply NZ. right. auto.
Qed.

(** * All separable subscripts *)
Lemma handled_loops env r l s d : handled_pair env r l s d ->
  loops_of_pair s d = [l] /\ is_cant s = false /\ is_cant d = false.
Proof.
  assert (T : forall n n' c c', rec_free n -> rec_free n' ->
            loops_of_pair (NRec l n (NConst c)) (NRec l n' (NConst c')) = [l]).
  { intros. unfold loops_of_pair. rewrite !recs_rec by auto. cbn. destruct (N.eq_dec l l); congruence. }
  intros H. destruct H; (split; [|auto]).
  - apply T; exact I.
  - apply T; [apply H | apply H0].
  - apply T; [apply H0 | apply H1].
  - reflexivity.
  - reflexivity.
Qed.

Section All.
Variables (uid addr : node -> N) (laddr : N -> N) (f : nat) (half : Z -> Z -> bool).
Variables (loops : N -> loop_desc) (supported : N -> bool).
Variables (env : N -> Z) (runs : N -> loop_run).
Hypothesis Hhalf : forall x, x <> 0 -> half x (2 * x) = true.
Hypothesis D : forall l, described env (loops l) (runs l).
Hypothesis C : forall l, supported l = true -> counts (runs l).

Lemma pair_right s d es es' it it' : handled_any env runs s d ->
  pair_test uid addr laddr (S (S f)) half loops supported s d es = SOk (inl es') ->
  (forall l, executes (runs l) (it l) /\ executes (runs l) (it' l)) ->
  ~ equal_subscripts env it it' s d.
Proof using Hhalf D C.
  intros H T X Q. unfold pair_test in T. destruct H as [x y|l s d H|s d l l' N1 J J'].
  - cbn in T. destruct (ziv_test (NConst x) (NConst y)) eqn:E; try discriminate.
    unfold ziv_test in E. apply negb_true_iff, node_eqb_neq in E.
    destruct Q as (v & V & V'). apply const_value in V, V'. congruence.
  - destruct (handled_loops _ _ _ _ _ H) as (E1 & E2 & E3).
    unfold pair_loop in T. rewrite E1, E2, E3 in T. cbn [orb] in T.
    destruct (supported l) eqn:Es; cbn [negb] in T; [|discriminate].
    destruct (siv_test _ _ _ _ _ _ _ _ _ _) as [[b e']| |] eqn:E; try discriminate. cbn [sbind] in T.
    destruct b; [|discriminate].
    destruct (siv_right uid addr laddr f half Hhalf loops env l (runs l) (D l) (C l Es) s d _ _ _ H E it it') as [F _]; [|discriminate].
    destruct (X l). split; auto.
  - unfold pair_loop in T.
    destruct (loops_of_pair s d) as [|a [|b ls]].
    + destruct J.
    + destruct J as [->|[]]. destruct J' as [->|[]]. contradiction.
    + destruct (is_cant s || is_cant d); [discriminate|].
      destruct (gcd_miv_test s d) as [[|]| |] eqn:E; try discriminate.
      apply (gcd_miv_right env it it' s d E Q).
Qed.

Theorem separable_right pairs : forall es es',
  Forall (fun '(s, d) => handled_any env runs s d) pairs ->
  separable_test uid addr laddr (S (S f)) half loops supported pairs es = SOk (true, es') ->
  forall it it', (forall l, executes (runs l) (it l) /\ executes (runs l) (it' l)) ->
  ~ Forall (fun '(s, d) => equal_subscripts env it it' s d) pairs.
Proof using Hhalf D C.
  induction pairs as [|[s d] pairs IH]; intros es es' F T it it' X Q; cbn [separable_test] in T; [discriminate|].
  destruct (pair_test _ _ _ _ _ _ _ s d es) as [[es1|es1]| |] eqn:E; try discriminate; cbn [sbind] in T.
  - apply (pair_right s d es es1 it it' (Forall_inv F) E X). apply (Forall_inv Q).
  - apply (IH es1 es' (Forall_inv_tail F) T it it' X). apply (Forall_inv_tail Q).
Qed.
End All.

(** * Constraints *)
Lemma same_fraction_right n0 d0 n1 d1 b : same_fraction n0 d0 n1 d1 = SOk b ->
  (b = true -> exists g0 g1, g0 > 0 /\ g1 > 0 /\ exists p q, n0 = g0 * p /\ d0 = g0 * q /\ n1 = g1 * p /\ d1 = g1 * q) /\
  (b = false -> n0 * d1 = n1 * d0 -> n0 * n1 + d0 * d1 < 0).
Proof.
  unfold same_fraction. rewrite !gcd_right by lia. cbn [sbind]. rewrite !Z.gcd_abs_l, !Z.gcd_abs_r.
  remember (Z.gcd n0 d0) as g0 eqn:Eg0. remember (Z.gcd n1 d1) as g1 eqn:Eg1.
  destruct (Z.eqb_spec g0 0) as [|G0]; [discriminate|]. destruct (Z.eqb_spec g1 0) as [|G1]; [discriminate|].
  cbn [orb]. intros [= <-].
  assert (P0 : 0 < g0) by (pose proof (Z.gcd_nonneg n0 d0); lia).
  assert (P1 : 0 < g1) by (pose proof (Z.gcd_nonneg n1 d1); lia).
  destruct (Z.gcd_divide_l n0 d0) as [p0 Hp0]. destruct (Z.gcd_divide_r n0 d0) as [q0 Hq0]. rewrite <- Eg0 in Hp0, Hq0.
  destruct (Z.gcd_divide_l n1 d1) as [p1 Hp1]. destruct (Z.gcd_divide_r n1 d1) as [q1 Hq1]. rewrite <- Eg1 in Hp1, Hq1.
  assert (E1 : Z.quot n0 g0 = p0) by (rewrite Hp0; apply Z.quot_mul; auto).
  assert (E2 : Z.quot n1 g1 = p1) by (rewrite Hp1; apply Z.quot_mul; auto).
  assert (E3 : Z.quot d0 g0 = q0) by (rewrite Hq0; apply Z.quot_mul; auto).
  assert (E4 : Z.quot d1 g1 = q1) by (rewrite Hq1; apply Z.quot_mul; auto).
  rewrite E1, E2, E3, E4. split.
  - intros E. apply andb_true_iff in E. destruct E as [A B]. apply Z.eqb_eq in A, B. subst p1 q1.
    exists g0, g1. split; [lia|]. split; [lia|]. exists p0, q0. lia.
  - intros E Cr.
    assert (Cr' : p0 * q1 = p1 * q0).
    { rewrite Hp0, Hq0, Hp1, Hq1 in Cr. apply (Z.mul_reg_l _ _ (g0 * g1)); [clear - P0 P1; nia|]. clear - Cr. lia. }
    (* coprime pairs on one line through the origin are equal or opposite *)
    assert (Cop0 : Z.gcd p0 q0 = 1).
    { apply (Z.mul_reg_l _ _ g0); auto. rewrite Z.mul_1_r, <- (Z.gcd_mul_mono_l_nonneg p0 q0 g0) by lia.
      rewrite (Z.mul_comm g0 p0), (Z.mul_comm g0 q0), <- Hp0, <- Hq0. auto. }
    assert (Cop1 : Z.gcd p1 q1 = 1).
    { apply (Z.mul_reg_l _ _ g1); auto. rewrite Z.mul_1_r, <- (Z.gcd_mul_mono_l_nonneg p1 q1 g1) by lia.
      rewrite (Z.mul_comm g1 p1), (Z.mul_comm g1 q1), <- Hp1, <- Hq1. auto. }
    assert (Dp : (p0 | p1)).
    { apply Z.gauss with q0; auto. exists q1. lia. }
    assert (Dp' : (p1 | p0)).
    { apply Z.gauss with q1; auto. exists q0. lia. }
    assert (Dq : (q0 | q1)).
    { apply Z.gauss with p0; [exists p1; lia | rewrite Z.gcd_comm; auto]. }
    assert (Dq' : (q1 | q0)).
    { apply Z.gauss with p1; [exists p0; lia | rewrite Z.gcd_comm; auto]. }
    assert (Ap : p0 = p1 \/ p0 = - p1) by (apply Z.divide_antisym; auto).
    assert (Aq : q0 = q1 \/ q0 = - q1) by (apply Z.divide_antisym; auto).
    assert (Opp : p1 = - p0 /\ q1 = - q0).
    { apply andb_false_iff in E. rewrite !Z.eqb_neq in E. destruct E as [E|E].
      - destruct Ap as [|Ap]; [contradiction|]. split; [lia|]. destruct Aq as [Aq|Aq]; [|lia].
        assert (p0 <> 0) by (intros ->; apply E; lia). subst q1. subst p0.
        assert (Z0 : p1 * q0 = 0) by lia. apply Z.mul_eq_0 in Z0. lia.
      - destruct Aq as [|Aq]; [contradiction|]. split; [|lia]. destruct Ap as [Ap|Ap]; [|lia].
        assert (Z0 : p1 * q1 = 0) by (subst p0 q0; lia). apply Z.mul_eq_0 in Z0. lia. }
    destruct Opp as [-> ->]. rewrite Hp0, Hq0, Hp1, Hq1.
    assert (0 < p0 * p0 + q0 * q0).
    { assert (p0 <> 0 \/ q0 <> 0) by (destruct (Z.eq_dec p0 0) as [->|]; [destruct (Z.eq_dec q0 0) as [->|]; [discriminate Cop0|] |]; auto).
      clear - H. pose proof (Z.square_nonneg p0). pose proof (Z.square_nonneg q0).
      destruct H; [assert (0 < p0 * p0) by nia | assert (0 < q0 * q0) by nia]; lia. }
    assert (0 < g0 * g1) by (apply Z.mul_pos_pos; auto).
    assert (0 < (g0 * g1) * (p0 * p0 + q0 * q0)) by (apply Z.mul_pos_pos; auto).
    replace (p0 * g0 * (- p0 * g1) + q0 * g0 * (- q0 * g1)) with (- ((g0 * g1) * (p0 * p0 + q0 * q0))) by ring.
    clear - H1. lia.
Qed.

(** The two lines have no point in common within the bounds, or the result allows it. *)
Lemma intersect_lines_right k0 a0 b0 c0 a1 b1 c1 lo hi k x y :
  allows k0 x y ->
  intersect_lines k0 a0 b0 c0 a1 b1 c1 (NConst lo) (NConst hi) = SOk k ->
  a0 * x + b0 * y = c0 -> a1 * x + b1 * y = c1 -> lo <= x <= hi -> lo <= y <= hi ->
  allows k x y.
Proof.
  intros A E L0 L1 Bx By. unfold intersect_lines in E.
  destruct (same_fraction a0 b0 a1 b1) as [par| |] eqn:Ep; try discriminate. cbn [sbind] in E.
  destruct (same_fraction_right _ _ _ _ _ Ep) as [Pt Pf].
  destruct par.
  - destruct (Pt eq_refl) as (g0 & g1 & G0 & G1 & p & q & -> & -> & -> & ->). clear Pt Pf.
    assert (CC : exists z, c0 = g0 * z /\ c1 = g1 * z) by (exists (p * x + q * y); clear - L0 L1; lia).
    destruct CC as (z & -> & ->).
    assert (SF : forall b, (q = 0 \/ q <> 0) -> forall u, (u = p \/ u = q) -> u <> 0 ->
              same_fraction (g0 * z) (g0 * u) (g1 * z) (g1 * u) = SOk b -> b = true).
    { intros b _ u _ U S. destruct b; auto. exfalso.
      destruct (same_fraction_right _ _ _ _ _ S) as [_ F]. specialize (F eq_refl).
      assert (F' : g0 * z * (g1 * u) = g1 * z * (g0 * u)) by ring. specialize (F F'). clear - F U G0 G1.
      assert (0 < u * u) by nia. assert (0 <= z * z) by nia. assert (0 < g0 * g1) by nia.
      assert (0 < (g0 * g1) * (z * z + u * u)) by (apply Z.mul_pos_pos; lia).
      replace (g0 * z * (g1 * z) + g0 * u * (g1 * u)) with ((g0 * g1) * (z * z + u * u)) in F by ring. lia. }
    destruct (Z.eqb (g0 * q) 0 && Z.eqb (g1 * q) 0) eqn:Eb.
    + apply andb_true_iff in Eb. destruct Eb as [Eb _]. apply Z.eqb_eq in Eb. assert (q = 0) by (clear - Eb G0; nia). subst q.
      destruct (same_fraction (g0 * z) (g0 * p) (g1 * z) (g1 * p)) as [s| |] eqn:Es; try discriminate. cbn [sbind] in E.
      destruct (Z.eq_dec p 0) as [->|P0].
      { exfalso. unfold same_fraction in Ep. rewrite !gcd_right in Ep by lia. cbn [sbind] in Ep.
        rewrite !Z.mul_0_r in Ep. discriminate. }
      rewrite (SF s (or_introl eq_refl) p (or_introl eq_refl) P0 Es) in E. injection E as <-. auto.
    + destruct (same_fraction (g0 * z) (g0 * q) (g1 * z) (g1 * q)) as [s| |] eqn:Es; try discriminate. cbn [sbind] in E.
      assert (Q0 : q <> 0) by (intros ->; rewrite !Z.mul_0_r in Eb; discriminate).
      rewrite (SF s (or_intror Q0) q (or_intror eq_refl) Q0 Es) in E. injection E as <-. auto.
  - cbn [const_of] in E. destruct (Z.eqb_spec (b1 * a0 - b0 * a1) 0) as [|Dn]; [discriminate|].
    assert (Eu : b1 * c0 - b0 * c1 = x * (b1 * a0 - b0 * a1)) by (subst c0 c1; ring).
    rewrite Eu in E. rewrite Z.quot_mul in E by auto. rewrite Z.rem_mul in E by auto. cbn [Z.eqb] in E.
    destruct (Z.eqb_spec b1 0) as [B1|B1]; cbn [negb] in E.
    + destruct (Z.eqb_spec b0 0) as [B0|B0]; cbn [negb] in E; [subst; lia|].
      destruct (Z.eqb_spec b0 0) as [|_]; [contradiction|].
      replace (c0 - a0 * x) with (y * b0) in E by lia. rewrite Z.rem_mul, Z.quot_mul in E by auto.
      replace (lo <=? x) with true in E by (symmetry; apply Z.leb_le; lia).
      replace (x <=? hi) with true in E by (symmetry; apply Z.leb_le; lia).
      replace (lo <=? y) with true in E by (symmetry; apply Z.leb_le; lia).
      replace (y <=? hi) with true in E by (symmetry; apply Z.leb_le; lia).
      injection E as <-. constructor.
    + destruct (Z.eqb_spec b1 0) as [|_]; [contradiction|].
      replace (c1 - a1 * x) with (y * b1) in E by lia. rewrite Z.rem_mul, Z.quot_mul in E by auto.
      replace (lo <=? x) with true in E by (symmetry; apply Z.leb_le; lia).
      replace (x <=? hi) with true in E by (symmetry; apply Z.leb_le; lia).
      replace (lo <=? y) with true in E by (symmetry; apply Z.leb_le; lia).
      replace (y <=? hi) with true in E by (symmetry; apply Z.leb_le; lia).
      injection E as <-. constructor.
Qed.

Section Constraints.
Variables (uid addr : node -> N) (laddr : N -> N) (f : nat).
Lemma line_of_right k x y : allows k x y ->
  (exists a b c, line_of uid addr laddr (S f) k = SOk (Some (NConst a, NConst b, NConst c)) /\ a * x + b * y = c) \/
  (exists x' y', k = K_point x' y') \/ k = K_none.
Proof.
  intros A. destruct A; cbn [line_of]; eauto.
  - left. exists a, b, c. auto.
  - left. cbn [create_negation]. rewrite simplify_const. cbn [sbind]. exists 1, (-1), (- d). split; auto. lia.
Qed.
Theorem intersect_right k0 k1 lo hi k x y :
  allows k0 x y -> allows k1 x y -> lo <= x <= hi -> lo <= y <= hi ->
  intersect uid addr laddr (S f) k0 k1 (NConst lo) (NConst hi) = SOk (Some k) -> allows k x y.
Proof.
  intros A0 A1 Bx By E.
  pose proof (line_of_right _ _ _ A0) as L0. pose proof (line_of_right _ _ _ A1) as L1.
  destruct A0 as [a b c x y Hl|d x y Hd|x y|x y]; cbn [intersect] in E.
  - destruct L0 as [(a0 & b0 & c0 & E0 & H0)|[(? & ? & X)|X]]; try discriminate.
    inversion A1; subst k1; repeat match goal with H : ?a = x |- _ => is_var a; subst a | H : ?a = y |- _ => is_var a; subst a end.
    + destruct L1 as [(a1' & b1' & c1' & E1 & H1)|[(? & ? & X)|X]]; try discriminate.
      rewrite E0, E1 in E. cbn [sbind const_of] in E.
      destruct (intersect_lines _ _ _ _ _ _ _ _ _) as [k'| |] eqn:Ek; try discriminate. injection E as <-.
      refine (intersect_lines_right _ _ _ _ _ _ _ _ _ _ _ _ _ Ek _ _ Bx By); auto; constructor; auto.
    + destruct L1 as [(a1' & b1' & c1' & E1 & H1)|[(? & ? & X)|X]]; try discriminate.
      rewrite E0, E1 in E. cbn [sbind const_of] in E.
      destruct (intersect_lines _ _ _ _ _ _ _ _ _) as [k'| |] eqn:Ek; try discriminate. injection E as <-.
      refine (intersect_lines_right _ _ _ _ _ _ _ _ _ _ _ _ _ Ek _ _ Bx By); auto; constructor; auto.
    + rewrite E0 in E. cbn [sbind const_of] in E. rewrite H0, Z.eqb_refl in E. injection E as <-. constructor.
    + injection E as <-. constructor; auto.
  - destruct L0 as [(a0 & b0 & c0 & E0 & H0)|[(? & ? & X)|X]]; try discriminate.
    inversion A1; subst k1; repeat match goal with H : ?a = x |- _ => is_var a; subst a | H : ?a = y |- _ => is_var a; subst a end.
    + destruct L1 as [(a1' & b1' & c1' & E1 & H1)|[(? & ? & X)|X]]; try discriminate.
      rewrite E0, E1 in E. cbn [sbind const_of] in E.
      destruct (intersect_lines _ _ _ _ _ _ _ _ _) as [k'| |] eqn:Ek; try discriminate. injection E as <-.
      refine (intersect_lines_right _ _ _ _ _ _ _ _ _ _ _ _ _ Ek _ _ Bx By); auto; constructor; auto.
    + injection E as <-. match goal with |- context [Z.eqb ?a ?b] => replace b with a by lia end. rewrite Z.eqb_refl. constructor; auto.
    + rewrite E0 in E. cbn [sbind const_of] in E. rewrite H0, Z.eqb_refl in E. injection E as <-. constructor.
    + injection E as <-. constructor; auto.
  - inversion A1; subst k1; repeat match goal with H : ?a = x |- _ => is_var a; subst a | H : ?a = y |- _ => is_var a; subst a end.
    + destruct L1 as [(a1' & b1' & c1' & E1 & H1)|[(? & ? & X)|X]]; try discriminate.
      rewrite E1 in E. cbn [sbind const_of] in E. rewrite H1, Z.eqb_refl in E. injection E as <-. constructor.
    + destruct L1 as [(a1' & b1' & c1' & E1 & H1)|[(? & ? & X)|X]]; try discriminate.
      rewrite E1 in E. cbn [sbind const_of] in E. rewrite H1, Z.eqb_refl in E. injection E as <-. constructor.
    + injection E as <-. rewrite !Z.eqb_refl. constructor.
    + injection E as <-. constructor.
  - injection E as <-. auto.
Qed.
End Constraints.
