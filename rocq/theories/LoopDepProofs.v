(** Proofs about the loop dependence tests: simplification of linear expressions, the greatest
    common divisor. *)
From Verif Require Import Base Scev ScevSpec ScevProofs ScevProofs2 LoopDep LoopDepSpec.
From Coq Require Import Permutation Lia ZArith.
Local Open Scope Z_scope.
Set Default Proof Using "Type".

(** * Linear expressions *)
Definition lin (n : node) : Prop := linear n /\ ok n.

Section Order.
Variables (uid addr : node -> N) (laddr : N -> N).

Lemma img_linear e r : is_rec (fst e) = false -> img e r -> linear r.
Proof. clear laddr addr uid.
  destruct e as [t k]. cbn [fst]. intros Ht (O & V & M). destruct t; try tauto; try discriminate.
  destruct M as [-> | [[-> ->] | [-> | ->]]]; split; cbn; auto.
Qed.
Lemma linear_add cs : linear (NAdd cs) <-> Forall linear cs.
Proof.
  unfold linear. rewrite rec_free_add. cbn [products]. rewrite flat_nil, !Forall_forall.
  split; [intros [A B] x J; auto | intros A; split; intros x J; apply A; auto].
Qed.
Lemma linear_poly cs : Forall linear cs -> linear (poly_of cs).
Proof.
  destruct cs as [|c [|d cs]]; intros F; [split; cbn; auto | inversion F; auto | apply linear_add; auto].
Qed.

Lemma step_linear simp n : lin n ->
  exists m, simplify_step uid addr laddr simp n = SOk m /\ lin m /\ same_val n m.
Proof.
  intros [L O]. pose proof (rfp_linear n L) as [R P]. rewrite step_finish. destruct (handled n) eqn:H.
  2:{ exists n. split; auto. split; [split; auto|]. intros ? ?; auto. }
  assert (HS : existsb is_rec (map fst (terms n)) = true -> simp_ok simp).
  { intros E. apply existsb_exists in E. destruct E as (x & J & E). rewrite (rfp_terms _ _ R J) in E. discriminate. }
  destruct (simplify_polynomial_spec uid addr simp n O P (unknown_goods n O R) HS)
    as (ts & rs & ps & k & cs & S1 & ND & Hts & F & Hps & Pm & V).
  assert (Crs : Forall (fun r => linear r /\ ok r) rs).
  { eapply Forall2_right; [exact F|]. intros [t v] r J Ir. apply filter_In in J. destruct J as [J _].
    split; [|apply Ir]. apply (img_linear (t, v)); auto. apply (rfp_terms n); auto. apply (Hts _ _ J). }
  assert (Eps : ps = []).
  { destruct ps as [|p ps]; auto. destruct (Hps p (or_introl eq_refl)) as [b J]. destruct L as [_ L].
    rewrite L in J. destruct J. }
  subst ps.
  assert (Ccs : Forall (fun r => linear r /\ ok r) cs).
  { eapply Forall_perm; [apply Permutation_sym, Pm|]. rewrite !Forall_app. split; auto. split; auto.
    unfold const_part. destruct (Z.eqb k 0); repeat constructor. }
  rewrite S1. cbn [sbind].
  assert (Rp : linear (poly_of cs)) by (apply linear_poly; eapply Forall_impl; [|exact Ccs]; intros ? [? ?]; auto).
  rewrite (finish_quiet uid laddr) by (left; apply Rp).
  exists (poly_of cs). split; auto. split.
  - split; auto. apply ok_poly; eapply Forall_impl; [|exact Ccs]; intros ? [? ?]; auto.
  - intros env it. rewrite val_poly, V. auto.
Qed.
Lemma simplify_linear fuel n : lin n ->
  exists m, simplify uid addr laddr (S fuel) n = SOk m /\ lin m /\ same_val n m.
Proof. cbn [simplify]. apply step_linear. Qed.
Lemma simplify_const fuel v : simplify uid addr laddr (S fuel) (NConst v) = SOk (NConst v).
Proof. reflexivity. Qed.

Lemma lin_const v : lin (NConst v).
Proof. repeat split. Qed.
Lemma lin_negation n : lin n -> lin (create_negation n).
Proof. intros [L O]. split; [apply linear_negation; auto | apply ok_negation; auto]. Qed.
Lemma lin_add a b : lin a -> lin b -> lin (create_add uid a b).
Proof.
  intros [L O] [L' O']. split; [|apply ok_create_add; auto].
  assert (F : linear (NAdd (add_children uid [] [a; b]))).
  { apply linear_add. apply Forall_add_children. repeat constructor; apply L || apply L'. }
  destruct a, b; cbn [create_add]; auto; repeat split.
Qed.
Lemma val_subtraction env it a b : ok a -> ok b ->
  val env it (create_subtraction uid a b) = val env it a - val env it b.
Proof. clear laddr addr.
  intros O O'. assert (E : val env it (create_add uid a (create_negation b)) = val env it a - val env it b).
  { rewrite val_create_add; auto. - rewrite val_negation. lia. - apply ok_negation; auto. }
  destruct a, b; auto.
Qed.
Lemma lin_subtraction a b : lin a -> lin b -> lin (create_subtraction uid a b).
Proof.
  intros H H'. assert (E : lin (create_add uid a (create_negation b))) by (apply lin_add; auto; apply lin_negation; auto).
  destruct a, b; auto.
Qed.
Lemma lin_rec_free_val env it it' n : lin n -> val env it n = val env it' n.
Proof. intros [[R _] _]. apply rec_free_val; auto. Qed.
Lemma linear_value_lin env n v : linear_value env n v <-> lin n /\ forall it, val env it n = v.
Proof.
  unfold linear_value, lin. split.
  - intros [L V]. pose proof (V (fun _ => 0)) as V0. apply value_of_val in V0. destruct V0 as [O _].
    split; [split; auto|]. intros it. specialize (V it). apply value_of_val in V. apply V.
  - intros [[L O] V]. split; auto. intros it. apply value_of_val. split; auto.
Qed.

(** * The difference of two recurrences with the same step *)
Lemma zero_sum fuel a b : a + b = 0 ->
  simplify uid addr laddr (S fuel) (NAdd [NConst a; NConst b]) = SOk (NConst 0).
Proof.
  intros E. cbn [simplify simplify_step]. unfold simplify_polynomial.
  cbn [gather ac_new ac_const ac_terms sign_of add_terms].
  replace (0 + a * 1 + b * 1) with 0 by lia. reflexivity.
Qed.
Lemma linear_last_rec n : rec_free n -> last_rec (children uid n) = None.
Proof.
  intros R. apply last_rec_none. eapply Forall_impl; [|apply children_rec_free; exact R].
  intros x. apply rec_free_not_rec.
Qed.

(** The children of a sum of two recurrences of one loop whose steps cancel. *)
Lemma finish_two fuel l o1 o2 c1 c2 : lin o1 -> lin o2 -> c1 + c2 = 0 ->
  exists m, finish uid laddr (simplify uid addr laddr (S fuel)) (NAdd [NRec l o1 (NConst c1); NRec l o2 (NConst c2)]) = SOk m /\
            lin m /\ forall env it, val env it m = val env it o1 + val env it o2.
Proof.
  intros L1 L2 E.
  unfold finish, fold_recurrent. cbn [children classify has_loop insert_loop push_loop].
  rewrite N.eqb_refl. cbn [orb classify negb push_loop]. rewrite ?N.eqb_refl. cbn [app].
  cbn [fold_loops map neg_if].
  assert (C : simplify uid addr laddr (S fuel) (NAdd (add_children uid [] [NConst c1; NConst c2])) = SOk (NConst 0)).
  { unfold add_children. cbn [fold_left add_child].
    destruct (uid (NConst c2) <=? uid (NConst c1))%N; apply zero_sum; lia. }
  rewrite C. cbn [sbind].
  assert (Ls : lin (NAdd (add_children uid [] [o1; o2]))).
  { split.
    - apply linear_add. apply Forall_add_children. repeat constructor; apply L1 || apply L2.
    - apply ok_add. apply Forall_add_children. repeat constructor; apply L1 || apply L2. }
  destruct (simplify_linear fuel _ Ls) as (m & S1 & Lm & V). rewrite S1. cbn [sbind].
  rewrite eliminate_rec_free by apply Lm. rewrite linear_last_rec by apply Lm.
  exists m. split; auto. split; auto. intros env it. rewrite <- V, val_add, sumv_add_children. cbn [sumv fold_right]. lia.
Qed.

Lemma rec_difference fuel l n n' c : lin n -> lin n' ->
  exists m, simplify uid addr laddr (S (S fuel))
              (create_subtraction uid (NRec l n (NConst c)) (NRec l n' (NConst c))) = SOk m /\
            lin m /\ forall env it, val env it m = val env it n - val env it n'.
Proof.
  intros L L'.
  set (r1 := NRec l n (NConst c)). set (r2 := NRec l n' (NConst c)).
  assert (E0 : exists cs, create_subtraction uid r1 r2 = NAdd cs /\ (cs = [r1; NNeg r2] \/ cs = [NNeg r2; r1])).
  { unfold r1 at 1, r2 at 1. cbn [create_subtraction create_negation create_add]. fold r1 r2.
    eexists. split; [reflexivity|]. unfold add_children. cbn [fold_left add_child].
    destruct (uid (NNeg r2) <=? uid r1)%N; auto. }
  destruct E0 as (cs & -> & Hcs).
  change (simplify uid addr laddr (S (S fuel)) (NAdd cs)) with
    (simplify_step uid addr laddr (simplify uid addr laddr (S fuel)) (NAdd cs)).
  rewrite step_finish. cbn [handled].
  set (simp := simplify uid addr laddr (S fuel)).
  destruct (node_eqb r1 r2) eqn:Eq.
  - (* the same recurrence *)
    assert (P : simplify_polynomial uid addr simp (NAdd cs) = SOk (NConst 0)).
    { pose proof Eq as Eq'. apply node_eqb_eq in Eq'. rewrite <- Eq' in Hcs. clear Eq Eq'.
      pose proof (node_eqb_refl r1) as Er.
      destruct Hcs as [-> | ->]; unfold simplify_polynomial; unfold r1; cbn [gather]; fold r1;
        unfold accumulate; cbn [ac_terms has_term insert_term bump_term ac_new ac_const];
        rewrite Er; cbn [orb]; cbn [add_terms]; reflexivity. }
    rewrite P. cbn [sbind]. rewrite (finish_quiet uid laddr) by (left; exact I).
    exists (NConst 0). split; auto. split; [apply lin_const|].
    apply node_eqb_eq in Eq. unfold r1, r2 in Eq. injection Eq as ->. intros. cbn [val]. lia.
  - (* two recurrences *)
    set (r2' := NRec l (create_negation n') (NConst (c * -1))).
    assert (P : exists cs', simplify_polynomial uid addr simp (NAdd cs) = SOk (NAdd cs') /\
                            (cs' = [r1; r2'] \/ cs' = [r2'; r1])).
    { assert (Eq2 : node_eqb r2 r1 = false).
      { apply node_eqb_neq. apply node_eqb_neq in Eq. auto. }
      assert (G : exists ts, gather uid addr (mkAccs [] 0 []) (NAdd cs) false = mkAccs [] 0 ts /\
                             (ts = [(r1, 1); (r2, -1)] \/ ts = [(r2, -1); (r1, 1)])).
      { destruct Hcs as [-> | ->].
        - unfold r1 at 1, r2 at 1. cbn [gather negb]. fold r1 r2. cbn [ac_terms ac_new ac_const sign_of].
          unfold accumulate. cbn [has_term insert_term]. cbn [has_term]. rewrite Eq. cbn [orb insert_term].
          eexists. split; [reflexivity|]. destruct (addr r1 <=? addr r2)%N; auto.
        - unfold r1 at 1, r2 at 1. cbn [gather negb]. fold r1 r2. cbn [ac_terms ac_new ac_const sign_of].
          unfold accumulate. cbn [has_term insert_term]. cbn [has_term]. rewrite Eq2. cbn [orb insert_term].
          eexists. split; [reflexivity|]. destruct (addr r2 <=? addr r1)%N; auto. }
      destruct G as (ts & G & Hts). unfold simplify_polynomial. rewrite G. cbn [ac_const ac_new ac_terms Z.eqb].
      assert (T1 : forall ds, add_term uid simp ds r1 1 = SOk (add_child uid ds r1)) by reflexivity.
      assert (T2 : forall ds, add_term uid simp ds r2 (-1) = SOk (add_child uid ds r2')).
      { intros ds. unfold add_term. cbn [Z.eqb Pos.eqb]. unfold r2. unfold update_coefficient. cbn [create_multiply].
        unfold simp. rewrite simplify_const. cbn [sbind Z.ltb Z.compare]. reflexivity. }
      destruct Hts as [-> | ->]; cbn [add_terms]; rewrite ?T1, ?T2; cbn [sbind]; rewrite ?T1, ?T2; cbn [sbind];
        cbn [add_child];
        match goal with |- context [(?x <=? ?y)%N] => destruct (x <=? y)%N end; eexists; split; try reflexivity; auto. }
    destruct P as (cs' & -> & Hcs'). cbn [sbind].
    pose proof (lin_negation n' L') as L2.
    assert (V2 : forall env it, val env it (create_negation n') = - val env it n') by (intros; apply val_negation).
    destruct Hcs' as [-> | ->]; unfold r1, r2', simp.
    + destruct (finish_two fuel l n (create_negation n') c (c * -1) L L2) as (m & F & Lm & V); [lia|].
      exists m. split; auto. split; auto. intros. rewrite V, V2. lia.
    + destruct (finish_two fuel l (create_negation n') n (c * -1) c L2 L) as (m & F & Lm & V); [lia|].
      exists m. split; auto. split; auto. intros. rewrite V, V2. lia.
Qed.
End Order.

(** * The greatest common divisor *)
Lemma gcd_odd a b : Z.odd b = true -> Z.gcd (2 * a) b = Z.gcd a b.
Proof.
  intros O. apply Z.gcd_unique; [apply Z.gcd_nonneg | | | ].
  - apply Z.divide_mul_r, Z.gcd_divide_l.
  - apply Z.gcd_divide_r.
  - intros q Q1 Q2. apply Z.gcd_greatest; auto.
    apply Z.gauss with 2; auto.
    assert (G : Z.gcd q 2 = 1); [|exact G].
    apply Z.gcd_unique; [lia | apply Z.divide_1_l | apply Z.divide_1_l | ].
    intros p P1 P2. destruct Q2 as [x X]. destruct P1 as [y Y]. destruct P2 as [z Z2].
    assert (D : (p | 1)).
    { rewrite Zodd_mod in O. apply Zeq_bool_eq in O. pose proof (Z.div_mod b 2 ltac:(lia)) as B. rewrite O in B.
      exists (x * y - z * (b / 2)). rewrite Z.mul_sub_distr_r. 
      replace (x * y * p) with b by (rewrite X, Y; ring).
      replace (z * (b / 2) * p) with (2 * (b / 2)) by (rewrite Z2 at 1; ring). lia. }
    exact D.
Qed.
Lemma gcd_subtract a b : Z.gcd (a - b) b = Z.gcd a b.
Proof. rewrite Z.gcd_comm, Z.gcd_sub_diag_r, Z.gcd_comm. reflexivity. Qed.

Lemma log2_half a : 2 <= a -> Z.log2 (a / 2) = Z.log2 a - 1.
Proof.
  intros H. change 2 with (2 ^ 1) at 1. rewrite <- Z.shiftr_div_pow2 by lia. rewrite Z.log2_shiftr by lia.
  pose proof (Z.log2_pos a ltac:(lia)). lia.
Qed.

Lemma gcd_steps_spec fuel : forall a b, 0 <= a -> 0 <= b -> Z.log2 a + Z.log2 b < Z.of_nat fuel ->
  gcd_steps fuel a b = SOk (Z.gcd a b).
Proof.
  induction fuel as [|fuel IH]; intros a b A B F.
  { pose proof (Z.log2_nonneg a). pose proof (Z.log2_nonneg b). lia. }
  cbn [gcd_steps].
  destruct (Z.eqb_spec a b) as [->|N1]. { rewrite Z.gcd_diag. rewrite Z.abs_eq; auto. }
  destruct (Z.eqb_spec a 0) as [->|N2]. { rewrite Z.gcd_0_l, Z.abs_eq; auto. }
  destruct (Z.eqb_spec b 0) as [->|N3]. { rewrite Z.gcd_0_r, Z.abs_eq; auto. }
  rewrite !Z.rem_mod_nonneg by lia.
  assert (Ra : forall x, 0 < x -> x mod 2 = 0 -> 2 <= x /\ x = 2 * (x / 2) /\ Z.log2 (x / 2) = Z.log2 x - 1).
  { intros x X M. pose proof (Z.div_mod x 2 ltac:(lia)) as D. rewrite M in D. assert (2 <= x) by lia.
    split; auto. split; [lia|]. apply log2_half; auto. }
  assert (Od : forall x, 0 < x -> x mod 2 <> 0 -> x mod 2 = 1 /\ Z.odd x = true).
  { intros x X M. pose proof (Z.mod_pos_bound x 2 ltac:(lia)). assert (x mod 2 = 1) by lia. split; auto.
    rewrite Zodd_mod, H0. reflexivity. }
  destruct (Z.eqb_spec (a mod 2) 0) as [Ea|Ea]; destruct (Z.eqb_spec (b mod 2) 0) as [Eb|Eb]; cbn [andb].
  - destruct (Ra a ltac:(lia) Ea) as (A2 & Aq & Al). destruct (Ra b ltac:(lia) Eb) as (B2 & Bq & Bl).
    rewrite !Z.quot_div_nonneg by lia. rewrite IH by (try apply Z.div_pos; lia). cbn [sbind].
    rewrite Aq at 2. rewrite Bq at 2. rewrite Z.gcd_mul_mono_l. reflexivity.
  - destruct (Ra a ltac:(lia) Ea) as (A2 & Aq & Al). destruct (Od b ltac:(lia) Eb) as (Eb1 & Ob).
    rewrite Eb1. cbn [Z.eqb Pos.eqb]. rewrite !Z.quot_div_nonneg by lia. rewrite IH by (try apply Z.div_pos; lia).
    rewrite Aq at 2. rewrite gcd_odd; auto.
  - destruct (Ra b ltac:(lia) Eb) as (B2 & Bq & Bl). destruct (Od a ltac:(lia) Ea) as (Ea1 & Oa).
    rewrite Ea1. cbn [Z.eqb Pos.eqb andb]. rewrite !Z.quot_div_nonneg by lia. rewrite IH by (try apply Z.div_pos; lia).
    rewrite Bq at 2. rewrite (Z.gcd_comm a (2 * _)), gcd_odd, Z.gcd_comm; auto.
  - destruct (Od a ltac:(lia) Ea) as (Ea1 & Oa). destruct (Od b ltac:(lia) Eb) as (Eb1 & Ob).
    rewrite Ea1. cbn [Z.eqb Pos.eqb andb].
    assert (Half : forall x y, 0 < y < x -> x mod 2 = 1 -> y mod 2 = 1 ->
              0 <= (x - y) / 2 /\ x - y = 2 * ((x - y) / 2) /\ Z.log2 ((x - y) / 2) < Z.log2 x).
    { intros x y XY X1 Y1. assert (M : (x - y) mod 2 = 0) by (rewrite Zminus_mod, X1, Y1; reflexivity).
      destruct (Ra (x - y) ltac:(lia) M) as (D2 & Dq & Dl). split; [apply Z.div_pos; lia|]. split; auto.
      pose proof (Z.log2_le_mono (x - y) x ltac:(lia)). lia. }
    destruct (Z.ltb_spec b a).
    + destruct (Half a b ltac:(lia) Ea1 Eb1) as (H0 & H1 & H2). rewrite Z.quot_div_nonneg by lia.
      rewrite IH by lia. rewrite <- (gcd_subtract a b). rewrite H1 at 2. rewrite gcd_odd; auto.
    + destruct (Half b a ltac:(lia) Eb1 Ea1) as (H0 & H1 & H2). rewrite Z.quot_div_nonneg by lia.
      rewrite IH by lia. rewrite (Z.gcd_comm a b), <- (gcd_subtract b a). rewrite H1 at 2. rewrite gcd_odd; auto.
Qed.
Lemma gcd_right a b : 0 <= a -> 0 <= b -> greatest_common_divisor a b = SOk (Z.gcd a b).
Proof.
  intros A B. unfold greatest_common_divisor, gcd_fuel. apply gcd_steps_spec; auto.
  pose proof (Z.log2_nonneg a). pose proof (Z.log2_nonneg b). rewrite Nat2Z.inj_succ, Z2Nat.id; lia.
Qed.
