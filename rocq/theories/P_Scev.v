(** C33: scalar-evolution expressions simplify to equal values.

    Simplifying an expression always gives an expression of the same value for every assignment of
    the unknowns and every iteration only for part of the expressions.  Proved: all expressions
    without recurrences in which no product of a form other than constant*unknown is subtracted
    ([simplification_without_recurrences_partial]) and the sums of recurrences, unknowns and
    products described by [simple_sum] ([simplification_right_partial]).  What is missing is false:
    the [_refuted] theorems below show each of the excluded cases going wrong.  int64_t overflow is
    not modelled.

    Also: the sign queries built on these expressions, and their division. *)
From Verif Require Import Base Scev ScevSpec ScevProofs ScevProofs2 ScevProofs3 ScevProofs4 ScevProofs5.
Local Open Scope Z_scope.

(** The simplification of a sum of terms ends, without undefined operations, in an expression that
    has the same value for all unknowns and iterations. *)
Theorem simplification_right_partial uid addr laddr fuel n :
  simple_sum n ->
  exists m, simplify uid addr laddr (S (S fuel)) n = SOk m /\
    forall env it v, value_of env it n v <-> value_of env it m v.
Proof.
  intros S0. destruct (simplify_simple_sum uid addr laddr fuel n S0) as (m & E & O & V).
  exists m. split; auto. intros. rewrite !value_of_val, (V env it).
  pose proof (proj1 (computable_ok n) (ss_computable n S0)). tauto.
Qed.

Theorem simplification_without_recurrences_partial uid addr laddr fuel n :
  computable n -> rec_free n -> (forall p subtracted, In (p, subtracted) (products n) -> subtracted = false) ->
  exists m, simplify uid addr laddr (S fuel) n = SOk m /\
    forall env it v, value_of env it n v <-> value_of env it m v.
Proof.
  intros C R P. destruct (simplify_no_recurrence uid addr laddr fuel n C R P) as (m & E & O & V).
  exists m. split; auto. intros. rewrite !value_of_val, (V env it). apply computable_ok in C. tauto.
Qed.

(** The expressions built for the sum, difference, product and negation of two expressions have
    the value of that operation, and so has the one built for a recurrence. *)
Theorem construction_right uid env it a b x y :
  value_of env it a x -> value_of env it b y ->
  value_of env it (create_add uid a b) (x + y) /\
  value_of env it (create_subtraction uid a b) (x - y) /\
  value_of env it (create_multiply uid a b) (x * y) /\
  value_of env it (create_negation a) (- x) /\
  (forall l, value_of env it (create_recurrent l a b) (x + y * it l)).
Proof.
  intros Va Vb. assert (Ha := Va). assert (Hb := Vb). apply value_of_val in Va. apply value_of_val in Vb. destruct Va as [Oa Va]. destruct Vb as [Ob Vb].
  assert (ON : ok (create_negation b)) by (apply ok_negation; exact Ob).
  split; [apply value_of_val; split; [apply ok_create_add; assumption|rewrite val_create_add by assumption; lia]|].
  split.
  { assert (E : value_of env it (create_add uid a (create_negation b)) (x - y)).
    { apply value_of_val; split; [apply ok_create_add; assumption|]. rewrite val_create_add by assumption. rewrite val_negation. lia. }
    destruct a, b; exact E || (cbn in Va, Vb; subst x y; apply V_const). }
  split; [apply value_of_val; split; [apply ok_multiply; assumption|rewrite val_multiply by assumption; rewrite Va, Vb; reflexivity]|].
  split; [apply value_of_val; split; [apply ok_negation; exact Oa|rewrite val_negation; lia]|].
  intros l. assert (E : value_of env it (NRec l a b) (x + y * it l)) by (constructor; assumption).
  destruct a, b; try exact E; try contradiction.
Qed.

(** The sign queries, for unknowns of unsigned type that are not negative. *)
Theorem sign_queries_right signed env it n v :
  (forall i, signed i = false -> 0 <= env i) -> (forall l, 0 <= it l) -> value_of env it n v ->
  (always_gt_zero signed n = Some true -> 0 < v) /\
  (always_gt_zero signed n = Some false -> v < 0) /\
  (always_ge_zero signed n = Some true -> 0 <= v) /\
  (always_ge_zero signed n = Some false -> v <= 0).
Proof.
  intros He Hi V. apply value_of_val in V. destruct V as [_ <-].
  unfold always_gt_zero, always_ge_zero.
  pose proof (visit_right signed env it n He Hi) as G.
  destruct (visit signed n) as [s|]; [|repeat split; discriminate].
  specialize (G s eq_refl). destruct s; cbn in *; repeat split; intros E; try discriminate; lia.
Qed.

(** The division of expressions: of constants, and by a factor that stands directly in the product
    or in the product on its left.  Missing: factors reached through the right operand, for which
    it is false. *)
Theorem division_right_partial uid env it a b x y :
  value_of env it a x -> value_of env it b y -> y <> 0 ->
  (forall v w, a = NConst v -> b = NConst w -> exists q, fst (divide uid a b) = NConst q /\ x = q * y + snd (divide uid a b)
     /\ Z.abs (snd (divide uid a b)) < Z.abs y) /\
  ((forall w, b <> NConst w) -> left_factor a b ->
   fst (divide uid a b) <> NCant ->
   exists q, value_of env it (fst (divide uid a b)) q /\ x = q * y + snd (divide uid a b)).
Proof.
  intros Va Vb NZ. split.
  - intros v w -> ->. inversion Va; inversion Vb; subst.
    assert (D : divide uid (NConst x) (NConst y) = (NConst (Z.quot x y), Z.rem x y)) by (destruct y; auto; congruence).
    rewrite D. cbn [fst snd]. eexists. split; [reflexivity|]. split; [|apply Z.rem_bound_abs; auto].
    pose proof (Z.quot_rem' x y). lia.
  - intros Nc L Hc. apply value_of_val in Va, Vb. destruct Va as [Oa <-], Vb as [Ob <-].
    destruct (remove_one_value uid a b env it Oa L) as [Or Vr].
    destruct a; try (destruct L; fail).
    assert (D : divide uid (NMul a1 a2) b = let res := remove_one uid (NMul a1 a2) b in if node_eqb res (NMul a1 a2) then (NCant, 0) else (res, 0)).
    { destruct b; try reflexivity. exfalso. eapply Nc; eauto. }
    rewrite D in *. cbv zeta in *. destruct (node_eqb _ _); cbn [fst snd] in *; [congruence|].
    exists (val env it (remove_one uid (NMul a1 a2) b)). split; [apply value_of_val; auto|]. rewrite Vr. lia.
Qed.

(** * Examples and refutations *)
(** A numbering of nodes for the examples: distinct for the nodes that occur in them. *)
Fixpoint number (n : node) : N :=
  (match n with
   | NConst v => 8 * Z.to_N (2 * Z.abs v + (if v <? 0 then 1 else 0))%Z + 1
   | NRec l o c => 8 * (l + 97 * number o + 10007 * number c) + 2
   | NAdd cs => 8 * fold_right (fun c s => number c + 31 * s) 7 cs + 3
   | NMul a b => 8 * (number a + 101 * number b) + 4
   | NNeg a => 8 * number a + 5
   | NUnknown i => 8 * i + 6
   | NCant => 7
   end)%N.
Definition simp := simplify number number (fun l => l).
Definition no_env (_ : N) : Z := 0.

(** Two induction variables of one loop, an unknown subtracted and a product: i + 10*k - x + y*z. *)
Definition example_sum : node :=
  NAdd [NRec 1 (NConst 0) (NConst 1); NMul (NConst 10) (NRec 1 (NConst 0) (NConst 2)); NNeg (NUnknown 5); NMul (NUnknown 6) (NUnknown 7)].
Example simple_sum_example : simple_sum example_sum /\ exists o, simp 5 example_sum = SOk (NRec 1 o (NConst 21)).
Proof.
  split.
  - assert (N1 : forall l o c, net example_sum (NRec l o c) <> 0 -> l = 1%N /\ o = NConst 0 /\ (c = NConst 1 \/ c = NConst 2)).
    { intros l o c H. unfold net in H. cbn [example_sum terms flat_map scaled map app] in H. cbn [fold_right] in H.
      destruct (node_eqb (NRec 1 (NConst 0) (NConst 1)) (NRec l o c)) eqn:E1.
      - apply node_eqb_eq in E1. injection E1 as <- <- <-. auto.
      - destruct (node_eqb (NRec 1 (NConst 0) (NConst 2)) (NRec l o c)) eqn:E2.
        + apply node_eqb_eq in E2. injection E2 as <- <- <-. auto.
        + exfalso. apply H. reflexivity. }
    split.
    + apply computable_ok. cbn. tauto.
    + intros p b J. cbn in J. destruct J as [J|[]]. injection J as <- <-. cbn. auto.
    + intros l o c H. destruct (N1 l o c H) as (-> & -> & [-> | ->]); (split; [split; [exact I|reflexivity]|]; split; [exact I|]; intros p b []).
    + intros l o c H. destruct (N1 l o c H) as (-> & -> & _). auto.
    + intros l o c H. destruct (N1 l o c H) as (-> & _).
      exists no_env, no_env, (fun k => if N.eqb k 1 then 1 else 0), 0, 21. split.
      * intros k K. unfold no_env. destruct (N.eqb k 1) eqn:E; auto. apply N.eqb_eq in E. congruence.
      * split; [apply value_of_val; split; [cbn; tauto|reflexivity]|]. split; [apply value_of_val; split; [cbn; tauto|reflexivity]|]. lia.
    + intros i _. left. intros l o c l' o' c' H H'. destruct (N1 l o c H) as (-> & _). destruct (N1 l' o' c' H') as (-> & _). auto.
  - eexists. vm_compute. reflexivity.
Qed.
Example no_recurrence_example :
  simp 1 (NAdd [NUnknown 1; NMul (NConst 2) (NUnknown 1); NUnknown 2; NNeg (NUnknown 2); NConst 34; NConst (-17)]) =
  SOk (NAdd [NMul (NUnknown 1) (NConst 3); NConst 17]) \/
  simp 1 (NAdd [NUnknown 1; NMul (NConst 2) (NUnknown 1); NUnknown 2; NNeg (NUnknown 2); NConst 34; NConst (-17)]) =
  SOk (NAdd [NConst 17; NMul (NConst 3) (NUnknown 1)]) \/
  simp 1 (NAdd [NUnknown 1; NMul (NConst 2) (NUnknown 1); NUnknown 2; NNeg (NUnknown 2); NConst 34; NConst (-17)]) =
  SOk (NAdd [NMul (NConst 3) (NUnknown 1); NConst 17]).
Proof. vm_compute. auto. Qed.

(** An expression, what it simplifies to, and an assignment that tells them apart. *)
Definition goes_wrong (n : node) (env it : N -> Z) : Prop :=
  exists m v w, simp 10 n = SOk m /\ value_of env it n v /\ value_of env it m w /\ v <> w.
Ltac wrong := eexists; eexists; eexists; split; [vm_compute; reflexivity|];
  split; [apply value_of_val; split; [cbn; tauto | vm_compute; reflexivity]|];
  split; [apply value_of_val; split; [cbn; tauto | vm_compute; reflexivity]|]; vm_compute; discriminate.
Definition ones (_ : N) : Z := 1.
Definition i_ := NRec 1 (NConst 0) (NConst 1).
Definition j_ := NRec 2 (NConst 0) (NConst 1).
Definition i1_ := NRec 1 (NConst 1) (NConst 1).

(** -(x*y) becomes x*y. *)
Theorem simplify_negated_product_refuted : goes_wrong (NNeg (NMul (NUnknown 1) (NUnknown 2))) ones no_env.
Proof. wrong. Qed.
(** 2*i, for i starting at 1, loses the factor of the start: 1 + 2*iteration. *)
Theorem simplify_scaled_offset_refuted : goes_wrong (NMul (NConst 2) i1_) ones no_env.
Proof. wrong. Qed.
Theorem simplify_repeated_offset_refuted : goes_wrong (NAdd [i1_; i1_]) ones no_env.
Proof. wrong. Qed.
(** i*i becomes i+i, and x*i becomes x+i. *)
Theorem simplify_square_refuted : goes_wrong (NMul i_ i_) ones (fun _ => 3).
Proof. wrong. Qed.
Theorem simplify_product_refuted : goes_wrong (NMul (NUnknown 1) i_) (fun _ => 5) ones.
Proof. wrong. Qed.
(** x - i + k, for i and k of one loop with equal steps, loses x. *)
Theorem simplify_cancelled_recurrence_refuted : goes_wrong (NAdd [NUnknown 1; NNeg i_; i1_]) ones no_env.
Proof. wrong. Qed.
(** i + k + j - x, with j of another loop, becomes i + k + j + x. *)
Theorem simplify_subtracted_unknown_refuted : goes_wrong (NAdd [i_; NRec 1 (NConst 0) (NConst 2); j_; NNeg (NUnknown 1)]) ones no_env.
Proof. wrong. Qed.
(** A recurrence with step 0 next to another one loses its start. *)
Theorem simplify_zero_step_refuted : goes_wrong (NAdd [NRec 1 (NConst 7) (NConst 0); j_]) ones no_env.
Proof. wrong. Qed.

(** Whether a value is at least zero is answered "no" for one that is at most zero. *)
Theorem at_least_zero_refuted : exists signed env it n,
  (forall i, signed i = false -> 0 <= env i) /\ always_ge_zero signed n = Some false /\ value_of env it n 0.
Proof.
  exists (fun _ => false), no_env, no_env, (NNeg (NUnknown 1)). split; [intros; unfold no_env; lia|].
  split; [reflexivity|]. apply value_of_val. split; [exact I | reflexivity].
Qed.
(** (x * (y*z)) / z is y * (y*z) when the nested product is the right operand. *)
Theorem division_right_operand_refuted : exists env it a b q x y v,
  divide number a b = (q, 0) /\ value_of env it a x /\ value_of env it b y /\ value_of env it q v /\ x <> v * y.
Proof.
  exists (fun i => Z.of_N i), no_env, (NMul (NUnknown 2) (NMul (NUnknown 3) (NUnknown 5))), (NUnknown 5).
  eexists; eexists; eexists; eexists. split; [vm_compute; reflexivity|].
  split; [apply value_of_val; split; [cbn; tauto | vm_compute; reflexivity]|].
  split; [apply value_of_val; split; [cbn; tauto | vm_compute; reflexivity]|].
  split; [apply value_of_val; split; [cbn; tauto | vm_compute; reflexivity]|]. vm_compute. discriminate.
Qed.
Example division_example : divide number (NMul (NMul (NUnknown 3) (NUnknown 5)) (NUnknown 2)) (NUnknown 5)
  = (NMul (NUnknown 3) (NUnknown 2), 0) /\ divide number (NConst (-7)) (NConst 2) = (NConst (-3), -1)
  /\ left_factor (NMul (NMul (NUnknown 3) (NUnknown 5)) (NUnknown 2)) (NUnknown 5).
Proof. vm_compute. auto 10. Qed.
Example sign_example : always_gt_zero (fun _ => false) (NAdd [NUnknown 1; NConst 1; NRec 1 (NConst 0) (NConst 2)]) = Some true.
Proof. reflexivity. Qed.

Print Assumptions simplification_right_partial.
Print Assumptions simplification_without_recurrences_partial.
Print Assumptions sign_queries_right.
Print Assumptions division_right_partial.
Print Assumptions simplify_square_refuted.
