(** C34  Loop dependence tests are conservative.

    The subscripts of two accesses to the same array are scalar evolution nodes.  [separable_test]
    runs the tests over the separable subscript pairs (LoopDep.v); [separable_test ... = SOk (true, _)]
    means the accesses are declared independent.  The specification (LoopDepSpec.v) says which
    iterations a loop executes and when two subscripts are equal. *)
From Verif Require Import Base Scev ScevSpec ScevProofs LoopDep LoopDepSpec LoopDepProofs LoopDepProofs2 LoopDepProofs3 LoopDepProofs4 P_Scev.
From Coq Require Import Lia ZArith.
Local Open Scope Z_scope.

(** The only thing asked of the float comparison with 0.5: it holds for exact halves. *)
Definition finds_halves (half : Z -> Z -> bool) : Prop := forall x, x <> 0 -> half x (2 * x) = true.

(** Declared independent means: no two executed iterations have all subscripts equal.  Partial: for
    the subscript pairs of [handled_any] (LoopDepSpec.v), all unknowns being the same in both
    iterations, and separable subscripts only.  The refutations below show that the other pairs
    go wrong. *)
Theorem independence_right_partial uid addr laddr fuel half loops supported env runs pairs es es' :
  finds_halves half ->
  (forall l, described env (loops l) (runs l)) ->
  (forall l, supported l = true -> counts (runs l)) ->
  Forall (fun '(s, d) => handled_any env runs s d) pairs ->
  separable_test uid addr laddr (S (S fuel)) half loops supported pairs es = SOk (true, es') ->
  forall it it', (forall l, executes (runs l) (it l) /\ executes (runs l) (it' l)) ->
    ~ Forall (fun '(s, d) => equal_subscripts env it it' s d) pairs.
Proof. intros H D C F T. eapply separable_right; eauto. Qed.

(** The same for one pair over one loop. *)
Theorem one_loop_independence_right_partial uid addr laddr fuel half loops env l r s d e e' :
  finds_halves half -> described env (loops l) r -> counts r -> handled_pair env r l s d ->
  siv_test uid addr laddr (S (S fuel)) half loops l s d e = SOk (true, e') ->
  forall it it', ~ conflict env r l it it' s d.
Proof.
  intros H D C P T it it' K. destruct (siv_right uid addr laddr fuel half H loops env l r D C s d e true e' P T it it' K).
  discriminate.
Qed.

(** When a dependence is reported, the reported distance and direction are those of every conflict,
    and peeling the reported iteration leaves none.  Partial: not for opposite steps. *)
Theorem report_right_partial uid addr laddr fuel half loops env l r s d e' :
  finds_halves half -> described env (loops l) r -> counts r -> handled_pair env r l s d ->
  (forall n n' c, c <> 0 -> s = NRec l n (NConst c) -> d <> NRec l n' (NConst (- c))) ->
  siv_test uid addr laddr (S (S fuel)) half loops l s d entry0 = SOk (false, e') ->
  report_right env r l s d e'.
Proof.
  intros H D C P NC T it it' K. destruct (siv_right uid addr laddr fuel half H loops env l r D C s d entry0 false e' P T it it' K) as [_ R].
  apply R.
  - repeat split; try discriminate; reflexivity.
  - intros (n & n' & c & Hc & E & E'). apply (NC n n' c); auto.
Qed.
(** For opposite steps a distance of 0 is reported for iterations at most one apart. *)
Theorem crossing_distance_partial uid addr laddr fuel half loops env l r n n' x x' c b e' :
  finds_halves half -> c <> 0 -> linear_value env n x -> linear_value env n' x' ->
  siv_test uid addr laddr (S (S fuel)) half loops l (NRec l n (NConst c)) (NRec l n' (NConst (- c))) entry0 = SOk (b, e') ->
  e_info e' = I_distance ->
  forall it it', conflict env r l it it' (NRec l n (NConst c)) (NRec l n' (NConst (- c))) ->
    e_dist e' = 0 /\ Z.abs (it l - it' l) <= 1.
Proof. intros H Hc L L' T I it it' K. refine (siv_crossing_right uid addr laddr fuel half H loops env l r n n' x x' c entry0 b e' Hc _ L L' T I it it' K). discriminate. Qed.

(** On these pairs nothing undefined happens when the loop's start and number of iterations are
    known constants. *)
Theorem one_loop_test_defined uid addr laddr fuel half loops env l r s d e op a up v t :
  finds_halves half -> described env (loops l) r -> counts r -> handled_pair env r l s d ->
  ld_cond (loops l) = Some (op, Some (NConst a), up) -> ld_init (loops l) = Some v -> ld_trip (loops l) = Some t ->
  exists b e', siv_test uid addr laddr (S (S fuel)) half loops l s d e = SOk (b, e').
Proof. intros H D C P L1 L2 L3. eapply siv_defined; eauto. Qed.

(** The test over several loops needs no bounds: no iterations at all make the subscripts equal. *)
Theorem several_loops_independence_right env it it' s d :
  gcd_miv_test s d = SOk true -> ~ equal_subscripts env it it' s d.
Proof. apply gcd_miv_right. Qed.
(** The binary algorithm it uses computes the greatest common divisor. *)
Theorem binary_gcd_right a b : 0 <= a -> 0 <= b -> greatest_common_divisor a b = SOk (Z.gcd a b).
Proof. apply gcd_right. Qed.

(** Intersecting two constraints with constants loses no pair of iterations within the bounds: in
    particular the empty constraint (independence) is only returned when there is none. *)
Theorem intersection_right uid addr laddr fuel k0 k1 lo hi k x y :
  intersect uid addr laddr (S fuel) k0 k1 (NConst lo) (NConst hi) = SOk (Some k) ->
  lo <= x <= hi -> lo <= y <= hi -> allows k0 x y -> allows k1 x y -> allows k x y.
Proof. intros E Bx By A0 A1. exact (intersect_right uid addr laddr fuel k0 k1 lo hi k x y A0 A1 Bx By E). Qed.

(** * Examples *)

Definition exact_half (x y : Z) : bool := Z.eqb (2 * x) y.
Lemma exact_half_finds : finds_halves exact_half.
Proof. intros x _. apply Z.eqb_refl. Qed.

(** for (i = a; i < b; ++i), as the analysis sees it and as it runs. *)
Definition up_desc (a b : Z) : loop_desc := mkLoop (Some (C_lt, Some (NConst a), NConst b)) (Some a) (Some (b - a)).
Definition up_run (a b : Z) : loop_run := mkRun a 1 C_lt b.
(** for (i = a; i > b; --i). *)
Definition down_desc (a b : Z) : loop_desc := mkLoop (Some (C_gt, Some (NConst a), NConst b)) (Some a) (Some (a - b)).
Definition down_run (a b : Z) : loop_run := mkRun a (-1) C_gt b.
Lemma const_linear env v : linear_value env (NConst v) v.
Proof. split; [repeat split | intros; constructor]. Qed.
Lemma up_executes a b k : executes (up_run a b) k <-> 0 <= k < b - a.
Proof.
  unfold executes, up_run. cbn. split.
  - intros [K H]. specialize (H k ltac:(lia)). lia.
  - intros K. split; [lia|]. intros j J. lia.
Qed.
Lemma down_executes a b k : executes (down_run a b) k <-> 0 <= k < a - b.
Proof.
  unfold executes, down_run. cbn [r_op r_init r_step r_limit holds]. split.
  - intros [K H]. specialize (H k ltac:(lia)). lia.
  - intros K. split; [lia|]. intros j J. lia.
Qed.
Lemma up_described env a b : described env (up_desc a b) (up_run a b).
Proof.
  split; cbn.
  - intros op lo up [= <- <- <-]. split; auto. split; [apply const_linear|]. intros n [= <-]. apply const_linear.
  - intros v [= <-]. reflexivity.
  - intros t [= <-]. apply up_executes.
Qed.
Lemma down_described env a b : described env (down_desc a b) (down_run a b).
Proof.
  split; cbn.
  - intros op lo up [= <- <- <-]. split; auto. split; [apply const_linear|]. intros n [= <-]. apply const_linear.
  - intros v [= <-]. reflexivity.
  - intros t [= <-]. apply down_executes.
Qed.
Lemma up_counts a b : counts (up_run a b).
Proof. left. split; auto. Qed.
Lemma down_counts a b : counts (down_run a b).
Proof. right. split; auto. Qed.

Definition test (d : loop_desc) (s t : node) : sres (bool * entry) :=
  siv_test number number (fun l => l) 3 exact_half (fun _ => d) 1 s t entry0.
(** The subscript n + c*i in a loop from [a]. *)
Definition sub (a : Z) (n c : Z) : node := NRec 1 (NConst (n + c * a)) (NConst c).

(** A[2*i] and A[2*i + 1] never meet; A[i + 20] and A[i] neither, in 10 iterations; A[i + 4] and
    A[i] do, the destination 4 iterations later. *)
Example strong_examples :
  test (up_desc 0 10) (sub 0 0 2) (sub 0 1 2) = SOk (true, mkEntry I_direction D_none 0 false false) /\
  test (up_desc 0 10) (sub 0 20 1) (sub 0 0 1) = SOk (true, mkEntry I_direction D_none (-20) false false) /\
  test (up_desc 0 10) (sub 0 4 1) (sub 0 0 1) = SOk (false, mkEntry I_distance D_gt (-4) false false) /\
  handled_pair no_env (up_run 0 10) 1 (sub 0 4 1) (sub 0 0 1).
Proof. repeat split; try (vm_compute; reflexivity). constructor. lia. Qed.
(** A[i + N + 20] and A[i + N] in 10 iterations. *)
Definition plus_n (k : Z) : node := NRec 1 (NAdd [NUnknown 5; NConst k]) (NConst 1).
Example symbolic_examples :
  (exists e, test (up_desc 0 10) (plus_n 20) (plus_n 0) = SOk (true, e)) /\
  (exists e, test (up_desc 0 10) (plus_n 7) (plus_n 0) = SOk (false, e)) /\
  handled_pair no_env (up_run 0 10) 1 (plus_n 20) (plus_n 0).
Proof.
  split; [eexists; vm_compute; reflexivity|]. split; [eexists; vm_compute; reflexivity|].
  refine (H_symbolic no_env (up_run 0 10) 1 (NAdd [NUnknown 5; NConst 20]) (NAdd [NUnknown 5; NConst 0]) 20 0 _ _);
    apply is_val_linear; (split; [repeat split | reflexivity]).
Qed.
(** A[0] and A[i]: the first iteration is to be peeled; A[9] and A[i]: the last. *)
Example zero_examples :
  (exists e, test (up_desc 0 10) (NConst 0) (sub 0 0 1) = SOk (false, e) /\ e_peel_first e = true) /\
  (exists e, test (up_desc 0 10) (sub 0 0 1) (NConst 9) = SOk (false, e) /\ e_peel_last e = true) /\
  (exists e, test (up_desc 0 10) (sub 0 0 1) (NConst 10) = SOk (true, e)) /\
  handled_pair no_env (up_run 0 10) 1 (NConst 0) (sub 0 0 1).
Proof.
  split; [eexists; vm_compute; split; reflexivity|]. split; [eexists; vm_compute; split; reflexivity|].
  split; [eexists; vm_compute; reflexivity|]. apply H_zero_source; [lia | left; auto].
Qed.
(** A[i] and A[9 - i], and A[2*i] and A[9 - 2*i]. *)
Example crossing_examples :
  (exists e, test (up_desc 0 10) (sub 0 0 1) (sub 0 9 (-1)) = SOk (false, e)) /\
  (exists e, test (up_desc 0 10) (sub 0 0 2) (sub 0 9 (-2)) = SOk (true, e)).
Proof. split; eexists; vm_compute; reflexivity. Qed.
(** A[2*i + 4*j] and A[2*i + 6*j + 1]. *)
Definition both (n a b : Z) : node :=
  NAdd [NRec 1 (NConst n) (NConst a); NRec 2 (NConst 0) (NConst b)].
Example several_example : gcd_miv_test (both 0 2 4) (both 1 2 6) = SOk true.
Proof. vm_compute. reflexivity. Qed.
(** A[i][2*j] and A[i + 1][2*j + 1]: the second pair of subscripts proves independence. *)
Example separable_example :
  exists es, separable_test number number (fun l => l) 3 exact_half (fun _ => up_desc 0 10) (fun _ => true)
    [(sub 0 0 1, sub 0 1 1); (NRec 2 (NConst 0) (NConst 2), NRec 2 (NConst 1) (NConst 2))] (fun _ => entry0) = SOk (true, es) /\
  Forall (fun '(s, d) => handled_any no_env (fun _ => up_run 0 10) s d)
    [(sub 0 0 1, sub 0 1 1); (NRec 2 (NConst 0) (NConst 2), NRec 2 (NConst 1) (NConst 2))].
Proof.
  eexists. split; [vm_compute; reflexivity|]. repeat constructor.
  - apply (H_one _ _ 1). constructor. lia.
  - apply (H_one _ _ 2). constructor. lia.
Qed.
(** x = y + 2 and x + y = 8 meet in (5, 3). *)
Example intersection_example :
  intersect number number (fun l => l) 3 (K_distance (NConst (-2))) (K_line (NConst 1) (NConst 1) (NConst 8)) (NConst 0) (NConst 9)
    = SOk (Some (K_point (NConst 5) (NConst 3))) /\
  allows (K_distance (NConst (-2))) 5 3 /\ allows (K_line (NConst 1) (NConst 1) (NConst 8)) 5 3.
Proof. repeat split; try (vm_compute; reflexivity); constructor; lia. Qed.

(** * Where the tests go wrong *)

(** Declared independent, although the iterations [k] and [k'] meet. *)
Definition wrongly_independent (d : loop_desc) (r : loop_run) (env : N -> Z) (s t : node) (k k' : Z) : Prop :=
  described env d r /\ counts r /\ (exists e, test d s t = SOk (true, e)) /\
  conflict env r 1 (fun _ => k) (fun _ => k') s t.

Ltac meet := eexists; split; apply value_of_val; (split; [repeat split | vm_compute; reflexivity]).
Ltac wrong_up :=
  split; [apply up_described|]; split; [apply up_counts|]; split; [eexists; vm_compute; reflexivity|];
  split; [apply up_executes; lia|]; split; [apply up_executes; lia|]; meet.
Ltac wrong_down :=
  split; [apply down_described|]; split; [apply down_counts|]; split; [eexists; vm_compute; reflexivity|];
  split; [apply down_executes; lia|]; split; [apply down_executes; lia|]; meet.

(** A[N] and A[M], for N = M. *)
Theorem different_unknowns_refuted : exists env s d it,
  ziv_test s d = true /\ equal_subscripts env it it s d.
Proof. exists (fun _ => 3), (NUnknown 1), (NUnknown 2), no_env. split; [reflexivity | meet]. Qed.
(** A[2*i + N + 12] and A[2*i + N], for 10 iterations: the distance in elements is compared with
    the number of iterations. *)
Definition two_i_plus_n (k : Z) : node := NRec 1 (NAdd [NUnknown 5; NConst k]) (NConst 2).
Theorem symbolic_stride_refuted : exists d r env s t k k', wrongly_independent d r env s t k k'.
Proof. exists (up_desc 0 10), (up_run 0 10), no_env, (two_i_plus_n 12), (two_i_plus_n 0), 0, 6. wrong_up. Qed.
(** A[N - i] and A[N - i], in an increasing loop, three iterations apart: bounds are taken the wrong
    way round. *)
Definition n_minus_i (k : Z) : node := NRec 1 (NAdd [NUnknown 5; NConst k]) (NConst (-1)).
Theorem symbolic_negative_refuted : exists d r env s t k k', wrongly_independent d r env s t k k'.
Proof. exists (up_desc 0 10), (up_run 0 10), no_env, (n_minus_i 3), (n_minus_i 0), 3, 0. wrong_up. Qed.
(** for (i = 1; ...): A[2*i] and A[4]: the start of the loop is not scaled by the step. *)
Theorem zero_start_refuted : exists d r env s t k k', wrongly_independent d r env s t k k'.
Proof. exists (up_desc 1 10), (up_run 1 10), no_env, (sub 1 0 2), (NConst 4), 1, 0. wrong_up. Qed.
(** for (i = -5; i < 0; ++i): A[i + 5] and A[2]: the absolute value of the distance is compared with
    the bounds. *)
Theorem zero_negative_range_refuted : exists d r env s t k k', wrongly_independent d r env s t k k'.
Proof. exists (up_desc (-5) 0), (up_run (-5) 0), no_env, (sub (-5) 5 1), (NConst 2), 2, 0. wrong_up. Qed.
(** for (i = 3; ...): A[10 - i] and A[6]: likewise for steps of the other sign. *)
Theorem zero_opposite_refuted : exists d r env s t k k', wrongly_independent d r env s t k k'.
Proof. exists (up_desc 3 10), (up_run 3 10), no_env, (sub 3 10 (-1)), (NConst 6), 1, 0. wrong_up. Qed.
(** for (i = 1; ...): A[i + N] and A[5]: an unknown distance is taken to be 0. *)
Theorem zero_unknown_refuted : exists d r env s t k k', wrongly_independent d r env s t k k'.
Proof.
  exists (up_desc 1 10), (up_run 1 10), no_env, (NRec 1 (NAdd [NUnknown 5; NConst 1]) (NConst 1)), (NConst 5), 4, 0. wrong_up.
Qed.
(** for (i = 0; i > -10; --i): A[-2*i] and A[4]. *)
Theorem zero_decreasing_refuted : exists d r env s t k k', wrongly_independent d r env s t k k'.
Proof. exists (down_desc 0 (-10)), (down_run 0 (-10)), no_env, (NRec 1 (NConst 0) (NConst 2)), (NConst 4), 2, 0. wrong_down. Qed.
(** An unknown that differs between the iterations (say, loaded in the loop): A[i + x + 20] and
    A[i + x]. *)
Theorem varying_unknown_refuted : exists d s t env env' k k' v,
  (exists e, test d s t = SOk (true, e)) /\ (forall env, described env d (up_run 0 10)) /\
  executes (up_run 0 10) k /\ executes (up_run 0 10) k' /\
  value_of env (fun _ => k) s v /\ value_of env' (fun _ => k') t v.
Proof.
  exists (up_desc 0 10), (plus_n 20), (plus_n 0), (fun _ => 0), (fun _ => 20), 0, 0, 20.
  split; [eexists; vm_compute; reflexivity|]. split; [intros; apply up_described|].
  split; [apply up_executes; lia|]. split; [apply up_executes; lia|].
  split; apply value_of_val; (split; [repeat split | vm_compute; reflexivity]).
Qed.
(** A[i] and A[1 - i]: the same iteration is reported, yet iterations 0 and 1 meet. *)
Theorem crossing_equal_refuted : exists d r env s t e k k',
  described env d r /\ counts r /\ test d s t = SOk (false, e) /\
  e_info e = I_distance /\ e_dir e = D_eq /\ e_dist e = 0 /\
  conflict env r 1 (fun _ => k) (fun _ => k') s t /\ k <> k'.
Proof.
  exists (up_desc 0 10), (up_run 0 10), no_env, (sub 0 0 1), (sub 0 1 (-1)). eexists. exists 0, 1.
  split; [apply up_described|]. split; [apply up_counts|]. split; [vm_compute; reflexivity|].
  split; [reflexivity|]. split; [reflexivity|]. split; [reflexivity|]. split; [|lia].
  split; [apply up_executes; lia|]. split; [apply up_executes; lia|]. meet.
Qed.

(** Undefined behaviour: a step that is not constant, over several loops (the check looks at the
    offset twice); no step at all; a constant first element but no constant last one (the debug
    message reads it); a subscript that is constant plus recurrences of its own; two opposite
    descriptions of one slope; a distance compared with a line. *)
Theorem gcd_unknown_step_refuted : gcd_miv_test
    (NAdd [NRec 1 (NConst 0) (NUnknown 5); NRec 2 (NConst 0) (NConst 1)]) (NConst 0) = SBad.
Proof. vm_compute. reflexivity. Qed.
Theorem gcd_zero_step_refuted : gcd_miv_test
    (NAdd [NRec 1 (NConst 0) (NConst 0); NRec 2 (NConst 0) (NConst 0)]) (NConst 0) = SBad.
Proof. vm_compute. reflexivity. Qed.
Theorem final_trip_message_refuted : test (up_desc 0 10) (NConst 7) (NRec 1 (NConst 0) (NUnknown 5)) = SBad.
Proof. vm_compute. reflexivity. Qed.
Theorem not_a_recurrence_refuted : test (up_desc 0 10) (NConst 7)
    (NAdd [NRec 1 (NConst 0) (NConst 1); NMul (NUnknown 5) (NUnknown 6)]) = SBad.
Proof. vm_compute. reflexivity. Qed.
Theorem opposite_slopes_refuted : exists k0 k1, allows k0 2 2 /\ allows k1 2 2 /\
  intersect number number (fun l => l) 3 k0 k1 (NConst 0) (NConst 9) = SBad.
Proof.
  exists (K_distance (NConst 0)), (K_line (NConst (-1)) (NConst 1) (NConst 0)).
  split; [constructor; lia|]. split; [constructor; lia|]. vm_compute. reflexivity.
Qed.
Theorem distance_line_comparison_refuted a b c d :
  constr_eqb (K_distance d) (K_line a b c) = SBad /\ constr_eqb (K_line a b c) (K_distance d) = SBad.
Proof. split; reflexivity. Qed.

Print Assumptions independence_right_partial.
Print Assumptions one_loop_independence_right_partial.
Print Assumptions report_right_partial.
Print Assumptions crossing_distance_partial.
Print Assumptions one_loop_test_defined.
Print Assumptions several_loops_independence_right.
Print Assumptions binary_gcd_right.
Print Assumptions intersection_right.
Print Assumptions different_unknowns_refuted.
Print Assumptions symbolic_stride_refuted.
Print Assumptions symbolic_negative_refuted.
Print Assumptions zero_start_refuted.
Print Assumptions zero_negative_range_refuted.
Print Assumptions zero_opposite_refuted.
Print Assumptions zero_unknown_refuted.
Print Assumptions zero_decreasing_refuted.
Print Assumptions varying_unknown_refuted.
Print Assumptions crossing_equal_refuted.
Print Assumptions gcd_unknown_step_refuted.
Print Assumptions gcd_zero_step_refuted.
Print Assumptions final_trip_message_refuted.
Print Assumptions not_a_recurrence_refuted.
Print Assumptions opposite_slopes_refuted.
Print Assumptions distance_line_comparison_refuted.
