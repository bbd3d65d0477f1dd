(** C45: the iteration count reported for a loop is the number of times it goes round.
    C46: partial unrolling with a residual executes the body as often as the loop did. *)
From Verif Require Import Base LoopIter LoopIterSpec LoopIterProofs.
Local Open Scope Z_scope.

(** ** C45 *)

(** What is missing: loops that leave when the condition holds, constants whose type reads them
    differently from the comparison, counters that wrap round before the loop ends, and steps of more
    than 32 bits; the theorems named _refuted below show that the count is wrong there. *)
Theorem loop_count_exact_partial : forall L block c t m op phi bnd w args n step init,
  (* [block] is inside the loop and leaves it when the condition fails *)
  lp_merge L = Some m -> lp_term L block = Some (TBranchCond c t m) -> t <> m ->
  lp_inside L block = true -> In block (lp_merge_preds L) ->
  (* the condition compares the phi with the bound *)
  lp_def L c = Some (LCmp op phi bnd) -> lp_def L phi = Some (LPhi w args) ->
  well_typed L w args bnd ->
  (forall id sgn x, id = bnd \/ is_start L args id -> constant_value L w id sgn x -> reads_alike op w sgn x) ->
  (forall id sgn x, is_step_operand L args id -> constant_value L w id sgn x -> short_step w sgn x) ->
  loop_count L = Found (mkCount n step init) ->
  (* the counter does not wrap round *)
  fits op w (init + n * step) ->
  0 < n /\ runs_exactly L block phi w (Z.to_nat n).
Proof.
  intros L block c t m op phi bnd w args n step init Hm Ht Htm Hib Hpr Hc Hp Hwt Hal Hsh Hcount Hfit.
  exact (count_exact L block c t m op phi bnd w args _ Hm Ht Htm Hib Hpr Hc Hp Hwt Hal Hsh Hcount Hfit).
Qed.

(** Conversely, a loop that counts with constants of at most 32 bits and goes round n > 0 times without
    wrapping is reported, with n, its step and its initial value. *)
Theorem loop_count_complete : forall L block m phi bnd start st op w sub ssgn sws isgn x0 bsgn y n,
  counting_loop L block m phi bnd start st op w sub ->
  w <= 32 ->
  lp_def L st = Some (LConst w ssgn sws) -> encoded w ssgn sws ->
  constant_value L w start isgn x0 -> reads_alike op w isgn x0 ->
  constant_value L w bnd bsgn y -> reads_alike op w bsgn y ->
  let v := own_value w ssgn (literal_bits w sws) in
  let step := if sub then - v else v in
  fits op w (reading op w x0 + n * step) ->
  0 < n -> runs_exactly L block phi w (Z.to_nat n) ->
  loop_count L = Found (mkCount n step (reading op w x0)).
Proof.
  intros L block m phi bnd start st op w sub ssgn sws isgn x0 bsgn y n CL Hw Hst He Hx0 Ha0 Hy Hay.
  exact (count_complete L block m phi bnd start st op w sub ssgn sws isgn x0 bsgn y n
           CL Hw Hst He Hx0 Ha0 Hy Hay).
Qed.

(** The run of a loop that counts is determined, so that [runs_exactly] holds of one number only. *)
Theorem loop_run_unique : forall L block m phi bnd start st op w sub ssgn isgn x0 z n n',
  counting_loop L block m phi bnd start st op w sub ->
  (exists w' ws, lp_def L st = Some (LConst w' ssgn ws)) ->
  constant_value L w start isgn x0 -> constant_value L w st ssgn z ->
  runs_exactly L block phi w n -> runs_exactly L block phi w n' -> n = n'.
Proof.
  intros L block m phi bnd start st op w sub ssgn isgn x0 z n n' CL (w' & ws & Hst) Hx0 Hz [A1 A2] [B1 B2].
  destruct CL as [Hm Hex (c & t & Ht & Htm & Hc) (args & bo & vi & Hp & Hargs & Ho & Hi & Hvi)].
  assert (shape L block c t m phi bnd op w args start bo vi (lp_latch L) st sub ssgn ws) as S.
  { constructor; try assumption; [|now exists w']. split; [exact Hargs|]. now split. }
  pose proof (constant_range _ _ _ _ _ Hz) as [_ Hrz].
  assert ((if sub then - z else z) mod 2 ^ w = (if sub then (- z) mod 2 ^ w else z)) as Hsm.
  { destruct sub; [reflexivity|]. now apply Z.mod_small. }
  pose proof (counter_val _ _ _ _ _ _ _ _ _ _ _ _ _ _ _ _ _ _ S _ _ _ Hx0 Hz _ Hsm) as Hval.
  assert (forall x t1 t2, branches_to L block phi w x t1 -> branches_to L block phi w x t2 -> t1 = t2) as Hbr.
  { intros x t1 t2 H1 H2. destruct H1 as [c1 ? ? op1 a1 b1 y1 z1 T1 C1 O1 P1]. destruct H2 as [c2 ? ? op2 a2 b2 y2 z2 T2 C2 O2 P2].
    rewrite T1 in T2. injection T2 as <- <- <-. rewrite C1 in C2. injection C2 as <- <- <-.
    assert (forall id u v, operand_value L phi w x id u -> operand_value L phi w x id v -> u = v) as Q.
    { intros id u v [|i s u' Hn Hu] Hv; inversion Hv; subst; try congruence.
      eapply (constant_unique L w); eassumption. }
    rewrite (Q _ _ _ O1 O2), (Q _ _ _ P1 P2). reflexivity. }
  assert (forall p q, (forall k, (k < q)%nat -> exists x t, counter L phi w k x /\ branches_to L block phi w x t /\ lp_merge L <> Some t) ->
            (exists x t, counter L phi w p x /\ branches_to L block phi w x t /\ lp_merge L = Some t) -> ~ (p < q)%nat) as G.
  { intros p q G1 (x & t1 & Cx & Bx & Mx) Hpq. destruct (G1 p Hpq) as (x' & t2 & Cx' & Bx' & Mx').
    apply Hval in Cx, Cx'. subst x x'. rewrite (Hbr _ _ _ Bx' Bx) in Mx'. contradiction. }
  pose proof (G n n' B1 A2) as G1. pose proof (G n' n A1 B2) as G2. clear - G1 G2. lia.
Qed.

(** *** Loops to look at *)

(** for (phi = start; phi op bnd; phi += st) with the constants given as words. *)
Definition sample (op : cmpop) (w : Z) (sgn : bool) (start bound step : list Z) (on_true : bool) : loop := {|
  lp_def := fun id =>
    match id with
    | 1%N => Some (LPhi w [(3, 20); (2, 23)])%N
    | 2%N => Some (LAdd 1 5)
    | 3%N => Some (LConst w sgn start)
    | 4%N => Some (LConst w sgn bound)
    | 5%N => Some (LConst w sgn step)
    | 6%N => Some (LCmp op 1 4)
    | _ => None
    end;
  lp_inside := fun b => ((21 <=? b) && (b <=? 23))%N;
  lp_latch := 23;
  lp_merge := Some 24%N;
  lp_merge_preds := [21%N];
  lp_term := fun b => match b with
    | 21%N => Some (if on_true then TBranchCond 6 24 22 else TBranchCond 6 22 24)
    | _ => Some TOther
    end
|}.

Lemma sample_well_typed op w sgn start bound step x :
  encoded w sgn start -> encoded w sgn bound -> encoded w sgn step ->
  well_typed (sample op w sgn start bound step x) w [(3, 20); (2, 23)]%N 4.
Proof.
  intros H1 H2 H3 id [->|[(b & Hin & Hb)|(v & b & p & q & Hin & Hb & Hd & Hid)]].
  - cbn. auto.
  - cbn in Hin. destruct Hin as [E|[E|[]]]; injection E as <- <-; cbn; auto.
  - cbn in Hin. destruct Hin as [E|[E|[]]]; injection E as <- <-; cbn in Hd;
      destruct Hd as [Hd|Hd]; try discriminate.
    injection Hd as <- <-. destruct Hid as [-> | ->]; cbn; auto.
Qed.

Lemma sample_alike op w sgn start bound step x :
  sgn = op_signed op -> w <= 32 ->
  forall id s y, id = 4%N \/ is_start (sample op w sgn start bound step x) [(3, 20); (2, 23)]%N id ->
    constant_value (sample op w sgn start bound step x) w id s y -> reads_alike op w s y.
Proof.
  intros Hs Hw id s y Hid Hc. left.
  assert (id = 4 \/ id = 3)%N as Hi.
  { destruct Hid as [->|(b & Hin & Hb)]; [auto|]. cbn in Hin.
    destruct Hin as [E|[E|[]]]; injection E as <- <-; auto. discriminate. }
  split; [|auto]. destruct Hi as [-> | ->]; destruct Hc as [s' ws Hd _|s' Hd _]; cbn in Hd; congruence.
Qed.

(** A loop that satisfies every hypothesis of both theorems: 16-bit, from -7 by 3 while at most 5. *)
Definition sample_ok := sample SLE 16 true [4294967289] [5] [3] false.

Example loop_count_sample : loop_count sample_ok = Found (mkCount 5 3 (-7)).
Proof. vm_compute. reflexivity. Qed.

Example loop_count_exact_applies : 0 < 5 /\ runs_exactly sample_ok 21 1 16 5.
Proof.
  apply (loop_count_exact_partial sample_ok 21%N 6%N 22%N 24%N SLE 1%N 4%N 16 [(3, 20); (2, 23)]%N 5 3 (-7));
    try reflexivity.
  - discriminate.
  - cbn. auto.
  - apply sample_well_typed; cbn; lia.
  - apply sample_alike; [reflexivity|lia].
  - intros. left. lia.
  - unfold fits. cbn. lia.
Qed.

Example loop_count_complete_applies : loop_count sample_ok = Found (mkCount 5 3 (-7)).
Proof.
  refine (loop_count_complete sample_ok 21%N 24%N 1%N 4%N 3%N 5%N SLE 16 false true [3] true
           (literal_bits 16 [4294967289]) true (literal_bits 16 [5]) 5
           _ _ _ _ _ _ _ _ _ _ (proj2 loop_count_exact_applies)).
  - constructor; [reflexivity|reflexivity| |].
    + exists 6%N, 22%N. repeat split. discriminate.
    + exists [(3, 20); (2, 23)]%N, 20%N, 2%N. repeat split. left. reflexivity.
  - lia.
  - reflexivity.
  - cbn. lia.
  - apply cv_literal; [reflexivity|cbn; lia].
  - left. split; [reflexivity|]. left. reflexivity.
  - apply cv_literal; [reflexivity|cbn; lia].
  - left. split; [reflexivity|]. left. reflexivity.
  - unfold fits. vm_compute. split; [discriminate|reflexivity].
  - lia.
Qed.

(** *** Where the count is wrong *)

(** To show that a count is wrong it is enough to look at the last visit or at an earlier one. *)
Lemma not_runs L block phi w n k x t :
  (forall x', counter L phi w k x' -> x' = x) ->
  (forall t', branches_to L block phi w x t' -> t' = t) ->
  ((k < n)%nat /\ lp_merge L = Some t) \/ (k = n /\ lp_merge L <> Some t) ->
  ~ runs_exactly L block phi w n.
Proof.
  intros Hc Hb Hk [R1 R2]. destruct Hk as [[Hk Hm]|[-> Hm]].
  - destruct (R1 k Hk) as (x' & t' & C & B & M). apply Hc in C. subst x'. apply Hb in B. subst t'. contradiction.
  - destruct R2 as (x' & t' & C & B & M). apply Hc in C. subst x'. apply Hb in B. subst t'. contradiction.
Qed.

Lemma sample_counter op w sgn start bound step b k x :
  encoded w sgn start -> encoded w sgn step -> (0 < w <= 32 \/ w = 64) ->
  counter (sample op w sgn start bound step b) 1 w k x ->
  x = (literal_bits w start + Z.of_nat k * literal_bits w step) mod 2 ^ w.
Proof.
  intros He1 He2 Hw Hc.
  assert (shape (sample op w sgn start bound step b) 21 6 (if b then 24 else 22)%N (if b then 22 else 24)%N 1 4 op w
            [(3, 20); (2, 23)]%N 3 20 2 23 5 false sgn step) as S.
  { constructor; try reflexivity; [destruct b; reflexivity| |now exists w]. repeat split. left. reflexivity. }
  assert (constant_value (sample op w sgn start bound step b) w 3 sgn (literal_bits w start)) as C1
    by (apply cv_literal; [reflexivity|exact He1]).
  assert (constant_value (sample op w sgn start bound step b) w 5 sgn (literal_bits w step)) as C2
    by (apply cv_literal; [reflexivity|exact He2]).
  refine (counter_val _ _ _ _ _ _ _ _ _ _ _ _ _ _ _ _ _ _ S _ _ _ C1 C2 (literal_bits w step) _ k x Hc).
  cbv iota. apply Z.mod_small. exact (proj2 (constant_range _ _ _ _ _ C2)).
Qed.

Lemma sample_branch op w sgn start bound step b x t :
  encoded w sgn bound ->
  branches_to (sample op w sgn start bound step b) 21 1 w x t ->
  t = if compares op w x (literal_bits w bound) then (if b then 24 else 22)%N else (if b then 22 else 24)%N.
Proof.
  intros He Hb. destruct Hb as [c t' f' op' a b' y z Ht Hc Ha Hb].
  cbn in Ht. assert (c = 6 /\ t' = (if b then 24 else 22) /\ f' = (if b then 22 else 24))%N as (-> & -> & ->)
    by (destruct b; injection Ht as <- <- <-; auto).
  cbn in Hc. injection Hc as <- <- <-.
  assert (y = x) as ->.
  { inversion Ha; subst; [reflexivity|congruence]. }
  assert (z = literal_bits w bound) as ->.
  { inversion Hb; subst. match goal with H : constant_value _ _ _ _ _ |- _ => destruct H as [s ws Hd _|s Hd _]; cbn in Hd; congruence end. }
  reflexivity.
Qed.

(** The loop leaves when the condition holds: [for (i = 0; !(i < 10); i += 1)] is reported to go round
    ten times, and leaves at once. *)
Theorem loop_count_polarity_refuted : exists L block phi w n step init,
  lp_merge L = Some 24%N /\ lp_term L block = Some (TBranchCond 6 24 22) /\
  loop_count L = Found (mkCount n step init) /\ 0 < n /\
  (exists x t, counter L phi w 0 x /\ branches_to L block phi w x t /\ lp_merge L = Some t) /\
  ~ runs_exactly L block phi w (Z.to_nat n).
Proof.
  exists (sample SLT 32 true [0] [10] [1] true), 21%N, 1%N, 32, 10, 1, 0.
  split; [reflexivity|]. split; [reflexivity|]. split; [vm_compute; reflexivity|]. split; [lia|]. split.
  - exists 0, 24%N. split; [|split; [|reflexivity]].
    + eapply counter_first with (v := 3%N) (b := 20%N); [reflexivity|left; reflexivity|reflexivity|].
      apply (cv_literal _ 32 3%N true [0]); [reflexivity|cbn; lia].
    + refine (bt (sample SLT 32 true [0] [10] [1] true) 21%N 1%N 32 0 6%N 24%N 22%N SLT 1%N 4%N 0 10 _ _ _ _);
        [reflexivity|reflexivity|apply ov_phi|].
      eapply ov_constant; [discriminate|]. apply (cv_literal _ 32 4%N true [10]); [reflexivity|cbn; lia].
  - apply (not_runs _ _ _ _ _ 0 0 24%N).
    + intros x' C. apply sample_counter in C; [exact C|cbn; lia|cbn; lia|lia].
    + intros t' B. apply sample_branch in B; [exact B|cbn; lia].
    + left. split; [lia|reflexivity].
Qed.

(** A signed constant under an unsigned comparison: [for (int i = -5; uint(i) < 5u; i += 1)] is reported
    to go round ten times, and leaves at once. *)
Theorem loop_count_signedness_refuted : exists L block phi w n step init,
  lp_merge L = Some 24%N /\ lp_term L block = Some (TBranchCond 6 22 24) /\
  loop_count L = Found (mkCount n step init) /\
  0 < n /\ fits SLT w (init + n * step) /\ ~ runs_exactly L block phi w (Z.to_nat n).
Proof.
  exists (sample ULT 32 true [4294967291] [5] [1] false), 21%N, 1%N, 32, 10, 1, (-5).
  split; [reflexivity|]. split; [reflexivity|]. split; [vm_compute; reflexivity|]. split; [lia|].
  split; [unfold fits; cbn; lia|].
  apply (not_runs _ _ _ _ _ 0 4294967291 24%N).
  - intros x' C. apply sample_counter in C; [exact C|cbn; lia|cbn; lia|lia].
  - intros t' B. apply sample_branch in B; [exact B|cbn; lia].
  - left. split; [lia|reflexivity].
Qed.

(** A counter that wraps round: [for (uint8_t i = 0; i <= 255; i += 1)] never ends, and is reported to go
    round 256 times. *)
Theorem loop_count_wrap_refuted : exists L block phi w n step init,
  lp_merge L = Some 24%N /\ lp_term L block = Some (TBranchCond 6 22 24) /\
  loop_count L = Found (mkCount n step init) /\
  0 < n /\ ~ runs_exactly L block phi w (Z.to_nat n).
Proof.
  exists (sample ULE 8 false [0] [255] [1] false), 21%N, 1%N, 8, 256, 1, 0.
  split; [reflexivity|]. split; [reflexivity|]. split; [vm_compute; reflexivity|]. split; [lia|].
  apply (not_runs _ _ _ _ _ (Z.to_nat 256) 0 22%N).
  - intros x' C. apply sample_counter in C; [|cbn; lia|cbn; lia|lia].
    rewrite Z2Nat.id in C by lia. exact C.
  - intros t' B. apply sample_branch in B; [exact B|cbn; lia].
  - right. split; [reflexivity|discriminate].
Qed.

(** An unsigned counter that counts down by adding the largest value: [for (uint i = 5; i < 10; i += -1)]
    goes round six times, and is reported to go round once. *)
Theorem loop_count_downwards_refuted : exists L block phi w n step init,
  lp_merge L = Some 24%N /\ lp_term L block = Some (TBranchCond 6 22 24) /\
  loop_count L = Found (mkCount n step init) /\
  0 < n /\ ~ runs_exactly L block phi w (Z.to_nat n).
Proof.
  exists (sample ULT 32 false [5] [10] [4294967295] false), 21%N, 1%N, 32, 1, 4294967295, 5.
  split; [reflexivity|]. split; [reflexivity|]. split; [vm_compute; reflexivity|]. split; [lia|].
  apply (not_runs _ _ _ _ _ 1 4 22%N).
  - intros x' C. apply sample_counter in C; [exact C|cbn; lia|cbn; lia|lia].
  - intros t' B. apply sample_branch in B; [exact B|cbn; lia].
  - right. split; [reflexivity|discriminate].
Qed.

(** A 64-bit step of which only the low word is read: by 2^32 + 1 from 0 while below 2^32 + 1 goes round once, and is
    reported to go round 2^32 + 1 times. *)
Theorem loop_count_long_step_refuted : exists L block phi w n step init,
  lp_merge L = Some 24%N /\ lp_term L block = Some (TBranchCond 6 22 24) /\
  loop_count L = Found (mkCount n step init) /\
  0 < n /\ fits SLT w (init + n * step) /\ ~ runs_exactly L block phi w (Z.to_nat n).
Proof.
  exists (sample SLT 64 true [0; 0] [1; 1] [1; 1] false), 21%N, 1%N, 64, 4294967297, 1, 0.
  split; [reflexivity|]. split; [reflexivity|]. split; [vm_compute; reflexivity|]. split; [lia|].
  split; [unfold fits; cbn; lia|].
  apply (not_runs _ _ _ _ _ 1 4294967297 24%N).
  - intros x' C. apply sample_counter in C; [exact C|cbn; lia|cbn; lia|lia].
  - intros t' B. apply sample_branch in B; [exact B|cbn; lia].
  - left. split; [|reflexivity]. lia.
Qed.

(** ** C46 *)

(** The loop [while (i op bound) i += step] makes n rounds.  Partial unrolling by [factor] gives the first loop the
    bound [residual_bound], and the second loop, with [factor] bodies per test, the original bound.
    Together they execute the body n times.

    What is missing: the conditions <= and >=, for which it is false (below). *)
Theorem residual_unroll_partial : forall op init step bound n factor,
  op = SLT \/ op = ULT \/ op = SGT \/ op = UGT ->
  fits op 32 init -> fits op 32 (init + n * step) -> 0 <= bound < 2 ^ 32 ->
  0 < n -> 2 <= factor ->
  while_rounds op 32 (init mod 2 ^ 32) step bound n ->
  split_bodies op 32 (init mod 2 ^ 32) step (residual_bound op init step n factor) bound factor n.
Proof.
  intros op init step bound n factor Hop Hi Hf Hb Hn Hfa [_ [W1 W2]].
  assert (forall k, 0 <= k <= n -> reading op 32 (value_at 32 (init mod 2 ^ 32) step k) = init + k * step) as Hrd.
  { intros k Hk. unfold value_at. rewrite Zplus_mod_idemp_l. apply reading_mod; [lia|].
    eapply fits_between; [exact Hi|exact Hf|]. destruct (Z_le_gt_dec 0 step); [left|right]; nia. }
  assert (forall x, fits op 32 x -> in64 x = true) as H64.
  { intros x Hx. unfold fits in Hx. unfold in64. destruct (op_signed op); cbn in Hx |- *; apply andb_true_intro; lia. }
  apply residual_splits; auto. split.
  - intros k Hk. rewrite <- Hrd by lia. rewrite <- compares_cmpz. now apply W1.
  - rewrite <- Hrd by lia. rewrite <- compares_cmpz. exact W2.
Qed.

(** The numbers of bodies are determined. *)
Theorem split_bodies_unique : forall op w init step bound1 bound2 factor t t',
  split_bodies op w init step bound1 bound2 factor t ->
  split_bodies op w init step bound1 bound2 factor t' -> t = t'.
Proof.
  intros op w init step bound1 bound2 factor t t' (r & m & [A0 [A1 A2]] & [B0 [B1 B2]] & ->)
    (r' & m' & [C0 [C1 C2]] & [D0 [D1 D2]] & ->).
  assert (r = r') as <-.
  { destruct (Z_lt_ge_dec r r') as [H|H]; [specialize (C1 r ltac:(lia)); congruence|].
    destruct (Z_lt_ge_dec r' r) as [H'|H']; [specialize (A1 r' ltac:(lia)); congruence|]. lia. }
  assert (m = m') as <-; [|reflexivity].
  destruct (Z_lt_ge_dec m m') as [H|H]; [specialize (D1 m ltac:(lia)); congruence|].
  destruct (Z_lt_ge_dec m' m) as [H'|H']; [specialize (B1 m' ltac:(lia)); congruence|]. lia.
Qed.

Ltac rounds := split; [lia|split;
  [intros k Hk; match type of Hk with 0 <= k < ?m =>
     assert (k = 0 \/ k = 1 \/ k = 2 \/ k = 3) as [-> | [-> | [-> | ->]]] by lia end; try lia; vm_compute; reflexivity
  |vm_compute; reflexivity]].

(** [for (int i = 9; i > 1; i -= 3)]: three rounds; by two: one, then one of two. *)
Example residual_unroll_sample :
  while_rounds SGT 32 9 (-3) 1 3 /\
  residual_bound SGT 9 (-3) 3 2 = 6 /\
  split_bodies SGT 32 9 (-3) 6 1 2 3.
Proof.
  assert (while_rounds SGT 32 9 (-3) 1 3) as H by rounds.
  split; [exact H|]. split; [reflexivity|].
  exact (residual_unroll_partial SGT 9 (-3) 1 3 2 ltac:(auto) ltac:(unfold fits; cbn; lia)
           ltac:(unfold fits; cbn; lia) ltac:(lia) ltac:(lia) ltac:(lia) H).
Qed.

(** With <= the residual bound is too large: [for (int i = -2; i <= 2; i += 2)] goes round three times;
    unrolled by two it executes the body four times.  This is the loop of the test
    PartiallyUnrollResidualConditionIsInHeaderBlock, whose expected output has the bound 1. *)
Theorem residual_unroll_refuted : exists op init step bound n factor total,
  fits op 32 init /\ fits op 32 (init + n * step) /\ 0 <= bound < 2 ^ 32 /\ 0 < n /\ 2 <= factor /\
  while_rounds op 32 (init mod 2 ^ 32) step bound n /\
  split_bodies op 32 (init mod 2 ^ 32) step (residual_bound op init step n factor) bound factor total /\
  total <> n.
Proof.
  exists SLE, (-2), 2, 2, 3, 2, 4.
  split; [unfold fits; cbn; lia|]. split; [unfold fits; cbn; lia|]. split; [lia|]. split; [lia|].
  split; [lia|]. split; [rounds|]. split; [|lia].
  exists 2, 1. split; [rounds|]. split; [rounds|]. lia.
Qed.

(** And with >=: [for (int i = 4; i >= 0; i -= 2)] by two executes the body four times. *)
Theorem residual_unroll_down_refuted : exists op init step bound n factor total,
  op = SGE /\ fits op 32 init /\ fits op 32 (init + n * step) /\ 0 <= bound < 2 ^ 32 /\ 0 < n /\ 2 <= factor /\
  while_rounds op 32 (init mod 2 ^ 32) step bound n /\
  split_bodies op 32 (init mod 2 ^ 32) step (residual_bound op init step n factor) bound factor total /\
  total <> n.
Proof.
  exists SGE, 4, (-2), 0, 3, 2, 4.
  split; [reflexivity|]. split; [unfold fits; cbn; lia|]. split; [unfold fits; cbn; lia|]. split; [lia|]. split; [lia|].
  split; [lia|]. split; [rounds|]. split; [|lia].
  exists 2, 1. split; [rounds|]. split; [rounds|]. lia.
Qed.

Print Assumptions loop_count_exact_partial.
Print Assumptions loop_count_complete.
Print Assumptions loop_run_unique.
Print Assumptions loop_count_polarity_refuted.
Print Assumptions loop_count_signedness_refuted.
Print Assumptions loop_count_wrap_refuted.
Print Assumptions loop_count_downwards_refuted.
Print Assumptions loop_count_long_step_refuted.
Print Assumptions residual_unroll_partial.
Print Assumptions split_bodies_unique.
Print Assumptions residual_unroll_refuted.
Print Assumptions residual_unroll_down_refuted.
