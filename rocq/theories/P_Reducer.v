(** Properties C27 and C41: the reducer. *)
From Verif Require Import Base Reducer ReducerSpec ReducerProofs.
Local Open Scope N_scope.

(** The hypotheses common to the theorems: modules are serialised to a non-empty binary and the step
    counter cannot wrap. *)
Definition sane (step_limit : N) (passes cleanup : list finder) : Prop :=
  Forall writes_modules passes /\ Forall writes_modules cleanup /\
  step_limit + N.of_nat (Nat.max 1 (Nat.max (length passes) (length cleanup))) <= 2 ^ 32.

(** The run ends, and what it outputs is a valid binary that the interestingness function accepted in
    one of the calls made. *)
Theorem reducer_output_valid_and_interesting :
  forall validate interesting step_limit fail_on_validation_error passes cleanup binary_in,
  sane step_limit passes cleanup ->
  exists st out s,
    reducer_run validate interesting step_limit fail_on_validation_error passes cleanup binary_in = Some (st, out, s) /\
    faithful interesting (asked s) /\
    match st with
    | kComplete | kReachedStepLimit =>
        exists b, out = Some b /\ validate b = true /\ accepted (asked s) b
    | kStateInvalid => fail_on_validation_error = true /\ exists b, out = Some b /\ validate b = false
    | kInitialStateInvalid => out = None /\ validate binary_in = false
    | kInitialStateNotInteresting => out = None /\ interesting [] binary_in 0 = false
    end.
Proof.
  intros validate int lim foe fs cs b [W1 [W2 B]]. unfold reducer_run.
  destruct (validate b) eqn:V; cbn [negb].
  2:{ do 3 eexists. split; [reflexivity|]. split; [|auto]. intros [|? ?]; cbn; discriminate. }
  destruct (int [] b 0) eqn:I; cbn [negb].
  2:{ do 3 eexists. split; [reflexivity|]. split; [|auto]. cbn [asked]. rewrite <- I. apply (faithful_snoc int []).
      intros [|? ?]; cbn; discriminate. }
  set (s0 := {| current := b; reductions := 0; asked := [(b, 0, true)] |}).
  assert (G : good validate int s0).
  { split; cbn; auto; [|exists 0; left; auto|lia]. rewrite <- I. apply (faithful_snoc int []). intros [|? ?]; cbn; discriminate. }
  destruct (run_passes_ok validate int lim foe fs s0 ltac:(lia) ltac:(lia) W1 G) as [st [s [E [_ [_ H]]]]]. rewrite E.
  destruct H as [[-> H]|[[-> [H _]]|[-> [H _]]]].
  - do 3 eexists. split; [reflexivity|]. destruct H as [H1 [H2 [H3 H4]]]. eauto.
  - do 3 eexists. split; [reflexivity|]. destruct H as [H1 H2 H3 H4]. eauto 6.
  - destruct (run_passes_ok validate int lim foe cs s ltac:(lia) ltac:(lia) W2 H) as [st' [s' [E' [_ [_ H']]]]]. rewrite E'.
    do 3 eexists. split; [reflexivity|].
    destruct H' as [[-> [H1 [H2 [H3 H4]]]]|[[-> [[H1 H2 H3 H4] _]]|[-> [[H1 H2 H3 H4] _]]]]; eauto 6.
Qed.

(** The claim that at most [step_limit] reductions are tried holds only up to one extra reduction for
    each further pass of the round in which the limit is reached; the run is reported complete exactly
    when the limit was not reached. *)
Theorem reducer_step_limit_partial :
  forall validate interesting step_limit fail_on_validation_error passes cleanup binary_in st out s,
  sane step_limit passes cleanup ->
  reducer_run validate interesting step_limit fail_on_validation_error passes cleanup binary_in = Some (st, out, s) ->
  reductions s <= step_limit + N.of_nat (Nat.max (length passes) (length cleanup) - 1) /\
  N.of_nat (length (asked s)) <= reductions s + 1 /\
  (st = kComplete -> reductions s < step_limit) /\ (st = kReachedStepLimit -> step_limit <= reductions s).
Proof.
  intros validate int lim foe fs cs b st out s [W1 [W2 B]]. unfold reducer_run.
  destruct (validate b) eqn:V; cbn [negb].
  2:{ intros X; inversion X; subst; cbn; repeat split; try lia; discriminate. }
  destruct (int [] b 0) eqn:I; cbn [negb].
  2:{ intros X; inversion X; subst; cbn; repeat split; try lia; discriminate. }
  set (s0 := {| current := b; reductions := 0; asked := [(b, 0, true)] |}).
  assert (G : good validate int s0).
  { split; cbn; auto; [|exists 0; left; auto|lia]. rewrite <- I. apply (faithful_snoc int []). intros [|? ?]; cbn; discriminate. }
  destruct (run_passes_ok validate int lim foe fs s0 ltac:(lia) ltac:(lia) W1 G) as [st1 [s1 [E [_ [B1 H]]]]]. rewrite E.
  change (reductions s0) with 0 in B1.
  destruct H as [[-> H]|[[-> [H L]]|[-> [H [L _]]]]].
  - intros X; inversion X; subst. destruct H as [_ [_ [_ H]]]. repeat split; try lia; discriminate.
  - intros X; inversion X; subst. destruct H as [_ _ _ H]. repeat split; try lia; discriminate.
  - destruct (run_passes_ok validate int lim foe cs s1 ltac:(lia) ltac:(lia) W2 H) as [st' [s' [E' [_ [B2 H']]]]]. rewrite E'.
    intros X; inversion X; subst.
    destruct H' as [[-> [_ [_ [_ H4]]]]|[[-> [[_ _ _ H4] ?]]|[-> [[_ _ _ H4] [? _]]]]]; repeat split; try lia; discriminate.
Qed.

(** A finder whose opportunities each remove one word at the front (a binary keeps its first word). *)
Definition drop_last : finder :=
  {| opportunities := fun b => N.of_nat (length b - 1); apply_range := fun b i j => 7 :: skipn (N.to_nat (j - i) + 1) b |}.
(** With a limit of one, two passes try two reductions. *)
Theorem reducer_step_limit_refuted :
  exists validate interesting step_limit passes cleanup binary_in st out s,
    sane step_limit passes cleanup /\
    reducer_run validate interesting step_limit false passes cleanup binary_in = Some (st, out, s) /\
    step_limit < reductions s /\ step_limit < N.of_nat (length (asked s)) - 1.
Proof.
  exists (fun _ => true), (fun _ b _ => 3 <=? N.of_nat (length b)), 1, [drop_last; drop_last], [], [1; 2; 3; 4; 5; 6; 7; 8; 9].
  do 3 eexists. split.
  { split; [repeat constructor; intros ? ? ?; discriminate|]. split; [constructor|vm_compute; discriminate]. }
  split; [vm_compute; reflexivity|]. split; vm_compute; reflexivity.
Qed.

Example reducer_example :
  let r := reducer_run (fun b => negb (N.of_nat (length b) =? 4)) (fun _ b _ => 3 <=? N.of_nat (length b)) 50 false
             [drop_last; drop_last] [drop_last] [1; 2; 3; 4; 5; 6; 7; 8; 9] in
  option_map (fun '(st, out, s) => (st, out, reductions s)) r = Some (kComplete, Some [7; 8; 9], 15) /\
  sane 50 [drop_last; drop_last] [drop_last].
Proof.
  split; [vm_compute; reflexivity|].
  split; [repeat constructor; intros ? ? ?; discriminate|].
  split; [repeat constructor; intros ? ? ?; discriminate|vm_compute; discriminate].
Qed.

(** *** C41 *)
(** When the run is complete no single opportunity is left: each one found in the final binary by a
    cleanup pass was tried and gave an invalid or uninteresting binary; the same holds of the ordinary
    passes for the binary handed to the cleanup passes (the final binary when there are none). *)
Theorem reducer_complete_is_minimal :
  forall validate interesting step_limit fail_on_validation_error passes cleanup binary_in out s,
  sane step_limit passes cleanup -> Forall counts_in_range passes -> Forall counts_in_range cleanup ->
  reducer_run validate interesting step_limit fail_on_validation_error passes cleanup binary_in = Some (kComplete, Some out, s) ->
  Forall (fun f => exhausted validate (asked s) f out) cleanup /\
  exists before_cleanup,
    Forall (fun f => exhausted validate (asked s) f before_cleanup) passes /\
    (cleanup = [] -> before_cleanup = out).
Proof.
  intros validate int lim foe fs cs b out s [W1 [W2 B]] C1 C2. unfold reducer_run.
  destruct (validate b) eqn:V; cbn [negb]; [|discriminate].
  destruct (int [] b 0) eqn:I; cbn [negb]; [|discriminate].
  set (s0 := {| current := b; reductions := 0; asked := [(b, 0, true)] |}).
  assert (G : good validate int s0).
  { split; cbn; auto; [|exists 0; left; auto|lia]. rewrite <- I. apply (faithful_snoc int []). intros [|? ?]; cbn; discriminate. }
  destruct (run_passes_ok validate int lim foe fs s0 ltac:(lia) ltac:(lia) W1 G) as [st1 [s1 [E [_ [B1 H]]]]]. rewrite E.
  destruct H as [[-> H]|[[-> [H L]]|[-> [H [L M]]]]]; try discriminate.
  destruct (run_passes_ok validate int lim foe cs s1 ltac:(lia) ltac:(lia) W2 H) as [st' [s' [E' [X [B2 H']]]]]. rewrite E'.
  intros Q; inversion Q; subst.
  destruct H' as [[? _]|[[? _]|[_ [_ [_ M']]]]]; try discriminate.
  split; [auto|]. exists (current s1). split.
  - destruct (X ltac:(discriminate)) as [ext ->]. specialize (M C1). rewrite Forall_forall in *. intros f Hf.
    apply exhausted_ext. auto.
  - intros ->. unfold run_passes in E'. cbn [map] in E'.
    assert (R : round_fuel lim [] = S (S (N.to_nat lim))) by (unfold round_fuel; cbn [length]; lia). rewrite R in E'.
    cbn [rounds round] in E'. unfold reached_step_limit in E'. rewrite (proj2 (N.leb_gt _ _) L) in E'. cbn in E'. congruence.
Qed.
Example reducer_minimal_example :
  option_map (fun '(st, out, s) => (st, out))
    (reducer_run (fun b => negb (N.of_nat (length b) =? 4)) (fun _ b _ => 3 <=? N.of_nat (length b)) 50 false
       [drop_last; drop_last] [drop_last] [1; 2; 3; 4; 5; 6; 7; 8; 9]) = Some (kComplete, Some [7; 8; 9]) /\
  counts_in_range {| opportunities := fun b => N.min 1000 (opportunities drop_last b); apply_range := apply_range drop_last |}.
Proof. split; [vm_compute; reflexivity|]. intros b. cbn [opportunities]. lia. Qed.

Print Assumptions reducer_output_valid_and_interesting.
Print Assumptions reducer_step_limit_partial.
Print Assumptions reducer_step_limit_refuted.
Print Assumptions reducer_complete_is_minimal.
