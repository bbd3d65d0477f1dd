(** Model of source/reduce/reducer.cpp (Reducer::Run, RunPasses) and
    source/reduce/reduction_pass.cpp (ReductionPass).

    Modelled as parameters: the validator, the user's interestingness function, and
    for each pass its ReductionOpportunityFinder.  Message consumer calls are left out.
    [None] is lack of fuel (one unit per loop iteration); the proofs show that the
    fuel of [reducer_run] is enough. *)
From Verif Require Import Base.
Local Open Scope N_scope.

Definition binary := list N.

(** One call of the interestingness function: the binary, the step number passed, the answer. *)
Definition question := (binary * N * bool)%type.
(** The interestingness function may keep state (it is a std::function): its answer may depend on
    all the calls made before. *)
Definition interestingness := list question -> binary -> N -> bool.

(** What a finder does with a module: the number of opportunities GetAvailableOpportunities finds,
    and the binary obtained by TryToApply on those with index in [lower, upper)
    (reduction_pass.cpp:57-65).  The target function is part of the finder. *)
Record finder := {
  opportunities : binary -> N;
  apply_range : binary -> N -> N -> binary }.

(** reduction_pass.h:77-79 index_, granularity_; reduction_pass.h:37-44 their initial values *)
Record pass := { find_with : finder; index : N; granularity : N }.
Definition new_pass (f : finder) : pass := {| find_with := f; index := 0; granularity := 2 ^ 32 - 1 |}.

Definition u32 (x : N) : N := x mod 2 ^ 32.

(** reduction_pass.cpp:72-75 ReachedMinimumGranularity *)
Definition reached_minimum_granularity (p : pass) : bool := granularity p =? 1.

(** reduction_pass.cpp:79-83 NotifyInteresting *)
Definition notify_interesting (p : pass) (interesting : bool) : pass :=
  if interesting then p
  else {| find_with := find_with p; index := u32 (index p + granularity p); granularity := granularity p |}.

(** reduction_pass.cpp:24-66 TryApplyReduction; an empty vector signals the end of the round *)
Definition try_apply_reduction (p : pass) (b : binary) : pass * binary :=
  let size := opportunities (find_with p) b in
  let g := if size <? granularity p then N.max 1 (u32 size) else granularity p in
  if size <=? index p then ({| find_with := find_with p; index := 0; granularity := N.max 1 (g / 2) |}, [])
  else
    ({| find_with := find_with p; index := index p; granularity := g |},
     apply_range (find_with p) b (index p) (N.min (u32 (index p + g)) (u32 size))).

(** reducer.h ReductionResultStatus *)
Inductive status :=
| kInitialStateNotInteresting
| kReachedStepLimit
| kComplete
| kInitialStateInvalid
| kStateInvalid.

Section Run.
Variable validate : binary -> bool.
Variable interesting : interestingness.
Variable step_limit : N.
Variable fail_on_validation_error : bool.

(** current_binary, reductions_applied and the calls of the interestingness function so far *)
Record state := { current : binary; reductions : N; asked : list question }.

(** The outcome of the inner loop: it ended (with another_round_worthwhile), or an invalid binary
    made the reducer fail. *)
Inductive loop_result :=
| Ended (p : pass) (s : state) (another_round_worthwhile : bool)
| Failed (s : state).

(** reducer.cpp:155-158 ReachedStepLimit *)
Definition reached_step_limit (s : state) : bool := step_limit <=? reductions s.

(** reducer.cpp:188-232 the do-while loop for one pass *)
Fixpoint pass_loop (fuel : nat) (p : pass) (s : state) (worthwhile : bool) : option loop_result :=
  match fuel with
  | O => None
  | S fuel =>
      let '(p, result) := try_apply_reduction p (current s) in
      match result with
      | [] => Some (Ended p s worthwhile)
      | _ =>
          let n := u32 (reductions s + 1) in
          if validate result then
            let answer := interesting (asked s) result n in
            let asked' := asked s ++ [(result, n, answer)] in
            let s := {| current := if answer then result else current s; reductions := n; asked := asked' |} in
            let p := notify_interesting p answer in
            if reached_step_limit s then Some (Ended p s (worthwhile || answer))
            else pass_loop fuel p s (worthwhile || answer)
          else if fail_on_validation_error then
            Some (Failed {| current := result; reductions := n; asked := asked s |})
          else
            let s := {| current := current s; reductions := n; asked := asked s |} in
            let p := notify_interesting p false in
            if reached_step_limit s then Some (Ended p s worthwhile)
            else pass_loop fuel p s worthwhile
      end
  end.

Inductive round_result :=
| RoundEnded (ps : list pass) (s : state) (another_round_worthwhile : bool)
| RoundFailed (s : state).

(** Enough iterations for [pass_loop]. *)
Definition pass_fuel : nat := S (N.to_nat step_limit).

(** reducer.cpp:178-233 the loop over the passes *)
Fixpoint round (ps : list pass) (s : state) (worthwhile : bool) : option round_result :=
  match ps with
  | [] => Some (RoundEnded [] s worthwhile)
  | p :: ps' =>
      match pass_loop pass_fuel p s (worthwhile || negb (reached_minimum_granularity p)) with
      | None => None
      | Some (Failed s) => Some (RoundFailed s)
      | Some (Ended p s worthwhile) =>
          match round ps' s worthwhile with
          | Some (RoundEnded ps'' s w) => Some (RoundEnded (p :: ps'') s w)
          | r => r
          end
      end
  end.

(** reducer.cpp:171-245 the while loop of RunPasses *)
Fixpoint rounds (fuel : nat) (ps : list pass) (s : state) (worthwhile : bool) : option (status * state) :=
  match fuel with
  | O => None
  | S fuel =>
      if negb (reached_step_limit s) && worthwhile then
        match round ps s false with
        | None => None
        | Some (RoundFailed s) => Some (kStateInvalid, s)
        | Some (RoundEnded ps s w) => rounds fuel ps s w
        end
      else Some (if reached_step_limit s then kReachedStepLimit else kComplete, s)
  end.

(** Enough rounds. *)
Definition round_fuel (ps : list pass) : nat := N.to_nat step_limit + 33 * length ps + 2.

(** reducer.cpp:160-246 RunPasses *)
Definition run_passes (ps : list pass) (s : state) : option (status * state) :=
  rounds (round_fuel ps) ps s true.

(** reducer.cpp:57-104 Run: the status, the output binary (none when the initial binary is rejected:
    *binary_out is left alone) and the final counters *)
Definition reducer_run (passes cleanup_passes : list finder) (binary_in : binary)
    : option (status * option binary * state) :=
  let s := {| current := binary_in; reductions := 0; asked := [] |} in
  if negb (validate binary_in) then Some (kInitialStateInvalid, None, s)
  else
    let answer := interesting [] binary_in 0 in
    let s := {| current := binary_in; reductions := 0; asked := [(binary_in, 0, answer)] |} in
    if negb answer then Some (kInitialStateNotInteresting, None, s)
    else
      match run_passes (map new_pass passes) s with
      | None => None
      | Some (kComplete, s) =>
          match run_passes (map new_pass cleanup_passes) s with
          | None => None
          | Some (r, s) => Some (r, Some (current s), s)
          end
      | Some (r, s) => Some (r, Some (current s), s)
      end.
End Run.
