(** Model of source/fuzz/shrinker.cpp (Shrinker::Run, RemoveChunk), source/fuzz/replayer.cpp
    (Replayer::Run) and source/fuzz/added_function_reducer.cpp (AddedFunctionReducer::Run).

    Parameters: the transformations themselves (when they apply, what they do), the
    validator, the user's interestingness function and the reduction passes.  Lengths of
    protobuf sequences are non-negative ints, so no product of a chunk index and a chunk
    size wraps; they are nat here.  The uint32_t attempt counter is taken not to wrap.  [None] is lack of fuel. *)
From Verif Require Import Base Reducer.
Local Open Scope nat_scope.

Section Shrinker.
(** Transformation messages, and the module together with its facts and overflow ids. *)
Context {T M : Type}.
(** The module built from the input binary; the first overflow id (replayer.cpp:93-110) depends on the
    transformations to be replayed. *)
Variable initial : list T -> M.
Variable applicable : M -> T -> bool.
Variable apply : M -> T -> M.
Variable to_binary : M -> binary.
Variable validate : binary -> bool.
Variable validate_during_replay : bool.

(** replayer.cpp:123-162: the module and the applied transformations; None when validation of an
    intermediate binary fails *)
Fixpoint replay_loop (m : M) (ts : list T) : option (M * list T) :=
  match ts with
  | [] => Some (m, [])
  | t :: ts' =>
      if applicable m t then
        let m' := apply m t in
        if validate_during_replay && negb (validate (to_binary m')) then None
        else match replay_loop m' ts' with
             | Some (m'', applied) => Some (m'', t :: applied)
             | None => None
             end
      else replay_loop m ts'
  end.
(** replayer.cpp:50-167 Run, for a valid input binary, when all transformations (or the first
    [count]) are to be applied *)
Definition replay_prefix (count : nat) (ts : list T) : option (M * list T) := replay_loop (initial ts) (firstn count ts).
Definition replay (ts : list T) : option (binary * list T) :=
  match replay_prefix (length ts) ts with
  | Some (m, applied) => Some (to_binary m, applied)
  | None => None
  end.

(** shrinker.cpp:43-61 RemoveChunk *)
Definition remove_chunk (ts : list T) (chunk_index chunk_size : nat) : list T :=
  let lower := chunk_index * chunk_size in
  let upper := Nat.min ((chunk_index + 1) * chunk_size) (length ts) in
  map snd (filter (fun jt => negb ((lower <=? fst jt) && (fst jt <? upper))) (combine (seq 0 (length ts)) ts)).

Variable interesting : interestingness.
Variable step_limit : N.

(** current_best_binary, current_best_transformations, attempt and the calls of the interestingness
    function so far *)
Record shrink_state := {
  best_binary : binary;
  best : list T;
  attempt : N;
  calls : list question }.

(** shrinker.cpp:180-228 the for loop; [chunks] is chunk_index + 1.  Assertions are left out here. *)
Fixpoint chunk_loop (chunks : nat) (chunk_size : nat) (s : shrink_state) (progress : bool)
    : option (shrink_state * bool) :=
  match chunks with
  | O => Some (s, progress)
  | S chunk_index =>
      if (step_limit <=? attempt s)%N then Some (s, progress)
      else
        match replay (remove_chunk (best s) chunk_index chunk_size) with
        | None => None
        | Some (transformed, applied) =>
            let answer := interesting (calls s) transformed (attempt s) in
            let calls' := calls s ++ [(transformed, attempt s, answer)] in
            let attempt' := N.add (attempt s) 1 in
            chunk_loop chunk_index chunk_size
              (if answer
               then {| best_binary := transformed; best := applied; attempt := attempt'; calls := calls' |}
               else {| best_binary := best_binary s; best := best s; attempt := attempt'; calls := calls' |})
              (progress || answer)
        end
  end.

(** shrinker.cpp:236-239 *)
Fixpoint decrease (fuel : nat) (chunk_size remaining : nat) : option nat :=
  match fuel with
  | O => None
  | S fuel => if remaining <? chunk_size then decrease fuel (chunk_size / 2) remaining else Some chunk_size
  end.

(** The outcome of the first phase: a failed replay, or a state. *)
Inductive phase :=
| ReplayFailed
| Shrunk (s : shrink_state).

(** shrinker.cpp:151-240 the while loop *)
Fixpoint shrink_loop (fuel : nat) (chunk_size : nat) (s : shrink_state) : option phase :=
  match fuel with
  | O => None
  | S fuel =>
      if (attempt s <? step_limit)%N && negb (length (best s) =? 0) && (0 <? chunk_size) then
        let num_chunks := (length (best s) + chunk_size - 1) / chunk_size in
        match chunk_loop num_chunks chunk_size s false with
        | None => Some ReplayFailed
        | Some (s, progress) =>
            let chunk_size := if progress then chunk_size else chunk_size / 2 in
            match decrease (S chunk_size) chunk_size (length (best s)) with
            | None => None
            | Some chunk_size => shrink_loop fuel chunk_size s
            end
        end
      else Some (Shrunk s)
  end.

(** *** AddedFunctionReducer *)
Variable is_add_function : T -> bool.
(** TryToAddFunction on the module obtained from the earlier transformations, as a binary
    (added_function_reducer.cpp:182-229) *)
Variable add_raw_function : M -> T -> binary.
(** The AddFunction transformation with its instructions taken from the reduced binary
    (added_function_reducer.cpp:249-272) *)
Variable with_body_from : T -> binary -> T.
(** The check on global variables (added_function_reducer.cpp:127-152); the set of irrelevant pointees
    comes from the module after the earlier transformations *)
Variable only_irrelevant_globals : M -> T -> binary -> bool.
Variable passes cleanup_passes : T -> list finder.

(** added_function_reducer.cpp:231-291 ReplayAdaptedTransformations.  A failed replay is an assertion
    failure in the code. *)
Definition adapted (ts : list T) (k : nat) (t : T) (b : binary) : list T := update_nth ts k (with_body_from t b).
Definition replay_adapted (ts : list T) (k : nat) (t : T) (b : binary) : option (binary * list T) :=
  replay (adapted ts k t b).

(** added_function_reducer.cpp:114-180 InterestingnessFunctionForReducingAddedFunction: the binary on
    which the user's function is called, if it is.  (A failed replay, an assertion failure in the code, is
    taken as not interesting.) *)
Definition to_ask (m : M) (ts : list T) (k : nat) (t : T) (b : binary) : option binary :=
  if only_irrelevant_globals m t b then
    match replay_adapted ts k t b with
    | Some (out, applied) => if length ts =? length applied then Some out else None
    | None => None
    end
  else None.

(** The calls of the user's function made for the calls of the reducer's function.  The counter passed
    is num_existing_shrink_attempts_ + num_reducer_interestingness_function_invocations_. *)
Fixpoint user_calls (m : M) (ts : list T) (k : nat) (t : T) (counter : N) (qs : list question) : list question :=
  match qs with
  | [] => []
  | (b, _, answer) :: qs' =>
      (match to_ask m ts k t b with Some out => [(out, counter, answer)] | None => [] end)
      ++ user_calls m ts k t (N.add counter 1) qs'
  end.
Definition function_interesting (s : shrink_state) (m : M) (k : nat) (t : T) : interestingness :=
  fun qs b _ =>
    match to_ask m (best s) k t b with
    | Some out =>
        interesting (calls s ++ user_calls m (best s) k t (attempt s) qs) out
          (N.add (attempt s) (N.of_nat (length qs)))
    | None => false
    end.

Inductive function_result :=
| ReductionFailed
| AssertionFailed
| Reduced (s : shrink_state).

(** added_function_reducer.cpp:52-112 Run, followed by shrinker.cpp:268-284 *)
Definition reduce_function (s : shrink_state) (k : nat) (t : T) : option function_result :=
  match replay_prefix k (best s) with
  | None => Some AssertionFailed
  | Some (m, _) =>
      match reducer_run validate (function_interesting s m k t) (step_limit - attempt s) false
              (passes t) (cleanup_passes t) (add_raw_function m t) with
      | None => None
      | Some (st, out, rs) =>
          match st, out with
          | kComplete, Some reduced | kReachedStepLimit, Some reduced =>
              match replay_adapted (best s) k t reduced with
              | None => Some AssertionFailed
              | Some (transformed, applied) =>
                  Some (Reduced {| best_binary := transformed; best := applied;
                                   attempt := N.add (attempt s) (N.of_nat (length (asked rs)) - 1);
                                   calls := calls s ++ user_calls m (best s) k t (attempt s) (asked rs) |})
              end
          | _, _ => Some ReductionFailed
          end
      end
  end.

(** shrinker.cpp:246-285 the second loop; [todo] counts the transformations not yet considered *)
Fixpoint function_loop (todo : nat) (k : nat) (s : shrink_state) : option function_result :=
  match todo with
  | O => Some (Reduced s)
  | S todo =>
      if (attempt s <? step_limit)%N then
        match nth_error (best s) k with
        | None => Some (Reduced s)
        | Some t =>
            if is_add_function t then
              match reduce_function s k t with
              | Some (Reduced s) => function_loop todo (S k) s
              | r => r
              end
            else function_loop todo (S k) s
        end
      else Some (Reduced s)
  end.

(** shrinker.h ShrinkerResultStatus; ShrinkAssertionFailed is undefined behaviour *)
Inductive shrink_status :=
| ShrinkComplete
| ShrinkInitialBinaryInvalid
| ShrinkInitialBinaryNotInteresting
| ShrinkReplayFailed
| ShrinkStepLimitReached
| ShrinkAddedFunctionReductionFailed
| ShrinkAssertionFailed.

Definition shrink_fuel : nat := 1 + N.to_nat step_limit.

(** shrinker.cpp:85-305 Run *)
Definition shrinker_run (binary_in : binary) (ts : list T) : option (shrink_status * option shrink_state) :=
  if negb (validate binary_in) then Some (ShrinkInitialBinaryInvalid, None)
  else
    match replay ts with
    | None => Some (ShrinkReplayFailed, None)
    | Some (b, applied) =>
        let answer := interesting [] b 0%N in
        if negb answer then Some (ShrinkInitialBinaryNotInteresting, None)
        else
          let s := {| best_binary := b; best := applied; attempt := 0%N; calls := [(b, 0%N, true)] |} in
          match shrink_loop shrink_fuel (Nat.max 1 (length applied / 2)) s with
          | None => None
          | Some ReplayFailed => Some (ShrinkReplayFailed, None)
          | Some (Shrunk s) =>
              match function_loop (length (best s)) 0 s with
              | None => None
              | Some ReductionFailed => Some (ShrinkAddedFunctionReductionFailed, None)
              | Some AssertionFailed => Some (ShrinkAssertionFailed, None)
              | Some (Reduced s) =>
                  Some (if (attempt s =? step_limit)%N then ShrinkStepLimitReached else ShrinkComplete, Some s)
              end
          end
    end.
End Shrinker.
