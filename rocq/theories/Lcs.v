(** Model of source/diff/lcs.h: LongestCommonSubsequence.

    [None] stands for a failed assertion or for lack of fuel (one unit per loop
    iteration); the proofs show that neither happens. *)
From Verif Require Import Base.
Local Open Scope nat_scope.

Section Lcs.
Context {A : Type}.

(** lcs.h:95-105 DiffMatchEntry: best_match_length (a 30-bit field) and matched.  The table
    [table_] is the list of the valid entries. *)
Definition index := (nat * nat)%type.
Definition table := list (index * (N * bool)).

Definition index_eqb (a b : index) : bool := (fst a =? fst b) && (snd a =? snd b).

Fixpoint entry_at (t : table) (k : index) : option (N * bool) :=
  match t with
  | [] => None
  | (k', e) :: t' => if index_eqb k' k then Some e else entry_at t' k
  end.

(** lcs.h:57-59 IsInBound *)
Definition in_bound (n m : nat) (k : index) : bool := (fst k <? n) && (snd k <? m).
(** lcs.h:60-66 IsCalculated, IsCalculatedOrOutOfBound *)
Definition is_calculated (t : table) (k : index) : bool :=
  match entry_at t k with Some _ => true | None => false end.
Definition calculated_or_out (n m : nat) (t : table) (k : index) : bool :=
  negb (in_bound n m k) || is_calculated t k.
(** lcs.h:67-73 GetMemoizedLength *)
Definition memoized_length (n m : nat) (t : table) (k : index) : option N :=
  if in_bound n m k then option_map fst (entry_at t k) else Some 0%N.
(** lcs.h:74-77 IsMatched *)
Definition is_matched (t : table) (k : index) : option bool := option_map snd (entry_at t k).
(** lcs.h:78-89 MarkMatched: the length is truncated to 30 bits *)
Definition mark_matched (t : table) (k : index) (len : N) (matched : bool) : table :=
  (k, (N.land len (2 ^ 30 - 1), matched)) :: t.

(** lcs.h:148-195 the loop of CalculateLCS.  The stack is kept with its top first. *)
Fixpoint calculate_loop (match_ : A -> A -> bool) (src dst : list A) (fuel : nat)
    (to_calculate : list index) (t : table) : option table :=
  let n := length src in
  let m := length dst in
  match fuel with
  | O => None
  | S fuel =>
      match to_calculate with
      | [] => Some t
      | current :: rest =>
          match nth_error src (fst current), nth_error dst (snd current) with
          | Some s, Some d =>
              if is_calculated t current then calculate_loop match_ src dst fuel rest t
              else if match_ s d then
                let next := (fst current + 1, snd current + 1) in
                if calculated_or_out n m t next then
                  match memoized_length n m t next with
                  | Some l => calculate_loop match_ src dst fuel rest (mark_matched t current (l + 1) true)
                  | None => None
                  end
                else calculate_loop match_ src dst fuel (next :: current :: rest) t
              else
                let next_src := (fst current + 1, snd current) in
                let next_dst := (fst current, snd current + 1) in
                if calculated_or_out n m t next_src && calculated_or_out n m t next_dst then
                  match memoized_length n m t next_src, memoized_length n m t next_dst with
                  | Some a, Some b => calculate_loop match_ src dst fuel rest (mark_matched t current (N.max a b) false)
                  | _, _ => None
                  end
                else
                  calculate_loop match_ src dst fuel
                    ((if calculated_or_out n m t next_dst then [] else [next_dst]) ++
                     (if calculated_or_out n m t next_src then [] else [next_src]) ++ current :: rest) t
          | _, _ => None
          end
      end
  end.

(** lcs.h:125-147 CalculateLCS *)
Definition calculate_lcs (match_ : A -> A -> bool) (src dst : list A) (fuel : nat) : option table :=
  match src, dst with
  | [], _ | _, [] => Some []
  | _, _ => calculate_loop match_ src dst fuel [(0, 0)] []
  end.

(** lcs.h:207-222 the loop of RetrieveMatch *)
Fixpoint retrieve_loop (n m : nat) (t : table) (fuel : nat) (current : index)
    (src_match dst_match : list bool) : option (list bool * list bool) :=
  match fuel with
  | O => None
  | S fuel =>
      if in_bound n m current then
        match is_matched t current with
        | None => None
        | Some true =>
            retrieve_loop n m t fuel (fst current + 1, snd current + 1)
              (update_nth src_match (fst current) true) (update_nth dst_match (snd current) true)
        | Some false =>
            match memoized_length n m t (fst current + 1, snd current),
                  memoized_length n m t (fst current, snd current + 1) with
            | Some a, Some b =>
                if (b <=? a)%N then retrieve_loop n m t fuel (fst current + 1, snd current) src_match dst_match
                else retrieve_loop n m t fuel (fst current, snd current + 1) src_match dst_match
            | _, _ => None
            end
        end
      else Some (src_match, dst_match)
  end.

(** lcs.h:198-206 RetrieveMatch *)
Definition retrieve_match (n m : nat) (t : table) : option (list bool * list bool) :=
  retrieve_loop n m t (S (n + m)) (0, 0) (repeat false n) (repeat false m).

(** A number of iterations that is enough. *)
Definition lcs_fuel (n m : nat) : nat := 2 + 4 * (n * m).

(** lcs.h:110-118 Get: the returned length and the two match results *)
Definition lcs_get (match_ : A -> A -> bool) (src dst : list A) : option (N * list bool * list bool) :=
  let n := length src in
  let m := length dst in
  match calculate_lcs match_ src dst (lcs_fuel n m) with
  | None => None
  | Some t =>
      match retrieve_match n m t, memoized_length n m t (0, 0) with
      | Some (sm, dm), Some len => Some (len, sm, dm)
      | _, _ => None
      end
  end.
End Lcs.
