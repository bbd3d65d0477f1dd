(** Vocabulary for common subsequences, independent of the model of lcs.h. *)
From Verif Require Import Base.

(** [xs] is obtained from [l] by leaving out elements. *)
Inductive subsequence {A} : list A -> list A -> Prop :=
| sub_nil : subsequence [] []
| sub_skip x xs l : subsequence xs l -> subsequence xs (x :: l)
| sub_take x xs l : subsequence xs l -> subsequence (x :: xs) (x :: l).

(** The elements of [l] whose mark is set. *)
Fixpoint marked {A} (l : list A) (marks : list bool) : list A :=
  match l, marks with
  | x :: l', true :: marks' => x :: marked l' marks'
  | _ :: l', false :: marks' => marked l' marks'
  | _, _ => []
  end.
