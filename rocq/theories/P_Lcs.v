(** Property C25: the matching computed by the diff tool. *)
From Verif Require Import Base Lcs LcsSpec LcsProofs.
Local Open Scope N_scope.

(** For every matching predicate, the marked elements of the two sequences correspond pairwise,
    their number is the returned length, and no common subsequence is longer.  (Lengths are kept
    in a 30-bit field.) *)
Theorem lcs_matching_is_longest : forall (A : Type) (match_ : A -> A -> bool) (src dst : list A),
  N.of_nat (Nat.min (length src) (length dst)) < 2 ^ 30 ->
  exists len src_marks dst_marks,
    lcs_get match_ src dst = Some (len, src_marks, dst_marks) /\
    length src_marks = length src /\ length dst_marks = length dst /\
    Forall2 (fun a b => match_ a b = true) (marked src src_marks) (marked dst dst_marks) /\
    N.of_nat (length (marked src src_marks)) = len /\
    N.of_nat (length (marked dst dst_marks)) = len /\
    forall xs ys, subsequence xs src -> subsequence ys dst ->
      Forall2 (fun a b => match_ a b = true) xs ys -> N.of_nat (length xs) <= len.
Proof.
  intros A mt src dst H. destruct (lcs_get_ok mt src dst H) as (len & sm & dm & E & L1 & L2 & F & L & M).
  exists len, sm, dm. repeat (split; [assumption|]). split; [|exact M].
  rewrite <- L. f_equal. clear - F. induction F; simpl; congruence.
Qed.
(** A predicate that is not an equivalence (a matches b when a divides b). *)
Example lcs_example :
  lcs_get (fun a b => b mod a =? 0) [5; 2; 3; 7; 4] [6; 9; 8; 14; 10] =
    Some (3, [false; true; true; false; true], [true; true; true; false; false]) /\
  N.of_nat (Nat.min (length [5; 2; 3; 7; 4]) (length [6; 9; 8; 14; 10])) < 2 ^ 30.
Proof. split; vm_compute; reflexivity. Qed.

Print Assumptions lcs_matching_is_longest.
