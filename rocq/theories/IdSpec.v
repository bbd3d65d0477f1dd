(** Specification of id numbering. *)
From Verif Require Import Base NumberSpec.
Local Open Scope N_scope.

(** The distinct elements of a list, in order of first appearance. *)
Fixpoint first_appearances (seen l : list (list N)) : list (list N) :=
  match l with
  | [] => []
  | x :: r => if in_dec (list_eq_dec N.eq_dec) x seen then first_appearances seen r
              else x :: first_appearances (x :: seen) r
  end.
(** [position l x i]: [x] is the [i]-th element (from 0) of [l]. *)
Definition position (l : list (list N)) (x : list N) (i : nat) : Prop := nth_error l i = Some x.

(** The text is a number that fits in 32 bits. *)
Definition numeric_name (name : list N) (v : N) : Prop :=
  (exists hex, unsigned_text name hex v) /\ v < 2 ^ 32.
