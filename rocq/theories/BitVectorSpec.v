(** Specification for C02: the set of indices a history of calls describes. *)
From Verif Require Import Base BitVector.
Local Open Scope N_scope.

(** Specification: the set of indices after a history. *)
Fixpoint members (h : hist) : N -> bool :=
  match h with
  | HNew _ => fun _ => false
  | HSet h i => fun x => (x =? i) || members h x
  | HClear h i => fun x => negb (x =? i) && members h x
  | HOr h o => fun x => members h x || members o x
  end.

