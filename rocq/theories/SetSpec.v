(** Specification for C01: a set of numbers as a characteristic function, and what a
    history of insertions and removals means for it.  Independent of buckets. *)
From Verif Require Import Base EnumSet.
Local Open Scope N_scope.

Definition aset := N -> bool.
Definition a_empty : aset := fun _ => false.
Definition a_insert (A : aset) (v : N) : aset := fun x => (x =? v) || A x.
Definition a_erase (A : aset) (v : N) : aset := fun x => negb (x =? v) && A x.

(** the abstract set after a history *)
Fixpoint a_after (A : aset) (h : list op) : aset :=
  match h with
  | [] => A
  | Insert v :: h' => a_after (a_insert A v) h'
  | Erase v :: h' => a_after (a_erase A v) h'
  end.
(** what each call must return: insert - was it absent; erase - was it present *)
Fixpoint a_returns (A : aset) (h : list op) : list bool :=
  match h with
  | [] => []
  | Insert v :: h' => negb (A v) :: a_returns (a_insert A v) h'
  | Erase v :: h' => A v :: a_returns (a_erase A v) h'
  end.
