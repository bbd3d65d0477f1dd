(** Which constants of a module are needed. *)
From Verif Require Import Base DeadConst.
Local Open Scope N_scope.

(** An id is needed if an instruction of the module mentions it that is neither a constant nor an annotation or debug instruction, or if a needed constant mentions it. *)
Inductive needed (m : list inst) (x : N) : Prop :=
| Needed_used i : In i m -> knd i = Other -> In x (ids i) -> needed m x
| Needed_part i : In i m -> is_constant (knd i) = true -> needed m (res i) -> In x (ids i) -> needed m x.
(** results have different ids, constants have results, and constants are defined before they are used by constants *)
Record valid (m : list inst) : Prop := {
  va_results : NoDup (filter (fun x => negb (x =? 0)) (map res m));
  va_constants : forall i, In i m -> is_constant (knd i) = true -> res i <> 0;
  va_order : exists height : N -> nat, forall i y, In i m -> is_constant (knd i) = true -> In y (ids i) -> (height (res i) < height y)%nat }.
(** names, and annotations, of an id *)
Definition about (x : N) (i : inst) : Prop := (knd i = Annotation \/ knd i = Name) /\ exists l, ids i = x :: l.
(** the set gives one of its elements *)
Definition picks (pick : list N -> N) : Prop := forall l, l <> [] -> In (pick l) l.
(** only composites and operations have constants as operands *)
Definition plain (m : list inst) : Prop := forall i y, In i m -> knd i = OtherConstant -> In y (ids i) -> forall c, In c m -> is_constant (knd c) = true -> res c <> y.
(** annotations and debug instructions mention constants as their targets only *)
Definition targets_only (m : list inst) : Prop := forall i y c, In i m -> counts (knd i) = false -> In y (ids i) -> In c m -> is_constant (knd c) = true -> res c = y -> about y i.
