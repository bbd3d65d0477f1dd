(** What the elimination of loads of variables stored to once asks of its inputs, beyond LocalElimSpec.v. *)
From Verif Require Import Base GraphSpec LocalElim LocalElimSpec.
Local Open Scope N_scope.

(** an index is not a pointer to a variable of the function *)
Definition indices_are_numbers (f : func) : Prop :=
  forall r b idx x p, In (IChain r b idx) (all_insts f) -> In x (vars f) -> v_target x = true -> derived f (v_id x) p -> ~ In p idx.
(** what [dom] says of the blocks that can be reached is so: a block that dominates another is on every path to it *)
Definition tells_dominators (f : func) (dom : N -> N -> bool) : Prop :=
  forall b c, In b (blocks f) -> In c (blocks f) -> reachable (succs f) (entry f) (label c) -> dom (label b) (label c) = true ->
    dominates (succs f) (entry f) (label b) (label c).
