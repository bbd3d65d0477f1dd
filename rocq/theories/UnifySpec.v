(** Values of constants. *)
From Verif Require Import Base Unify.
Local Open Scope N_scope.

(** Constants other than those that can be specialised one by one *)
Definition constant (o : opcode) : bool := match o with True_ | False_ | Constant | Null | Sampler | Composite | SpecOp _ | SpecComposite => true | Other _ => false end.
(** An instruction whose result may be replaced *)
Definition may (deco : N -> bool) (i : inst) : Prop := deco (res i) = false /\ constant (op i) = true.
Definition ids (i : inst) : list N := ty i :: flat_map (fun o => match o with Id x => [x] | Lit _ => [] end) (ops i).
Definition kinds (i : inst) : list bool := map (fun o => match o with Id _ => true | Lit _ => false end) (ops i).
(** results are different; constants mention only what is defined before them; which operands of a constant are ids depends on opcode, operation and number of operands only *)
Record valid (l : list inst) : Prop := {
  va_results : forall a i b, l = a ++ i :: b -> constant (op i) = true -> res i <> 0 /\ ~ In (res i) (map res a) /\ ~ In (res i) (map res b);
  va_order : forall a i b x, l = a ++ i :: b -> constant (op i) = true -> In x (ids i) -> ~ In x (map res (i :: b)) ;
  va_kinds : forall i j, In i l -> In j l -> constant (op i) = true -> op i = op j -> length (ops i) = length (ops j) -> kinds i = kinds j }.
(** [sem]: what constants mean, from the opcode, the value of the type, and the values of the operands; [v]: the values of all ids.  All constants have the values they are defined to have. *)
Definition consistent {V : Type} (sem : opcode -> V -> list (V + N) -> V) (v : N -> V) (l : list inst) : Prop :=
  forall i, In i l -> constant (op i) = true -> v (res i) = sem (op i) (v (ty i)) (map (fun o => match o with Id x => inl (v x) | Lit w => inr w end) (ops i)).
