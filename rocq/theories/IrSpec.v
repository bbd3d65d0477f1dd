(** The ids of a module and their renaming, independent of any pass. *)
From Verif Require Import Base OperandTypes IrModule.
Local Open Scope N_scope.

Definition operand_ids (o : ir_operand) : list N := if is_id_type (fst o) then snd o else [].
Definition scope_ids (id : N) : list N := if id =? 0 then [] else [id].
(** The ids an instruction refers to, in order. *)
Definition line_ids (l : line) : list N :=
  flat_map operand_ids (operands l) ++ scope_ids (lexical_scope l) ++ scope_ids (inlined_at l).
Definition inst_ids (i : inst) : list N := flat_map line_ids (lines i) ++ line_ids (body i).
Definition insts_ids (is : list inst) : list N := flat_map inst_ids is.

(** Each id once, in order of first occurrence. *)
Fixpoint first_occurrences (seen ids : list N) : list N :=
  match ids with
  | [] => []
  | x :: ids' => if existsb (N.eqb x) seen then first_occurrences seen ids'
                 else x :: first_occurrences (seen ++ [x]) ids'
  end.

(** Replacing every id by its image, and nothing else. *)
Definition rename_operand (f : N -> N) (o : ir_operand) : ir_operand :=
  if is_id_type (fst o) then (fst o, map f (snd o)) else o.
Definition rename_scope (f : N -> N) (id : N) : N := if id =? 0 then 0 else f id.
Definition rename_line (f : N -> N) (l : line) : line :=
  mkLine (opcode l) (map (rename_operand f) (operands l)) (rename_scope f (lexical_scope l))
    (rename_scope f (inlined_at l)).
Definition rename_inst (f : N -> N) (i : inst) : inst :=
  mkInst (rename_line f (body i)) (map (rename_line f) (lines i)).

(** Every id operand is one word. *)
Definition ids_are_words (l : line) : Prop :=
  Forall (fun o => is_id_type (fst o) = true -> length (snd o) = 1%nat) (operands l).
(** The loader and SetDebugScope give attached line instructions the scope of their instruction, if it
    has one (instruction.h:722-728, ir_loader.cpp:173,218). *)
Definition well_scoped (i : inst) : Prop :=
  (lexical_scope (body i) <> 0 -> Forall (fun l => lexical_scope l = lexical_scope (body i)) (lines i)) /\
  (inlined_at (body i) <> 0 -> Forall (fun l => inlined_at l = inlined_at (body i)) (lines i)).
Definition well_formed_inst (i : inst) : Prop :=
  ids_are_words (body i) /\ Forall ids_are_words (lines i) /\ well_scoped i.
