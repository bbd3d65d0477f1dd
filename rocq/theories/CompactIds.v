(** Model of source/opt/compact_ids_pass.cpp.  [None] is a failed assertion. *)
From Verif Require Import Base OperandTypes IrModule.
Local Open Scope N_scope.

(** result_id_mapping, in order of insertion *)
Definition id_mapping := list (N * N).
Fixpoint mapped (mp : id_mapping) (id : N) : option N :=
  match mp with
  | [] => None
  | (k, v) :: mp' => if k =? id then Some v else mapped mp' id
  end.

(** compact_ids_pass.cpp:28-39 GetRemappedId *)
Definition get_remapped_id (mp : id_mapping) (id : N) : id_mapping * N :=
  match mapped mp id with
  | Some v => (mp, v)
  | None => let v := N.of_nat (length mp) + 1 in (mp ++ [(id, v)], v)
  end.

(** compact_ids_pass.cpp:54-73 the loop over the operands.  SetResultId and SetResultType
    (instruction.h:708-741) store the new id in the same operand again. *)
Fixpoint compact_operands (mp : id_mapping) (ops : list ir_operand) : option (id_mapping * list ir_operand * bool) :=
  match ops with
  | [] => Some (mp, [], false)
  | (t, ws) :: ops' =>
      if is_id_type t then
        match ws with
        | [id] =>
            let '(mp, new_id) := get_remapped_id mp id in
            match compact_operands mp ops' with
            | Some (mp, ops'', m) => Some (mp, (t, [new_id]) :: ops'', negb (id =? new_id) || m)
            | None => None
            end
        | _ => None
        end
      else
        match compact_operands mp ops' with
        | Some (mp, ops'', m) => Some (mp, (t, ws) :: ops'', m)
        | None => None
        end
  end.

(** compact_ids_pass.cpp:75-90 a scope id (zero when there is none): mapping, new id, changed *)
Definition compact_scope (mp : id_mapping) (id : N) : id_mapping * N * bool :=
  if id =? 0 then (mp, id, false)
  else let '(mp, new_id) := get_remapped_id mp id in (mp, new_id, negb (id =? new_id)).

(** compact_ids_pass.cpp:53-91 the lambda on an instruction without attached line instructions *)
Definition compact_line (mp : id_mapping) (l : line) : option (id_mapping * line * bool) :=
  match compact_operands mp (operands l) with
  | None => None
  | Some (mp, ops, m1) =>
      let '(mp, scope, m2) := compact_scope mp (lexical_scope l) in
      let '(mp, inlined, m3) := compact_scope mp (inlined_at l) in
      Some (mp, mkLine (opcode l) ops scope inlined, m1 || m2 || m3)
  end.
Fixpoint compact_lines (mp : id_mapping) (ls : list line) : option (id_mapping * list line * bool) :=
  match ls with
  | [] => Some (mp, [], false)
  | l :: ls' =>
      match compact_line mp l with
      | None => None
      | Some (mp, l', m) =>
          match compact_lines mp ls' with
          | Some (mp, ls'', m') => Some (mp, l' :: ls'', m || m')
          | None => None
          end
      end
  end.

(** instruction.cpp:533-554 UpdateLexicalScope and UpdateDebugInlinedAt also set the scope of the attached
    line instructions *)
Definition set_line_scope (scope : N) (l : line) : line := mkLine (opcode l) (operands l) scope (inlined_at l).
Definition set_line_inlined (inlined : N) (l : line) : line := mkLine (opcode l) (operands l) (lexical_scope l) inlined.

(** instruction.h:756-764 WhileEachInst with run_on_debug_line_insts: first the attached line
    instructions, then the instruction *)
Definition compact_inst (mp : id_mapping) (i : inst) : option (id_mapping * inst * bool) :=
  match compact_lines mp (lines i) with
  | None => None
  | Some (mp, ls, m) =>
      match compact_operands mp (operands (body i)) with
      | None => None
      | Some (mp, ops, m1) =>
          let '(mp, scope, m2) := compact_scope mp (lexical_scope (body i)) in
          let ls := if m2 then map (set_line_scope scope) ls else ls in
          let '(mp, inlined, m3) := compact_scope mp (inlined_at (body i)) in
          let ls := if m3 then map (set_line_inlined inlined) ls else ls in
          Some (mp, mkInst (mkLine (opcode (body i)) ops scope inlined) ls, m || (m1 || m2 || m3))
      end
  end.
Fixpoint compact_insts (mp : id_mapping) (is : list inst) : option (id_mapping * list inst * bool) :=
  match is with
  | [] => Some (mp, [], false)
  | i :: is' =>
      match compact_inst mp i with
      | None => None
      | Some (mp, i', m) =>
          match compact_insts mp is' with
          | Some (mp, is'', m') => Some (mp, i' :: is'', m || m')
          | None => None
          end
      end
  end.

(** compact_ids_pass.cpp:43-103 Process: the module and whether SuccessWithChange is returned *)
Definition compact_ids (m : ir_module) : option (ir_module * bool) :=
  match compact_insts [] (insts m) with
  | None => None
  | Some (mp, is, modified) =>
      let size := N.of_nat (length mp) + 1 in
      Some (mkModule is (trailing m) size, modified || negb (bound m =? size))
  end.
