(** Instructions and modules of the optimizer's representation, as far as ids are concerned
    (source/opt/instruction.h, source/opt/module.h).

    Simplifications: an instruction is its opcode, its operands (result type and result id
    included), its debug scope and the line instructions attached to it; the sections and
    functions of a module are flattened to the sequence in which Module::ForEachInst visits
    their instructions; caches (has_result_id_, unique_id_, analyses) are left out. *)
From Verif Require Import Base OperandTypes.
Local Open Scope N_scope.

(** instruction.h:60-130 Operand *)
Definition ir_operand := (otype * list N)%type.

(** instruction.h:150-186 DebugScope, 640-660 the members of Instruction.  A plain instruction, or a
    line instruction attached to another one. *)
Record line := mkLine {
  opcode : N;
  operands : list ir_operand;
  lexical_scope : N;
  inlined_at : N }.
(** instruction.h:658 dbg_line_insts_ *)
Record inst := mkInst { body : line; lines : list line }.
(** module.h:320-345: the instructions visited by the non-const ForEachInst (module.cpp:88-115), the
    trailing line instructions (module.h:342), which that function does not visit, and header_.bound *)
Record ir_module := mkModule { insts : list inst; trailing : list line; bound : N }.
