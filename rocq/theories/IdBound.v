(** Model of the id bound of a module: source/opt/module.cpp TakeNextIdBound and ComputeIdBound, and
    source/opt/ir_context.h TakeNextId. *)
From Verif Require Import Base OperandTypes IrModule.
Local Open Scope N_scope.

(** The parts of IRContext and of its module that matter here: the module, max_id_bound_, id_overflow_, whether
    there is a message consumer, and the number of errors reported to it. *)
Record context := mkContext {
  ctx_module : ir_module;
  max_id_bound : N;
  id_overflow : bool;
  has_consumer : bool;
  errors : N }.

Definition with_module (c : context) (m : ir_module) : context :=
  mkContext m (max_id_bound c) (id_overflow c) (has_consumer c) (errors c).
Definition with_bound (m : ir_module) (b : N) : ir_module := mkModule (insts m) (trailing m) b.

(** module.cpp:30-40 TakeNextIdBound, in a context; the bound is a 32-bit word *)
Definition take_next_id_bound (c : context) : N * context :=
  let b := bound (ctx_module c) in
  if max_id_bound c <=? b then (0, c)
  else (b, with_module c (with_bound (ctx_module c) ((b + 1) mod 2 ^ 32))).
(** ir_context.h:567-592 TakeNextId *)
Definition take_next_id (c : context) : N * context :=
  let '(next_id, c) := take_next_id_bound c in
  if next_id =? 0
  then (next_id, mkContext (ctx_module c) (max_id_bound c) true (has_consumer c)
                   (if has_consumer c then errors c + 1 else errors c))
  else (next_id, c).

(** module.cpp:271-279 the lambda: words[0] of every id operand (every id operand has a word) *)
Definition highest_in_line (highest : N) (l : line) : N :=
  fold_left (fun h (o : ir_operand) => if is_id_type (fst o) then N.max h (hd 0 (snd o)) else h) (operands l) highest.
(** module.cpp:268-282 ComputeIdBound, over the const ForEachInst (117-152), which visits the trailing line
    instructions as well *)
Definition compute_id_bound (m : ir_module) : N :=
  let h := fold_left (fun h i => highest_in_line (fold_left highest_in_line (lines i) h) (body i)) (insts m) 0 in
  (fold_left highest_in_line (trailing m) h + 1) mod 2 ^ 32.
(** pass_manager.cpp:85-87: after the passes *)
Definition recompute_id_bound (c : context) : context :=
  with_module c (with_bound (ctx_module c) (compute_id_bound (ctx_module c))).

(** ir_context.h:624 set_max_id_bound, 598 clear_id_overflow *)
Definition set_max_id_bound (c : context) (n : N) : context :=
  mkContext (ctx_module c) n (id_overflow c) (has_consumer c) (errors c).
Definition clear_id_overflow (c : context) : context :=
  mkContext (ctx_module c) (max_id_bound c) false (has_consumer c) (errors c).
