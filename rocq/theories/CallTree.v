(** The call tree: model of IRContext::ProcessCallTreeFromRoots and ProcessReachableCallTree (source/opt/ir_context.cpp), of the removal of functions that are not in it
    (source/opt/eliminate_dead_functions_pass.cpp) and of the interface lists of entry points (source/opt/remove_unused_interface_variables_pass.cpp).
    Not modelled: the names, decorations and non-semantic instructions of removed functions; export decorations in groups (the code leaves them out too). *)
From Verif Require Import Base NamedIds.
Local Open Scope N_scope.

(** The opcodes AddCalls looks for: OpFunctionCall, OpCooperativeMatrixPerElementOpEXT, OpCooperativeMatrixReduceEXT, OpCooperativeMatrixLoadTensorNV *)
Inductive opcode := Call | PerElement | Reduce | LoadTensor | OtherOp.
(** [words]: the in-operands, of each the first word; [ids]: those that are ids, in order *)
Record inst := mkinst { op : opcode; words : list N; ids : list N }.
(** Instruction::GetSingleWordInOperand.  Simplification: 0 where there is no such operand. *)
Definition operand (l : list N) (k : nat) : N := nth k l 0.
Definition bit (b : bool) : nat := if b then 1 else 0.
(** ir_context.cpp:1018-1054 (AddCalls), for one instruction.  Bits of the memory operands: Aligned 2, MakePointerAvailable 8, MakePointerVisible 16; of the tensor addressing operands:
    TensorView 1, DecodeFunc 2, DecodeVectorFunc 4. *)
Definition add_calls_inst (i : inst) : list N :=
  match op i with
  | Call => [operand (words i) 0]
  | PerElement => [operand (words i) 1]
  | Reduce => [operand (words i) 2]
  | LoadTensor =>
      let mask := operand (words i) 3 in
      let tensor := (3 + (1 + bit (N.testbit mask 1) + bit (N.testbit mask 3) + bit (N.testbit mask 4)))%nat in
      let mask := operand (words i) tensor in
      let count := (1 + bit (N.testbit mask 0))%nat in
      let '(l, count) := if N.testbit mask 1 then ([operand (words i) (tensor + count)], S count) else ([], count) in
      l ++ (if N.testbit mask 2 then [operand (words i) (tensor + count)] else [])
  | OtherOp => []
  end.
Record func := mkfunc { f_id : N; f_insts : list inst }.
Definition add_calls (f : func) : list N := flat_map add_calls_inst (f_insts f).
(** An entry point: an OpConditionalEntryPointINTEL?, and the in-operands, of each the first word: (the condition,) execution model, function, name, interface *)
Record entry := mkentry { e_cond : bool; e_ops : list N }.
(** [m_exports]: the targets of the export decorations, in order; [m_var]: the storage class of the variable with the id; [m_v14]: is the version 1.4 or later? *)
Record module := mkmodule { m_funcs : list func; m_entries : list entry; m_exports : list N; m_var : N -> option N; m_v14 : bool }.
(** ir_context.h:643-649 (IRContext::GetFunction) *)
Definition get_function (m : module) (x : N) : option func := find (fun f => f_id f =? x) (m_funcs m).
Inductive outcome (A : Type) := Done (a : A) | Crash | OutOfFuel.
Arguments Done {A} a. Arguments Crash {A}. Arguments OutOfFuel {A}.
(** ir_context.cpp:1095-1112 (ProcessCallTreeFromRoots): the functions that are processed, the last one first.  [Crash]: the assertion at line 1106 fails, and a null pointer is used. *)
Fixpoint walk (m : module) (fuel : nat) (todo done : list N) : outcome (list N) :=
  match todo with
  | [] => Done done
  | x :: todo' =>
      match fuel with
      | O => OutOfFuel
      | S n => if mem x done then walk m n todo' done else match get_function m x with None => Crash | Some f => walk m n (todo' ++ add_calls f) (x :: done) end
      end
  end.
Definition all_calls (m : module) : nat := fold_right (fun f n => (length (add_calls f) + n)%nat) O (m_funcs m).
Definition process (m : module) (roots : list N) : outcome (list N) := walk m (length roots + all_calls m) roots [].
(** ir_context.cpp:1065-1093 (ProcessReachableCallTree) *)
Definition roots (m : module) : list N := map (fun e => operand (e_ops e) 1) (m_entries m) ++ filter (fun x => match get_function m x with Some _ => true | None => false end) (m_exports m).
(** eliminate_dead_functions_pass.cpp:25-49 (Process): the functions that are left *)
Definition live_functions (m : module) : outcome (list func) :=
  match process m (roots m) with Done live => Done (filter (fun f => mem (f_id f) live) (m_funcs m)) | Crash => Crash | OutOfFuel => OutOfFuel end.

(** remove_unused_interface_variables_pass.cpp:36-46; storage classes: Input 1, Output 3, Function 7 *)
Definition in_interface (m : module) (x : N) : bool := match m_var m x with Some c => negb (c =? 7) && (m_v14 m || (c =? 1) || (c =? 3)) | None => false end.
(** remove_unused_interface_variables_pass.cpp:31-52 (processFunction) *)
Definition use (m : module) (used : list N) (x : N) : list N := if mem x used then used else if in_interface m x then used ++ [x] else used.
Definition process_function (m : module) (used : list N) (x : N) : list N := match get_function m x with Some f => fold_left (use m) (flat_map ids (f_insts f)) used | None => used end.
(** remove_unused_interface_variables_pass.cpp:59-65 (CollectUsedVariables) *)
Definition used_variables (m : module) (e : entry) : outcome (list N) :=
  match process m [operand (e_ops e) (if e_cond e then 2 else 1)%nat] with Done l => Done (fold_left (process_function m) (rev l) []) | Crash => Crash | OutOfFuel => OutOfFuel end.
(** remove_unused_interface_variables_pass.cpp:67-78 (ShouldModify): [l] is the operands from the last one on *)
Fixpoint should_modify (used l old : list N) : bool :=
  match l with
  | [] => negb (Nat.eqb (length old) (length used))
  | x :: l' => if negb (mem x used) then true else if mem x old then true else should_modify used l' (x :: old)
  end.
(** remove_unused_interface_variables_pass.cpp:80-88 (Modify), 91-103 (Process) *)
Definition new_operands (m : module) (e : entry) : outcome (list N) :=
  match used_variables m e with
  | Done used => Done (if should_modify used (rev (skipn 3 (e_ops e))) [] then firstn (if e_cond e then 4 else 3) (e_ops e) ++ used else e_ops e)
  | Crash => Crash
  | OutOfFuel => OutOfFuel
  end.
