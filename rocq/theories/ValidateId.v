(** Model of the validator's rules on ids: source/val/validate_id.cpp (IdPass, UpdateIdUse,
    CheckIdDefinitionDominateUse), the parts of source/val/validate_cfg.cpp that feed them
    (CfgPass, ReachabilityPass, ValidatePhi, the dominator part of PerformCfgChecks) and
    source/val/basic_block.cpp (dominates).

    Not modelled: the checks of IdPass on what kind of thing an operand is (a type, a value,
    non-semantic), types declared with forward pointers, OpExtInstWithForwardRefsKHR and debug
    information, graphs, and every other check of the validator.  The modelled checks are run
    here without the others in between, in the order of validate.cpp. *)
From Verif Require Import Base NamedIds Cfa.
Local Open Scope N_scope.

(** The opcodes these checks tell apart.  [OpExit] stands for the terminators without targets
    (validate_cfg.cpp:1194-1213), [OpAnnotation] for the instructions of operand.cpp:521-538 that
    are no branch and no merge (OpName, OpDecorate, OpEntryPoint, ...), [OpOther] for every
    opcode that reaches the default of operand.cpp:600 and for the type declarations, whose
    operands need a previous definition unless a forward pointer declares them
    (validate_id.cpp:242-246).  The other cases of that switch (OpGroupDecorate, OpEnqueueKernel,
    OpConstantFunctionPointerINTEL, ...) are left out. *)
Inductive opcode :=
| OpAnnotation | OpOther | OpFunction | OpFunctionParameter | OpLabel | OpPhi | OpFunctionCall
| OpSelectionMerge | OpLoopMerge | OpBranch | OpBranchConditional | OpSwitch | OpExit.

(** A logical operand: the result id, a type id, another id, or a word that is no id. *)
Inductive operand := ResultId (x : N) | TypeId (x : N) | Id (x : N) | Literal.

Record inst := Inst { op : opcode; operands : list operand }.

(** operand.cpp:512-605 spvOperandCanBeForwardDeclaredFunction *)
Definition can_be_forward (o : opcode) (index : nat) : bool :=
  match o with
  | OpAnnotation | OpSelectionMerge | OpLoopMerge | OpBranch => true
  | OpBranchConditional | OpSwitch => negb (Nat.eqb index 0)
  | OpFunctionCall => Nat.eqb index 2
  | OpPhi => Nat.ltb 1 index
  | _ => false
  end.

(** A block: its label and the instructions up to and including the terminator.  A function: its
    id, result type, function type, parameters (type, id) and blocks.  The module layout checks,
    which establish this shape, run in the same loop and are not modelled here. *)
Record block := Block { label : N; body : list inst }.
Record func := Func { f_id : N; f_result : N; f_type : N; params : list (N * N); blocks : list block }.
Record module := SpvModule { globals : list inst; funcs : list func }.

(** An instruction with its function() and block().  validate.cpp:304-311: set from the state
    before the instruction itself is processed, so that OpFunction has no function and OpLabel
    no block. *)
Record item := Item { it_inst : inst; it_func : option N; it_block : option N }.

Definition function_inst (f : func) : inst :=
  Inst OpFunction [TypeId (f_result f); ResultId (f_id f); Literal; Id (f_type f)].
Definition param_inst (p : N * N) : inst := Inst OpFunctionParameter [TypeId (fst p); ResultId (snd p)].
Definition label_inst (l : N) : inst := Inst OpLabel [ResultId l].

Definition block_items (f : N) (b : block) : list item :=
  Item (label_inst (label b)) (Some f) None ::
  map (fun i => Item i (Some f) (Some (label b))) (body b).
Definition func_items (f : func) : list item :=
  Item (function_inst f) None None ::
  map (fun p => Item (param_inst p) (Some (f_id f)) None) (params f) ++
  flat_map (block_items (f_id f)) (blocks f).
(** The instructions of the module in the order of the binary (ordered_instructions()). *)
Definition items (m : module) : list item :=
  map (fun i => Item i None None) (globals m) ++ flat_map func_items (funcs m).

(** Instruction::id(): the result id, if there is one. *)
Fixpoint result_of (ops : list operand) : option N :=
  match ops with
  | [] => None
  | ResultId x :: _ => Some x
  | _ :: rest => result_of rest
  end.
Definition result_id (i : inst) : option N := result_of (operands i).

(** validate_id.cpp:193-290: the loop of IdPass over the operands from number [index] on.
    [defs] are the ids defined so far, [fwd] the unresolved forward declared ids; [None] is an
    error. *)
Fixpoint check_operands (defs : list N) (o : opcode) (index : nat) (ops : list operand)
    (fwd : list N) : option (list N) :=
  match ops with
  | [] => Some fwd
  | Id x :: rest =>
      if mem x defs then check_operands defs o (S index) rest fwd
      else if can_be_forward o index then check_operands defs o (S index) rest (x :: fwd)
      else None
  | TypeId x :: rest => if mem x defs then check_operands defs o (S index) rest fwd else None
  | _ :: rest => check_operands defs o (S index) rest fwd
  end.

(** validate_id.cpp:180-303 IdPass followed by RegisterInstruction (validation_state.cpp:618-619):
    the new ids and the new unresolved ids. *)
Definition id_pass (defs fwd : list N) (i : inst) : option (list N * list N) :=
  match check_operands defs (op i) 0 (operands i) fwd with
  | None => None
  | Some fwd =>
      match result_id i with
      | None => Some (defs, fwd)
      | Some r => Some (r :: defs, filter (fun x => negb (x =? r)) fwd)
      end
  end.

(** validate.cpp:230-330, the loop over the instructions, and 355 ValidateForwardDecls. *)
Fixpoint id_passes (defs fwd : list N) (l : list item) : bool :=
  match l with
  | [] => match fwd with [] => true | _ => false end
  | it :: rest =>
      match id_pass defs fwd (it_inst it) with
      | None => false
      | Some (defs, fwd) => id_passes defs fwd rest
      end
  end.

(** ValidationState_t::FindDef (validation_state.cpp:310-314) once all instructions are registered. *)
Definition find_def (m : module) (x : N) : option item :=
  find (fun it => match result_id (it_inst it) with Some r => r =? x | None => false end) (items m).

(** *** The control-flow graph *)

(** The id of an operand (GetOperandAs). *)
Definition operand_id (ops : list operand) (index : nat) : list N :=
  match nth_error ops index with
  | Some (Id x) => [x]
  | _ => []
  end.
(** The operands 1, 3, 5, ... (validate_cfg.cpp:1187-1191). *)
Fixpoint odd_ids (ops : list operand) : list N :=
  match ops with
  | _ :: Id x :: rest => x :: odd_ids rest
  | _ :: _ :: rest => odd_ids rest
  | _ => []
  end.
(** validate_cfg.cpp:1170-1213: the targets a terminator registers. *)
Definition targets (i : inst) : list N :=
  match op i with
  | OpBranch => operand_id (operands i) 0
  | OpBranchConditional => operand_id (operands i) 1 ++ operand_id (operands i) 2
  | OpSwitch => odd_ids (operands i)
  | _ => []
  end.
(** validate_cfg.cpp:1154-1169 with function.cpp:67-110: the structural successors a merge
    instruction registers. *)
Definition merge_targets (i : inst) : list N :=
  match op i with
  | OpSelectionMerge => operand_id (operands i) 0
  | OpLoopMerge => operand_id (operands i) 0 ++ operand_id (operands i) 1
  | _ => []
  end.
(** successors() and structural_successors() of a block (basic_block.cpp:68-79). *)
Definition block_succ (b : block) : list N := flat_map targets (body b).
Definition block_struct_succ (b : block) : list N := flat_map merge_targets (body b) ++ block_succ b.

Definition labels (f : func) : list N := map label (blocks f).
Definition find_block (f : func) (l : N) : option block := find (fun b => label b =? l) (blocks f).
Definition succ (f : func) (l : N) : list N :=
  match find_block f l with Some b => block_succ b | None => [] end.
Definition struct_succ (f : func) (l : N) : list N :=
  match find_block f l with Some b => block_struct_succ b | None => [] end.
(** predecessors(): one entry per edge, in the order of registration. *)
Definition preds_by (s : N -> list N) (f : func) (l : N) : list N :=
  flat_map (fun a => map (fun _ => a) (filter (N.eqb l) (s a))) (labels f).
Definition pred (f : func) : N -> list N := preds_by (succ f) f.
Definition struct_pred (f : func) : N -> list N := preds_by (struct_succ f) f.

(** validate_cfg.cpp:401-409 FirstBlockAssert for every branch of the function. *)
Definition first_block_ok (f : func) : bool :=
  match blocks f with
  | [] => true
  | b0 :: _ => forallb (fun b => negb (mem (label b0) (block_succ b))) (blocks f)
  end.
(** validate_cfg.cpp:1013-1028: no block is referenced without being defined. *)
Definition targets_defined (f : func) : bool :=
  forallb (fun b => forallb (fun t => mem t (labels f)) (block_struct_succ b)) (blocks f).

(** validate_cfg.cpp:1243-1261 ReachabilityPass for one function; one unit of fuel per block
    popped off the stack. *)
Fixpoint reach_loop (s : N -> list N) (fuel : nat) (stack marked : list N) : option (list N) :=
  match fuel with
  | O => None
  | S fuel =>
      match stack with
      | [] => Some marked
      | b :: rest => if mem b marked then reach_loop s fuel rest marked
                     else reach_loop s fuel (rev (s b) ++ rest) (b :: marked)
      end
  end.
Definition reach_fuel (f : func) : nat := (2 + list_sum (map (fun b => length (block_succ b)) (blocks f)))%nat.
Definition reachable_blocks (f : func) : option (list N) :=
  match blocks f with
  | [] => Some []
  | b0 :: _ => reach_loop (succ f) (reach_fuel f) [label b0] []
  end.

(** function.cpp:45-46 and 32: the ids of the pseudo entry and the pseudo exit block. *)
Definition pseudo_entry : N := 0.
Definition pseudo_exit : N := 0x400000.

(** function.cpp:284-301 ComputeAugmentedCFG (over the structural graph) with the functions that
    read the maps, 248-262 AugmentedCFGSuccessorsFunction and AugmentedCFGPredecessorsFunction: a
    block that has an entry in a map has there its STRUCTURAL neighbours, any other block its
    successors or predecessors in the control-flow graph. *)
Definition cfg_augmented (f : func) : option augmented :=
  let fuel := (dfs_fuel (struct_succ f) (labels f) + dfs_fuel (struct_pred f) (labels f))%nat in
  match traversal_roots (struct_succ f) (struct_pred f) fuel (labels f),
        traversal_roots (struct_pred f) (struct_succ f) fuel (rev (labels f)) with
  | Some sources, Some sinks =>
      Some {| aug_succ := fun b => if mem b sinks then pseudo_exit :: struct_succ f b
                                   else if N.eqb b pseudo_entry then sources
                                   else succ f b;
              aug_pred := fun b => if N.eqb b pseudo_exit then sinks
                                   else if mem b sources then pseudo_entry :: struct_pred f b
                                   else pred f b |}
  | _, _ => None
  end.

(** validate_cfg.cpp:1036-1048: the pairs (block, immediate dominator); the pairs of a block with
    itself set nothing. *)
Definition function_idoms (f : func) : option (list (N * N)) :=
  match blocks f with
  | [] => Some []
  | b0 :: _ =>
      match cfg_augmented f with
      | None => None
      | Some g =>
          match depth_first_traversal (aug_succ g) (fun _ => false) false
                  (dfs_fuel (aug_succ g) (pseudo_exit :: labels f)) (label b0) with
          | None => None
          | Some tr => calculate_dominators (post_blocks tr) (aug_pred g) (dom_fuel (post_blocks tr))
          end
      end
  end.
(** BasicBlock::immediate_dominator(): the parent set last; [None] is the null pointer. *)
Definition idom (edges : list (N * N)) (b : N) : option N :=
  match find (fun e => fst e =? b) edges with
  | Some (_, p) => if p =? b then None else Some p
  | None => None
  end.
(** basic_block.cpp:81-85 dominates with the iterator of 99-115, as a search through the
    immediate dominators; one unit of fuel per step, [None] is out of fuel. *)
Fixpoint climbs_to (edges : list (N * N)) (fuel : nat) (b a : N) : option bool :=
  match fuel with
  | O => None
  | S fuel => if b =? a then Some true
              else match idom edges b with
                   | None => Some false
                   | Some p => climbs_to edges fuel p a
                   end
  end.
Definition block_dominates (edges : list (N * N)) (a b : N) : option bool :=
  if a =? b then Some true else climbs_to edges (S (length edges)) b a.

(** validate_cfg.cpp:1050-1065: every block but the first comes after its immediate dominator. *)
Fixpoint order_ok (edges : list (N * N)) (earlier rest : list N) : bool :=
  match rest with
  | [] => true
  | b :: rest =>
      match idom edges b with
      | None => true
      | Some p => (p =? pseudo_entry) || mem p earlier
      end && order_ok edges (earlier ++ [b]) rest
  end.

(** *** The checks after the first loop *)

(** [Undef] is undefined behaviour (a null pointer followed) or lack of fuel. *)
Inductive outcome := Ok | Bad | Undef.
Definition of_bool (b : bool) : outcome := if b then Ok else Bad.
Definition then_ (a b : outcome) : outcome := match a with Ok => b | _ => a end.
Fixpoint all_ok {A} (f : A -> outcome) (l : list A) : outcome :=
  match l with
  | [] => Ok
  | x :: rest => then_ (f x) (all_ok f rest)
  end.

Definition find_func (m : module) (x : N) : option func := find (fun f => f_id f =? x) (funcs m).

(** The pairs (value, parent) of an OpPhi: the operands after the type and the result. *)
Fixpoint pair_up (l : list operand) : option (list (N * N)) :=
  match l with
  | [] => Some []
  | Id v :: Id p :: rest => option_map (cons (v, p)) (pair_up rest)
  | _ => None
  end.
Definition phi_pairs (i : inst) : option (list (N * N)) := pair_up (skipn 2 (operands i)).

(** The predecessors without repetition (validate_cfg.cpp:78-86; the order plays no role). *)
Definition unique_preds (f : func) (b : N) : list N := nodup N.eq_dec (pred f b).

(** validate_cfg.cpp:96-133: the parents of an OpPhi.  Simplification: the checks on types are
    left out. *)
Fixpoint parents_ok (m : module) (preds : list N) (parents observed : list N) : bool :=
  match parents with
  | [] => true
  | p :: rest =>
      match find_def m p with
      | Some it => match op (it_inst it) with OpLabel => true | _ => false end
      | None => false
      end && mem p preds && negb (mem p observed) && parents_ok m preds rest (p :: observed)
  end.
(** validate_cfg.cpp:41-136 ValidatePhi *)
Definition validate_phi (m : module) (it : item) : outcome :=
  match op (it_inst it) with
  | OpPhi =>
      match it_func it, it_block it with
      | Some fid, Some b =>
          match find_func m fid with
          | None => Undef
          | Some f =>
              match phi_pairs (it_inst it) with
              | None => Bad
              | Some pairs =>
                  of_bool (Nat.eqb (length pairs) (length (unique_preds f b)) &&
                           parents_ok m (unique_preds f b) (map snd pairs) [])
              end
          end
      | _, _ => Undef
      end
  | _ => Ok
  end.

(** What the passes before have left on the blocks of a function: reachable() and
    immediate_dominator(). *)
Record facts := Facts { reach : list N; idoms : list (N * N) }.
Definition function_facts (f : func) : option facts :=
  match reachable_blocks f, function_idoms f with
  | Some r, Some e => Some (Facts r e)
  | _, _ => None
  end.
Definition facts_of (m : module) (fid : N) : option facts :=
  match find_func m fid with Some f => function_facts f | None => None end.

(** The ids an instruction uses (validate_id.cpp:29-40 UpdateIdUse): all id operands but the
    result. *)
Definition used_ids (i : inst) : list N :=
  flat_map (fun o => match o with TypeId x | Id x => [x] | _ => [] end) (operands i).
(** Instruction::uses(), one entry per instruction that uses the id (the code has one per
    operand). *)
Definition users (m : module) (x : N) : list item := filter (fun u => mem x (used_ids (it_inst u))) (items m).

Definition is_phi (i : inst) : bool := match op i with OpPhi => true | _ => false end.

Definition outcome_of (o : option bool) : outcome :=
  match o with Some b => of_bool b | None => Undef end.

(** validate_id.cpp:55-91: one definition and one of its uses. *)
Definition check_use (m : module) (d u : item) : outcome :=
  match it_func d with
  | None => Ok
  | Some fd =>
      match it_block d with
      | Some bd =>
          match it_block u, it_func u with
          | Some bu, Some fu =>
              match facts_of m fu with
              | None => Undef
              | Some k =>
                  if negb (mem bu (reach k)) then Ok
                  else if is_phi (it_inst u) then Ok
                  else outcome_of (block_dominates (idoms k) bd bu)
              end
          | _, _ => Ok
          end
      | None => match it_func u with
                | Some fu => of_bool (fu =? fd)
                | None => Ok
                end
      end
  end.
Definition check_def (m : module) (d : item) : outcome :=
  match result_id (it_inst d) with
  | None => Ok
  | Some x => all_ok (check_use m d) (users m x)
  end.

(** validate_id.cpp:62-66: whether an OpPhi is put on the list for the second loop: it is in a
    reachable block and uses an id defined in a block.  The order of the list, which only
    decides which of several errors is reported, is not modelled. *)
Definition phi_listed (m : module) (u : item) : bool :=
  is_phi (it_inst u) &&
  match it_func u, it_block u with
  | Some fu, Some bu =>
      match facts_of m fu with Some k => mem bu (reach k) | None => false end
  | _, _ => false
  end &&
  existsb (fun x => match find_def m x with
                    | Some d => match it_func d, it_block d with Some _, Some _ => true | _, _ => false end
                    | None => false
                    end) (used_ids (it_inst u)).

(** validate_id.cpp:100-112: one pair of an OpPhi. *)
Definition check_pair (m : module) (f : func) (k : facts) (vp : N * N) : outcome :=
  match find_def m (fst vp) with
  | None => Undef
  | Some d =>
      match it_block d with
      | None => Ok
      | Some bd =>
          if mem (snd vp) (labels f) then
            if mem (snd vp) (reach k) then outcome_of (block_dominates (idoms k) bd (snd vp)) else Ok
          else Undef
      end
  end.
Definition check_phi (m : module) (u : item) : outcome :=
  if phi_listed m u then
    match it_func u with
    | None => Undef
    | Some fu =>
        match find_func m fu, facts_of m fu, phi_pairs (it_inst u) with
        | Some f, Some k, Some pairs => all_ok (check_pair m f k) pairs
        | _, _, _ => Undef
        end
    end
  else Ok.

(** validate_cfg.cpp:1010-1065, the modelled part of PerformCfgChecks, for one function. *)
Definition check_cfg (f : func) : outcome :=
  then_ (of_bool (targets_defined f))
    (match function_idoms f with
     | None => Undef
     | Some edges => of_bool (order_ok edges (firstn 1 (labels f)) (skipn 1 (labels f)))
     end).

(** validate.cpp:230-428: the modelled checks in their order. *)
Definition validate_ids (m : module) : outcome :=
  then_ (of_bool (forallb first_block_ok (funcs m) && id_passes [] [] (items m)))
  (then_ (all_ok (fun f => match reachable_blocks f with Some _ => Ok | None => Undef end) (funcs m))
  (then_ (all_ok (validate_phi m) (items m))
  (then_ (all_ok check_cfg (funcs m))
  (then_ (all_ok (check_def m) (items m))
         (all_ok (check_phi m) (items m)))))).
