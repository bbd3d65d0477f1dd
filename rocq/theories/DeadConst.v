(** Removing unused constants: model of source/opt/eliminate_dead_constant_pass.cpp.  The instructions of a module are a list; the order of sections plays no part.
    Not modelled: decoration groups, and the DebugGlobalVariable operands that KillInst clears (a constant used there has a use and is not removed). *)
From Verif Require Import Base NamedIds.
Local Open Scope N_scope.

(** The kinds of instructions the pass tells apart: constants (opcode.cpp:133-164, spvOpcodeIsConstant), of these the three opcodes whose operands are followed
    (eliminate_dead_constant_pass.cpp:61-63), annotations (reflect.h:42-49), names (reflect.h:33-35), other debug instructions (reflect.h:28-32, 36-38), the rest.
    [OtherConstant]: the constants with other opcodes, such as OpConstant, OpConstantNull or OpConstantCompositeReplicateEXT. *)
Inductive kind := Composite | SpecComposite | SpecOp | OtherConstant | Annotation | Name | Debug | Other.
(** [res]: the result id, or 0; [ids]: the ids among the operands, in order (without the result type, which is no constant) *)
Record inst := mkinst { knd : kind; res : N; ids : list N }.
Definition is_constant (k : kind) : bool := match k with Composite | SpecComposite | SpecOp | OtherConstant => true | _ => false end.
(** eliminate_dead_constant_pass.cpp:61-63 *)
Definition followed (k : kind) : bool := match k with Composite | SpecComposite | SpecOp => true | _ => false end.
(** eliminate_dead_constant_pass.cpp:42-46: the users that count *)
Definition counts (k : kind) : bool := match k with Annotation | Name | Debug => false | _ => true end.

Definition occ (x : N) (l : list N) : nat := length (filter (N.eqb x) l).
(** eliminate_dead_constant_pass.cpp:36-48 *)
Definition count_uses (m : list inst) (x : N) : nat := fold_right (fun i n => ((if counts (knd i) then occ x (ids i) else 0) + n)%nat) O m.
(** Module::GetConstants, module.cpp:58-64; [use_counts.count(def_inst)]: is the id a constant? *)
Definition constants (m : list inst) : list N := map res (filter (fun i => is_constant (knd i)) m).
Definition is_const (m : list inst) (x : N) : bool := mem x (constants m).

(** One operand of a dead constant, eliminate_dead_constant_pass.cpp:65-84, the assertion at line 80 included: [None] where it does not hold.  The set of pointers is a list of ids. *)
Definition operand (m : list inst) (st : option ((N -> nat) * list N)) (y : N) : option ((N -> nat) * list N) :=
  match st with
  | None => None
  | Some (cnt, work) =>
      if negb (is_const m y) then Some (cnt, work)
      else match cnt y with
      | O => None
      | S n => let cnt' := fun z => if z =? y then n else cnt z in Some (cnt', if Nat.eqb n 0 then (if mem y work then work else work ++ [y]) else work)
      end
  end.
Definition definition (m : list inst) (x : N) : option inst := find (fun i => res i =? x) m.
(** eliminate_dead_constant_pass.cpp:56-92.  [pick]: which element the set gives first.  [None]: a failed assertion, or out of fuel. *)
Fixpoint search (pick : list N -> N) (m : list inst) (fuel : nat) (cnt : N -> nat) (work dead : list N) : option (list N) :=
  match work with
  | [] => Some dead
  | _ =>
      match fuel with
      | O => None
      | S n =>
          let x := pick work in
          let todo := match definition m x with Some i => if followed (knd i) then ids i else [] | None => [] end in
          match fold_left (operand m) todo (Some (cnt, work)) with
          | None => None
          | Some (cnt', work') => search pick m n cnt' (filter (fun y => negb (y =? x)) work') (x :: dead)
          end
      end
  end.
(** IRContext::KillDef and KillInst (ir_context.cpp:192-205, 299-306, 532-549): the definition goes, with the names and decorations of the id; the target of a decoration is its first operand
    (decoration_manager.cpp:359-368). *)
Definition goes (x : N) (i : inst) : bool := (res i =? x) || match knd i with Annotation | Name => match ids i with t :: _ => t =? x | [] => false end | _ => false end.
Definition kill (m : list inst) (x : N) : list inst := filter (fun i => negb (goes x i)) m.
(** eliminate_dead_constant_pass.cpp:29-100 (Process) *)
Definition dead_constants (pick : list N -> N) (m : list inst) : option (list N) :=
  search pick m (length (constants m)) (count_uses m) (filter (fun x => Nat.eqb (count_uses m x) 0) (constants m)) [].
Definition eliminate (pick : list N -> N) (m : list inst) : option (list inst) :=
  match dead_constants pick m with Some dead => Some (fold_left kill dead m) | None => None end.
