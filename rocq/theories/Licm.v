(** Moving loop-invariant instructions out of loops: model of source/opt/licm_pass.cpp and of the parts of source/opt/loop_descriptor.cpp it uses.  Functions are
    those of Redundancy.v.  An [IPure] stands for an instruction whose value depends on the values of its operands only, a load from read-only memory included.
    Not modelled: how the loops are found (loop_descriptor.cpp:517-594), SplitLoopHeader (cfg.cpp:192-322), which makes a preheader for a loop that has none, and
    several functions per module. *)
From Verif Require Import Base NamedIds Redundancy.
Local Open Scope N_scope.

(** A loop: its header, the preheader if there is one (loop_descriptor.cpp:221-258), the blocks inside and the loops nested in it. *)
Inductive loop := Loop (header : N) (pre : option N) (inside : list N) (nested : list loop).
Definition l_inside (x : loop) : list N := match x with Loop _ _ ins _ => ins end.

(** loop_descriptor.cpp:260-264: is the definition of [x] in one of the blocks?  (get_instr_block after the moves made so far) *)
Definition sets (b : block) (x : N) : bool :=
  existsb (fun p => p_res p =? x) (phis b) || existsb (fun i => match result i with Some r => r =? x | None => false end) (body b).
Definition is_inside (f : func) (ins : list N) (x : N) : bool := existsb (fun b => mem (label b) ins && sets b x) (blocks f).

(** instructions of one block replaced *)
Definition with_body (l : N) (g : list inst -> list inst) (b : block) : block :=
  if label b =? l then mkblock (label b) (phis b) (g (body b)) (t_op b) (t_args b) (t_succ b) else b.
Definition edit (l : N) (g : list inst -> list inst) (f : func) : func := mkfunc (prelude f) (map (with_body l g) (blocks f)).

Section Pass.
(** The operations that may be moved: IsOpcodeCodeMotionSafe (instruction.cpp:883-984) and, for a load, IsReadOnlyLoad (226-252). *)
Variable safe : N -> bool.
Variable d : dtree.                 (* the dominator tree of the function, which the pass does not change *)

(** loop_descriptor.cpp:457-471 (ShouldHoistInstruction); OpCopyObject is among the opcodes *)
Definition should_hoist (f : func) (ins : list N) (i : inst) : bool :=
  match i with
  | IPure _ op args => safe op && forallb (fun a => negb (is_inside f ins a)) args
  | ICopy _ a => negb (is_inside f ins a)
  | IOwn _ _ _ => false
  end.
(** licm_pass.cpp:85-100 with 120-135 (HoistInstruction): the instructions of block [l], of which [kept] have been left in place; a moved instruction goes to the end
    of the preheader (before its merge instruction, which is part of the terminator here).  [None]: there is no preheader. *)
Fixpoint hoist_body (ins : list N) (pre : option N) (l : N) (kept rest : list inst) (f : func) : option func :=
  match rest with
  | [] => Some f
  | i :: rest' =>
      if should_hoist f ins i then
        match pre with
        | None => None
        | Some p => hoist_body ins pre l kept rest' (edit p (fun is => is ++ [i]) (edit l (fun _ => kept ++ rest') f))
        end
      else hoist_body ins pre l (kept ++ [i]) rest' f
  end.
(** licm_pass.cpp:114-118 (IsImmediatelyContainedInLoop): in no nested loop *)
Definition immediate (x : loop) (l : N) : bool :=
  match x with Loop _ _ ins nested => mem l ins && negb (existsb (fun y => mem l (l_inside y)) nested) end.
Definition node_label (t : dtree) : N := match t with DNode l _ => l end.
(** licm_pass.cpp:66-78 and 81-112: the header, then the blocks of the list, to which the children in the dominator tree are added; [None]: out of fuel, no such block,
    or no preheader *)
Fixpoint hoist_blocks (fuel : nat) (x : loop) (todo : list dtree) (f : func) : option func :=
  match todo with
  | [] => Some f
  | DNode l kids :: todo' =>
      match fuel with
      | O => None
      | S n =>
          match (if immediate x l then
                   match find (fun b => label b =? l) (blocks f) with
                   | None => None
                   | Some b => match x with Loop _ pre ins _ => hoist_body ins pre l [] (body b) f end
                   end
                 else Some f) with
          | None => None
          | Some f' => hoist_blocks n x (todo' ++ filter (fun k => mem (node_label k) (l_inside x)) kids) f'
          end
      end
  end.
(** DominatorTree::GetTreeNode *)
Fixpoint subtree (l : N) (t : dtree) : option dtree :=
  match t with
  | DNode l' kids =>
      if l' =? l then Some t
      else (fix go (ks : list dtree) := match ks with [] => None | k :: ks' => match subtree l k with Some r => Some r | None => go ks' end end) kids
  end.
(** licm_pass.cpp:56-79 (ProcessLoop): the nested loops first *)
Fixpoint process_loop (x : loop) (f : func) : option func :=
  match x with
  | Loop h _ _ nested =>
      match (fix go (l : list loop) (f : func) : option func :=
               match l with [] => Some f | y :: l' => match process_loop y f with Some f' => go l' f' | None => None end end) nested f with
      | None => None
      | Some f' => match subtree h d with None => None | Some t => hoist_blocks (size t) x [t] f' end
      end
  end.
(** licm_pass.cpp:39-54 (ProcessFunction): the loops that are in no other *)
Fixpoint licm (l : list loop) (f : func) : option func :=
  match l with [] => Some f | x :: l' => match process_loop x f with Some f' => licm l' f' | None => None end end.
End Pass.
