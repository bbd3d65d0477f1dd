(** Elimination of loads and stores inside a block: model of source/opt/local_single_block_elim_pass.cpp and of the parts of source/opt/mem_pass.cpp
    and source/opt/instruction.cpp it uses. *)
From Verif Require Import Base.
Local Open Scope N_scope.

(** ** Functions *)
(** source/opt/instruction.h:182-649: an instruction, reduced to what this pass looks at.  Simplification: OpAccessChain, OpInBoundsAccessChain and
    OpUntypedAccessChainKHR are [IChain] (mem_pass.cpp:73-77); [vol] stands for the Volatile bit of the memory operands, which the pass never reads;
    pointers formed in other ways (OpPtrAccessChain, OpImageTexelPointer, ...) are [IOther].  A debug instruction is left out. *)
Inductive inst :=
| ILoad (res ptr : N) (vol : bool)
| IStore (ptr val : N) (vol : bool)
| IChain (res base : N) (idx : list N)
| ICopy (res src : N)
| ICall (res fn : N) (args : list N)
| IOther (res : option N) (op : N) (args : list N).
(** source/opt/instruction.h:182-649: OpPhi, with its pairs of a value and the block it comes from *)
Record phi := mkphi { p_res : N; p_args : list (N * N) }.
(** source/opt/basic_block.h:40-241: a block: label, phis, the instructions between the phis and the terminator, the terminator (opcode, ids it
    reads, targets) *)
Record block := mkblock { label : N; phis : list phi; body : list inst; t_op : N; t_args : list N; t_succ : list N }.
(** source/opt/mem_pass.cpp:278-304 (IsTargetVar) and 55-71 (IsTargetType), source/opt/debug_info_manager.h:139 (IsVariableDebugDeclared): a variable
    in scope; [v_target]: it is an OpVariable of storage class Function and of a type the pass handles; [v_debug]: it has a debug declaration *)
Record var := mkvar { v_id : N; v_target : bool; v_debug : bool }.
(** source/opt/function.h:39-228: the variables in scope, module variables included, and the blocks, the entry block first *)
Record func := mkfunc { vars : list var; blocks : list block }.

(** source/opt/instruction.h:247-249 (result_id) *)
Definition result (i : inst) : option N :=
  match i with
  | ILoad r _ _ | IChain r _ _ | ICopy r _ | ICall r _ _ => Some r
  | IStore _ _ _ => None
  | IOther r _ _ => r
  end.
(** source/opt/instruction.h:829-834 (ForEachInId): the ids an instruction reads *)
Definition reads (i : inst) : list N :=
  match i with
  | ILoad _ p _ => [p]
  | IStore p v _ => [p; v]
  | IChain _ b l => b :: l
  | ICopy _ s => [s]
  | ICall _ _ l | IOther _ _ l => l
  end.
(** source/opt/ir_context.cpp:338-399 (ReplaceAllUsesWith): the ids an instruction reads are renamed, its result is not *)
Definition rename (s : N -> N) (i : inst) : inst :=
  match i with
  | ILoad r p v => ILoad r (s p) v
  | IStore p x v => IStore (s p) (s x) v
  | IChain r b l => IChain r (s b) (map s l)
  | ICopy r x => ICopy r (s x)
  | ICall r f l => ICall r f (map s l)
  | IOther r o l => IOther r o (map s l)
  end.
Definition find_var (f : func) (id : N) : option var := find (fun v => v_id v =? id) (vars f).
Definition all_insts (f : func) : list inst := flat_map body (blocks f).
(** source/opt/def_use_manager.cpp:85-89 (GetDef), for instructions of the bodies *)
Definition find_def (f : func) (id : N) : option inst :=
  find (fun i => match result i with Some r => r =? id | None => false end) (all_insts f).

(** ** Pointers *)
Inductive base := BVar (v : N) | BOther.
(** source/opt/instruction.cpp:254-277 (GetBaseAddress): along access chains and copies to what they start from, [None] when the definitions go round
    in a circle ([fuel] is more than the number of instructions).  [s] is the renaming done so far: definitions are read as they are by now. *)
Fixpoint get_base (fuel : nat) (f : func) (s : N -> N) (id : N) : option base :=
  match fuel with
  | O => None
  | S n =>
      match find_var f id with
      | Some _ => Some (BVar id)
      | None =>
          match find_def f id with
          | Some (IChain _ b _) => get_base n f s (s b)
          | Some (ICopy _ x) => get_base n f s (s x)
          | _ => Some BOther
          end
      end
  end.
(** source/opt/mem_pass.cpp:135-138: past the copies, is it the variable itself? *)
Fixpoint is_whole (fuel : nat) (f : func) (s : N -> N) (id : N) : option bool :=
  match fuel with
  | O => None
  | S n =>
      match find_var f id with
      | Some _ => Some true
      | None => match find_def f id with Some (ICopy _ x) => is_whole n f s (s x) | _ => Some false end
      end
  end.
Definition fuel_of (f : func) : nat := S (length (all_insts f)).
(** source/opt/mem_pass.cpp:102-141 (GetPtr): the variable a pointer is to, and whether it is to all of it *)
Definition get_ptr (f : func) (s : N -> N) (id : N) : option (base * bool) :=
  match get_base (fuel_of f) f s id with
  | None => None
  | Some b => match is_whole (fuel_of f) f s id with Some w => Some (b, w) | None => None end
  end.
(** source/opt/mem_pass.cpp:278-304 (IsTargetVar) *)
Definition is_target (f : func) (v : N) : bool := match find_var f v with Some x => v_target x | None => false end.
(** source/opt/debug_info_manager.cpp:464-467 (IsVariableDebugDeclared) *)
Definition is_debug (f : func) (v : N) : bool := match find_var f v with Some x => v_debug x | None => false end.

Definition mem_id (id : N) (l : list N) : bool := existsb (N.eqb id) l.
(** source/opt/local_single_block_elim_pass.cpp:39-48: what is asked of one user; [rec] is the question for a derived pointer *)
Definition user_ok (rec : N -> option bool) (i : inst) : option bool :=
  match i with
  | IChain r _ _ | ICopy r _ => rec r
  | ILoad _ _ _ | IStore _ _ _ => Some true
  | _ => Some false
  end.
(** source/opt/def_use_manager.cpp:114-131 (WhileEachUser): stops at the first user that fails *)
Fixpoint while_each (q : inst -> option bool) (l : list inst) : option bool :=
  match l with
  | [] => Some true
  | i :: l' => match q i with Some true => while_each q l' | r => r end
  end.
(** source/opt/local_single_block_elim_pass.cpp:31-54 (HasOnlySupportedRefs).  Phis and terminators are users the pass does not support.
    Simplification: the question is asked of the function as it is given.  (The code remembers earlier answers and sees the renamed uses; renaming
    adds a use of a pointer only where that pointer had been stored.)  OpName and decorations, which the code accepts, are not in the model. *)
Fixpoint only_supported (fuel : nat) (f : func) (p : N) : option bool :=
  match fuel with
  | O => None
  | S n =>
      if existsb (fun b => existsb (fun x => mem_id p (map fst (p_args x))) (phis b) || mem_id p (t_args b)) (blocks f) then Some false
      else while_each (user_ok (only_supported n f)) (filter (fun i => mem_id p (reads i)) (all_insts f))
  end.
Definition has_only_supported_refs (f : func) (p : N) : option bool := only_supported (fuel_of f) f p.

(** ** The walk over a function *)
(** an instruction, by the number of its block and its number in the block *)
Definition pos := (nat * nat)%type.
Definition pos_eqb (a b : pos) : bool := Nat.eqb (fst a) (fst b) && Nat.eqb (snd a) (snd b).
(** source/opt/local_single_block_elim_pass.cpp:61-65 and local_single_block_elim_pass.h:75-87: the last store to a variable in this block (the
    instruction and the id it stores, as it is by now), the last load from it, the renaming done so far, the instructions to kill and to keep *)
Record state := mkstate { st_store : N -> option (pos * N); st_load : N -> option N; st_ren : N -> N; st_kill : list pos; st_save : list pos }.
Definition set {A} (m : N -> option A) (k : N) (x : option A) : N -> option A := fun y => if y =? k then x else m y.
Definition start : state := mkstate (fun _ => None) (fun _ => None) (fun x => x) [] [].
Definition forget (s : state) : state := mkstate (fun _ => None) (fun _ => None) (st_ren s) (st_kill s) (st_save s).

(** the variable and extent of a pointer if the pass deals with it: local_single_block_elim_pass.cpp:73-75, 119-121; [None] is divergence *)
Definition subject (f : func) (s : N -> N) (ptr : N) : option (option (N * bool)) :=
  match get_ptr f s ptr with
  | None => None
  | Some (BOther, _) => Some None
  | Some (BVar v, w) =>
      if is_target f v then
        match has_only_supported_refs f v with
        | None => None
        | Some true => Some (Some (v, w))
        | Some false => Some None
        end
      else Some None
  end.

(** local_single_block_elim_pass.cpp:76-109: a store to the whole of [v] *)
Definition store_whole (f : func) (p : pos) (v x : N) (s : state) : state :=
  let kill1 :=
    match st_store s v with
    | Some (prev, _) => if negb (existsb (pos_eqb prev) (st_save s)) && negb (is_debug f v) then prev :: st_kill s else st_kill s
    | None => st_kill s
    end in
  if match st_load s v with Some r => x =? r | None => false end
  then mkstate (st_store s) (st_load s) (st_ren s) (p :: kill1) (st_save s)
  else mkstate (set (st_store s) v (Some (p, x))) (set (st_load s) v None) (st_ren s) kill1 (st_save s).
(** local_single_block_elim_pass.cpp:110-114 *)
Definition store_part (v : N) (s : state) : state :=
  mkstate (set (st_store s) v None) (set (st_load s) v None) (st_ren s) (st_kill s) (st_save s).
Definition replace1 (r by_ : N) (x : N) : N := if x =? r then by_ else x.
(** local_single_block_elim_pass.cpp:141-146: the result [r] of the load at [p] is replaced everywhere, also in the stores that are remembered *)
Definition replace_load (p : pos) (r repl : N) (s : state) : state :=
  mkstate (fun v => match st_store s v with Some (q, x) => Some (q, replace1 r repl x) | None => None end)
          (st_load s) (fun x => replace1 r repl (st_ren s x)) (p :: st_kill s) (st_save s).
(** local_single_block_elim_pass.cpp:122-134, 147-150: a load of the whole of [v] *)
Definition load_whole (p : pos) (v r : N) (s : state) : state :=
  match st_store s v with
  | Some (_, x) => replace_load p r x s
  | None =>
      match st_load s v with
      | Some r' => replace_load p r r' s
      | None => mkstate (st_store s) (set (st_load s) v (Some r)) (st_ren s) (st_kill s) (st_save s)
      end
  end.
(** local_single_block_elim_pass.cpp:135-140 *)
Definition load_part (v : N) (s : state) : state :=
  match st_store s v with
  | Some (prev, _) => mkstate (st_store s) (st_load s) (st_ren s) (st_kill s) (prev :: st_save s)
  | None => s
  end.
(** local_single_block_elim_pass.cpp:67-161: one instruction; its operands are those the renaming has left it with *)
Definition visit (f : func) (p : pos) (i : inst) (s : state) : option state :=
  match rename (st_ren s) i with
  | IStore ptr x _ =>
      match subject f (st_ren s) ptr with
      | None => None
      | Some None => Some s
      | Some (Some (v, true)) => Some (store_whole f p v x s)
      | Some (Some (v, false)) => Some (store_part v s)
      end
  | ILoad r ptr _ =>
      match subject f (st_ren s) ptr with
      | None => None
      | Some None => Some s
      | Some (Some (v, true)) => Some (load_whole p v r s)
      | Some (Some (v, false)) => Some (load_part v s)
      end
  | ICall _ _ _ => Some (forget s)
  | _ => Some s
  end.
Fixpoint visit_body (f : func) (b i : nat) (l : list inst) (s : state) : option state :=
  match l with
  | [] => Some s
  | x :: l' => match visit f (b, i) x s with Some s' => visit_body f b (S i) l' s' | None => None end
  end.
(** local_single_block_elim_pass.cpp:63-162 *)
Fixpoint visit_blocks (f : func) (b : nat) (l : list block) (s : state) : option state :=
  match l with
  | [] => Some s
  | x :: l' => match visit_body f b 0 (body x) (forget s) with Some s' => visit_blocks f (S b) l' s' | None => None end
  end.

(** ** The function afterwards *)
(** the renaming has reached every use, and the instructions to kill are gone: local_single_block_elim_pass.cpp:164-166 *)
Fixpoint sweep (kill : list pos) (ren : N -> N) (b i : nat) (l : list inst) : list inst :=
  match l with
  | [] => []
  | x :: l' => if existsb (pos_eqb (b, i)) kill then sweep kill ren b (S i) l' else rename ren x :: sweep kill ren b (S i) l'
  end.
Definition finish_block (kill : list pos) (ren : N -> N) (b : nat) (x : block) : block :=
  mkblock (label x) (map (fun p => mkphi (p_res p) (map (fun a => (ren (fst a), snd a)) (p_args p))) (phis x)) (sweep kill ren b 0 (body x))
          (t_op x) (map ren (t_args x)) (t_succ x).
Fixpoint finish (kill : list pos) (ren : N -> N) (b : nat) (l : list block) : list block :=
  match l with [] => [] | x :: l' => finish_block kill ren b x :: finish kill ren (S b) l' end.
(** local_single_block_elim_pass.cpp:56-169 (LocalSingleBlockLoadStoreElim); [None]: the code does not return *)
Definition elim (f : func) : option func :=
  match visit_blocks f 0 (blocks f) start with
  | Some s => Some (mkfunc (vars f) (finish (st_kill s) (st_ren s) 0 (blocks f)))
  | None => None
  end.
