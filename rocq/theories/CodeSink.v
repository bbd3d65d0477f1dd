(** Moving loads and access chains down to where they are used: model of source/opt/code_sink.cpp.  Functions are those of Redundancy.v: an access chain is an
    [IPure], a load or a store an [IOwn], and [op] stands for the opcode with the type.  Not modelled: several functions per module, memory operands of loads. *)
From Verif Require Import Base NamedIds Redundancy Licm.
Local Open Scope N_scope.

(** What the pass asks about an opcode: OpAccessChain, OpPtrAccessChain, the other instructions a pointer is followed through (instruction.cpp:254-277), OpLoad,
    OpStore, anything else. *)
Inductive opkind := KAccessChain | KPtrChain | KPath | KLoad | KStore | KOther.
(** A variable: is it a read-only pointer (IsReadOnlyPointer, instruction.cpp:279-284), is its storage class Uniform? *)
Record variable := mkvariable { v_read_only : bool; v_uniform : bool }.
(** The rest of the module, as far as the pass looks at it.
    [i_kind]: of opcodes;
    [i_var]: the OpVariables;
    [i_named]: the ids that have a user outside of the function (a name, a decoration, an entry point);
    [i_semantics]: the memory semantics of the barriers and atomic instructions (code_sink.cpp:202-247);
    [i_branch]: is the terminator an OpBranch?
    [i_merge]: the merge block of a block with an OpSelectionMerge. *)
Record info := mkinfo {
  i_kind : N -> opkind;
  i_var : N -> option variable;
  i_named : N -> bool;
  i_semantics : list N;
  i_branch : N -> bool;
  i_merge : N -> option N }.

Definition all_insts (f : func) : list inst := prelude f ++ flat_map body (blocks f).
Definition has_result (a : N) (i : inst) : bool := match result i with Some r => r =? a | None => false end.
(** DefUseManager::GetDef *)
Definition def_of (f : func) (a : N) : option inst := find (has_result a) (all_insts f).
(** code_sink.cpp:253-275 (IsSyncOnUniform): UniformMemory is 64; Acquire, Release and AcquireRelease are 2, 4 and 8 *)
Definition sync_on_uniform (s : N) : bool := negb (N.land s 64 =? 0) && negb (N.land s 14 =? 0).

Section Pass.
Variable x : info.
(** code_sink.cpp:196-251 (HasUniformMemorySync) *)
Definition has_sync : bool := existsb sync_on_uniform (i_semantics x).

(** instruction.cpp:254-277 (GetBaseAddress); [None]: out of fuel *)
Fixpoint base (fuel : nat) (f : func) (a : N) : option N :=
  match fuel with
  | O => None
  | S n =>
      match def_of f a with
      | Some (ICopy _ b) => base n f b
      | Some (IPure _ op (b :: _)) => match i_kind x op with KAccessChain | KPtrChain | KPath => base n f b | _ => Some a end
      | _ => Some a
      end
  end.
(** the users of [v] that are not instructions of the function: phis and terminators *)
Definition other_user (f : func) (v : N) : bool :=
  i_named x v || existsb (fun b => existsb (fun p => existsb (fun a => fst a =? v) (p_args p)) (phis b) || mem v (t_args b)) (blocks f).
(** code_sink.cpp:277-293 (HasPossibleStore): WhileEachUser (def_use_manager.cpp:114-126) gives true if the function it is given is true of every user, and stops at
    the first for which it is false.  The order of the users does not matter.  [None]: out of fuel. *)
Fixpoint possible_store (fuel : nat) (f : func) (v : N) : option bool :=
  match fuel with
  | O => None
  | S n =>
      if other_user f v then Some false
      else
        (fix go (us : list inst) : option bool :=
           match us with
           | [] => Some true
           | i :: us' =>
               match
                 match i with
                 | IOwn _ op _ => match i_kind x op with KStore => Some true | _ => Some false end
                 | IPure r op _ => match i_kind x op with KAccessChain | KPtrChain => possible_store n f r | _ => Some false end
                 | ICopy _ _ => Some false
                 end
               with Some true => go us' | y => y end
           end) (filter (fun i => mem v (reads i)) (all_insts f))
  end.
Definition enough (f : func) : nat := S (length (all_insts f)).
(** code_sink.cpp:170-194 (ReferencesMutableMemory), of a load through [p] *)
Definition mutable (f : func) (p : N) : option bool :=
  match base (enough f) f p with
  | None => None
  | Some v =>
      match i_var x v with
      | None => Some true
      | Some q =>
          if v_read_only q then Some false
          else if has_sync then Some true
          else if negb (v_uniform q) then Some true
          else possible_store (enough f) f v
      end
  end.
(** code_sink.cpp:50-58: may the instruction be moved at all?  With its result. *)
Definition candidate (f : func) (i : inst) : option (option N) :=
  match i with
  | IPure r op _ => Some (match i_kind x op with KAccessChain => Some r | _ => None end)
  | IOwn (Some r) op [p] =>
      match i_kind x op with
      | KLoad => match mutable f p with None => None | Some true => Some None | Some false => Some (Some r) end
      | _ => Some None
      end
  | _ => Some None
  end.

(** code_sink.cpp:78-89: the blocks with uses of [r]; for a phi, the block the value comes from *)
Definition uses (f : func) (r : N) : list N :=
  flat_map (fun b => flat_map (fun p => map snd (filter (fun a => fst a =? r) (p_args p))) (phis b) ++
                     (if existsb (fun i => mem r (reads i)) (body b) || mem r (t_args b) then [label b] else [])) (blocks f).
Definition block_of (f : func) (l : N) : option block := find (fun b => label b =? l) (blocks f).
(** CFG::preds (cfg.h:125-127): one entry for each edge *)
Definition preds (f : func) (l : N) : nat := length (filter (fun y => y =? l) (flat_map t_succ (blocks f))).
(** code_sink.cpp:314-318 *)
Fixpoint push (ls : list N) (work seen : list N) : list N * list N :=
  match ls with
  | [] => (work, seen)
  | l :: ls' => if mem l seen then push ls' work seen else push ls' (l :: work) (l :: seen)
  end.
(** code_sink.cpp:295-321 (IntersectsPath); [None]: out of fuel or no such block *)
Fixpoint intersects (fuel : nat) (f : func) (stop : N) (us work seen : list N) : option bool :=
  match work with
  | [] => Some false
  | l :: work' =>
      match fuel with
      | O => None
      | S n =>
          match block_of f l with
          | None => None
          | Some b =>
              if l =? stop then intersects n f stop us work' seen
              else if mem l us then Some true
              else let '(w, s) := push (t_succ b) work' seen in intersects n f stop us w s
          end
      end
  end.
Definition intersects_path (f : func) (from stop : N) (us : list N) : option bool := intersects (S (length (blocks f))) f stop us [from] [from].
(** code_sink.cpp:122-133: the successors that lead to a use before the merge block *)
Fixpoint leading (f : func) (us : list N) (merge : N) (ls : list N) : option (list N) :=
  match ls with
  | [] => Some []
  | l :: ls' =>
      match intersects_path f l merge us, leading f us merge ls' with
      | Some true, Some r => Some (l :: r)
      | Some false, Some r => Some r
      | _, _ => None
      end
  end.
(** code_sink.cpp:91-166: from block [l] on; [None]: out of fuel or no such block.  An OpBranch has one successor. *)
Fixpoint walk (fuel : nat) (f : func) (us : list N) (orig l : N) : option N :=
  match fuel with
  | O => None
  | S n =>
      match block_of f l with
      | None => None
      | Some b =>
          if mem l us then Some l
          else
            match i_branch x (t_op b), t_succ b with
            | true, [s] => if Nat.eqb (preds f s) 1 then walk n f us orig s else Some l
            | _, _ =>
                match i_merge x l with
                | None => Some l
                | Some mg =>
                    match leading f us mg (t_succ b) with
                    | None => None
                    | Some [] => walk n f us orig mg
                    | Some [s] =>
                        if negb (Nat.eqb (preds f s) 1) then Some l
                        else
                          match intersects_path f mg orig us with
                          | None => None
                          | Some true => Some l
                          | Some false => walk n f us orig s
                          end
                    | Some _ => Some l
                    end
                end
            end
        end
  end.
(** code_sink.cpp:73-168 (FindNewBasicBlockFor) and 50-60: the block instruction [i] of block [l] goes to *)
Definition target (f : func) (l : N) (i : inst) : option (option N) :=
  match candidate f i with
  | None => None
  | Some None => Some None
  | Some (Some r) =>
      match walk (S (length (blocks f))) f (uses f r) l l with
      | None => None
      | Some t => Some (if t =? l then None else Some t)
      end
  end.
(** code_sink.cpp:41-42: the last instruction that can be moved; [rb]: the instructions still to be looked at, the last one first *)
Fixpoint pick (f : func) (l : N) (rb after : list inst) : option (option (list inst * inst * list inst * N)) :=
  match rb with
  | [] => Some None
  | i :: rb' =>
      match target f l i with
      | None => None
      | Some (Some t) => Some (Some (rev rb', i, after, t))
      | Some None => pick f l rb' (i :: after)
      end
  end.
(** code_sink.cpp:39-48 (SinkInstructionsInBB) and 61-68: a moved instruction goes after the phis of its new block, then the search starts again at the end *)
Fixpoint sink_block (fuel : nat) (f : func) (l : N) : option func :=
  match block_of f l with
  | None => None
  | Some b =>
      match pick f l (rev (body b)) [] with
      | None => None
      | Some None => Some f
      | Some (Some (k, i, r, t)) =>
          match fuel with
          | O => None
          | S n => sink_block n (edit t (cons i) (edit l (fun _ => k ++ r) f)) l
          end
      end
  end.
(** code_sink.cpp:26-37 (Process): the blocks in the given order, which is a post order in the code *)
Fixpoint sink (order : list N) (f : func) : option func :=
  match order with
  | [] => Some f
  | l :: ls =>
      match block_of f l with
      | None => None
      | Some b => match sink_block (length (body b)) f l with None => None | Some f' => sink ls f' end
      end
  end.
End Pass.
