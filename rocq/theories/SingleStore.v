(** Elimination of the loads of variables that are stored to once: model of source/opt/local_single_store_elim_pass.cpp.  Functions, renaming and the
    removal of instructions are those of LocalElim.v.  [v_target] now says that the variable is one of the function's own, of whatever type. *)
From Verif Require Import Base LocalElim.
Local Open Scope N_scope.

(** the instructions of the bodies with their positions *)
Fixpoint numbered {A} (n : nat) (l : list A) : list (nat * A) := match l with [] => [] | x :: l' => (n, x) :: numbered (S n) l' end.
Definition placed (f : func) : list (pos * inst) :=
  flat_map (fun b => map (fun x => ((fst b, fst x), snd x)) (numbered 0 (body (snd b)))) (numbered 0 (blocks f)).
(** what has been done so far: the renaming, and the loads that are gone *)
Record progress := mkprogress { ren : N -> N; gone : list pos }.
(** the instructions as they are by now *)
Definition now (f : func) (s : progress) : list (pos * inst) :=
  map (fun x => (fst x, rename (ren s) (snd x))) (filter (fun x => negb (existsb (pos_eqb (fst x)) (gone s))) (placed f)).

(** source/opt/def_use_manager.cpp:133-140 (ForEachUser): the users of an id: instructions, or a phi or terminator ([UEdge]).  Simplification: they come in the
    order of the text and phis and terminators last; OpName, decorations and debug instructions are not in the model, OpImageTexelPointer, which
    does not apply to a function's own variable, is [IOther]. *)
Inductive user := UInst (p : pos) (i : inst) | UEdge.
Definition users_of (f : func) (s : progress) (p : N) : list user :=
  map (fun x => UInst (fst x) (snd x)) (filter (fun x => mem_id p (reads (snd x))) (now f s)) ++
  (if existsb (fun b => existsb (fun x => mem_id p (map (ren s) (map fst (p_args x)))) (phis b) || mem_id p (map (ren s) (t_args b))) (blocks f) then [UEdge] else []).
(** local_single_store_elim_pass.cpp:266-275 (FindUses): the users, and those of copies.  [None]: the recursion does not end within [fuel] *)
Fixpoint gather (rec : N -> option (list user)) (l : list user) : option (list user) :=
  match l with
  | [] => Some []
  | u :: l' =>
      match (match u with UInst _ (ICopy r _) => rec r | _ => Some [] end), gather rec l' with
      | Some us, Some us' => Some (u :: us ++ us')
      | _, _ => None
      end
  end.
Fixpoint find_uses (fuel : nat) (f : func) (s : progress) (p : N) : option (list user) :=
  match fuel with O => None | S n => gather (find_uses n f s) (users_of f s p) end.
(** local_single_store_elim_pass.cpp:277-297 (FeedsAStore), def_use_manager.cpp:114-131 (WhileEachUser): stops at the first user that may store *)
Fixpoint any_user (q : user -> option bool) (l : list user) : option bool :=
  match l with
  | [] => Some false
  | u :: l' => match q u with Some false => any_user q l' | r => r end
  end.
Fixpoint feeds_a_store (fuel : nat) (f : func) (s : progress) (p : N) : option bool :=
  match fuel with
  | O => None
  | S n =>
      any_user (fun u => match u with
                         | UInst _ (IStore _ _ _) => Some true
                         | UInst _ (IChain r _ _) | UInst _ (ICopy r _) => feeds_a_store n f s r
                         | UInst _ (ILoad _ _ _) => Some false
                         | _ => Some true
                         end) (users_of f s p)
  end.
(** local_single_store_elim_pass.cpp:210-264 (FindSingleStoreAndCheckUses): the one store and the id it stores.  Simplification: an initializer, which counts as
    a store (215-218), is written as a store at the start of the entry block.  The outer [None]: the recursion does not end *)
Fixpoint single_store (fuel : nat) (f : func) (s : progress) (l : list user) (found : option (pos * N)) : option (option (pos * N)) :=
  match l with
  | [] => Some found
  | UInst q (IStore _ a _) :: l' => match found with None => single_store fuel f s l' (Some (q, a)) | Some _ => Some None end
  | UInst _ (IChain r _ _) :: l' =>
      match feeds_a_store fuel f s r with
      | None => None
      | Some true => Some None
      | Some false => single_store fuel f s l' found
      end
  | UInst _ (ILoad _ _ _) :: l' | UInst _ (ICopy _ _) :: l' => single_store fuel f s l' found
  | _ => Some None
  end.

Section Elim.
Variable dom : N -> N -> bool.   (* dominator_tree.cpp:223-240 (Dominates): does a block dominate another? *)
(** dominator_analysis.cpp:42-78 (Dominates) *)
Definition dom_inst (f : func) (p q : pos) : bool :=
  if Nat.eqb (fst p) (fst q) then Nat.leb (snd p) (snd q)
  else match nth_error (blocks f) (fst p), nth_error (blocks f) (fst q) with Some b, Some c => dom (label b) (label c) | _, _ => false end.
(** local_single_store_elim_pass.cpp:299-332 (RewriteLoads): every load after the store is replaced by the id stored *)
Fixpoint rewrite_loads (f : func) (store : pos) (x : N) (l : list user) (s : progress) : progress :=
  match l with
  | [] => s
  | UInst q (ILoad r _ _) :: l' =>
      rewrite_loads f store x l' (if dom_inst f store q then mkprogress (fun y => replace1 r x (ren s y)) (q :: gone s) else s)
  | _ :: l' => rewrite_loads f store x l' s
  end.
(** local_single_store_elim_pass.cpp:171-199 (ProcessVariable); debug declarations are left out *)
Definition process_variable (f : func) (v : N) (s : progress) : option progress :=
  match find_uses (fuel_of f) f s v with
  | None => None
  | Some us =>
      match single_store (fuel_of f) f s us None with
      | None => None
      | Some None => Some s
      | Some (Some (q, x)) => Some (rewrite_loads f q x us s)
      end
  end.
(** local_single_store_elim_pass.cpp:31-44 (LocalSingleStoreElim) *)
Fixpoint process_variables (f : func) (l : list var) (s : progress) : option progress :=
  match l with
  | [] => Some s
  | v :: l' =>
      if v_target v then match process_variable f (v_id v) s with Some s' => process_variables f l' s' | None => None end
      else process_variables f l' s
  end.
Definition single_store_elim (f : func) : option func :=
  match process_variables f (vars f) (mkprogress (fun x => x) []) with
  | Some s => Some (mkfunc (vars f) (finish (gone s) (ren s) 0 (blocks f)))
  | None => None
  end.
End Elim.
