(** Model of source/opt/def_use_manager.cpp and .h: the manager of definitions and uses.

    An instruction is known by its unique id, a positive number (instruction.h:250-253, 637); 0 is the null pointer.
    The instructions themselves are a heap from these numbers to contents, which the clients change. *)
From Verif Require Import Base OperandTypes.
Local Open Scope N_scope.

(** The members of Instruction (instruction.h:633-644) that the manager reads: result_id() (247-249), 0 if there is
    none, and the operands, of which only the type and the first word are read; and the attached line instructions. *)
Record content := mkContent { c_result : N; c_operands : list (otype * N); c_lines : list N }.
Definition heap := N -> content.

(** def_use_manager.h:220-223: the three maps. id_to_users_ is an ordered set; the pairs (def, user) are kept in the
    order of UserEntryLess (def_use_manager.h:47-70), which is that of the unique ids. *)
Record manager := mkManager {
  id_to_def : N -> option N;
  id_to_users : list (N * N);
  inst_to_used_ids : N -> option (list N)
}.
Definition empty_manager : manager := mkManager (fun _ => None) [] (fun _ => None).

Definition upd {A} (f : N -> A) (k : N) (v : A) : N -> A := fun x => if x =? k then v else f x.

(** def_use_manager.h:47-70 (UserEntryLess). *)
Definition entry_less (a b : N * N) : bool :=
  if fst a <? fst b then true else if fst b <? fst a then false else snd a <? snd b.
(** std::set::insert. *)
Fixpoint set_insert (e : N * N) (s : list (N * N)) : list (N * N) :=
  match s with
  | [] => [e]
  | x :: s' => if entry_less e x then e :: s else if entry_less x e then x :: set_insert e s' else s
  end.
(** std::set::erase of a key. *)
Fixpoint set_erase (e : N * N) (s : list (N * N)) : list (N * N) :=
  match s with
  | [] => []
  | x :: s' => if entry_less x e then x :: set_erase e s' else if entry_less e x then s else s'
  end.
(** std::set::lower_bound, as the part of the set before it and the part from it on. *)
Fixpoint set_lower_bound (e : N * N) (s : list (N * N)) : list (N * N) * list (N * N) :=
  match s with
  | [] => ([], [])
  | x :: s' => if entry_less x e then let '(a, b) := set_lower_bound e s' in (x :: a, b) else ([], s)
  end.
(** def_use_manager.cpp:97-112 (UsersBegin, UsersNotEnd): the range of the entries of [def], and what is after it. *)
Fixpoint users_range (def : N) (s : list (N * N)) : list (N * N) * list (N * N) :=
  match s with
  | [] => ([], [])
  | x :: s' => if fst x =? def then let '(a, b) := users_range def s' in (x :: a, b) else ([], s)
  end.

(** def_use_manager.cpp:85-95. *)
Definition get_def (m : manager) (id : N) : N := match id_to_def m id with Some i => i | None => 0 end.

(** def_use_manager.cpp:249-261 (EraseUseRecordsOfOperandIds). *)
Definition erase_use_records (m : manager) (inst : N) : manager :=
  match inst_to_used_ids m inst with
  | None => m
  | Some ids =>
      mkManager (id_to_def m)
                (fold_left (fun s id => set_erase (get_def m id, inst) s) ids (id_to_users m))
                (upd (inst_to_used_ids m) inst None)
  end.

(** def_use_manager.cpp:232-247 (ClearInst). *)
Definition clear_inst (h : heap) (m : manager) (inst : N) : manager :=
  match inst_to_used_ids m inst with
  | None => m
  | Some _ =>
      let m := erase_use_records m inst in
      let r := c_result (h inst) in
      if r =? 0 then m
      else
        let '(before, from) := set_lower_bound (inst, 0) (id_to_users m) in
        let '(_, after) := users_range inst from in
        mkManager (upd (id_to_def m) r None) (before ++ after) (inst_to_used_ids m)
  end.

(** def_use_manager.cpp:21-34 (AnalyzeInstDef). *)
Definition analyze_inst_def (h : heap) (m : manager) (inst : N) : manager :=
  let r := c_result (h inst) in
  if r =? 0 then clear_inst h m inst
  else
    let m := match id_to_def m r with Some old => clear_inst h m old | None => m end in
    mkManager (upd (id_to_def m) r (Some inst)) (id_to_users m) (inst_to_used_ids m).

(** def_use_manager.cpp:49-52: any id type but the result id. *)
Definition is_use_type (t : otype) : bool :=
  match t with T_ID | T_TYPE_ID | T_MEMORY_SEMANTICS_ID | T_SCOPE_ID => true | _ => false end.

(** def_use_manager.cpp:47-63: the loop over the operands; [None] when the assertion at 55 fails. *)
Fixpoint use_loop (m : manager) (inst : N) (ops : list (otype * N)) : option manager :=
  match ops with
  | [] => Some m
  | (t, use_id) :: ops' =>
      if is_use_type t then
        let def := get_def m use_id in
        if def =? 0 then None
        else use_loop (mkManager (id_to_def m) (set_insert (def, inst) (id_to_users m))
                                 (upd (inst_to_used_ids m) inst
                                      (Some (match inst_to_used_ids m inst with Some l => l | None => [] end ++ [use_id]))))
                      inst ops'
      else use_loop m inst ops'
  end.
(** def_use_manager.cpp:36-64 (AnalyzeInstUse). *)
Definition analyze_inst_use (h : heap) (m : manager) (inst : N) : option manager :=
  let m := match inst_to_used_ids m inst with Some (_ :: _) => erase_use_records m inst | _ => m end in
  use_loop (mkManager (id_to_def m) (id_to_users m) (upd (inst_to_used_ids m) inst (Some []))) inst (c_operands (h inst)).

(** def_use_manager.cpp:66-72 (AnalyzeInstDefUse). Line instructions have no lines of their own. *)
Definition analyze_one (h : heap) (m : manager) (inst : N) : option manager :=
  analyze_inst_use h (analyze_inst_def h m inst) inst.
Fixpoint analyze_lines (h : heap) (m : manager) (lines : list N) : option manager :=
  match lines with
  | [] => Some m
  | l :: lines' => match analyze_one h m l with Some m => analyze_lines h m lines' | None => None end
  end.
Definition analyze_inst_def_use (h : heap) (m : manager) (inst : N) : option manager :=
  match analyze_one h m inst with Some m => analyze_lines h m (c_lines (h inst)) | None => None end.

(** def_use_manager.cpp:74-83 (UpdateDefUse). *)
Definition update_def_use (h : heap) (m : manager) (inst : N) : option manager :=
  let r := c_result (h inst) in
  let m := if r =? 0 then m else match id_to_def m r with None => analyze_inst_def h m inst | Some _ => m end in
  analyze_inst_use h m inst.

(** def_use_manager.cpp:221-230 (AnalyzeDefUse): [insts] are the instructions in the order of Module::ForEachInst,
    line instructions included. *)
Fixpoint analyze_uses (h : heap) (m : manager) (insts : list N) : option manager :=
  match insts with
  | [] => Some m
  | i :: insts' => match analyze_inst_use h m i with Some m => analyze_uses h m insts' | None => None end
  end.
Definition analyze_def_use (h : heap) (m : manager) (insts : list N) : option manager :=
  analyze_uses h (fold_left (analyze_inst_def h) insts m) insts.

(** def_use_manager.cpp:114-126 (WhileEachUser) for a function that does not change the manager: [None] when the
    assertion at 117 fails, else whether every call returned true, and the users it was called with. *)
Fixpoint while_each (f : N -> bool) (l : list N) : bool * list N :=
  match l with
  | [] => (true, [])
  | u :: l' => if f u then let '(b, seen) := while_each f l' in (b, u :: seen) else (false, [u])
  end.
Definition users_of (m : manager) (def : N) : list N :=
  map snd (fst (users_range def (snd (set_lower_bound (def, 0) (id_to_users m))))).
Definition registered (h : heap) (m : manager) (def : N) : bool :=
  negb (def =? 0) && ((c_result (h def) =? 0) || (def =? get_def m (c_result (h def)))).
Definition while_each_user (h : heap) (m : manager) (def : N) (f : N -> bool) : option (bool * list N) :=
  if registered h m def then
    if c_result (h def) =? 0 then Some (true, []) else Some (while_each f (users_of m def))
  else None.
(** def_use_manager.cpp:133-144 (ForEachUser): the users in the order in which they are visited. *)
Definition for_each_user (h : heap) (m : manager) (def : N) : option (list N) :=
  match while_each_user h m def (fun _ => true) with Some (_, l) => Some l | None => None end.

(** def_use_manager.cpp:157-164: the operands of one user that mention [id], by their index. *)
Fixpoint use_indices (id : N) (k : N) (ops : list (otype * N)) : list N :=
  match ops with
  | [] => []
  | (t, w) :: ops' =>
      (if match t with T_RESULT_ID => false | _ => is_id_type t end && (id =? w) then [k] else []) ++ use_indices id (k + 1) ops'
  end.
(** def_use_manager.cpp:146-186 (WhileEachUse with a function that returns true, ForEachUse). *)
Definition for_each_use (h : heap) (m : manager) (def : N) : option (list (N * N)) :=
  if registered h m def then
    if c_result (h def) =? 0 then Some []
    else Some (flat_map (fun u => map (pair u) (use_indices (c_result (h def)) 0 (c_operands (h u)))) (users_of m def))
  else None.
(** def_use_manager.cpp:188-206 (NumUsers, NumUses): a 32-bit count. *)
Definition num_users (h : heap) (m : manager) (def : N) : option N :=
  match for_each_user h m def with Some l => Some (N.of_nat (length l) mod 2 ^ 32) | None => None end.
Definition num_uses (h : heap) (m : manager) (def : N) : option N :=
  match for_each_use h m def with Some l => Some (N.of_nat (length l) mod 2 ^ 32) | None => None end.

(** The calls of a client, which also changes instructions. *)
Inductive call :=
| Change (inst : N) (c : content)
| AnalyzeInstDef (inst : N)
| AnalyzeInstUse (inst : N)
| AnalyzeInstDefUse (inst : N)
| UpdateDefUse (inst : N)
| ClearInst (inst : N).
Definition perform (s : heap * manager) (c : call) : option (heap * manager) :=
  let '(h, m) := s in
  let with_h o := match o with Some m => Some (h, m) | None => None end in
  match c with
  | Change i c => Some (upd h i c, m)
  | AnalyzeInstDef i => Some (h, analyze_inst_def h m i)
  | AnalyzeInstUse i => with_h (analyze_inst_use h m i)
  | AnalyzeInstDefUse i => with_h (analyze_inst_def_use h m i)
  | UpdateDefUse i => with_h (update_def_use h m i)
  | ClearInst i => Some (h, clear_inst h m i)
  end.
Fixpoint perform_all (s : heap * manager) (cs : list call) : option (heap * manager) :=
  match cs with
  | [] => Some s
  | c :: cs' => match perform s c with Some s => perform_all s cs' | None => None end
  end.
(** The heap at the start: no instruction has a result or operands. *)
Definition empty_heap : heap := fun _ => mkContent 0 [] [].
