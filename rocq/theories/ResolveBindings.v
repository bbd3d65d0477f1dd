(** Resolving conflicting bindings: model of source/opt/resolve_binding_conflicts_pass.cpp.  Binding numbers are kept in a function from the ids of variables, as the binding
    decorations are changed in place (resolve_binding_conflicts_pass.cpp:39-49).  Not modelled: decoration groups (the code does not handle them either). *)
From Verif Require Import Base NamedIds.
Local Open Scope N_scope.

(** resolve_binding_conflicts_pass.cpp:39-43 (VarBindingInfo); [v_type]: the opcode of the type behind pointers and arrays (lines 95-115) *)
Record var := mkvar { v_id : N; v_set : N; v_type : N }.
Definition SAMPLER : N := 26.
Definition bindings := N -> N.
(** resolve_binding_conflicts_pass.cpp:80-128 (Less) *)
Definition less (b : bindings) (x y : var) : bool :=
  if b (v_id x) <? b (v_id y) then true
  else if b (v_id y) <? b (v_id x) then false
  else if v_type x =? v_type y then v_id x <? v_id y
  else if v_type x =? SAMPLER then false
  else if v_type y =? SAMPLER then true
  else v_id x <? v_id y.

(** The functions of the module: which functions they call (the sets of CallGraph::calls_, in some order), and which variables they use. *)
Record module := mkmodule { m_vars : list var; m_functions : list N; m_calls : N -> list N; m_uses : N -> N -> bool; m_entries : list N }.

(** resolve_binding_conflicts_pass.cpp:164-177 (CallGraph::Visit); [None]: out of fuel *)
Fixpoint visit (calls : N -> list N) (fuel : nat) (f : N) (st : list N * list N) : option (list N * list N) :=
  let '(visited, order) := st in
  if mem f visited then Some st
  else
    match fuel with
    | O => None
    | S n =>
        match (fix all (l : list N) (st : list N * list N) : option (list N * list N) :=
                 match l with [] => Some st | g :: l' => match visit calls n g st with Some st' => all l' st' | None => None end end) (calls f) (f :: visited, order) with
        | Some (v, o) => Some (v, o ++ [f])
        | None => None
        end
    end.
(** resolve_binding_conflicts_pass.cpp:156-160 *)
Fixpoint visit_all (calls : N -> list N) (fuel : nat) (l : list N) (st : list N * list N) : option (list N * list N) :=
  match l with [] => Some st | g :: l' => match visit calls fuel g st with Some st' => visit_all calls fuel l' st' | None => None end end.
Definition callees_first (m : module) : option (list N) := match visit_all (m_calls m) (length (m_functions m)) (m_entries m) ([], []) with Some (_, o) => Some o | None => None end.

(** std::stable_sort (line 282) *)
Fixpoint insert (b : bindings) (x : var) (l : list var) : list var := match l with [] => [x] | y :: l' => if less b y x then y :: insert b x l' else x :: l end.
Definition sort (b : bindings) (l : list var) : list var := fold_right (insert b) [] l.
(** resolve_binding_conflicts_pass.cpp:262-284: the variables of a descriptor set that a function uses itself *)
Definition own_vars (b : bindings) (m : module) (f set : N) : list var := sort b (filter (fun v => (v_set v =? set) && m_uses m f (v_id v)) (m_vars m)).
(** std::merge (line 226) *)
Fixpoint merge (b : bindings) (l1 : list var) : list var -> list var :=
  fix go (l2 : list var) : list var :=
    match l1, l2 with
    | [], _ => l2
    | _, [] => l1
    | x :: l1', y :: l2' => if less b y x then y :: go l2' else x :: merge b l1' l2
    end.
(** std::unique (line 228) *)
Fixpoint unique (l : list var) : list var :=
  match l with
  | [] => []
  | x :: l' => match l' with y :: _ => if v_id x =? v_id y then unique l' else x :: unique l' | [] => [x] end
  end.
(** the variables used by a function, in a descriptor set *)
Definition used := N -> N -> list var.
(** resolve_binding_conflicts_pass.cpp:219-233 (Merge); a descriptor set is in the map exactly if its list is not empty *)
Definition add_callee (b : bindings) (caller : N) (u : used) (callee : N) : used :=
  fun f => if f =? caller then fun set => match u callee set with [] => u caller set | src => unique (merge b src (u caller set)) end else u f.
(** resolve_binding_conflicts_pass.cpp:286-293 *)
Definition add_callees (b : bindings) (m : module) (u : used) (caller : N) : used := fold_left (add_callee b caller) (m_calls m caller) u.

Definition upd (b : bindings) (x y : N) : bindings := fun z => if z =? x then y else b z.
(** resolve_binding_conflicts_pass.cpp:238-248 (ResolveConflicts), behind the item [prev] *)
Fixpoint resolve_after (b : bindings) (prev : var) (l : list var) : bindings * bool :=
  match l with
  | [] => (b, false)
  | v :: l' =>
      if b (v_id v) <=? b (v_id prev) then (fst (resolve_after (upd b (v_id v) ((b (v_id prev) + 1) mod 4294967296)) v l'), true)
      else resolve_after b v l'
  end.
Definition resolve (b : bindings) (l : list var) : bindings * bool := match l with [] => (b, false) | v :: l' => resolve_after b v l' end.
(** one turn of the loop, resolve_binding_conflicts_pass.cpp:316-319 *)
Definition resolve_all (b : bindings) (ls : list (list var)) : bindings * bool :=
  fold_left (fun s l => let '(b', c) := resolve (fst s) l in (b', snd s || c)) ls (b, false).
(** resolve_binding_conflicts_pass.cpp:313-321; [None]: not finished *)
Fixpoint settle (fuel : nat) (b : bindings) (ls : list (list var)) : option bindings :=
  match fuel with O => None | S n => let '(b', c) := resolve_all b ls in if c then settle n b' ls else Some b' end.
(** resolve_binding_conflicts_pass.cpp:304-312: the lists of the entry points.  Simplification: a list for every descriptor set of the module, as empty lists change nothing, and
    once for each of its variables, as a second time changes nothing. *)
Definition lists (m : module) (u : used) : list (list var) := flat_map (fun e => map (fun v => u e (v_set v)) (m_vars m)) (m_entries m).
(** resolve_binding_conflicts_pass.cpp:250-326 (Process) *)
Definition all_used (b : bindings) (m : module) : option used :=
  match callees_first m with Some order => Some (fold_left (add_callees b m) order (own_vars b m)) | None => None end.
Definition resolve_bindings (fuel : nat) (b : bindings) (m : module) : option bindings := match all_used b m with Some u => settle fuel b (lists m u) | None => None end.
