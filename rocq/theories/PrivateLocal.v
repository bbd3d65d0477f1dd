(** Moving private variables into functions: model of source/opt/private_to_local_pass.cpp: which variables are moved (FindLocalFunction, IsValidUse), and the interfaces of entry points.
    Not modelled: the types of pointers, which change with the storage class (GetNewType, UpdateUses). *)
From Verif Require Import Base.
Local Open Scope N_scope.

(** What uses a pointer: OpLoad or OpImageTexelPointer; OpStore through it, or of it; OpAccessChain, with the uses of its result; OpName or a decoration; the debug information of a global variable;
    anything else.  [f]: the function, for an instruction in a block *)
Inductive use := Use (f : option N) (k : kind)
with kind := Load | StoreTo | StoreOf | Chain (l : list use) | Name | Decoration | DebugGlobal | Other.
(** private_to_local_pass.cpp:156-180 (IsValidUse) *)
Fixpoint valid_use (u : use) : bool :=
  match u with
  | Use _ k => match k with Load | StoreTo | Name | Decoration | DebugGlobal => true | StoreOf => false | Chain l => forallb valid_use l | Other => false end
  end.
(** private_to_local_pass.cpp:88-113 (FindLocalFunction): [found_first_use] and [target_function] *)
Definition see (st : bool * option N) (u : use) : bool * option N :=
  match u with
  | Use None _ => st
  | Use (Some f) _ =>
      if negb (valid_use u) then (true, None)
      else if negb (fst st) then (true, Some f)
      else match snd st with Some g => if g =? f then st else (true, None) | None => (true, None) end
  end.
Definition find_local (l : list use) : option N := snd (fold_left see l (false, None)).
(** private_to_local_pass.cpp:65-83: the operands of an entry point: execution model, function, name, interface; [moved]: the variables that are moved *)
Definition new_entry (v14 : bool) (moved : N -> bool) (ops : list N) : list N := if v14 then firstn 3 ops ++ filter (fun x => negb (moved x)) (skipn 3 ops) else ops.
