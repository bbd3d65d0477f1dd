(** Specification for intrusive lists: a collection of plain sequences, one per list, and what each call does
    to it.  Independent of the pointers; only the names of the calls come from the model. *)
From Verif Require Import Base IList.
Local Open Scope N_scope.

(** Each list, named by its sentinel, with its elements in order. *)
Definition lists := list (N * list N).
Definition mem (x : N) (l : list N) : bool := existsb (N.eqb x) l.
Definition members (ls : lists) : list N := flat_map snd ls.
Definition heads (ls : lists) : list N := map fst ls.
Definition is_list (ls : lists) (s : N) : bool := mem s (heads ls).
Definition is_member (ls : lists) (x : N) : bool := mem x (members ls).
(** A node that is neither in a list nor a list. *)
Definition unlinked (ls : lists) (x : N) : bool := negb (x =? 0) && negb (is_list ls x) && negb (is_member ls x).
Definition contents (ls : lists) (s : N) : list N :=
  match find (fun e => fst e =? s) ls with Some (_, l) => l | None => [] end.
(** The list with [x] as an element, or as its end. *)
Definition contains (s : N) (l : list N) (x : N) : bool := (x =? s) || mem x l.
Definition in_same_list (ls : lists) (x y : N) : bool := existsb (fun e => contains (fst e) (snd e) x && contains (fst e) (snd e) y) ls.

(** Sequence operations.  A position is an element, or the list's own name for its end. *)
Definition without (x : N) (l : list N) : list N := filter (fun y => negb (y =? x)) l.
Fixpoint before_element (pos : N) (xs l : list N) : list N :=
  match l with [] => [] | y :: l => if y =? pos then xs ++ y :: l else y :: before_element pos xs l end.
Fixpoint after_element (pos : N) (xs l : list N) : list N :=
  match l with [] => [] | y :: l => if y =? pos then y :: xs ++ l else y :: after_element pos xs l end.
Definition put_before (pos : N) (xs : list N) (e : N * list N) : N * list N :=
  (fst e, if pos =? fst e then snd e ++ xs else before_element pos xs (snd e)).
Definition put_after (pos : N) (xs : list N) (e : N * list N) : N * list N :=
  (fst e, if pos =? fst e then xs ++ snd e else after_element pos xs (snd e)).
Definition drop_everywhere (x : N) (ls : lists) : lists := map (fun e => (fst e, without x (snd e))) ls.
Definition set_contents (s : N) (l : list N) (ls : lists) : lists :=
  map (fun e => if fst e =? s then (s, l) else e) ls.
(** The elements from [first] up to but excluding [last], and the others. *)
Fixpoint until (last : N) (l : list N) : list N :=
  match l with [] => [] | y :: l => if y =? last then [] else y :: until last l end.
Fixpoint from (first : N) (l : list N) : list N :=
  match l with [] => [] | y :: l' => if y =? first then l else from first l' end.
Definition range (first last : N) (l : list N) : list N := until last (from first l).

(** What each call does; [None] if its documented preconditions do not hold. *)
Definition spec_call (ls : lists) (c : call) : option lists :=
  match c with
  | NewList s => if unlinked ls s then Some ((s, []) :: ls) else None
  | MoveConstruct s from =>
      if unlinked ls s && is_list ls from then Some ((s, contents ls from) :: set_contents from [] ls) else None
  | MoveAssign s from =>
      (* the target must be empty; assigning a list to itself is allowed only if it is empty *)
      if is_list ls s && is_list ls from && match contents ls s with [] => true | _ => false end
      then Some (set_contents s (contents ls from) (set_contents from [] ls)) else None
  | InsertBefore x pos =>
      if (unlinked ls x || is_member ls x) && (is_list ls pos || is_member ls pos) && negb (x =? pos)
      then Some (map (put_before pos [x]) (drop_everywhere x ls)) else None
  | InsertAfter x pos =>
      if (unlinked ls x || is_member ls x) && (is_list ls pos || is_member ls pos) && negb (x =? pos)
      then Some (map (put_after pos [x]) (drop_everywhere x ls)) else None
  | Remove x => if is_member ls x then Some (drop_everywhere x ls) else None
  | ReplaceNode x target =>
      if is_member ls x && unlinked ls target
      then Some (map (fun e => (fst e, map (fun y => if y =? x then target else y) (snd e))) ls) else None
  | PushBack s x =>
      if (unlinked ls x || is_member ls x) && is_list ls s
      then Some (map (fun e => if fst e =? s then (s, snd e ++ [x]) else e) (drop_everywhere x ls)) else None
  | Clear s => if is_list ls s then Some (set_contents s [] ls) else None
  | MoveBefore pos s =>
      if is_list ls s && (is_list ls pos || is_member ls pos) && negb (in_same_list ls pos s)
      then Some (map (put_before pos (contents ls s)) (set_contents s [] ls)) else None
  | Splice s where_ other first last =>
      (* [first, last) is a range of the other list; the elements go after [where_] *)
      if is_list ls s && is_list ls other && contains s (contents ls s) where_ &&
         contains other (contents ls other) first && contains other (contents ls other) last &&
         (mem last (from first (contents ls other)) || (last =? other))
      then if (s =? other) || (first =? last) then Some ls
           else Some (map (put_after where_ (range first last (contents ls other)))
                        (map (fun e => if fst e =? other
                                       then (other, filter (fun y => negb (mem y (range first last (snd e)))) (snd e)) else e) ls))
      else None
  end.
Fixpoint spec_calls (ls : lists) (cs : list call) : option lists :=
  match cs with [] => Some ls | c :: cs => match spec_call ls c with Some ls => spec_calls ls cs | None => None end end.
