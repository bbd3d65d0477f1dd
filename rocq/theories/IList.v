(** Model of intrusive lists, /repo/source/util/ilist_node.h and /repo/source/util/ilist.h.
    A node is an address; 0 is the null pointer.  All nodes are alive: freeing storage is not modelled, and a list
    is identified with the address of its sentinel.  A null dereference or a failed assertion is [Fault]. *)
From Verif Require Import Base.
Local Open Scope N_scope.

(** ilist_node.h:95-102, next_node_, previous_node_, is_sentinel_. *)
Record heap := mkHeap { next : N -> N; prev : N -> N; sentinel : N -> bool }.

Inductive outcome (A : Type) := Done (a : A) | Fault | OutOfFuel.
Arguments Done {A} a.
Arguments Fault {A}.
Arguments OutOfFuel {A}.
Definition bind {A B} (o : outcome A) (f : A -> outcome B) : outcome B :=
  match o with Done a => f a | Fault => Fault | OutOfFuel => OutOfFuel end.
Notation "x <- e ; k" := (bind e (fun x => k)) (at level 60, e at level 59, k at level 60, right associativity).
Definition require (b : bool) : outcome unit := if b then Done tt else Fault.

(** Reads and writes through a pointer. *)
Definition get_next (h : heap) (p : N) : outcome N := if p =? 0 then Fault else Done (next h p).
Definition get_prev (h : heap) (p : N) : outcome N := if p =? 0 then Fault else Done (prev h p).
Definition get_sentinel (h : heap) (p : N) : outcome bool := if p =? 0 then Fault else Done (sentinel h p).
Definition set_next (h : heap) (p v : N) : outcome heap :=
  if p =? 0 then Fault else Done (mkHeap (fun q => if q =? p then v else next h q) (prev h) (sentinel h)).
Definition set_prev (h : heap) (p v : N) : outcome heap :=
  if p =? 0 then Fault else Done (mkHeap (next h) (fun q => if q =? p then v else prev h q) (sentinel h)).
Definition set_sentinel (h : heap) (p : N) (v : bool) : outcome heap :=
  if p =? 0 then Fault else Done (mkHeap (next h) (prev h) (fun q => if q =? p then v else sentinel h q)).

(** ilist_node.h:110-111 for every address: the nodes are fresh. *)
Definition fresh_heap : heap := mkHeap (fun _ => 0) (fun _ => 0) (fun _ => false).

(** ilist_node.h:156-158. *)
Definition is_in_a_list (h : heap) (x : N) : outcome bool := n <- get_next h x; Done (negb (n =? 0)).
(** ilist_node.h:161-164; null when the next node is the sentinel. *)
Definition next_node (h : heap) (x : N) : outcome N :=
  n <- get_next h x; s <- get_sentinel h n; Done (if s then 0 else n).
(** ilist_node.h:167-170. *)
Definition previous_node (h : heap) (x : N) : outcome N :=
  n <- get_prev h x; s <- get_sentinel h n; Done (if s then 0 else n).

(** ilist_node.h:201-210. *)
Definition remove_from_list (h : heap) (x : N) : outcome heap :=
  s <- get_sentinel h x; _ <- require (negb s);
  i <- is_in_a_list h x; _ <- require i;
  n <- get_next h x; p <- get_prev h x;
  h <- set_prev h n p;
  n <- get_next h x; p <- get_prev h x;
  h <- set_next h p n;
  h <- set_next h x 0;
  set_prev h x 0.

(** ilist_node.h:173-182. *)
Definition insert_before (h : heap) (x pos : N) : outcome heap :=
  s <- get_sentinel h x; _ <- require (negb s);
  i <- is_in_a_list h pos; _ <- require i;
  i <- is_in_a_list h x;
  h <- (if i then remove_from_list h x else Done h);
  h <- set_next h x pos;
  p <- get_prev h pos;
  h <- set_prev h x p;
  h <- set_prev h pos x;
  p <- get_prev h x;
  set_next h p x.

(** ilist_node.h:185-198. *)
Definition insert_after (h : heap) (x pos : N) : outcome heap :=
  s <- get_sentinel h x; _ <- require (negb s);
  i <- is_in_a_list h pos; _ <- require i;
  _ <- require (negb (x =? pos));
  i <- is_in_a_list h x;
  h <- (if i then remove_from_list h x else Done h);
  h <- set_prev h x pos;
  n <- get_next h pos;
  h <- set_next h x n;
  h <- set_next h pos x;
  n <- get_next h x;
  set_prev h n x.

(** ilist_node.h:251-260. *)
Definition is_empty_list (h : heap) (x : N) : outcome bool :=
  n <- get_next h x;
  if n =? x then
    s <- get_sentinel h x; _ <- require s;
    p <- get_prev h x; _ <- require (p =? x);
    Done true
  else Done false.

(** ilist_node.h:213-248. *)
Definition replace_with (h : heap) (x target : N) : outcome heap :=
  s <- get_sentinel h x;
  _ <- (if s then e <- is_empty_list h target; require e
        else i <- is_in_a_list h x; _ <- require i; ts <- get_sentinel h target; require (negb ts));
  e <- is_empty_list h x;
  if e then Done h else
    n <- get_next h x; h <- set_next h target n;
    p <- get_prev h x; h <- set_prev h target p;
    n <- get_next h target; h <- set_prev h n target;
    p <- get_prev h target; h <- set_next h p target;
    if s then h <- set_next h x x; set_prev h x x
    else h <- set_next h x 0; set_prev h x 0.

(** ilist.h:209-213, the default constructor of a list with its sentinel at [s]. *)
Definition new_list (h : heap) (s : N) : outcome heap :=
  h <- set_next h s s; h <- set_prev h s s; set_sentinel h s true.
(** ilist.h:216-221, constructing the list at [s] from the one at [from]. *)
Definition move_construct (h : heap) (s from : N) : outcome heap :=
  h <- set_next h s s; h <- set_prev h s s; h <- set_sentinel h s true; replace_with h from s.
(** ilist.h:229-233. *)
Definition move_assign (h : heap) (s from : N) : outcome heap := replace_with h from s.
(** ilist.h:272-274. *)
Definition push_back (h : heap) (s x : N) : outcome heap := insert_before h x s.
(** ilist.h:277-279. *)
Definition list_empty (h : heap) (s : N) : outcome bool := n <- next_node h s; Done (n =? 0).
(** ilist.h:289-293; asserts that the list is not empty. *)
Definition front (h : heap) (s : N) : outcome N := n <- next_node h s; _ <- require (negb (n =? 0)); Done n.
(** ilist.h:296-300. *)
Definition back (h : heap) (s : N) : outcome N := n <- previous_node h s; _ <- require (negb (n =? 0)); Done n.
(** ilist.h:282-286. *)
Fixpoint clear (fuel : nat) (h : heap) (s : N) : outcome heap :=
  match fuel with
  | O => OutOfFuel
  | S fuel => e <- list_empty h s; if e then Done h else f <- front h s; h <- remove_from_list h f; clear fuel h s
  end.

(** ilist.h:107-123, MoveBefore of an iterator at [pos]. *)
Definition move_before (h : heap) (pos s : N) : outcome heap :=
  e <- list_empty h s;
  if e then Done h else
    first <- get_next h s; last <- get_prev h s;
    p <- get_prev h pos; h <- set_next h p first;
    p <- get_prev h pos; h <- set_prev h first p;
    h <- set_next h last pos; h <- set_prev h pos last;
    h <- set_next h s s; set_prev h s s.

(** ilist.h:317-337, Splice into the list at [s]. *)
Definition splice (h : heap) (s where_ other first last : N) : outcome heap :=
  if first =? last then Done h else
  if other =? s then Done h else
    first_prev <- get_prev h first; where_next <- get_next h where_;
    h <- set_next h where_ first; h <- set_prev h first where_;
    lp <- get_prev h last; h <- set_prev h where_next lp;
    lp <- get_prev h last; h <- set_next h lp where_next;
    h <- set_next h first_prev last; set_prev h last first_prev.

(** Iterating over the list, ilist.h:76-84, 236-245: from begin() to end(), and from end() back. *)
Fixpoint forward_from (fuel : nat) (h : heap) (s p : N) : outcome (list N) :=
  match fuel with
  | O => OutOfFuel
  | S fuel => if p =? s then Done [] else n <- get_next h p; r <- forward_from fuel h s n; Done (p :: r)
  end.
Definition forward (fuel : nat) (h : heap) (s : N) : outcome (list N) := b <- get_next h s; forward_from fuel h s b.
Fixpoint backward_from (fuel : nat) (h : heap) (s p : N) : outcome (list N) :=
  match fuel with
  | O => OutOfFuel
  | S fuel => if p =? s then Done [] else n <- get_prev h p; r <- backward_from fuel h s n; Done (p :: r)
  end.
Definition backward (fuel : nat) (h : heap) (s : N) : outcome (list N) := b <- get_prev h s; backward_from fuel h s b.

(** The operations, as calls. *)
Inductive call :=
| NewList (s : N) | MoveConstruct (s from : N) | MoveAssign (s from : N) | InsertBefore (x pos : N) | InsertAfter (x pos : N)
| Remove (x : N) | ReplaceNode (x target : N) | PushBack (s x : N) | Clear (s : N) | MoveBefore (pos s : N)
| Splice (s where_ other first last : N).
Definition perform (fuel : nat) (h : heap) (c : call) : outcome heap :=
  match c with
  | NewList s => new_list h s
  | MoveConstruct s from => move_construct h s from
  | MoveAssign s from => move_assign h s from
  | InsertBefore x pos => insert_before h x pos
  | InsertAfter x pos => insert_after h x pos
  | Remove x => remove_from_list h x
  | ReplaceNode x target => replace_with h x target
  | PushBack s x => push_back h s x
  | Clear s => clear fuel h s
  | MoveBefore pos s => move_before h pos s
  | Splice s where_ other first last => splice h s where_ other first last
  end.
Fixpoint perform_all (fuel : nat) (h : heap) (cs : list call) : outcome heap :=
  match cs with [] => Done h | c :: cs => h <- perform fuel h c; perform_all fuel h cs end.
