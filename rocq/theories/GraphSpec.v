(** Vocabulary for graphs: paths, reachability, dominance.  Independent of the
    model of cfa.h. *)
From Verif Require Import Base.

(** [path succ a b l]: [l] is the sequence of blocks of a path from [a] to [b],
    both included. *)
Inductive path (succ : N -> list N) (a : N) : N -> list N -> Prop :=
| path_here : path succ a a [a]
| path_step b c l : path succ a b l -> In c (succ b) -> path succ a c (l ++ [c]).

Definition reachable (succ : N -> list N) (a b : N) : Prop := exists l, path succ a b l.

(** Reachable without going on from a block at which the search stops. *)
Inductive reachable_until (succ : N -> list N) (stop : N -> bool) (a : N) : N -> Prop :=
| ru_here : reachable_until succ stop a a
| ru_step b c : reachable_until succ stop a b -> stop b = false -> In c (succ b) ->
    reachable_until succ stop a c.

(** A finite graph: [blocks] lists every block an edge can lead to. *)
Definition closed_graph (succ : N -> list N) (blocks : list N) : Prop :=
  forall b c, In b blocks -> In c (succ b) -> In c blocks.

(** [a] dominates [b] (from [root]): every path from the root to [b] meets [a]. *)
Definition dominates (succ : N -> list N) (root a b : N) : Prop :=
  forall l, path succ root b l -> In a l.

(** [a] is the immediate dominator of [b]: a strict dominator of [b] that all
    strict dominators of [b] dominate. *)
Definition immediate_dominator (succ : N -> list N) (root a b : N) : Prop :=
  a <> b /\ dominates succ root a b /\
  forall c, c <> b -> dominates succ root c b -> dominates succ root c a.

(** [pred] lists exactly the sources of the edges of [succ] among [blocks]. *)
Definition inverse_edges (succ pred : N -> list N) (blocks : list N) : Prop :=
  forall a b, In a blocks -> In b blocks -> (In a (pred b) <-> In b (succ a)).

(** Following the pairs (block, parent) of a list upwards from [b] leads to [a]. *)
Inductive up_chain (parents : list (N * N)) : N -> N -> Prop :=
| uc_here b : up_chain parents b b
| uc_up b p a : In (b, p) parents -> p <> b -> up_chain parents p a -> up_chain parents b a.
