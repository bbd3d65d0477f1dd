(** Model of source/opt/dominator_tree.cpp: building the optimizer's dominator or
    postdominator tree and answering dominance queries.

    A function is the list of its blocks, each given by its label id and the label
    ids its terminator branches to (BasicBlock::ForEachSuccessorLabel). *)
From Verif Require Import Base NamedIds Cfa.

Definition function := list (N * list N).

(** dominator_tree.cpp:158-203 CreateSuccessorMap: the edges pushed, in order.
    [start] is the placeholder node.  Simplification: labels stand for the blocks
    get_instr_block returns, so a branch to a label without block is not modelled. *)
Definition successor_edges (f : function) (start : N) (invert : bool) : list (N * N) :=
  if invert then
    flat_map (fun bb => match snd bb with
                        | [] => [(start, fst bb)]
                        | succs => map (fun s => (s, fst bb)) succs
                        end) f
  else
    match f with
    | [] => []
    | entry :: _ => [(start, fst entry)]
    end ++ flat_map (fun bb => map (fun s => (fst bb, s)) (snd bb)) f.

(** dominator_tree.cpp:120-133 GetPredFunctor, GetSuccessorFunctor. *)
Definition successors_of (edges : list (N * N)) (b : N) : list N :=
  map snd (filter (fun e => N.eqb (fst e) b) edges).
Definition predecessors_of (edges : list (N * N)) (b : N) : list N :=
  map fst (filter (fun e => N.eqb (snd e) b) edges).

(** Node of the tree (dominator_tree.h): map from label id to parent and children. *)
Record tree := {
  tree_nodes : list N;
  tree_parents : list (N * N);      (* child, parent *)
  tree_roots : list N }.

(** dominator_tree.cpp:330-343, the loop over the dominator edges. *)
Definition insert_node (b : N) (l : list N) : list N := if mem b l then l else l ++ [b].

Fixpoint build_tree (edges : list (N * N)) (t : tree) : tree :=
  match edges with
  | [] => t
  | (first, second) :: rest =>
      if N.eqb first second then
        build_tree rest {| tree_nodes := insert_node first (tree_nodes t);
                           tree_parents := tree_parents t;
                           tree_roots := insert_node first (tree_roots t) |}
      else
        build_tree rest {| tree_nodes := insert_node second (insert_node first (tree_nodes t));
                           tree_parents := tree_parents t ++ [(first, second)];
                           tree_roots := tree_roots t |}
  end.

Definition children_of (t : tree) (b : N) : list N := predecessors_of (tree_parents t) b.

(** dominator_tree.cpp:250-262 ImmediateDominator: the parent of a node, if any.
    The code overwrites parent_; the last assignment wins. *)
Definition parent_of (t : tree) (b : N) : option N :=
  match rev (successors_of (tree_parents t) b) with
  | p :: _ => Some p
  | [] => None
  end.

(** dominator_tree.cpp:347-360 ResetDFNumbering: [index] is incremented by every
    preorder and postorder call, so the number given at a call is its position in
    the sequence of all calls, counted from 1. *)
Fixpoint dfs_calls (t : tree) (fuel : nat) (roots : list N) : option (list event) :=
  match roots with
  | [] => Some []
  | r :: rest =>
      match depth_first_traversal (children_of t) (fun _ => false) false fuel r, dfs_calls t fuel rest with
      | Some tr, Some tr' => Some (tr ++ tr')
      | _, _ => None
      end
  end.

Definition event_eqb (a b : event) : bool :=
  match a, b with
  | Pre x, Pre y => N.eqb x y
  | Post x, Post y => N.eqb x y
  | Back x x', Back y y' => N.eqb x y && N.eqb x' y'
  | _, _ => false
  end.

Fixpoint number_of (calls : list event) (index : Z) (e : event) (default : Z) : Z :=
  match calls with
  | [] => default
  | c :: rest => if event_eqb c e then number_of rest (index + 1)%Z e (index + 1)%Z
                 else number_of rest (index + 1)%Z e default
  end.

Definition dfs_num_pre (calls : list event) (b : N) : Z := number_of calls 0 (Pre b) (-1).
Definition dfs_num_post (calls : list event) (b : N) : Z := number_of calls 0 (Post b) (-1).

(** dominator_tree.cpp:313-345 InitializeTree. *)
Record dominator_tree := { dt_tree : tree; dt_calls : list event }.

Definition initialize_tree (f : function) (start : N) (post : bool) : option dominator_tree :=
  match f with
  | [] => Some {| dt_tree := {| tree_nodes := []; tree_parents := []; tree_roots := [] |}; dt_calls := [] |}
  | _ =>
      let edges := successor_edges f start post in
      let blocks := start :: map fst f in
      match depth_first_traversal (successors_of edges) (fun _ => false) false
              (dfs_fuel (successors_of edges) blocks) start with
      | None => None
      | Some tr =>
          match calculate_dominators (post_blocks tr) (predecessors_of edges) (dom_fuel (post_blocks tr)) with
          | None => None
          | Some dom_edges =>
              let t := build_tree dom_edges {| tree_nodes := []; tree_parents := []; tree_roots := [] |} in
              match dfs_calls t (dfs_fuel (children_of t) (tree_nodes t)) (tree_roots t) with
              | None => None
              | Some calls => Some {| dt_tree := t; dt_calls := calls |}
              end
          end
      end
  end.

(** dominator_tree.cpp:223-240 Dominates(uint32_t, uint32_t). *)
Definition tree_dominates (dt : dominator_tree) (a b : N) : bool :=
  if negb (mem a (tree_nodes (dt_tree dt))) || negb (mem b (tree_nodes (dt_tree dt))) then false
  else if N.eqb a b then true
  else (dfs_num_pre (dt_calls dt) a <? dfs_num_pre (dt_calls dt) b)%Z &&
       (dfs_num_post (dt_calls dt) b <? dfs_num_post (dt_calls dt) a)%Z.

(** dominator_tree.cpp:207-210 StrictlyDominates. *)
Definition tree_strictly_dominates (dt : dominator_tree) (a b : N) : bool :=
  if N.eqb a b then false else tree_dominates dt a b.

(** dominator_tree.cpp:250-262 ImmediateDominator. *)
Definition tree_immediate_dominator (dt : dominator_tree) (a : N) : option N :=
  if mem a (tree_nodes (dt_tree dt)) then parent_of (dt_tree dt) a else None.
