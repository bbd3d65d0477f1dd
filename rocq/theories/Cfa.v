(** Model of the control-flow analyses of source/cfa.h.

    A block is represented by its numeric id.  cfa.h keys some of its tables by
    the block pointer and some by [block->id()]; the model identifies the two, so
    it covers callers whose blocks have pairwise different ids (the validator and
    the optimizer both do).  [succ] and [pred] model the [get_blocks_func]
    arguments; they are pure functions, as the header requires the returned
    vectors to stay unchanged during the algorithm. *)
From Verif Require Import Base NamedIds.

(** The calls DepthFirstTraversal makes: preorder(b), postorder(b), backedge(a,b). *)
Inductive event := Pre (b : N) | Post (b : N) | Back (a b : N).

(** cfa.h:157-163 FindInWorkList. The work list is kept with its back() first. *)
Definition find_in_work_list (work : list (N * list N)) (id : N) : bool :=
  existsb (fun w => N.eqb (fst w) id) work.

(** cfa.h:198-216, the loop of DepthFirstTraversal.  A work-list entry pairs a block
    with the successors its iterator has not passed yet.  The result lists the
    calls made, in order; [None] means the fuel ran out (shown impossible for the
    fuel that [depth_first_traversal] supplies).  [backedge] says whether the
    backedge function was supplied.
    Simplification: [processed] is a list instead of a hash set. *)
Fixpoint dfs_loop (succ : N -> list N) (terminal : N -> bool) (backedge : bool)
    (fuel : nat) (processed : list N) (work : list (N * list N)) : option (list event) :=
  match fuel with
  | O => None
  | S fuel =>
      match work with
      | [] => Some []
      | (top, iter) :: below =>
          if terminal top then
            option_map (cons (Post top)) (dfs_loop succ terminal backedge fuel processed below)
          else
            match iter with
            | [] => option_map (cons (Post top)) (dfs_loop succ terminal backedge fuel processed below)
            | child :: iter' =>
                let back := if backedge && find_in_work_list work child then [Back top child] else [] in
                if mem child processed then
                  option_map (app back)
                    (dfs_loop succ terminal backedge fuel processed ((top, iter') :: below))
                else
                  option_map (app (back ++ [Pre child]))
                    (dfs_loop succ terminal backedge fuel (child :: processed)
                       ((child, succ child) :: (top, iter') :: below))
            end
      end
  end.

(** cfa.h:176-217 DepthFirstTraversal. *)
Definition depth_first_traversal (succ : N -> list N) (terminal : N -> bool) (backedge : bool)
    (fuel : nat) (entry : N) : option (list event) :=
  option_map (cons (Pre entry))
    (dfs_loop succ terminal backedge fuel [entry] [(entry, succ entry)]).

(** A number of loop iterations that is enough for a graph with the given blocks. *)
Definition dfs_fuel (succ : N -> list N) (blocks : list N) : nat :=
  2 + list_sum (map (fun b => 2 + length (succ b)) blocks).

(** The blocks in the order of the preorder and postorder calls (what callers
    collect, e.g. validate_cfg.cpp:1039-1042, dominator_tree.cpp:285-288). *)
Definition pre_blocks (tr : list event) : list N :=
  flat_map (fun e => match e with Pre b => [b] | _ => [] end) tr.
Definition post_blocks (tr : list event) : list N :=
  flat_map (fun e => match e with Post b => [b] | _ => [] end) tr.

(** Position of a block in the postorder vector: the map [idoms] of cfa.h:228-231,
    with [idoms.count(b)] being [index_of b <> None].
    Simplification: a block occurring twice would have its last index in the code
    and its first here; postorder vectors have no duplicates. *)
Fixpoint index_of (l : list N) (b : N) : option nat :=
  match l with
  | [] => None
  | x :: t => if N.eqb x b then Some 0 else option_map S (index_of t b)
  end.

(** The dominator field of each postorder index (cfa.h:222-225); [None] models
    [undefined_dom]. *)
Definition doms := list (option nat).

Definition get_dom (d : doms) (i : nat) : option nat :=
  match nth_error d i with Some (Some j) => Some j | _ => None end.

(** cfa.h:261-263 (and 264-266): while (finger < bound) finger = idoms[postorder[finger]].dominator.
    Following an undefined dominator would index postorder out of range: [None].
    Running out of fuel is [None] as well; both are shown not to happen. *)
Fixpoint climb (d : doms) (fuel : nat) (finger bound : nat) : option nat :=
  match fuel with
  | O => None
  | S fuel =>
      if finger <? bound then
        match get_dom d finger with
        | Some j => climb d fuel j bound
        | None => None
        end
      else Some finger
  end.

(** cfa.h:258-268, the walk of the two fingers to their meeting point. *)
Fixpoint intersect (d : doms) (fuel : nat) (finger1 finger2 : nat) : option nat :=
  match fuel with
  | O => None
  | S fuel' =>
      if finger1 =? finger2 then Some finger1
      else
        match climb d (S (length d)) finger1 finger2 with
        | None => None
        | Some f1 =>
            match climb d (S (length d)) finger2 f1 with
            | None => None
            | Some f2 => intersect d fuel' f1 f2
            end
        end
  end.

(** cfa.h:251-270: meet with all other predecessors. *)
Fixpoint meet_preds (po : list N) (d : doms) (idom : N) (preds : list N) (idom_idx : nat) : option nat :=
  match preds with
  | [] => Some idom_idx
  | p :: rest =>
      if N.eqb idom p then meet_preds po d idom rest idom_idx
      else
        match index_of po p with
        | None => meet_preds po d idom rest idom_idx
        | Some ip =>
            match get_dom d ip with
            | None => meet_preds po d idom rest idom_idx
            | Some _ =>
                match intersect d (S (length d)) ip idom_idx with
                | None => None
                | Some m => meet_preds po d idom rest m
                end
            end
        end
  end.

(** cfa.h:241-245: the first predecessor that has been processed. *)
Fixpoint first_processed (po : list N) (d : doms) (preds : list N) : option (N * nat) :=
  match preds with
  | [] => None
  | p :: rest =>
      match index_of po p with
      | Some ip => match get_dom d ip with
                   | Some _ => Some (p, ip)
                   | None => first_processed po d rest
                   end
      | None => first_processed po d rest
      end
  end.

(** cfa.h:238-274: one block of the inner loop, [i] being its postorder index.
    Returns the new table and whether it changed. *)
Definition update_block (pred : N -> list N) (po : list N) (d : doms) (i : nat) : option (doms * bool) :=
  match nth_error po i with
  | None => None
  | Some b =>
      match first_processed po d (pred b) with
      | None => Some (d, false)
      | Some (idom, idx) =>
          match meet_preds po d idom (pred b) idx with
          | None => None
          | Some new =>
              match get_dom d i with
              | Some old => if old =? new then Some (d, false)
                            else Some (update_nth d i (Some new), true)
              | None => Some (update_nth d i (Some new), true)
              end
          end
      end
  end.

(** cfa.h:237-275: blocks of index i-1, ..., 0, i.e. postorder.rbegin()+1 onwards
    when i is the number of blocks minus one. *)
Fixpoint dom_pass (pred : N -> list N) (po : list N) (i : nat) (d : doms) (changed : bool) : option (doms * bool) :=
  match i with
  | O => Some (d, changed)
  | S j =>
      match update_block pred po d j with
      | None => None
      | Some (d', c) => dom_pass pred po j d' (changed || c)
      end
  end.

(** cfa.h:234-276: repeat until nothing changes. *)
Fixpoint dom_loop (pred : N -> list N) (po : list N) (fuel : nat) (d : doms) : option doms :=
  match fuel with
  | O => None
  | S fuel =>
      match dom_pass pred po (length po - 1) d false with
      | None => None
      | Some (d', true) => dom_loop pred po fuel d'
      | Some (d', false) => Some d'
      end
  end.

(** cfa.h:219-308 CalculateDominators.  [None] is undefined behaviour (empty
    postorder, out-of-range finger) or lack of fuel.
    Simplification: the code iterates a hash map and then sorts by postorder index;
    as indices are unique the result is the edges in index order. *)
Definition calculate_dominators (po : list N) (pred : N -> list N) (fuel : nat) : option (list (N * N)) :=
  match length po with
  | O => None
  | S last =>
      match dom_loop pred po fuel (repeat None last ++ [Some last]) with
      | None => None
      | Some d =>
          Some (map (fun i => (nth i po 0%N,
                               nth (match get_dom d i with Some j => j | None => i end) po 0%N))
                    (seq 0 (length po)))
      end
  end.

(** A number of passes that is enough. *)
Definition dom_fuel (po : list N) : nat := 2 + length po.

(** cfa.h:310-347 TraversalRoots.  [visited] accumulates the blocks of each
    traversal; [None] is lack of fuel in a traversal. The assertion of line 332 is
    not modelled as a failure (it is compiled out of release builds). *)
Fixpoint roots_where (succ : N -> list N) (fuel : nat) (cond : list N -> N -> bool)
    (blocks visited : list N) : option (list N * list N) :=
  match blocks with
  | [] => Some ([], visited)
  | b :: rest =>
      if cond visited b then
        match depth_first_traversal succ (fun _ => false) false fuel b with
        | None => None
        | Some tr =>
            match roots_where succ fuel cond rest (pre_blocks tr ++ visited) with
            | None => None
            | Some (result, v) => Some (b :: result, v)
            end
        end
      else roots_where succ fuel cond rest visited
  end.

Definition traversal_roots (succ pred : N -> list N) (fuel : nat) (blocks : list N) : option (list N) :=
  match roots_where succ fuel (fun _ b => match pred b with [] => true | _ => false end) blocks [] with
  | None => None
  | Some (r1, visited) =>
      match roots_where succ fuel (fun v b => negb (mem b v)) blocks visited with
      | None => None
      | Some (r2, _) => Some (r1 ++ r2)
      end
  end.

(** cfa.h:349-394 ComputeAugmentedCFG, starting from empty augmented maps, together
    with the functions of val/function.cpp that read the maps
    (AugmentedCFGSuccessorsFunction: the entry of the map if there is one, the
    block's own successors otherwise; same for predecessors). *)
Record augmented := { aug_succ : N -> list N; aug_pred : N -> list N }.

Definition compute_augmented_cfg (succ pred : N -> list N) (fuel : nat)
    (ordered_blocks : list N) (pseudo_entry pseudo_exit : N) : option augmented :=
  match traversal_roots succ pred fuel ordered_blocks,
        traversal_roots pred succ fuel (rev ordered_blocks) with
  | Some sources, Some sinks =>
      Some {| aug_succ := fun b => if mem b sinks then pseudo_exit :: succ b
                                   else if N.eqb b pseudo_entry then sources
                                   else succ b;
              aug_pred := fun b => if N.eqb b pseudo_exit then sinks
                                   else if mem b sources then pseudo_entry :: pred b
                                   else pred b |}
  | _, _ => None
  end.
