(** Properties C17-C19 and C36: traversals and dominators. *)
From Verif Require Import Base NamedIds NamedIdsProofs Cfa GraphSpec DfsSpec CfaProofs DominatorProofs
  DfsDominators AugmentedProofs DominatorTree DominatorTreeProofs CfgSpec.
Local Open Scope N_scope.

(** Graphs for the examples: an irreducible graph (1 -> 2, 3; 2 <-> 3; 3 -> 4; 4 -> 1), and
    blocks 5 <-> 6 with a self loop on 6, unreachable from 1. *)
Definition g_succ (b : N) : list N :=
  match b with 1 => [2; 3] | 2 => [3] | 3 => [2; 4] | 4 => [1] | 5 => [6] | 6 => [5; 6] | _ => [] end.
Definition g_pred (b : N) : list N :=
  match b with 1 => [4] | 2 => [1; 3] | 3 => [1; 2] | 4 => [3] | 5 => [6] | 6 => [5; 6] | _ => [] end.
Definition g_blocks : list N := [1; 2; 3; 4; 5; 6].

Lemma g_closed : closed_graph g_succ g_blocks.
Proof. intros b c Hb Hc. unfold g_blocks in *. simpl in *. repeat destruct Hb as [<-|Hb]; simpl in Hc; tauto. Qed.
Lemma g_closed_pred : closed_graph g_pred g_blocks.
Proof. intros b c Hb Hc. unfold g_blocks in *. simpl in *. repeat destruct Hb as [<-|Hb]; simpl in Hc; tauto. Qed.
Lemma g_inverse : inverse_edges g_succ g_pred g_blocks.
Proof.
  intros a b Ha Hb. unfold g_blocks in *. simpl in Ha, Hb.
  repeat destruct Ha as [<-|Ha]; try contradiction;
    (repeat destruct Hb as [<-|Hb]; try contradiction; simpl;
     (split; intros H; repeat destruct H as [H|H]; try discriminate H; try contradiction; auto)).
Qed.

(** *** C17 *)
(** The traversal terminates; the blocks it reports, in preorder and in postorder, are the blocks
    reachable through non-terminal blocks, each once. *)
Theorem traversal_reports_reachable_once : forall succ terminal backedge blocks entry,
  closed_graph succ blocks -> In entry blocks ->
  exists tr, depth_first_traversal succ terminal backedge (dfs_fuel succ blocks) entry = Some tr /\
    NoDup (pre_blocks tr) /\ NoDup (post_blocks tr) /\
    (forall b, In b (pre_blocks tr) <-> reachable_until succ terminal entry b) /\
    (forall b, In b (post_blocks tr) <-> reachable_until succ terminal entry b).
Proof.
  intros succ terminal backedge V entry Cl Hin.
  destruct (traversal_run succ terminal backedge V entry Cl Hin) as [tr [P [k [R E]]]].
  exists tr. split; auto.
  destruct (proj1 (reported_once _ _ _) _ _ _ _ _ _ R (fun x => x)) as [N1 N2].
  destruct (proj1 (blocks_reported _ _ _) _ _ _ _ _ _ R (fun x => x)) as [B1 B2].
  split; auto. split; auto.
  assert (H : forall b, In b P <-> reachable_until succ terminal entry b).
  { intros b. split.
    - eapply (proj1 (reported_reachable _ _ _ entry)); eauto; [constructor|intros x []].
    - eapply reachable_reported; eauto. }
  split; intros b; rewrite ?B1, ?B2, H; simpl; tauto.
Qed.

(** Preorder and postorder calls nest; a block other than the entry is discovered from the
    innermost open block along one of its edges; when a block is closed each of its successors has
    been closed or is still open; and for each block the reported back edges are, in order, exactly
    its edges to a block that is open while it is open (itself included). *)
Theorem traversal_order : forall succ terminal backedge blocks entry tr,
  closed_graph succ blocks -> In entry blocks ->
  depth_first_traversal succ terminal backedge (dfs_fuel succ blocks) entry = Some tr ->
  stack_after [] tr = Some [] /\
  (forall l b r, tr = l ++ Pre b :: r ->
     exists s, stack_after [] l = Some s /\
       ((s = [] /\ b = entry) \/ exists p s', s = p :: s' /\ terminal p = false /\ In b (succ p)) /\
       (forall c, In c (back_targets b tr) <->
          backedge = true /\ terminal b = false /\ In c (succ b) /\ In c (b :: s)) /\
       (backedge = true -> terminal b = false ->
          back_targets b tr = filter (fun c => mem c (b :: s)) (succ b))) /\
  (forall l b r, tr = l ++ Post b :: r -> terminal b = false ->
     forall c, In c (succ b) ->
       In c (post_blocks l) \/ exists s, stack_after [] l = Some s /\ In c s).
Proof.
  intros succ terminal backedge V entry tr Cl Hin E.
  destruct (traversal_run succ terminal backedge V entry Cl Hin) as [tr' [P [k [R E']]]].
  assert (tr' = tr) as -> by congruence.
  split; [eapply (proj1 (stack_ok _ _ _)); eauto|]. split.
  - intros l b r Etr.
    destruct (proj1 (tree_edges _ _ _) _ _ _ _ _ _ R (fun x H => match H with end) _ _ _ Etr) as [s [S H]].
    destruct (proj1 (back_targets_exact _ _ _) _ _ _ _ _ _ R (fun x => x) (fun x H => match H with end) _ _ _ Etr)
      as [s2 [S2 B]].
    assert (s2 = s) as -> by congruence.
    exists s. split; auto. split; [|split].
    + destruct H as [[-> ->]|H]; auto. left. simpl in S. split; congruence.
    + intros c. rewrite B. destruct (terminal b).
      * split; [intros []|]. intros [_ [X _]]; discriminate.
      * rewrite filter_In, andb_true_iff, mem_In. tauto.
    + intros -> T. rewrite B, T. reflexivity.
  - intros l b r Etr T c Hc.
    destruct (proj1 (successors_done _ _ _) _ _ _ _ _ _ R (fun x => x) _ _ _ Etr T c Hc) as [H|[H|[]]]; auto.
Qed.
(** Every back edge is reported by the block being left: between the opening and the closing of that
    block; and the successors not open at the closing of a block come before it in postorder. *)
Example traversal_example :
  depth_first_traversal g_succ (fun _ => false) true (dfs_fuel g_succ g_blocks) 1 =
    Some [Pre 1; Pre 2; Pre 3; Back 3 2; Pre 4; Back 4 1; Post 4; Post 3; Post 2; Post 1] /\
  depth_first_traversal g_succ (fun b => N.eqb b 3) true (dfs_fuel g_succ g_blocks) 1 =
    Some [Pre 1; Pre 2; Pre 3; Post 3; Post 2; Post 1] /\
  closed_graph g_succ g_blocks.
Proof. split; [|split]; [vm_compute; reflexivity|vm_compute; reflexivity|exact g_closed]. Qed.

(** *** C18 *)
(** The pairs (block, immediate dominator) computed from the postorder of a traversal: one pair per
    reachable block; the second component is the immediate dominator (the root for the root), and
    climbing the pairs from b meets exactly the dominators of b. *)
Theorem dominators_exact : forall succ pred root blocks backedge,
  closed_graph succ blocks -> In root blocks -> inverse_edges succ pred blocks ->
  exists tr edges,
    depth_first_traversal succ (fun _ => false) backedge (dfs_fuel succ blocks) root = Some tr /\
    calculate_dominators (post_blocks tr) pred (dom_fuel (post_blocks tr)) = Some edges /\
    map fst edges = post_blocks tr /\ NoDup (map fst edges) /\
    (forall b, In b (map fst edges) <-> reachable succ root b) /\
    (forall b a, In (b, a) edges ->
       (b = root /\ a = root) \/ (b <> root /\ immediate_dominator succ root a b)) /\
    (forall b a, reachable succ root b -> (up_chain edges b a <-> dominates succ root a b)).
Proof. exact traversal_dominators. Qed.
Example dominators_example :
  calculate_dominators [4; 3; 2; 1] g_pred (dom_fuel [4; 3; 2; 1]) = Some [(4, 3); (3, 1); (2, 1); (1, 1)] /\
  closed_graph g_succ g_blocks /\ In 1 g_blocks /\ inverse_edges g_succ g_pred g_blocks.
Proof. split; [vm_compute; reflexivity|]. split; [exact g_closed|]. split; [left; reflexivity|exact g_inverse]. Qed.

(** *** C19 *)
Theorem augmented_cfg_rooted : forall succ pred blocks pseudo_entry pseudo_exit,
  closed_graph succ blocks -> closed_graph pred blocks -> inverse_edges succ pred blocks ->
  ~ In pseudo_entry blocks -> ~ In pseudo_exit blocks -> pseudo_entry <> pseudo_exit ->
  succ pseudo_entry = [] /\ pred pseudo_entry = [] /\ succ pseudo_exit = [] /\ pred pseudo_exit = [] ->
  exists g, compute_augmented_cfg succ pred (dfs_fuel succ blocks + dfs_fuel pred blocks)
              blocks pseudo_entry pseudo_exit = Some g /\
    (forall b, In b blocks -> reachable (aug_succ g) pseudo_entry b) /\
    (forall b, In b blocks -> reachable (aug_succ g) b pseudo_exit) /\
    (forall a b, In a (pseudo_entry :: pseudo_exit :: blocks) -> In b (pseudo_entry :: pseudo_exit :: blocks) ->
       (In b (aug_succ g a) <-> In a (aug_pred g b))) /\
    (forall a b, In a blocks -> In b (aug_succ g a) -> In b (succ a) \/ b = pseudo_exit) /\
    (forall a b, In a blocks -> In b (succ a) -> In b (aug_succ g a)) /\
    (forall b, In b (aug_succ g pseudo_entry) -> In b blocks) /\
    (forall b, In b (aug_pred g pseudo_exit) -> In b blocks) /\
    (aug_succ g pseudo_exit = [] /\ aug_pred g pseudo_entry = []) /\
    (forall b, In b blocks -> pred b = [] -> In b (aug_succ g pseudo_entry)) /\
    (forall b, In b blocks -> succ b = [] -> In pseudo_exit (aug_succ g b)).
Proof. intros. apply augmented_ok; auto. Qed.
Theorem traversal_roots_reach_all : forall succ pred blocks, closed_graph succ blocks ->
  exists roots, traversal_roots succ pred (dfs_fuel succ blocks) blocks = Some roots /\
    incl roots blocks /\
    (forall b, In b blocks -> exists r, In r roots /\ reachable succ r b) /\
    (forall b, In b blocks -> pred b = [] -> In b roots).
Proof. exact traversal_roots_cover. Qed.
(** cfa.h:135 calls the result a minimal set of roots.  It is not always minimal: of the two cycles
    1 <-> 2 and 3 <-> 4 with an edge from 3 to 1, both are given a root. *)
Theorem traversal_roots_minimal_refuted : exists succ pred blocks roots smaller,
  closed_graph succ blocks /\ inverse_edges succ pred blocks /\
  traversal_roots succ pred (dfs_fuel succ blocks) blocks = Some roots /\
  incl smaller roots /\ (length smaller < length roots)%nat /\
  forall b, In b blocks -> exists r, In r smaller /\ reachable succ r b.
Proof.
  exists (fun b => match b with 1 => [2] | 2 => [1] | 3 => [4; 1] | 4 => [3] | _ => [] end),
    (fun b => match b with 1 => [2; 3] | 2 => [1] | 3 => [4] | 4 => [3] | _ => [] end), [1; 2; 3; 4], [1; 3], [3].
  split; [|split; [|split; [|split; [|split]]]].
  - intros b c Hb Hc. simpl in Hb. repeat destruct Hb as [<-|Hb]; simpl in *; tauto.
  - intros a b Ha Hb. simpl in Ha, Hb. repeat destruct Ha as [<-|Ha]; try contradiction;
    (repeat destruct Hb as [<-|Hb]; try contradiction; simpl;
     (split; intros H; repeat destruct H as [H|H]; try discriminate H; try contradiction; auto)).
  - vm_compute. reflexivity.
  - intros x [<-|[]]. right; left; auto.
  - simpl. lia.
  - intros b Hb. exists 3. split; [left; auto|]. simpl in Hb.
    assert (R3 : forall s : N -> list N, reachable s 3 3) by (intros s; exists [3]; constructor).
    destruct Hb as [<-|[<-|[<-|[<-|[]]]]].
    + exists ([3] ++ [1]). eapply path_step; [constructor|simpl; auto].
    + exists (([3] ++ [1]) ++ [2]). eapply path_step; [eapply path_step; [constructor|simpl; auto]|simpl; auto].
    + apply R3.
    + exists ([3] ++ [4]). eapply path_step; [constructor|simpl; auto].
Qed.
Example augmented_example :
  option_map (fun g => map (fun b => (b, aug_succ g b)) (10 :: g_blocks))
    (compute_augmented_cfg g_succ g_pred (dfs_fuel g_succ g_blocks + dfs_fuel g_pred g_blocks) g_blocks 10 11) =
  Some [(10, [1; 5]); (1, [2; 3]); (2, [3]); (3, [2; 4]); (4, [11; 1]); (5, [6]); (6, [11; 5; 6])] /\
  closed_graph g_succ g_blocks /\ closed_graph g_pred g_blocks /\ inverse_edges g_succ g_pred g_blocks /\
  ~ In 10 g_blocks /\ ~ In 11 g_blocks.
Proof.
  split; [vm_compute; reflexivity|]. split; [exact g_closed|]. split; [exact g_closed_pred|]. split; [exact g_inverse|].
  split; unfold g_blocks; simpl; intuition discriminate.
Qed.

(** *** C36 *)
(** The dominator tree of a function: a query answers true exactly for blocks reachable from the
    entry such that every path from the entry to b meets a. *)
Theorem dominator_queries_exact : forall entry rest placeholder,
  well_formed (entry :: rest) placeholder ->
  exists dt, initialize_tree (entry :: rest) placeholder false = Some dt /\
    (forall a b, a <> placeholder -> b <> placeholder ->
       (tree_dominates dt a b = true <->
        reachable (cfg_succ (entry :: rest)) (fst entry) a /\
        reachable (cfg_succ (entry :: rest)) (fst entry) b /\
        dominates (cfg_succ (entry :: rest)) (fst entry) a b)) /\
    (forall b, b <> placeholder -> ~ reachable (cfg_succ (entry :: rest)) (fst entry) b ->
       tree_immediate_dominator dt b = None) /\
    tree_immediate_dominator dt (fst entry) = Some placeholder /\
    (forall b, reachable (cfg_succ (entry :: rest)) (fst entry) b -> b <> fst entry ->
       exists a, tree_immediate_dominator dt b = Some a /\
                 immediate_dominator (cfg_succ (entry :: rest)) (fst entry) a b).
Proof. exact forward_tree_ok. Qed.
(** The postdominator tree: true exactly for blocks that can leave the function such that every way
    from b out of the function meets a. *)
Theorem postdominator_queries_exact : forall entry rest placeholder,
  well_formed (entry :: rest) placeholder ->
  exists dt, initialize_tree (entry :: rest) placeholder true = Some dt /\
    (forall a b, a <> placeholder -> b <> placeholder ->
       (tree_dominates dt a b = true <->
        can_exit (entry :: rest) a /\ can_exit (entry :: rest) b /\ post_dominates (entry :: rest) a b)).
Proof. exact backward_tree_ok. Qed.
Theorem strict_dominance : forall dt a b,
  tree_strictly_dominates dt a b = true <-> a <> b /\ tree_dominates dt a b = true.
Proof.
  intros dt a b. unfold tree_strictly_dominates. destruct (N.eqb a b) eqn:Q.
  - apply N.eqb_eq in Q. split; [discriminate|tauto].
  - apply N.eqb_neq in Q. tauto.
Qed.
(** A loop 2 -> 3 -> 2 with exit 3 -> 4, a branch 1 -> 2, 5, and an unreachable block 6. *)
Definition f_example : function := [(1, [2; 5]); (2, [3]); (3, [2; 4]); (4, []); (5, [4]); (6, [4])].
Example dominator_tree_example :
  well_formed f_example 100 /\
  option_map (fun dt => (map (fun b => tree_immediate_dominator dt b) [1; 2; 3; 4; 5; 6],
                         (tree_dominates dt 2 3, tree_dominates dt 3 4, tree_dominates dt 6 4)))
    (initialize_tree f_example 100 false) =
  Some ([Some 100; Some 1; Some 2; Some 1; Some 1; None], (true, false, false)) /\
  option_map (fun dt => (tree_dominates dt 3 2, tree_dominates dt 4 1, tree_dominates dt 2 1))
    (initialize_tree f_example 100 true) = Some (true, true, false).
Proof.
  split; [|split; vm_compute; reflexivity].
  split; [|split].
  - simpl. repeat constructor; simpl; intuition discriminate.
  - simpl. intuition discriminate.
  - intros bb s Hb Hs. simpl in Hb. repeat destruct Hb as [<-|Hb]; simpl in *; tauto.
Qed.

Print Assumptions traversal_reports_reachable_once.
Print Assumptions traversal_order.
Print Assumptions dominators_exact.
Print Assumptions augmented_cfg_rooted.
Print Assumptions traversal_roots_reach_all.
Print Assumptions traversal_roots_minimal_refuted.
Print Assumptions dominator_queries_exact.
Print Assumptions postdominator_queries_exact.
Print Assumptions strict_dominance.
