From Verif Require Import Base NamedIds NamedIdsProofs Cfa GraphSpec DfsSpec CfaProofs DominatorProofs
  DfsDominators AugmentedProofs DominatorTree NestingProofs CfgSpec.

Lemma in_successors edges a b : In b (successors_of edges a) <-> In (a, b) edges.
Proof.
  unfold successors_of. rewrite in_map_iff. split.
  - intros [[x y] [E H]]. apply filter_In in H. destruct H as [H Q]. simpl in *. apply N.eqb_eq in Q. congruence.
  - intros H. exists (a, b). split; auto. apply filter_In. split; auto. apply N.eqb_refl.
Qed.
Lemma in_predecessors edges a b : In a (predecessors_of edges b) <-> In (a, b) edges.
Proof.
  unfold predecessors_of. rewrite in_map_iff. split.
  - intros [[x y] [E H]]. apply filter_In in H. destruct H as [H Q]. simpl in *. apply N.eqb_eq in Q. congruence.
  - intros H. exists (a, b). split; auto. apply filter_In. split; auto. apply N.eqb_refl.
Qed.

Lemma insert_node_in b l x : In x (insert_node b l) <-> x = b \/ In x l.
Proof.
  unfold insert_node. destruct (mem b l) eqn:M.
  - apply mem_In in M. split; auto. intros [->|]; auto.
  - rewrite in_app_iff. simpl. intuition.
Qed.

Lemma build_tree_spec edges : forall t,
  (forall x, In x (tree_nodes (build_tree edges t)) <-> In x (tree_nodes t) \/ exists a b, In (a, b) edges /\ (x = a \/ x = b)) /\
  tree_parents (build_tree edges t) = tree_parents t ++ filter (fun e => negb (N.eqb (fst e) (snd e))) edges /\
  (forall x, In x (tree_roots (build_tree edges t)) <-> In x (tree_roots t) \/ In (x, x) edges) /\
  (NoDup (tree_roots t) -> NoDup (tree_roots (build_tree edges t))).
Proof.
  induction edges as [|[a b] edges IH]; intros t; cbn [build_tree].
  - simpl. rewrite app_nil_r. split; [|split; [|split]]; auto.
    + intros x. split; auto. intros [|[? [? [[] _]]]]; auto.
    + intros x; tauto.
  - destruct (N.eqb a b) eqn:Q.
    + apply N.eqb_eq in Q. subst b. match goal with |- context [build_tree edges ?u] => destruct (IH u) as [A [B [C D]]] end.
      cbn [tree_nodes tree_parents tree_roots] in *.
      split; [|split; [|split]].
      * intros x. rewrite A, insert_node_in. split.
        -- intros [[->|]|[u [v [H1 H2]]]]; auto.
           ++ right. exists a, a. split; auto. left; auto.
           ++ right. exists u, v. split; auto. right; auto.
        -- intros [|[u [v [[[= <- <-]|H1] H2]]]]; auto.
           ++ left. left. destruct H2; auto.
           ++ right. eauto.
      * rewrite B. simpl. rewrite N.eqb_refl. auto.
      * intros x. rewrite C, insert_node_in. simpl. split.
        -- intros [[->|]|]; auto.
        -- intros [|[[= ->]|]]; auto.
      * intros ND. apply D. unfold insert_node. destruct (mem a (tree_roots t)) eqn:M; auto.
        apply NoDup_snoc; auto. apply mem_false; auto.
    + match goal with |- context [build_tree edges ?u] => destruct (IH u) as [A [B [C D]]] end.
      cbn [tree_nodes tree_parents tree_roots] in *.
      split; [|split; [|split]]; auto.
      * intros x. rewrite A, !insert_node_in. split.
        -- intros [[->|[->|]]|[u [v [H1 H2]]]]; auto.
           ++ right. exists a, b. split; auto. left; auto.
           ++ right. exists a, b. split; auto. left; auto.
           ++ right. exists u, v. split; auto. right; auto.
        -- intros [|[u [v [[[= <- <-]|H1] H2]]]]; auto.
           ++ left. destruct H2; auto.
           ++ right. eauto.
      * rewrite B. simpl. rewrite Q. simpl. rewrite <- app_assoc. auto.
      * intros x. rewrite C. simpl. apply N.eqb_neq in Q. split; [intros [|]; auto|].
        intros [|[[= -> ->]|]]; auto. congruence.
Qed.

Section Tree.
Variables (edges : list (N * N)) (start : N) (blocks : list N).
Let succ := successors_of edges.
Let pred := predecessors_of edges.
Hypothesis CL : closed_graph succ blocks.
Hypothesis ST : In start blocks.

Definition tree_of_edges : option dominator_tree :=
  match depth_first_traversal succ (fun _ => false) false (dfs_fuel succ blocks) start with
  | None => None
  | Some tr =>
      match calculate_dominators (post_blocks tr) pred (dom_fuel (post_blocks tr)) with
      | None => None
      | Some dom_edges =>
          let t := build_tree dom_edges {| tree_nodes := []; tree_parents := []; tree_roots := [] |} in
          match dfs_calls t (dfs_fuel (children_of t) (tree_nodes t)) (tree_roots t) with
          | None => None
          | Some calls => Some {| dt_tree := t; dt_calls := calls |}
          end
      end
  end.

(** A stack whose blocks are linked by tree edges down to the root. *)
Fixpoint linked (kids : N -> list N) (s : list N) : Prop :=
  match s with
  | [] => True
  | x :: s' => match s' with [] => x = start | y :: _ => In x (kids y) end /\ linked kids s'
  end.

Lemma path_first s a b l : path s a b l -> exists l', l = a :: l'.
Proof. induction 1 as [|? ? ? ? [l' ->]]; eauto. exists (l' ++ [c]); auto. Qed.

Theorem tree_of_edges_ok : exists dt, tree_of_edges = Some dt /\
  (forall a b, tree_dominates dt a b = true <->
     reachable succ start a /\ reachable succ start b /\ dominates succ start a b) /\
  (forall b, ~ reachable succ start b -> tree_immediate_dominator dt b = None) /\
  tree_immediate_dominator dt start = None /\
  (forall b, reachable succ start b -> b <> start ->
     exists a, tree_immediate_dominator dt b = Some a /\ immediate_dominator succ start a b).
Proof.
  assert (INV : inverse_edges succ pred blocks).
  { intros a b _ _. unfold succ, pred. rewrite in_successors, in_predecessors. tauto. }
  destruct (traversal_dominators succ pred start blocks false CL ST INV)
    as [tr [de [E1 [E2 [_ [ND [ALL [ID UC]]]]]]]].
  unfold tree_of_edges. rewrite E1, E2. cbv zeta.
  set (t := build_tree de _).
  destruct (build_tree_spec de {| tree_nodes := []; tree_parents := []; tree_roots := [] |}) as [TN [TP [TR TD]]].
  fold t in TN, TP, TR, TD. cbn [tree_nodes tree_parents tree_roots] in TN, TP, TR, TD. simpl in TP.
  specialize (TD (NoDup_nil _)).
  assert (DEF : forall b, reachable succ start b -> exists a, In (b, a) de).
  { intros b R. apply ALL in R. apply in_map_iff in R. destruct R as [[x y] [E H]]. simpl in E. subst. eauto. }
  assert (UNIQ : forall b a a', In (b, a) de -> In (b, a') de -> a = a').
  { intros b a a' H1 H2. clear -ND H1 H2. induction de as [|[x y] de IH]; [contradiction|].
    simpl in ND. inversion ND as [|x0 l0 NI ND']; subst x0 l0.
    destruct H1 as [H1|H1]; [injection H1 as E1 E1'; subst x y|]; (destruct H2 as [H2|H2]; [inversion H2; subst|]); auto.
    - exfalso. apply NI. apply in_map_iff. exists (b, a'); auto.
    - exfalso. apply NI. apply in_map_iff. exists (b, a); auto. }
  assert (RSTART : In (start, start) de).
  { destruct (DEF start (reach_refl _ _)) as [a H]. destruct (ID _ _ H) as [[_ ->]|[ne _]]; auto. congruence. }
  assert (NODES : forall x, In x (tree_nodes t) <-> reachable succ start x).
  { intros x. rewrite TN. split.
    - intros [[]|[a [b [H [-> | ->]]]]].
      + apply ALL. apply in_map_iff. exists (a, b). auto.
      + destruct (ID _ _ H) as [[-> ->]|[ne [_ [D _]]]]; [apply reach_refl|].
        assert (R : reachable succ start a) by (apply ALL, in_map_iff; exists (a, b); auto).
        destruct R as [l P]. eapply path_reach; eauto.
    - intros R. destruct (DEF x R) as [a H]. right. exists x, a. auto. }
  assert (PARENTS : forall c p, In c (children_of t p) <-> In (c, p) de /\ c <> p).
  { intros c p. unfold children_of. rewrite in_predecessors, TP, filter_In. simpl.
    rewrite negb_true_iff, N.eqb_neq. tauto. }
  assert (ROOTS : tree_roots t = [start]).
  { assert (X : forall x, In x (tree_roots t) -> x = start).
    { intros x H. apply TR in H. destruct H as [[]|H]. destruct (ID _ _ H) as [[-> _]|[_ [ne _]]]; congruence. }
    assert (Hs : In start (tree_roots t)) by (apply TR; auto).
    destruct (tree_roots t) as [|x [|y l]]; [contradiction| |].
    - rewrite (X x); auto. left; auto.
    - exfalso. rewrite (X x) in TD by (left; auto). rewrite (X y) in TD by (right; left; auto).
      inversion TD; subst. apply H1. left; auto. }
  assert (CLT : closed_graph (children_of t) (tree_nodes t)).
  { intros p c Hp Hc. apply PARENTS in Hc. apply NODES. destruct Hc as [Hc _].
    apply ALL, in_map_iff. exists (c, p). auto. }
  assert (STN : In start (tree_nodes t)) by (apply NODES, reach_refl).
  destruct (traversal_run (children_of t) never false (tree_nodes t) start CLT STN) as [tt [P [k [R E3]]]].
  rewrite ROOTS. cbn [dfs_calls]. unfold never in E3. rewrite E3. rewrite app_nil_r.
  eexists. split; [reflexivity|].
  assert (STK : stack_after [] tt = Some []) by (eapply (proj1 (stack_ok _ _ _)); eauto).
  destruct (proj1 (reported_once _ _ _) _ _ _ _ _ _ R (fun x => x)) as [NDP NDQ].
  destruct (proj1 (blocks_reported _ _ _) _ _ _ _ _ _ R (fun x => x)) as [BP BQ].
  (* every tree node is reached *)
  assert (REACH : forall b a, up_chain de b a -> reachable (children_of t) a b).
  { intros b a U. induction U as [b|b p a H ne U IH]; [apply reach_refl|].
    eapply reach_trans; eauto. apply reach_edge, PARENTS. auto. }
  assert (VIS : forall b, reachable succ start b -> In b (pre_blocks tt)).
  { intros b Rb. apply BP. split; [|auto]. eapply reachable_reported; eauto.
    apply reachable_until_never. apply REACH. apply UC; auto. intros l Pl.
    destruct (path_first _ _ _ _ Pl) as [l' ->]. left; auto. }
  (* the stack is the chain of parents *)
  assert (LINK : forall l r, tt = l ++ r -> exists s, stack_after [] l = Some s /\ linked (children_of t) s).
  { induction l as [|e l IH] using rev_ind; intros r E; [exists []; simpl; auto|].
    rewrite <- app_assoc in E. simpl in E. destruct (IH _ E) as [s [S L]].
    rewrite stack_app, S. destruct e as [b|b|x y]; simpl.
    - destruct (proj1 (tree_edges _ _ _) _ _ _ _ _ _ R (fun x H => match H with end) _ _ _ E) as [s' [S' H]].
      rewrite S in S'. injection S' as <-.
      exists (b :: s). split; auto. simpl. split; auto.
      destruct H as [[-> ->]|[p [s' [-> [_ H]]]]].
      + injection S as <-. auto.
      + auto.
    - rewrite E, stack_app, S in STK. simpl in STK. destruct s as [|t0 s]; [discriminate|].
      destruct (N.eqb t0 b); [|discriminate]. exists s. split; auto. destruct L; auto.
    - exists s; auto. }
  assert (CHAIN : forall s b, linked (children_of t) (b :: s) -> forall a, In a (b :: s) <-> up_chain de b a).
  { induction s as [|y s IH]; intros b [L1 L2] a.
    - subst b. split.
      + intros [<-|[]]. constructor.
      + intros U. inversion U; subst; [left; auto|]. exfalso. apply H0. eapply UNIQ; eauto.
    - apply PARENTS in L1. destruct L1 as [H1 H2]. specialize (IH y L2). split.
      + intros [<-|H]; [constructor|]. eapply uc_up; eauto. apply IH; auto.
      + intros U. inversion U; subst; [left; auto|]. right. apply IH.
        assert (p = y) as <- by (eapply UNIQ; eauto). auto. }
  assert (DOM : forall a b, reachable succ start a -> reachable succ start b -> a <> b ->
     ((dfs_num_pre tt a < dfs_num_pre tt b)%Z /\ (dfs_num_post tt b < dfs_num_post tt a)%Z <-> dominates succ start a b)).
  { intros a b Ra Rb ne. assert (Hb := VIS b Rb). apply in_pre_event, in_split in Hb. destruct Hb as [l [r E]].
    destruct (LINK l _ E) as [s [S _]].
    assert (L : linked (children_of t) (b :: s)).
    { destruct (LINK (l ++ [Pre b]) r) as [s' [S' L']].
      - rewrite <- app_assoc. auto.
      - rewrite stack_app, S in S'. simpl in S'. injection S' as <-. auto. }
    rewrite <- (nesting tt a b l r s); auto.
    - rewrite <- UC; auto. rewrite <- (CHAIN s b L a). simpl. split; auto. intros [|]; auto. congruence.
    - intros x Hx. apply BQ. apply BP; auto. }
  split; [|split; [|split]].
  - intros a b. unfold tree_dominates. cbn [dt_tree dt_calls].
    destruct (mem a (tree_nodes t)) eqn:Ma; cbn [negb orb].
    2:{ apply mem_false in Ma. split; [discriminate|]. intros [H _]. apply NODES in H. contradiction. }
    destruct (mem b (tree_nodes t)) eqn:Mb; cbn [negb].
    2:{ apply mem_false in Mb. split; [discriminate|]. intros [_ [H _]]. apply NODES in H. contradiction. }
    apply mem_In, NODES in Ma. apply mem_In, NODES in Mb.
    destruct (N.eqb a b) eqn:Q.
    + apply N.eqb_eq in Q. subst b. split; auto. intros _. split; auto. split; auto.
      apply UC; auto. constructor.
    + apply N.eqb_neq in Q. rewrite andb_true_iff, !Z.ltb_lt. rewrite (DOM a b Ma Mb Q). tauto.
  - intros b H. unfold tree_immediate_dominator. cbn [dt_tree].
    destruct (mem b (tree_nodes t)) eqn:M; auto. apply mem_In, NODES in M. contradiction.
  - unfold tree_immediate_dominator, parent_of. cbn [dt_tree].
    destruct (mem start (tree_nodes t)); auto.
    destruct (rev (successors_of (tree_parents t) start)) as [|p l] eqn:Q; auto. exfalso.
    assert (H : In p (successors_of (tree_parents t) start)) by (apply in_rev; rewrite Q; left; auto).
    apply in_successors in H. assert (H' : In start (children_of t p)) by (apply in_predecessors; auto).
    apply PARENTS in H'. destruct H' as [H1 H2]. apply H2. eapply UNIQ; eauto.
  - intros b Rb ne. unfold tree_immediate_dominator, parent_of. cbn [dt_tree].
    assert (mem b (tree_nodes t) = true) as -> by (apply mem_In, NODES; auto).
    destruct (DEF b Rb) as [a Ha]. destruct (ID _ _ Ha) as [[-> _]|[_ H]]; [congruence|].
    exists a. split; auto.
    assert (Hin : In a (successors_of (tree_parents t) b)).
    { apply in_successors. apply (in_predecessors (tree_parents t) b a). apply PARENTS. split; auto.
      destruct H as [H _]. congruence. }
    destruct (rev (successors_of (tree_parents t) b)) as [|p l] eqn:Q.
    + exfalso. apply in_rev in Hin. rewrite Q in Hin. contradiction.
    + f_equal. assert (H2 : In p (successors_of (tree_parents t) b)) by (apply in_rev; rewrite Q; left; auto).
      apply in_successors in H2. assert (H' : In b (children_of t p)) by (apply in_predecessors; auto).
      apply PARENTS in H'. destruct H' as [H1 _]. eapply UNIQ; eauto.
Qed.
End Tree.

(** The forward tree: dominance from the entry block. *)
Lemma cfg_succ_in f a b : In b (cfg_succ f a) <-> exists succs, In (a, succs) f /\ In b succs.
Proof.
  unfold cfg_succ. rewrite in_flat_map. split.
  - intros [[x s] [H1 H2]]. simpl in H2. destruct (N.eqb x a) eqn:Q; [|contradiction].
    apply N.eqb_eq in Q. subst. eauto.
  - intros [s [H1 H2]]. exists (a, s). split; auto. simpl. rewrite N.eqb_refl. auto.
Qed.

Section Forward.
Variables (entry : N * list N) (rest : list (N * list N)) (start : N).
Let f := entry :: rest.
Hypothesis WF : well_formed f start.
Let edges := successor_edges f start false.

Lemma fwd_edge a b : In (a, b) edges <-> (a = start /\ b = fst entry) \/ In b (cfg_succ f a).
Proof.
  unfold edges, successor_edges. rewrite in_app_iff, cfg_succ_in.
  assert (E : In (a, b) (flat_map (fun bb => map (fun s => (fst bb, s)) (snd bb)) f) <->
    exists succs, In (a, succs) f /\ In b succs).
  { rewrite in_flat_map. split.
    - intros [[x s] [H1 H2]]. apply in_map_iff in H2. destruct H2 as [y [[= <- <-] H2]]. eauto.
    - intros [s [H1 H2]]. exists (a, s). split; auto. apply in_map_iff. exists b; auto. }
  rewrite E. unfold f at 1. simpl. split.
  - intros [[[= <- <-]|[]]|H]; auto.
  - intros [[-> ->]|H]; auto.
Qed.

Lemma start_no_succ : cfg_succ f start = [].
Proof.
  destruct (cfg_succ f start) as [|x l] eqn:Q; auto. exfalso.
  assert (H : In x (cfg_succ f start)) by (rewrite Q; left; auto).
  apply cfg_succ_in in H. destruct H as [s [H _]]. destruct WF as [_ [N _]]. apply N.
  apply in_map_iff. exists (start, s); auto.
Qed.

Lemma fwd_path b l : path (successors_of edges) start b l ->
  (b = start /\ l = [start]) \/ exists l', l = start :: l' /\ path (cfg_succ f) (fst entry) b l'.
Proof.
  induction 1 as [|b c l P IH E]; auto. right. apply in_successors, fwd_edge in E.
  destruct IH as [[-> ->]|[l' [-> P']]].
  - destruct E as [[_ ->]|E]; [|rewrite start_no_succ in E; contradiction].
    exists [fst entry]. split; auto. constructor.
  - destruct E as [[-> ->]|E].
    + exfalso. destruct (path_end _ _ _ _ P') as [l1 ->].
      assert (Hs : In start (map fst f)).
      { clear -P' WF. remember start as st. assert (G : forall b l, path (cfg_succ f) (fst entry) b l -> In b (map fst f)).
        { intros b l H. induction H as [|b c l H IH E]; [left; auto|]. apply cfg_succ_in in E. destruct E as [s [E1 E2]].
          destruct WF as [_ [_ W]]. eapply W; eauto. }
        eapply G; eauto. }
      destruct WF as [_ [N _]]. contradiction.
    + exists (l' ++ [c]). split; auto. econstructor; eauto.
Qed.

Lemma path_fwd b l : path (cfg_succ f) (fst entry) b l -> path (successors_of edges) start b (start :: l).
Proof.
  induction 1 as [|b c l P IH E].
  - change [start; fst entry] with ([start] ++ [fst entry]). econstructor; [constructor|].
    apply in_successors, fwd_edge. auto.
  - change (start :: l ++ [c]) with ((start :: l) ++ [c]). econstructor; eauto.
    apply in_successors, fwd_edge. auto.
Qed.

Lemma block_ne_start b : reachable (cfg_succ f) (fst entry) b -> b <> start.
Proof.
  intros [l P] ->. destruct WF as [_ [N W]]. apply N.
  assert (G : forall b l, path (cfg_succ f) (fst entry) b l -> In b (map fst f)).
  { intros b l0 H. induction H as [|b c l0 H IH E]; [left; auto|]. apply cfg_succ_in in E. destruct E as [s [E1 E2]].
    eapply W; eauto. }
  eapply G; eauto.
Qed.

Lemma fwd_reach b : b <> start -> (reachable (successors_of edges) start b <-> reachable (cfg_succ f) (fst entry) b).
Proof.
  intros ne. split.
  - intros [l P]. destruct (fwd_path _ _ P) as [[-> _]|[l' [_ P']]]; [congruence|]. exists l'; auto.
  - intros [l P]. exists (start :: l). apply path_fwd; auto.
Qed.

Lemma fwd_dom a b : a <> start -> b <> start ->
  (dominates (successors_of edges) start a b <-> dominates (cfg_succ f) (fst entry) a b).
Proof.
  intros na nb. split; intros H l P.
  - apply path_fwd in P. apply H in P. destruct P; auto. congruence.
  - destruct (fwd_path _ _ P) as [[-> _]|[l' [-> P']]]; [congruence|]. right. apply H; auto.
Qed.

Theorem forward_tree_ok : exists dt, initialize_tree f start false = Some dt /\
  (forall a b, a <> start -> b <> start ->
     (tree_dominates dt a b = true <->
      reachable (cfg_succ f) (fst entry) a /\ reachable (cfg_succ f) (fst entry) b /\
      dominates (cfg_succ f) (fst entry) a b)) /\
  (forall b, b <> start -> ~ reachable (cfg_succ f) (fst entry) b -> tree_immediate_dominator dt b = None) /\
  tree_immediate_dominator dt (fst entry) = Some start /\
  (forall b, reachable (cfg_succ f) (fst entry) b -> b <> fst entry ->
     exists a, tree_immediate_dominator dt b = Some a /\ immediate_dominator (cfg_succ f) (fst entry) a b).
Proof.
  assert (CL : closed_graph (successors_of edges) (start :: map fst f)).
  { intros a b Ha Hb. apply in_successors, fwd_edge in Hb. destruct Hb as [[_ ->]|Hb]; [right; left; auto|].
    apply cfg_succ_in in Hb. destruct Hb as [s [H1 H2]]. right. destruct WF as [_ [_ W]]. eapply W; eauto. }
  destruct (tree_of_edges_ok edges start (start :: map fst f) CL (or_introl eq_refl)) as [dt [E [D [I1 [I2 I3]]]]].
  exists dt. split; [exact E|]. split; [|split; [|split]].
  - intros a b na nb. rewrite D, !fwd_reach, fwd_dom; tauto.
  - intros b nb H. apply I1. rewrite fwd_reach; auto.
  - assert (R : reachable (cfg_succ f) (fst entry) (fst entry)) by apply reach_refl.
    assert (ne := block_ne_start _ R). apply fwd_reach in R; auto.
    destruct (I3 _ R ne) as [a [E2 [A1 [A2 A3]]]]. rewrite E2. f_equal.
    assert (P : path (successors_of edges) start (fst entry) [start; fst entry]).
    { apply path_fwd. constructor. }
    apply A2 in P. destruct P as [|[|[]]]; congruence.
  - intros b R ne. assert (nb := block_ne_start _ R). assert (R' := R). apply fwd_reach in R'; auto.
    destruct (I3 b R' nb) as [a [E2 [A1 [A2 A3]]]]. exists a. split; auto.
    (* the entry strictly dominates b, so a is not the placeholder *)
    assert (De : dominates (successors_of edges) start (fst entry) b).
    { intros l P. destruct (fwd_path _ _ P) as [[-> _]|[l' [-> P']]]; [congruence|].
      destruct (path_first _ _ _ _ P') as [l2 ->]. right; left; auto. }
    assert (na : a <> start).
    { intros ->. assert (H := A3 (fst entry) (not_eq_sym ne) De). 
      specialize (H [start] (path_here _ _)). destruct H as [H|[]].
      apply (block_ne_start (fst entry)); auto. apply reach_refl. }
    split; auto. split; [apply fwd_dom; auto|].
    intros c nc Dc. assert (nstart : c <> start).
    { destruct R as [l P]. specialize (Dc l P). apply block_ne_start. eapply path_reach; eauto. }
    apply fwd_dom; auto. apply A3; auto. apply fwd_dom; auto.
Qed.
End Forward.

(** The postdominator tree. *)
Section Backward.
Variables (entry : N * list N) (rest : list (N * list N)) (start : N).
Let f := entry :: rest.
Hypothesis WF : well_formed f start.
Let edges := successor_edges f start true.

Lemma block_succs b succs : In (b, succs) f -> cfg_succ f b = succs.
Proof.
  destruct WF as [ND _]. clear -ND. unfold cfg_succ. intros H. induction f as [|[x s] g IH]; [contradiction|].
  simpl in *. inversion ND; subst. destruct H as [[= -> ->]|H].
  - rewrite N.eqb_refl. assert (G : forall h : list (N * list N), ~ In b (map fst h) ->
      flat_map (fun bb => if N.eqb (fst bb) b then snd bb else []) h = []).
    { induction h as [|[y u] h IHh]; simpl; auto. intros Hn.
      destruct (N.eqb y b) eqn:Q; [apply N.eqb_eq in Q; tauto|]. apply IHh; tauto. }
    rewrite G; auto. apply app_nil_r.
  - destruct (N.eqb x b) eqn:Q.
    + apply N.eqb_eq in Q. subst. exfalso. apply H2. apply in_map_iff. exists (b, succs); auto.
    + apply IH; auto.
Qed.

Lemma bwd_edge a b : In (a, b) edges <-> (a = start /\ exit_block f b) \/ In a (cfg_succ f b).
Proof.
  unfold edges, successor_edges. rewrite in_flat_map. split.
  - intros [[x s] [H1 H2]]. cbn [fst snd] in H2. assert (E := block_succs _ _ H1). destruct s as [|s0 s].
    + destruct H2 as [[= <- <-]|[]]. left. split; auto. split; auto. apply in_map_iff. exists (x, []); auto.
    + apply in_map_iff in H2. destruct H2 as [y [[= <- <-] H2]]. right. rewrite E. auto.
  - intros [[-> [H1 H2]]|H].
    + apply in_map_iff in H1. destruct H1 as [[x s] [<- H1]]. exists (x, s). split; auto.
      assert (E := block_succs _ _ H1). cbn [fst] in H2. rewrite H2 in E. subst s. left; auto.
    + apply cfg_succ_in in H. destruct H as [s [H1 H2]]. exists (b, s). split; auto. cbn [fst snd].
      destruct s as [|s0 s]; [contradiction|]. apply in_map_iff. exists a; auto.
Qed.

Lemma path_cons s a b c l : In b (s a) -> path s b c l -> path s a c (a :: l).
Proof.
  intros E P. induction P as [|x y l P IH E2].
  - change [a; b] with ([a] ++ [b]). econstructor; eauto. constructor.
  - change (a :: l ++ [y]) with ((a :: l) ++ [y]). econstructor; eauto.
Qed.

Lemma path_in_f b c l : In b (map fst f) -> path (cfg_succ f) b c l -> In c (map fst f).
Proof.
  intros Hb P. induction P as [|x y l P IH E]; auto. apply cfg_succ_in in E. destruct E as [s [H1 H2]].
  destruct WF as [_ [_ W]]. eapply W; eauto.
Qed.

Lemma no_succ_start b : ~ In start (cfg_succ f b).
Proof.
  intros H. apply cfg_succ_in in H. destruct H as [s [H1 H2]]. destruct WF as [_ [N W]]. apply N. eapply W; eauto.
Qed.

Lemma bwd_path b l : path (successors_of edges) start b l ->
  (b = start /\ l = [start]) \/
  exists e l', l = start :: rev l' /\ exit_block f e /\ path (cfg_succ f) b e l'.
Proof.
  induction 1 as [|b c l P IH E]; auto. right. apply in_successors, bwd_edge in E.
  destruct IH as [[-> ->]|[e [l' [-> [X P']]]]].
  - destruct E as [[_ X]|E]; [|exfalso; eapply no_succ_start; eauto].
    exists c, [c]. split; auto. split; auto. constructor.
  - destruct E as [[-> X']|E].
    + exfalso.
      assert (Hs : In start (map fst f)).
      { destruct (path_first _ _ _ _ P') as [l2 El]. 
        destruct X as [X1 X2].
        assert (G : forall e l, path (cfg_succ f) start e l -> e = start \/ In start (map fst f)).
        { intros e0 l0 H0. assert (CS : cfg_succ f start = [] \/ In start (map fst f)).
          { destruct (cfg_succ f start) as [|y ys] eqn:Q2; auto. right.
            assert (Hy : In y (cfg_succ f start)) by (rewrite Q2; left; auto).
            apply cfg_succ_in in Hy. destruct Hy as [s [Hy _]]. apply in_map_iff. exists (start, s); auto. }
          destruct CS as [CS|]; auto. left. induction H0 as [|x y l0 H0 IH0 E0]; auto.
          rewrite IH0 in E0; auto. rewrite CS in E0. contradiction. }
        destruct (G _ _ P') as [->|]; auto. }
      destruct WF as [_ [N _]]. contradiction.
    + exists e, (c :: l'). split; [simpl; auto|]. split; auto. eapply path_cons; eauto.
Qed.

Lemma path_uncons s a c l : path s a c l -> l = [a] /\ c = a \/ exists b l', l = a :: l' /\ In b (s a) /\ path s b c l'.
Proof.
  induction 1 as [|x y l P IH E]; auto. right. destruct IH as [[-> ->]|[b [l' [-> [H1 H2]]]]].
  - exists y, [y]. split; auto. split; auto. constructor.
  - exists b, (l' ++ [y]). split; auto. split; auto. econstructor; eauto.
Qed.

Lemma path_bwd : forall l b e, exit_block f e -> path (cfg_succ f) b e l ->
  path (successors_of edges) start b (start :: rev l).
Proof.
  induction l as [|x l IH]; intros b e X P.
  - destruct (path_first _ _ _ _ P) as [? ?]. discriminate.
  - destruct (path_uncons _ _ _ _ P) as [[E ->]|[c [l' [E [H1 H2]]]]]; injection E as -> ->.
    + simpl. change [start; b] with ([start] ++ [b]). econstructor; [constructor|].
      apply in_successors, bwd_edge. auto.
    + simpl. rewrite app_comm_cons. econstructor; [eapply IH; eauto|].
      apply in_successors, bwd_edge. auto.
Qed.

Lemma bwd_reach b : b <> start -> (reachable (successors_of edges) start b <-> can_exit f b).
Proof.
  intros ne. split.
  - intros [l P]. destruct (bwd_path _ _ P) as [[-> _]|[e [l' [_ [X P']]]]]; [congruence|]. exists e. split; auto. exists l'; auto.
  - intros [e [X [l P]]]. exists (start :: rev l). eapply path_bwd; eauto.
Qed.

Lemma bwd_dom a b : a <> start -> b <> start ->
  (dominates (successors_of edges) start a b <-> post_dominates f a b).
Proof.
  intros na nb. split.
  - intros H e l X P. apply (path_bwd l b e X) in P. apply H in P. destruct P as [|P]; [congruence|]. apply in_rev; auto.
  - intros H l P. destruct (bwd_path _ _ P) as [[-> _]|[e [l' [-> [X P']]]]]; [congruence|]. right. apply -> in_rev. eapply H; eauto.
Qed.

Theorem backward_tree_ok : exists dt, initialize_tree f start true = Some dt /\
  (forall a b, a <> start -> b <> start ->
     (tree_dominates dt a b = true <-> can_exit f a /\ can_exit f b /\ post_dominates f a b)).
Proof.
  assert (CL : closed_graph (successors_of edges) (start :: map fst f)).
  { intros a b Ha Hb. apply in_successors, bwd_edge in Hb. destruct Hb as [[_ X]|Hb]; [right; apply X|].
    right. apply cfg_succ_in in Hb. destruct Hb as [s [H1 H2]]. apply in_map_iff. exists (b, s); auto. }
  destruct (tree_of_edges_ok edges start (start :: map fst f) CL (or_introl eq_refl)) as [dt [E [D _]]].
  exists dt. split; [exact E|].
  intros a b na nb. rewrite D, !bwd_reach, bwd_dom; tauto.
Qed.
End Backward.
