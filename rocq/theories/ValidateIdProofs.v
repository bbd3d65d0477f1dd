(** Proofs about ValidateId.v, first part: the graph of one function. *)
From Verif Require Import Base NamedIds NamedIdsProofs Cfa GraphSpec DfsSpec CfaProofs DominatorProofs DfsDominators AugmentedProofs ValidateId ValidateIdSpec.
Local Open Scope N_scope.

(** *** Paths *)
Lemma path_pre s a b l c : path s a b l -> In c l -> exists l1 l2, l = l1 ++ l2 /\ path s a c l1.
Proof.
  intros P. induction P as [|x y l P IH E]; intros H.
  - destruct H as [<-|[]]. exists [a], []. split; auto. constructor.
  - apply in_app_or in H. destruct H as [H|[<-|[]]].
    + destruct (IH H) as (l1 & l2 & -> & P1). exists l1, (l2 ++ [y]). rewrite <- app_assoc. auto.
    + exists (l ++ [y]), []. rewrite app_nil_r. split; auto. econstructor; eauto.
Qed.
Lemma path_in_end s a b l : path s a b l -> In b l.
Proof. intros P. destruct P; [left; auto|apply in_or_app; right; left; auto]. Qed.
Lemma path_in_start s a b l : path s a b l -> In a l.
Proof. intros P. induction P; [left; auto|apply in_or_app; auto]. Qed.
Lemma simple_path s a b : reachable s a b -> exists l, path s a b l /\ NoDup l.
Proof.
  intros [l P]. induction P as [|x y l P [m [Q ND]] E].
  - exists [a]. split; [constructor|]. constructor; auto. constructor.
  - destruct (in_dec N.eq_dec y m) as [H|H].
    + destruct (path_pre _ _ _ _ _ Q H) as (m1 & m2 & -> & Q1). exists m1. split; auto.
      clear -ND. induction m1 as [|z m1 IH]; [constructor|]. simpl in ND. inversion ND; subst. constructor; auto.
      intros K. apply H1. apply in_or_app; auto.
    + exists (m ++ [y]). split; [econstructor; eauto|]. apply CfaProofs.NoDup_app; auto; [constructor; auto; constructor|].
      intros z Hz [<-|[]]. auto.
Qed.
Lemma path_split_end s a b l : path s a b l -> l = [a] /\ b = a \/
  exists c l', l = l' ++ [b] /\ path s a c l' /\ In b (s c).
Proof. intros P. destruct P; [left; auto|right; eauto]. Qed.

(** *** ReachabilityPass *)
Section Reach.
Variable s : N -> list N.
Variable e : N.
Variable keys : list N.
Hypothesis KEYS : forall b, ~ In b keys -> s b = [].

Definition pending (marked : list N) : nat :=
  list_sum (map (fun b => if mem b marked then 0%nat else length (s b)) keys).

Lemma pending_mark b marked : mem b marked = false -> NoDup keys ->
  (pending (b :: marked) + length (s b) = pending marked)%nat.
Proof using KEYS.
  intros M ND. unfold pending. clear -KEYS M ND.
  assert (G : forall l, NoDup l -> (list_sum (map (fun x => if mem x (b :: marked) then 0%nat else length (s x)) l)
     + (if in_dec N.eq_dec b l then length (s b) else 0) =
     list_sum (map (fun x => if mem x marked then 0%nat else length (s x)) l))%nat).
  { induction l as [|x l IH]; intros NDl; [destruct (in_dec N.eq_dec b []); [contradiction|reflexivity]|].
    inversion NDl; subst. specialize (IH H2). cbn [map]. unfold list_sum in *. cbn [fold_right] in *.
    assert (MC : mem x (b :: marked) = (N.eqb x b || mem x marked)%bool) by reflexivity. rewrite MC. clear MC.
    destruct (in_dec N.eq_dec b l) as [I1|I1]; destruct (in_dec N.eq_dec b (x :: l)) as [I2|I2].
    - assert (N.eqb x b = false) as E by (apply N.eqb_neq; intros ->; contradiction). rewrite E, orb_false_l. lia.
    - exfalso. apply I2. right; auto.
    - assert (x = b) as -> by (destruct I2; congruence || contradiction). rewrite N.eqb_refl, orb_true_l, M. lia.
    - assert (N.eqb x b = false) as E by (apply N.eqb_neq; intros ->; apply I2; left; auto). rewrite E, orb_false_l. lia. }
  specialize (G keys ND). destruct (in_dec N.eq_dec b keys) as [I1|I1]; [lia|]. rewrite (KEYS b I1). cbn [length]. lia.
Qed.

Lemma reach_loop_ok : NoDup keys -> forall fuel stack marked,
  (length stack + pending marked < fuel)%nat ->
  (forall x, In x stack \/ In x marked -> reachable s e x) ->
  (forall x y, In x marked -> In y (s x) -> In y marked \/ In y stack) ->
  exists r, reach_loop s fuel stack marked = Some r /\
    incl marked r /\ incl stack r /\ (forall x, In x r -> reachable s e x) /\
    (forall x y, In x r -> In y (s x) -> In y r).
Proof using KEYS.
  intros ND. induction fuel as [|fuel IH]; intros stack marked L R C; [lia|]. cbn [reach_loop].
  destruct stack as [|b rest].
  - exists marked. split; auto. split; [apply incl_refl|]. split; [intros x []|]. split; [intros; apply R; auto|].
    intros x y Hx Hy. destruct (C x y Hx Hy) as [|[]]; auto.
  - destruct (mem b marked) eqn:M.
    + apply mem_In in M. destruct (IH rest marked) as (r & E & I1 & I2 & I3 & I4).
      * simpl in L. lia.
      * intros x [H|H]; apply R; auto. left; right; auto.
      * intros x y Hx Hy. destruct (C x y Hx Hy) as [|[<-|]]; auto.
      * exists r. split; auto. split; auto. split; auto. intros x [<-|H]; auto.
    + destruct (IH (rev (s b) ++ rest) (b :: marked)) as (r & E & I1 & I2 & I3 & I4).
      * rewrite app_length, rev_length. pose proof (pending_mark b marked M ND). simpl in L. lia.
      * intros x [H|[<-|H]]; [|apply R; left; left; auto|apply R; auto].
        apply in_app_or in H. destruct H as [H|H]; [|apply R; left; right; auto].
        eapply reach_trans; [apply R; left; left; reflexivity|]. apply reach_edge. apply in_rev; auto.
      * intros x y [<-|Hx] Hy; [right; apply in_or_app; left; apply in_rev in Hy; auto|].
        destruct (C x y Hx Hy) as [|[<-|]]; [left; right; auto|left; left; auto|right; apply in_or_app; auto].
      * exists r. split; auto. split; [intros x H; apply I1; right; auto|]. split; auto.
        intros x [<-|H]; [apply I1; left; auto|]. apply I2. apply in_or_app; auto.
Qed.
End Reach.

Section Fun.
Variable f : func.
Hypothesis ND : NoDup (labels f).

Lemma find_block_in b : In b (blocks f) -> find_block f (label b) = Some b.
Proof using ND.
  unfold find_block, labels in *. clear -ND. revert ND. induction (blocks f) as [|x l IH]; intros ND H; [destruct H|].
  cbn [find]. cbn [map] in ND. inversion ND; subst. destruct H as [->|H].
  - rewrite N.eqb_refl. auto.
  - destruct (N.eqb_spec (label x) (label b)) as [E|E]; [exfalso; apply H2; rewrite E; apply in_map; auto|]. auto.
Qed.
Lemma find_block_some l b : find_block f l = Some b -> In b (blocks f) /\ label b = l.
Proof using. intros H. apply find_some in H. destruct H as [H1 H2]. apply N.eqb_eq in H2. auto. Qed.
Lemma find_block_none l : ~ In l (labels f) -> find_block f l = None.
Proof using.
  intros H. destruct (find_block f l) as [b|] eqn:E; auto. exfalso. apply find_block_some in E.
  destruct E as [E <-]. apply H. apply in_map; auto.
Qed.
Lemma succ_none l : ~ In l (labels f) -> succ f l = [].
Proof using. intros H. unfold succ. rewrite (find_block_none _ H). auto. Qed.
Lemma struct_succ_none l : ~ In l (labels f) -> struct_succ f l = [].
Proof using. intros H. unfold struct_succ. rewrite (find_block_none _ H). auto. Qed.
Lemma succ_struct l : incl (succ f l) (struct_succ f l).
Proof using.
  intros x. unfold succ, struct_succ. destruct (find_block f l); auto. intros H. apply in_or_app; auto.
Qed.
Lemma in_preds_by s a l : In a (preds_by s f l) <-> In a (labels f) /\ In l (s a).
Proof using.
  unfold preds_by. rewrite in_flat_map. split.
  - intros (x & Hx & H). apply in_map_iff in H. destruct H as (y & -> & H). apply filter_In in H.
    destruct H as [H E]. apply N.eqb_eq in E. subst. auto.
  - intros [H1 H2]. exists a. split; auto. apply in_map_iff. exists l. split; auto. apply filter_In.
    split; auto. apply N.eqb_refl.
Qed.

Lemma reachable_blocks_ok : exists r, reachable_blocks f = Some r /\
  (forall b, In b r <-> reaches f b).
Proof using ND.
  unfold reachable_blocks. destruct (blocks f) as [|b0 rest] eqn:B.
  - exists []. split; auto. intros b. split; [intros []|]. intros (x & y & E & _). congruence.
  - destruct (reach_loop_ok (succ f) (label b0) (labels f)) with (fuel := reach_fuel f) (stack := [label b0]) (marked := @nil N)
      as (r & E & I1 & I2 & I3 & I4).
    + intros b H. apply succ_none; auto.
    + auto.
    + unfold reach_fuel, pending. cbn [length].
      assert (G : list_sum (map (fun b => if mem b [] then 0%nat else length (succ f b)) (labels f)) =
        list_sum (map (fun b => length (block_succ b)) (blocks f))).
      { unfold labels. rewrite map_map. f_equal. apply map_ext_in. intros b Hb. cbn [mem existsb].
        unfold succ. rewrite (find_block_in b Hb). auto. }
      rewrite G. lia.
    + intros x [[<-|[]]|[]]. apply reach_refl.
    + intros x y [].
    + exists r. split; auto. intros b. split.
      * intros H. exists b0, rest. split; auto.
      * intros (x & y & Exy & R). rewrite B in Exy. injection Exy as <- <-. destruct R as [l P].
        induction P as [|x y l P IH En]; [apply I2; left; auto|eapply I4; eauto].
Qed.

Hypothesis TD : targets_defined f = true.

Lemma struct_succ_in a c : In c (struct_succ f a) -> In a (labels f) /\ In c (labels f).
Proof using TD.
  intros H. unfold struct_succ in H. destruct (find_block f a) as [b|] eqn:E; [|destruct H].
  apply find_block_some in E. destruct E as [Hb <-]. split; [apply in_map; auto|].
  unfold targets_defined in TD. rewrite forallb_forall in TD. specialize (TD b Hb). rewrite forallb_forall in TD.
  apply mem_In. apply TD; auto.
Qed.
Lemma succ_in a c : In c (succ f a) -> In a (labels f) /\ In c (labels f).
Proof using TD. intros H. apply struct_succ_in. apply succ_struct; auto. Qed.
Lemma closed_struct : closed_graph (struct_succ f) (labels f).
Proof using TD. intros b c _ H. apply struct_succ_in in H. tauto. Qed.
Lemma closed_struct_pred : closed_graph (struct_pred f) (labels f).
Proof using. intros b c _ H. apply in_preds_by in H. tauto. Qed.
Lemma struct_inverse : inverse_edges (struct_succ f) (struct_pred f) (labels f).
Proof using. intros a b Ha Hb. unfold struct_pred. rewrite in_preds_by. tauto. Qed.

(** *** The roots of the two traversals of ComputeAugmentedCFG *)
Lemma sources_ok e rest : labels f = e :: rest ->
  exists sources, traversal_roots (struct_succ f) (struct_pred f) (dfs_fuel (struct_succ f) (labels f)) (labels f) = Some sources /\
    incl sources (labels f) /\
    (forall b, In b sources -> reachable (struct_succ f) e b -> b = e).
Proof using TD.
  intros EL. pose proof closed_struct as Cl. unfold traversal_roots.
  set (c1 := fun (_ : list N) b => match struct_pred f b with [] => true | _ => false end).
  set (c2 := fun v b => negb (mem b v)).
  destruct (roots_where_spec (struct_succ f) (labels f) c1 Cl (labels f) [] (incl_refl _))
    as [r1 [v1 [E1 [A1 [A2 [A3 A4]]]]]]. rewrite E1.
  assert (NP : forall b, struct_pred f b = [] -> reachable (struct_succ f) e b -> b = e).
  { intros b Hb [l P]. apply path_split_end in P. destruct P as [[_ ->]|(c & l' & -> & P & H)]; auto.
    exfalso. assert (K : In c (struct_pred f b)) by (apply in_preds_by; split; auto; apply struct_succ_in in H; tauto).
    rewrite Hb in K. destruct K. }
  assert (R1 : forall b, In b r1 -> reachable (struct_succ f) e b -> b = e).
  { intros b Hb. apply NP. destruct (A4 b Hb) as (v' & _ & _ & H). unfold c1 in H. destruct (struct_pred f b); [auto|discriminate]. }
  assert (VC : forall x y, In x v1 -> reachable (struct_succ f) x y -> In y v1).
  { intros x y H R. apply A2. apply A2 in H. destruct H as [[]|(r & H1 & H2)]. right. exists r. split; auto.
    eapply reach_trans; eauto. }
  assert (HE : In e (labels f)) by (rewrite EL; left; auto).
  assert (REST : incl rest (labels f)) by (intros x Hx; rewrite EL; right; auto).
  assert (EQ : forall fu, roots_where (struct_succ f) fu c2 (labels f) v1 = roots_where (struct_succ f) fu c2 (e :: rest) v1)
    by (intros fu; rewrite EL; auto).
  fold c2. rewrite EQ. cbn [roots_where]. destruct (c2 v1 e) eqn:C2.
  - destruct (traversal_pre (struct_succ f) (labels f) e Cl HE) as [tr [Et T]]. rewrite Et.
    destruct (roots_where_spec (struct_succ f) (labels f) c2 Cl rest (pre_blocks tr ++ v1) REST)
      as [r2 [v2 [E2 [B1 [B2 [B3 B4]]]]]]. rewrite E2.
    exists (r1 ++ e :: r2). split; auto. split.
    + intros x Hx. apply in_app_or in Hx. destruct Hx as [Hx|[<-|Hx]]; auto.
    + intros b Hb Rb. apply in_app_or in Hb. destruct Hb as [Hb|[<-|Hb]]; auto.
      exfalso. destruct (B4 b Hb) as (v' & I1 & I2 & H). unfold c2 in H. apply negb_true_iff in H.
      assert (In b v') as K by (apply I1, in_or_app; left; apply T; auto).
      apply mem_In in K. congruence.
  - destruct (roots_where_spec (struct_succ f) (labels f) c2 Cl rest v1 REST)
      as [r2 [v2 [E2 [B1 [B2 [B3 B4]]]]]]. rewrite E2.
    exists (r1 ++ r2). split; auto. split.
    + intros x Hx. apply in_app_or in Hx. destruct Hx as [Hx|Hx]; auto.
    + intros b Hb Rb. apply in_app_or in Hb. destruct Hb as [Hb|Hb]; auto.
      exfalso. destruct (B4 b Hb) as (v' & I1 & I2 & H). unfold c2 in H. apply negb_true_iff in H.
      unfold c2 in C2. apply negb_false_iff, mem_In in C2.
      assert (In b v') as K by (apply I1; eapply VC; eauto). apply mem_In in K. congruence.
Qed.

Lemma sinks_ok :
  exists sinks, traversal_roots (struct_pred f) (struct_succ f) (dfs_fuel (struct_pred f) (labels f)) (rev (labels f)) = Some sinks /\
    incl sinks (labels f) /\
    (forall b, In b sinks -> struct_succ f b = [] \/
       forall x, In x (labels f) -> struct_succ f x = [] -> ~ reachable (struct_succ f) b x) /\
    (forall b, In b (labels f) -> struct_succ f b = [] -> In b sinks).
Proof using TD.
  assert (Cl : closed_graph (struct_pred f) (rev (labels f))).
  { eapply closed_ext; [|exact closed_struct_pred]. intros x. apply in_rev. }
  rewrite <- (dfs_fuel_rev (struct_pred f) (labels f)). unfold traversal_roots.
  set (c1 := fun (_ : list N) b => match struct_succ f b with [] => true | _ => false end).
  set (c2 := fun v b => negb (mem b v)).
  destruct (roots_where_spec (struct_pred f) _ c1 Cl _ [] (incl_refl _)) as [r1 [v1 [E1 [A1 [A2 [A3 A4]]]]]]. rewrite E1.
  destruct (roots_where_spec (struct_pred f) _ c2 Cl _ v1 (incl_refl _)) as [r2 [v2 [E2 [B1 [B2 [B3 B4]]]]]]. rewrite E2.
  assert (S1 : forall b, In b (labels f) -> struct_succ f b = [] -> In b r1).
  { intros b Hb H. apply in_rev in Hb. destruct (A3 b Hb) as [|(v' & _ & _ & K)]; auto. unfold c1 in K. rewrite H in K. discriminate. }
  exists (r1 ++ r2). split; auto. split; [|split].
  - intros x Hx. apply in_app_or in Hx. apply in_rev. destruct Hx; auto.
  - intros b Hb. apply in_app_or in Hb. destruct Hb as [Hb|Hb].
    + left. destruct (A4 b Hb) as (v' & _ & _ & H). unfold c1 in H. destruct (struct_succ f b); [auto|discriminate].
    + right. intros x Hx Ex Rx. destruct (B4 b Hb) as (v' & I1 & I2 & H). unfold c2 in H. apply negb_true_iff in H.
      assert (In b v') as K; [|apply mem_In in K; congruence].
      apply I1. apply A2. right. exists x. split; [apply S1; auto|].
      assert (Bl : In b (labels f)) by (apply in_rev; auto).
      apply (reach_rev (struct_pred f) (struct_succ f) (labels f) b x); auto.
      * exact closed_struct.
      * intros a c Ha Hc. symmetry. apply struct_inverse; auto.
  - intros b Hb H. apply in_or_app. left. auto.
Qed.
End Fun.
