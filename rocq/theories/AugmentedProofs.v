(** TraversalRoots and ComputeAugmentedCFG. *)
From Verif Require Import Base NamedIds NamedIdsProofs Cfa GraphSpec DfsSpec CfaProofs DominatorProofs DfsDominators.

Lemma reach_trans succ a b c : reachable succ a b -> reachable succ b c -> reachable succ a c.
Proof.
  intros [l P] [l' Q]. induction Q as [|x y l' Q [m IH] E]; [exists l; auto|].
  exists (m ++ [y]). econstructor; eauto.
Qed.
Lemma reach_refl succ a : reachable succ a a.
Proof. exists [a]. constructor. Qed.
Lemma reach_edge succ a b : In b (succ a) -> reachable succ a b.
Proof. intros H. exists [a; b]. change [a; b] with ([a] ++ [b]). econstructor; eauto. constructor. Qed.

Lemma traversal_pre succ V b : closed_graph succ V -> In b V ->
  exists tr, depth_first_traversal succ (fun _ => false) false (dfs_fuel succ V) b = Some tr /\
    forall x, In x (pre_blocks tr) <-> reachable succ b x.
Proof.
  intros Cl Hb. destruct (traversal_run succ never false V b Cl Hb) as [tr [P [k [R E]]]].
  exists tr. split; auto. intros x.
  destruct (proj1 (blocks_reported succ never false) _ _ _ _ _ _ R (fun x => x)) as [B _].
  rewrite B, <- reachable_until_never. split.
  - intros [HP _]. eapply (proj1 (reported_reachable succ never false b)); eauto; [constructor|intros y []].
  - intros H. split; auto. eapply reachable_reported; eauto.
Qed.

(** One sweep: the blocks selected are reported and what they reach becomes visited. *)
Lemma roots_where_spec succ V cond : closed_graph succ V -> forall blocks visited, incl blocks V ->
  exists result v, roots_where succ (dfs_fuel succ V) cond blocks visited = Some (result, v) /\
    incl result blocks /\
    (forall x, In x v <-> In x visited \/ exists r, In r result /\ reachable succ r x) /\
    (forall b, In b blocks -> In b result \/ exists v', incl visited v' /\ incl v' v /\ cond v' b = false) /\
    (forall b, In b result -> exists v', incl visited v' /\ incl v' v /\ cond v' b = true).
Proof.
  intros Cl. induction blocks as [|b rest IH]; intros visited I; cbn [roots_where].
  - exists [], visited. split; auto. split; [apply incl_refl|]. split.
    + intros x. split; auto. intros [|[r [[] _]]]; auto.
    + split; [intros b []|intros b []].
  - assert (Hb : In b V) by (apply I; left; auto).
    assert (I' : incl rest V) by (intros x Hx; apply I; right; auto).
    destruct (cond visited b) eqn:C.
    + destruct (traversal_pre succ V b Cl Hb) as [tr [E T]]. rewrite E.
      destruct (IH (pre_blocks tr ++ visited) I') as [res [v [E2 [R1 [R2 [R3 R4]]]]]]. rewrite E2.
      assert (SUB : incl visited v).
      { intros x Hx. apply R2. left. apply in_or_app; auto. }
      exists (b :: res), v. split; auto. split; [intros x [->|Hx]; [left|right]; auto|]. split; [|split].
      * intros x. rewrite R2, in_app_iff, T. split.
        -- intros [[H|H]|[r [H1 H2]]]; auto.
           ++ right. exists b. split; auto. left; auto.
           ++ right. exists r. split; auto. right; auto.
        -- intros [H|[r [[->|H1] H2]]]; auto. right. exists r; auto.
      * intros b' [->|H]; [left; left; auto|]. destruct (R3 b' H) as [H'|[v' [A [B D]]]].
        -- left; right; auto.
        -- right. exists v'. split; auto. intros x Hx. apply A, in_or_app; auto.
      * intros b' [<-|H].
        -- exists visited. split; [apply incl_refl|]. auto.
        -- destruct (R4 b' H) as [v' [A [B D]]]. exists v'. split; auto. intros x Hx. apply A, in_or_app; auto.
    + destruct (IH visited I') as [res [v [E2 [R1 [R2 [R3 R4]]]]]]. rewrite E2.
      exists res, v. split; auto. split; [intros x Hx; right; auto|]. split; auto. split; auto.
      intros b' [<-|H]; auto. right. exists visited. split; [apply incl_refl|]. split; auto.
      intros x Hx. apply R2; auto.
Qed.

Theorem traversal_roots_cover succ pred V : closed_graph succ V ->
  exists roots, traversal_roots succ pred (dfs_fuel succ V) V = Some roots /\
    incl roots V /\
    (forall b, In b V -> exists r, In r roots /\ reachable succ r b) /\
    (forall b, In b V -> pred b = [] -> In b roots).
Proof.
  intros Cl. unfold traversal_roots.
  destruct (roots_where_spec succ V (fun _ b => match pred b with [] => true | _ => false end) Cl V [] (incl_refl _))
    as [r1 [v1 [E1 [A1 [A2 [A3 A4]]]]]]. rewrite E1.
  destruct (roots_where_spec succ V (fun v b => negb (mem b v)) Cl V v1 (incl_refl _))
    as [r2 [v2 [E2 [B1 [B2 [B3 B4]]]]]]. rewrite E2.
  exists (r1 ++ r2). split; auto. split; [|split].
  - intros x Hx. apply in_app_or in Hx. destruct Hx; auto.
  - intros b Hb. destruct (B3 b Hb) as [H|[v' [X1 [X2 X3]]]].
    + exists b. split; [apply in_or_app; auto|apply reach_refl].
    + apply negb_false_iff, mem_In in X3. apply X2 in X3. apply B2 in X3.
      destruct X3 as [H|[r [H1 H2]]].
      * apply A2 in H. destruct H as [[]|[r [H1 H2]]]. exists r. split; auto. apply in_or_app; auto.
      * exists r. split; auto. apply in_or_app; auto.
  - intros b Hb Hp. apply in_or_app. left. destruct (A3 b Hb) as [|[v' [_ [_ X]]]]; auto.
    rewrite Hp in X. discriminate.
Qed.

Lemma closed_ext succ V V' : (forall x, In x V <-> In x V') -> closed_graph succ V -> closed_graph succ V'.
Proof. intros E C b c Hb Hc. apply E. eapply C; eauto. apply E; auto. Qed.

Lemma reach_sub succ succ' V a b : closed_graph succ V -> In a V ->
  (forall x, In x V -> incl (succ x) (succ' x)) -> reachable succ a b -> reachable succ' a b /\ In b V.
Proof.
  intros Cl Ha S [l P]. induction P as [|x y l P [IH1 IH2] E].
  - split; auto. apply reach_refl.
  - split; [|eapply Cl; eauto]. eapply reach_trans; eauto. apply reach_edge. apply S; auto.
Qed.

(** Reversed edges give reversed reachability. *)
Lemma reach_rev succ pred V a b : closed_graph pred V -> inverse_edges succ pred V -> In a V ->
  reachable pred a b -> reachable succ b a /\ In b V.
Proof.
  intros Cl INV Ha [l P]. induction P as [|x y l P [IH1 IH2] E].
  - split; auto. apply reach_refl.
  - assert (Hy : In y V) by (eapply Cl; eauto). split; auto.
    eapply reach_trans; [apply reach_edge|exact IH1]. apply INV; auto.
Qed.

Lemma dfs_fuel_rev succ V : dfs_fuel succ (rev V) = dfs_fuel succ V.
Proof.
  unfold dfs_fuel. f_equal. rewrite map_rev. 
  assert (G : forall l, list_sum (rev l) = list_sum l).
  { induction l as [|x l IH]; auto. simpl. rewrite list_sum_app, IH. simpl. lia. }
  apply G.
Qed.

(** Fuel: more is as good. *)
Lemma dfs_loop_more succ terminal backedge : forall fuel P w tr,
  dfs_loop succ terminal backedge fuel P w = Some tr -> forall f', fuel <= f' ->
  dfs_loop succ terminal backedge f' P w = Some tr.
Proof.
  induction fuel as [|fuel IH]; intros P w tr H f' L; [discriminate|].
  destruct f' as [|f']; [lia|]. cbn [dfs_loop] in *.
  destruct w as [|[top it] below]; auto.
  assert (G : forall P0 w0 g, option_map (g : list event -> list event) (dfs_loop succ terminal backedge fuel P0 w0) = Some tr ->
     option_map g (dfs_loop succ terminal backedge f' P0 w0) = Some tr).
  { intros P0 w0 g Hg. destruct (dfs_loop succ terminal backedge fuel P0 w0) as [t|] eqn:D; [|discriminate].
    rewrite (IH _ _ _ D f'); auto; lia. }
  destruct (terminal top); [apply G; auto|]. destruct it as [|c it]; [apply G; auto|].
  cbv zeta in *. destruct (mem c P); apply G; auto.
Qed.

Lemma roots_where_more succ cond f : forall blocks v r, roots_where succ f cond blocks v = Some r ->
  forall f', f <= f' -> roots_where succ f' cond blocks v = Some r.
Proof.
  induction blocks as [|b rest IH]; intros v r H f' L; cbn [roots_where] in *; auto.
  destruct (cond v b); [|eapply IH; eauto].
  unfold depth_first_traversal in *.
  destruct (dfs_loop succ (fun _ => false) false f [b] [(b, succ b)]) as [t|] eqn:D; [|discriminate].
  rewrite (dfs_loop_more _ _ _ _ _ _ _ D f' L). cbn [option_map] in *.
  destruct (roots_where succ f cond rest (pre_blocks (Pre b :: t) ++ v)) as [[r0 v0]|] eqn:E; [|discriminate].
  rewrite (IH _ _ E f' L). auto.
Qed.

Lemma traversal_roots_more succ pred f bl r : traversal_roots succ pred f bl = Some r ->
  forall f', f <= f' -> traversal_roots succ pred f' bl = Some r.
Proof.
  unfold traversal_roots. intros H f' L.
  destruct (roots_where succ f _ bl []) as [[r1 v1]|] eqn:E1; [|discriminate].
  rewrite (roots_where_more _ _ _ _ _ _ E1 f' L).
  destruct (roots_where succ f _ bl v1) as [[r2 v2]|] eqn:E2; [|discriminate].
  rewrite (roots_where_more _ _ _ _ _ _ E2 f' L). auto.
Qed.

Section Aug.
Variables (succ pred : N -> list N) (blocks : list N) (pin pout : N).
Hypothesis CLs : closed_graph succ blocks.
Hypothesis CLp : closed_graph pred blocks.
Hypothesis INV : inverse_edges succ pred blocks.
Hypothesis Nin : ~ In pin blocks.
Hypothesis Nout : ~ In pout blocks.
Hypothesis NE : pin <> pout.
(** The pseudo blocks have no edges of their own. *)
Hypothesis SE : succ pin = [] /\ pred pin = [] /\ succ pout = [] /\ pred pout = [].

Definition aug_fuel : nat := dfs_fuel succ blocks + dfs_fuel pred blocks.

Theorem augmented_ok :
  exists g, compute_augmented_cfg succ pred aug_fuel blocks pin pout = Some g /\
    (forall b, In b blocks -> reachable (aug_succ g) pin b) /\
    (forall b, In b blocks -> reachable (aug_succ g) b pout) /\
    (forall a b, In a (pin :: pout :: blocks) -> In b (pin :: pout :: blocks) ->
       (In b (aug_succ g a) <-> In a (aug_pred g b))) /\
    (forall a b, In a blocks -> In b (aug_succ g a) -> In b (succ a) \/ b = pout) /\
    (forall a b, In a blocks -> In b (succ a) -> In b (aug_succ g a)) /\
    (forall b, In b (aug_succ g pin) -> In b blocks) /\
    (forall b, In b (aug_pred g pout) -> In b blocks) /\
    (aug_succ g pout = [] /\ aug_pred g pin = []) /\
    (forall b, In b blocks -> pred b = [] -> In b (aug_succ g pin)) /\
    (forall b, In b blocks -> succ b = [] -> In pout (aug_succ g b)).
Proof.
  destruct (traversal_roots_cover succ pred blocks CLs) as [src [E1 [S1 [S2 S3]]]].
  assert (CLr : closed_graph pred (rev blocks)).
  { eapply closed_ext; [|exact CLp]. intros x. apply in_rev. }
  destruct (traversal_roots_cover pred succ (rev blocks) CLr) as [snk [E2 [T1 [T2 T3]]]].
  rewrite dfs_fuel_rev in E2.
  assert (T1' : incl snk blocks) by (intros x Hx; apply in_rev, T1; auto).
  unfold compute_augmented_cfg.
  rewrite (traversal_roots_more _ _ _ _ _ E1 aug_fuel) by (unfold aug_fuel; lia).
  rewrite (traversal_roots_more _ _ _ _ _ E2 aug_fuel) by (unfold aug_fuel; lia).
  eexists. split; [reflexivity|]. cbn [aug_succ aug_pred].
  destruct SE as [SE1 [SE2 [SE3 SE4]]].
  assert (Min : mem pin snk = false) by (apply mem_false; intro H; apply Nin, T1'; auto).
  assert (Mout : mem pout snk = false) by (apply mem_false; intro H; apply Nout, T1'; auto).
  assert (Msrc : mem pin src = false) by (apply mem_false; intro H; apply Nin, S1; auto).
  assert (Msrco : mem pout src = false) by (apply mem_false; intro H; apply Nout, S1; auto).
  assert (BI : forall b, In b blocks -> N.eqb b pin = false /\ N.eqb b pout = false).
  { intros b Hb. split; apply N.eqb_neq; intros ->; auto. }
  assert (Eio : N.eqb pin pout = false) by (apply N.eqb_neq; auto).
  assert (Eoi : N.eqb pout pin = false) by (apply N.eqb_neq; auto).
  match goal with |- (forall b, _ -> reachable ?s _ _) /\ _ => set (asucc := s) end.
  assert (SUB : forall x, In x blocks -> incl (succ x) (asucc x)).
  { intros x Hx y Hy. unfold asucc. destruct (BI x Hx) as [-> _].
    destruct (mem x snk); [right|]; auto. }
  split; [|split; [|split; [|split; [|split; [|split; [|split; [|split; [|split]]]]]]]].
  - intros b Hb. destruct (S2 b Hb) as [r [R1 R2]].
    eapply reach_trans; [apply reach_edge with (b := r)|].
    + unfold asucc. rewrite Min, N.eqb_refl. auto.
    + apply (reach_sub succ asucc blocks r b); auto.
  - intros b Hb. assert (Hb' : In b (rev blocks)) by (apply -> in_rev; auto).
    destruct (T2 b Hb') as [r [R1 R2]].
    assert (Hr : In r blocks) by (apply T1'; auto).
    destruct (reach_rev succ pred blocks r b CLp INV Hr R2) as [R3 _].
    eapply reach_trans; [eapply (reach_sub succ asucc blocks b r); eauto|].
    apply reach_edge. unfold asucc. assert (mem r snk = true) as -> by (apply mem_In; auto). left; auto.
  - intros a b Ha Hb. unfold asucc.
    destruct Ha as [<-|[<-|Ha]]; destruct Hb as [<-|[<-|Hb]].
    + rewrite Min, N.eqb_refl, Eio, Msrc, SE2. split; [intros H; exfalso; auto|intros []].
    + rewrite Min, N.eqb_refl, N.eqb_refl. split; intros H; exfalso; auto.
    + rewrite Min, N.eqb_refl. destruct (BI b Hb) as [_ ->]. destruct (mem b src) eqn:M.
      * split; intros; [left; auto|apply mem_In; auto].
      * split; intros H; exfalso.
        -- apply mem_false in M. auto.
        -- apply Nin. eapply CLp; eauto.
    + rewrite Mout, Eoi, Eio, Msrc, SE2, SE3. split; intros [].
    + rewrite Mout, Eoi, SE3, N.eqb_refl. split; [intros []|intros H; exfalso; auto].
    + rewrite Mout, Eoi, SE3. destruct (BI b Hb) as [_ ->]. split; [intros []|].
      intros H. exfalso. destruct (mem b src); [destruct H as [H|H]; [congruence|]|]; apply Nout; eapply CLp; eauto.
    + destruct (BI a Ha) as [-> _]. rewrite Eio, Msrc, SE2. split; [|intros []].
      intros H. exfalso. destruct (mem a snk); [destruct H as [H|H]; [congruence|]|]; apply Nin; eapply CLs; eauto.
    + destruct (BI a Ha) as [-> _]. rewrite N.eqb_refl. destruct (mem a snk) eqn:M.
      * split; intros; [apply mem_In; auto|left; auto].
      * split; intros H; exfalso; [apply Nout; eapply CLs; eauto|apply mem_false in M; auto].
    + destruct (BI a Ha) as [-> Ea]. destruct (BI b Hb) as [Eb ->].
      assert (Q1 : In b (if mem a snk then pout :: succ a else succ a) <-> In b (succ a)).
      { destruct (mem a snk); simpl; [|tauto]. split; [intros [->|]; [contradiction|auto]|auto]. }
      assert (Q2 : In a (if mem b src then pin :: pred b else pred b) <-> In a (pred b)).
      { destruct (mem b src); simpl; [|tauto]. split; [intros [->|]; [contradiction|auto]|auto]. }
      rewrite Q1, Q2. symmetry. apply INV; auto.
  - intros a b Ha H. unfold asucc in H. destruct (BI a Ha) as [Ea _]. rewrite Ea in H.
    destruct (mem a snk); auto. destruct H; auto.
  - intros a b Ha H. apply SUB; auto.
  - intros b H. unfold asucc in H. rewrite Min, N.eqb_refl in H. auto.
  - intros b H. rewrite N.eqb_refl in H. auto.
  - split.
    + unfold asucc. rewrite Mout, Eoi. auto.
    + rewrite Eio, Msrc. auto.
  - intros b Hb Hp. unfold asucc. rewrite Min, N.eqb_refl. auto.
  - intros b Hb Hs. unfold asucc. 
    assert (mem b snk = true) as ->; [|left; auto].
    apply mem_In, T3; auto. apply -> in_rev; auto.
Qed.
End Aug.
