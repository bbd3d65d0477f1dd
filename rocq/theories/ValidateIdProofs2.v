(** Proofs about ValidateId.v, second part: the dominators of one function. *)
From Verif Require Import Base NamedIds NamedIdsProofs Cfa GraphSpec DfsSpec CfaProofs DominatorProofs DfsDominators AugmentedProofs
  ValidateId ValidateIdSpec ValidateIdProofs.
Local Open Scope N_scope.

(** *** CalculateDominators does not look at the predecessors of the last block. *)
Lemma update_block_ext p q po d i b : nth_error po i = Some b -> p b = q b ->
  update_block p po d i = update_block q po d i.
Proof. intros E H. unfold update_block. rewrite E, H. reflexivity. Qed.
Lemma dom_pass_ext p q po : forall i d c,
  (forall j b, (j < i)%nat -> nth_error po j = Some b -> p b = q b) ->
  dom_pass p po i d c = dom_pass q po i d c.
Proof.
  induction i as [|i IH]; intros d c H; auto. cbn [dom_pass].
  assert (E : update_block p po d i = update_block q po d i).
  { destruct (nth_error po i) as [b|] eqn:N; [eapply update_block_ext; eauto|]. unfold update_block. rewrite N. auto. }
  rewrite E. destruct (update_block q po d i) as [[d' c']|]; auto. apply IH. intros j b L. apply H. lia.
Qed.
Lemma dom_loop_ext p q po : (forall j b, (j < length po - 1)%nat -> nth_error po j = Some b -> p b = q b) ->
  forall fuel d, dom_loop p po fuel d = dom_loop q po fuel d.
Proof.
  intros H. induction fuel as [|fuel IH]; intros d; auto. cbn [dom_loop].
  rewrite (dom_pass_ext p q po (length po - 1) d false H).
  destruct (dom_pass q po (length po - 1) d false) as [[d' []]|]; auto.
Qed.
Lemma calculate_ext p q po fuel : (forall j b, (j < length po - 1)%nat -> nth_error po j = Some b -> p b = q b) ->
  calculate_dominators po p fuel = calculate_dominators po q fuel.
Proof.
  intros H. unfold calculate_dominators. destruct (length po) eqn:L; auto. rewrite (dom_loop_ext p q po); auto.
  rewrite L. auto.
Qed.

(** *** Searching through the immediate dominators *)
Lemma idom_some edges b p : NoDup (map fst edges) -> (idom edges b = Some p <-> In (b, p) edges /\ p <> b).
Proof.
  intros ND. unfold idom. split.
  - destruct (find (fun e => fst e =? b) edges) as [[x y]|] eqn:F; [|discriminate].
    apply find_some in F. cbn [fst] in F. destruct F as [H E]. apply N.eqb_eq in E. subst x.
    destruct (N.eqb_spec y b) as [E|E]; [discriminate|]. intros Q. injection Q as <-. auto.
  - intros [H NE]. destruct (find (fun e => fst e =? b) edges) as [[x y]|] eqn:F.
    + apply find_some in F. cbn [fst] in F. destruct F as [H' E]. apply N.eqb_eq in E. subst x.
      assert (y = p) as ->.
      { clear -ND H H'. induction edges as [|[u v] l IH]; [destruct H|]. cbn [map fst] in ND. inversion ND; subst.
        destruct H as [H|H], H' as [H'|H']; try congruence.
        - injection H as -> ->. exfalso. apply H2. change b with (fst (b, y)). apply in_map; auto.
        - injection H' as -> ->. exfalso. apply H2. change b with (fst (b, p)). apply in_map; auto.
        - auto. }
      destruct (N.eqb_spec p b); congruence.
    + exfalso. eapply find_none in F; eauto. cbn [fst] in F. rewrite N.eqb_refl in F. discriminate.
Qed.

Lemma climbs_sound edges a : NoDup (map fst edges) -> forall fuel b r, climbs_to edges fuel b a = Some r ->
  (r = true <-> up_chain edges b a).
Proof.
  intros ND. induction fuel as [|fuel IH]; intros b r H; [discriminate|]. cbn [climbs_to] in H.
  destruct (N.eqb_spec b a) as [E|E].
  - subst. injection H as <-. split; auto. intros _. constructor.
  - destruct (idom edges b) as [p|] eqn:I.
    + apply (IH p r) in H. rewrite H. apply idom_some in I; auto. destruct I as [I1 I2]. split.
      * intros U. eapply uc_up; eauto.
      * intros U. inversion U as [|? p' ? J1 J2 J3]; [congruence|]. subst.
        assert (idom edges b = Some p') as K by (apply idom_some; auto).
        assert (idom edges b = Some p) as K2 by (apply idom_some; auto). congruence.
    + injection H as <-. split; [discriminate|]. intros U. inversion U as [|? p' ? J1 J2 J3]; [congruence|]. subst.
      assert (idom edges b = Some p') as K by (apply idom_some; auto). congruence.
Qed.

Section Dom.
Variable f : func.
Variable b0 : block.
Variable rest : list block.
Hypothesis ND : NoDup (labels f).
Hypothesis TD : targets_defined f = true.
Hypothesis RG : forall l, In l (labels f) -> 0 < l < 0x400000.
Hypothesis TAME : forall b, In b (labels f) -> incl (struct_succ f b) (succ f b) \/
    exists e, reachable (struct_succ f) b e /\ struct_succ f e = [].
Hypothesis B : blocks f = b0 :: rest.

Let e := label b0.
Let V := pseudo_exit :: labels f.

Lemma labels_cons : labels f = e :: map label rest.
Proof using B. unfold labels. rewrite B. reflexivity. Qed.
Lemma exit_not_label : ~ In pseudo_exit (labels f).
Proof using RG. intros H. apply RG in H. destruct H as [_ H]. exact (N.lt_irrefl _ H). Qed.
Lemma zero_not_v : ~ In 0 V.
Proof using RG. intros [H|H]; [discriminate|]. apply RG in H. destruct H as [H _]. exact (N.lt_irrefl _ H). Qed.

Record good_graph (g : augmented) : Prop := {
  gg_exit : aug_succ g pseudo_exit = [];
  gg_succ : forall a c, In a (labels f) -> (In c (aug_succ g a) -> c = pseudo_exit \/ In c (succ f a));
  gg_real : forall a, In a (labels f) -> incl (succ f a) (aug_succ g a);
  gg_pred : forall a b, In a V -> In b V -> b <> e -> reachable (struct_succ f) e b \/ b = pseudo_exit ->
     (In a (aug_pred g b) <-> In b (aug_succ g a))
}.

Lemma augmented_good : exists g, cfg_augmented f = Some g /\ good_graph g.
Proof using ND TD RG TAME B.
  unfold cfg_augmented.
  destruct (sources_ok f TD e (map label rest) labels_cons) as (sources & E1 & S1 & S2).
  destruct (sinks_ok f TD) as (sinks & E2 & K1 & K2 & K3).
  rewrite (traversal_roots_more _ _ _ _ _ E1) by lia. rewrite (traversal_roots_more _ _ _ _ _ E2) by lia.
  eexists. split; [reflexivity|].
  assert (NX : ~ In pseudo_exit sinks) by (intros H; apply K1 in H; exact (exit_not_label H)).
  assert (MX : mem pseudo_exit sinks = false).
  { destruct (mem pseudo_exit sinks) eqn:M; auto. apply mem_In in M. contradiction. }
  assert (SI : forall a, In a sinks -> incl (struct_succ f a) (succ f a)).
  { intros a Ha. destruct (K2 a Ha) as [H|H]; [rewrite H; intros x []|].
    destruct (TAME a (K1 a Ha)) as [T|(x & R & Ex)]; auto. exfalso. apply (H x); auto.
    destruct R as [l P]. destruct (path_split_end _ _ _ _ P) as [[_ ->]|(c & l' & _ & _ & Q)]; [apply K1; auto|].
    apply (struct_succ_in f TD) in Q. tauto. }
  constructor; cbn [aug_succ aug_pred].
  - rewrite MX. change (pseudo_exit =? pseudo_entry) with false. cbv iota. apply succ_none. exact exit_not_label.
  - intros a c Ha. destruct (mem a sinks) eqn:M.
    + apply mem_In in M. intros [<-|H]; auto. right. eapply SI; eauto.
    + destruct (N.eqb_spec a pseudo_entry) as [Q|Q]; [subst; exfalso; apply zero_not_v; right; auto|]. auto.
  - intros a Ha c Hc. destruct (mem a sinks) eqn:M; [right; apply succ_struct; auto|].
    destruct (N.eqb_spec a pseudo_entry) as [Q|Q]; [subst; exfalso; apply zero_not_v; right; auto|]. auto.
  - intros a b Ha Hb NE R.
    assert (A0 : N.eqb a pseudo_entry = false) by (apply N.eqb_neq; intros ->; exact (zero_not_v Ha)).
    destruct (N.eqb_spec b pseudo_exit) as [Q|Q].
    + subst b. rewrite A0. destruct (mem a sinks) eqn:M.
      * apply mem_In in M. split; intros; [left|]; auto.
      * split; intros H.
        -- apply mem_In in H. congruence.
        -- apply (succ_in f TD) in H. exfalso. apply exit_not_label. tauto.
    + destruct R as [R|R]; [|congruence].
      assert (Hb' : In b (labels f)) by (destruct Hb; [congruence|auto]).
      assert (MS : mem b sources = false).
      { destruct (mem b sources) eqn:M; auto. apply mem_In in M. exfalso. apply NE. apply S2; auto. }
      rewrite MS, A0. unfold pred. rewrite in_preds_by. destruct (mem a sinks) eqn:M.
      * apply mem_In in M. split.
        -- intros [H1 H2]. right. apply succ_struct; auto.
        -- intros [H|H]; [congruence|]. split; [apply K1; auto|apply SI; auto].
      * split; [tauto|]. intros H. split; auto. apply (succ_in f TD) in H. tauto.
Qed.

(** Paths of the augmented graph that end in a real block are paths of the function. *)
Lemma aug_path g : good_graph g -> forall b l, b <> pseudo_exit ->
  (path (aug_succ g) e b l <-> path (succ f) e b l).
Proof using TD RG B.
  intros [G1 G2 G3 _] b l NE.
  assert (EL : In e (labels f)) by (rewrite labels_cons; left; auto).
  split; intros P.
  - assert (Q : path (succ f) e b l /\ In b (labels f)); [|tauto].
    induction P as [|x y l P IH H]; [split; auto; constructor|].
    destruct (N.eq_dec x pseudo_exit) as [->|NX]; [rewrite G1 in H; destruct H|].
    destruct (IH NX) as [P' Hx]. destruct (G2 x y Hx H) as [|H']; [contradiction|]. split; [econstructor; eauto|].
    apply (succ_in f TD) in H'. tauto.
  - induction P as [|x y l P IH H]; [constructor|].
    destruct (succ_in f TD _ _ H) as [Hx Hy].
    econstructor; [apply IH; intros ->; exact (exit_not_label Hx)|]. apply G3; auto.
Qed.
Lemma reach_label b : reachable (succ f) e b -> In b (labels f).
Proof using TD B.
  intros [l P]. destruct (path_split_end _ _ _ _ P) as [[_ ->]|(c & l' & _ & _ & Q)].
  - rewrite labels_cons. left; auto.
  - apply (succ_in f TD) in Q. tauto.
Qed.

Theorem function_idoms_ok : exists edges, function_idoms f = Some edges /\
  (forall b p, idom edges b = Some p -> b <> pseudo_exit ->
      reachable (succ f) e b /\ b <> e /\ immediate_dominator (succ f) e p b) /\
  (forall b, reachable (succ f) e b -> b <> e -> exists p, idom edges b = Some p) /\
  (forall a b, reachable (succ f) e b -> exists r, block_dominates edges a b = Some r /\
      (r = true <-> dominates (succ f) e a b)).
Proof using ND TD RG TAME B.
  destruct augmented_good as (g & Eg & G). pose proof (aug_path g G) as AP.
  unfold function_idoms. rewrite B. fold e. rewrite Eg. fold V.
  assert (EL : In e (labels f)) by (rewrite labels_cons; left; auto).
  assert (Cl : closed_graph (aug_succ g) V).
  { intros a c [<-|Ha] Hc; [rewrite (gg_exit g G) in Hc; destruct Hc|].
    destruct (gg_succ g G a c Ha Hc) as [->|H]; [left; auto|]. right. apply (succ_in f TD) in H. tauto. }
  assert (EV : In e V) by (right; auto).
  destruct (traversal_run (aug_succ g) never false V e Cl EV) as [tr [P [k [R E]]]].
  assert (OK := visit_postorder_ok _ _ _ _ _ _ R).
  assert (SUB : incl (post_blocks tr) V).
  { intros x Hx. apply (proj1 (blocks_reported (aug_succ g) never false) _ _ _ _ _ _ R (fun x => x)) in Hx.
    eapply (proj1 (processed_closed (aug_succ g) never false V Cl)); eauto; [intros y []|tauto]. }
  set (pred' := fun b => if N.eqb b e then filter (fun a => mem e (aug_succ g a)) V else aug_pred g b).
  assert (XE : pseudo_exit <> e) by (intros Q; apply exit_not_label; rewrite Q; auto).
  assert (INV' : inverse_edges (aug_succ g) pred' (post_blocks tr)).
  { intros a b Ha Hb. pose proof (SUB a Ha) as Va. pose proof (SUB b Hb) as Vb. unfold pred'.
    destruct (N.eqb_spec b e) as [Q|Q].
    - subst b. rewrite filter_In, mem_In. tauto.
    - apply (gg_pred g G); auto. destruct (N.eq_dec b pseudo_exit) as [Q2|Q2]; auto. left.
      apply (po_all _ _ _ OK) in Hb. destruct Hb as [l Pl]. apply AP in Pl; auto.
      clear -Pl. induction Pl as [|x y l Pl IH H]; [apply reach_refl|]. eapply reach_trans; eauto. apply reach_edge. apply succ_struct; auto. }
  destruct (calculate_dominators_ok (aug_succ g) pred' e (post_blocks tr) OK INV') as [edges [E1 [E2 [E3 E4]]]].
  exists edges. unfold never in E. rewrite E.
  assert (CE : calculate_dominators (post_blocks tr) (aug_pred g) (dom_fuel (post_blocks tr)) = Some edges).
  { rewrite <- E1. apply calculate_ext. intros j b L Hj. unfold pred'. destruct (N.eqb_spec b e) as [Q|Q]; auto. exfalso.
    subst b. pose proof (po_last _ _ _ OK) as PL.
    pose proof (proj1 (NoDup_nth_error (post_blocks tr)) (po_nodup _ _ _ OK) j (length (post_blocks tr) - 1)%nat) as U.
    rewrite Hj, PL in U. specialize (U ltac:(lia) eq_refl). lia. }
  rewrite CE. split; auto.
  assert (NDE : NoDup (map fst edges)) by (rewrite E2; apply (po_nodup _ _ _ OK)).
  assert (RA : forall b, b <> pseudo_exit -> (reachable (aug_succ g) e b <-> reachable (succ f) e b)).
  { intros b NE. split; intros [l Pl]; exists l; apply AP; auto. }
  assert (DA : forall a b, b <> pseudo_exit -> (dominates (aug_succ g) e a b <-> dominates (succ f) e a b)).
  { intros a b NE. split; intros D l Pl; apply D; apply AP; auto. }
  assert (RX : forall b, reachable (succ f) e b -> b <> pseudo_exit).
  { intros b Rb ->. apply exit_not_label. apply reach_label; auto. }
  assert (ID : forall b p, idom edges b = Some p -> b <> pseudo_exit ->
      reachable (succ f) e b /\ b <> e /\ immediate_dominator (succ f) e p b).
  { intros b p I NE. apply idom_some in I; auto. destruct I as [I1 I2].
    assert (Rb : reachable (succ f) e b).
    { apply RA; auto. apply (po_all _ _ _ OK). rewrite <- E2. change b with (fst (b, p)). apply in_map; auto. }
    destruct (E3 b p I1) as [[-> ->]|[NE2 [X1 [X2 X3]]]]; [congruence|]. split; auto. split; auto. split; [auto|]. split; [apply DA; auto|].
    assert (NP : p <> pseudo_exit).
    { intros ->. apply DA in X2; auto. destruct Rb as [l Pl]. specialize (X2 l Pl).
      destruct (path_pre _ _ _ _ _ Pl X2) as (l1 & _ & _ & P1). exact (RX pseudo_exit (ex_intro _ l1 P1) eq_refl). }
    intros c NC DC. apply DA; auto. apply X3; auto. apply DA; auto. }
  split; auto. split.
  - intros b Rb NE.
    assert (In b (map fst edges)) as H by (rewrite E2; apply (po_all _ _ _ OK); apply RA; auto).
    apply in_map_iff in H. destruct H as ([x p] & Q & H). cbn [fst] in Q. subst x. exists p. apply idom_some; auto. split; auto.
    destruct (E3 b p H) as [[-> _]|[_ [X1 _]]]; congruence.
  - intros a b Rb.
    assert (TERM : forall fuel b l, path (succ f) e b l -> NoDup l -> (length l <= fuel)%nat -> exists r, climbs_to edges fuel b a = Some r).
    { clear b Rb. induction fuel as [|fuel IH]; intros b l Pl NDl L.
      - destruct l; [inversion Pl; destruct l; discriminate|simpl in L; lia].
      - cbn [climbs_to]. destruct (b =? a); [eauto|]. destruct (idom edges b) as [p|] eqn:I; [|eauto].
        destruct (ID b p I) as (_ & _ & X1 & X2 & _); [apply RX; exists l; auto|].
        destruct (path_split_end _ _ _ _ Pl) as [[-> ->]|(c & l' & -> & P' & H)].
        + exfalso. specialize (X2 _ Pl). destruct X2 as [<-|[]]. auto.
        + specialize (X2 _ Pl). apply in_app_or in X2. destruct X2 as [X2|[<-|[]]]; [|congruence].
          destruct (path_pre _ _ _ _ _ P' X2) as (l1 & l2 & -> & P1). apply (IH p l1 P1).
          * rewrite <- app_assoc in NDl. clear -NDl. induction l1 as [|z l1 IH]; [constructor|]. simpl in NDl. inversion NDl; subst.
            constructor; auto. intros K. apply H1. apply in_or_app; auto.
          * rewrite !app_length in L. simpl in L. lia. }
    destruct (simple_path _ _ _ Rb) as (l & Pl & NDl).
    destruct (TERM (S (length edges)) b l Pl NDl) as [r Er].
    { apply Nat.le_le_succ_r. rewrite <- (map_length fst edges). apply NoDup_incl_length; auto.
      intros x Hx. destruct (path_pre _ _ _ _ _ Pl Hx) as (l1 & _ & _ & P1).
      rewrite E2. apply (po_all _ _ _ OK). assert (Rx : reachable (succ f) e x) by (exists l1; auto). apply RA; auto. }
    unfold block_dominates. destruct (N.eqb_spec a b) as [Q|Q].
    + exists true. split; auto. split; auto. intros _ m Pm. subst. eapply path_in_end; eauto.
    + exists r. split; auto. rewrite (climbs_sound edges a NDE _ _ _ Er). rewrite E4; [apply DA; auto|apply RA; auto].
Qed.
End Dom.
