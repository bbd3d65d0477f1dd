(** Proofs about moving instructions out of loops: nothing that could be moved is left, and the pass has a result. *)
From Coq Require Import Permutation.
From Verif Require Import Base GraphSpec NamedIds NamedIdsProofs Redundancy RedundancySpec RedundancyProofs RedundancyProofs2 Licm LicmSpec LicmProofs LicmProofs2 LicmProofs3.
Local Open Scope N_scope.

(** ** Trees *)
Lemma dtree_ind2 (P : dtree -> Prop) : (forall l kids, (forall k, In k kids -> P k) -> P (DNode l kids)) -> forall t, P t.
Proof.
  intros H. fix IH 1. intros [l kids]. apply H. induction kids as [|k kids IHk]; intros k' Hk; [destruct Hk|]. destruct Hk as [E|Hk]; [rewrite <- E; apply IH|exact (IHk k' Hk)].
Qed.
Lemma root_in t : In (root t) (labels t).
Proof. destruct t. left. reflexivity. Qed.
Lemma above_labels t x y : above t x y -> In x (labels t) /\ In y (labels t).
Proof.
  induction 1 as [l kids k l' Hk Hl|l kids k x y Hk H [A B]]; cbn [labels].
  - split; [left; reflexivity|]. right. apply in_flat_map. eauto.
  - split; right; apply in_flat_map; eauto.
Qed.
Lemma nodup_app {A} (l1 l2 : list A) : NoDup (l1 ++ l2) <-> NoDup l1 /\ NoDup l2 /\ forall x, In x l1 -> ~ In x l2.
Proof.
  induction l1 as [|a l1 IH]; cbn [app].
  - split; [intros H; repeat split; auto; constructor|tauto].
  - split.
    + intros H. inversion H as [|? ? H1 H2]; subst. apply IH in H2. destruct H2 as (A1 & A2 & A3). split; [constructor; [|exact A1]; intros I; apply H1, in_or_app; auto|]. split; [exact A2|].
      intros x [<-|Hx]; [|apply A3, Hx]. intros I. apply H1, in_or_app. auto.
    + intros (H1 & H2 & H3). inversion H1 as [|? ? N1 N2]; subst. constructor.
      * intros I. apply in_app_or in I. destruct I as [I|I]; [auto|]. exact (H3 a (or_introl eq_refl) I).
      * apply IH. split; [exact N2|]. split; [exact H2|]. intros x Hx. apply H3. right. exact Hx.
Qed.
Lemma nodup_kid kids k : NoDup (flat_map labels kids) -> In k kids -> NoDup (labels k).
Proof.
  induction kids as [|k' kids IH]; intros N H; [destruct H|]. cbn [flat_map] in N. apply nodup_app in N. destruct N as (A & B & _). destruct H as [->|H]; auto.
Qed.
Lemma same_kid kids k k' x : NoDup (flat_map labels kids) -> In k kids -> In k' kids -> In x (labels k) -> In x (labels k') -> k = k'.
Proof.
  induction kids as [|k0 kids IH]; intros N H H' Hx Hx'; [destruct H|]. cbn [flat_map] in N. apply nodup_app in N. destruct N as (A & B & C). destruct H as [->|H], H' as [->|H']; auto.
  - destruct (C x Hx). apply in_flat_map. eauto.
  - destruct (C x Hx'). apply in_flat_map. eauto.
Qed.
Lemma nodup_filter (g : dtree -> bool) kids : NoDup (flat_map labels kids) -> NoDup (flat_map labels (filter g kids)).
Proof.
  induction kids as [|k kids IH]; intros N; [exact N|]. cbn [flat_map filter] in *. apply nodup_app in N. destruct N as (A & B & C). destruct (g k); [|auto]. cbn [flat_map]. apply nodup_app.
  split; [exact A|]. split; [auto|]. intros x Hx I. apply (C x Hx). apply in_flat_map in I. destruct I as (k1 & H1 & Hx1). apply filter_In in H1. apply in_flat_map. exists k1. tauto.
Qed.
Lemma above_kid l kids k x y : NoDup (labels (DNode l kids)) -> In k kids -> In x (labels k) -> above (DNode l kids) x y -> above k x y.
Proof.
  cbn [labels]. intros N Hk Hx H. inversion N as [|? ? N1 N2]; subst. inversion H as [? ? k' ? Hk' Hl|? ? k' ? ? Hk' Ha]; subst.
  - destruct N1. apply in_flat_map. eauto.
  - destruct (above_labels _ _ _ Ha) as [Hx' _]. rewrite (same_kid kids k k' x N2 Hk Hk' Hx Hx'). exact Ha.
Qed.

Section Tree.
Variable f0 : func.
Hypothesis W0 : well_formed f0.
Variable d : dtree.
Hypothesis WT : whole_tree f0 d.
Notation dom := (dominates (succs f0) (entry f0)).
Definition closed (t : dtree) : Prop := dominator_tree f0 t /\ NoDup (labels t) /\ incl (labels t) (labels d) /\
  forall x y, In x (labels t) -> In y (labels d) -> x <> y -> dom x y -> above t x y.
Lemma closed_d : closed d.
Proof using WT. split; [apply WT|]. split; [apply WT|]. split; [intros x Hx; exact Hx|]. intros x y. apply WT. Qed.
Lemma closed_kid l kids k : closed (DNode l kids) -> In k kids -> closed k.
Proof using.
  intros (A & B & C & E) Hk. inversion A as [? ? Hl Kd]; subst. split; [apply Kd, Hk|]. assert (I : incl (labels k) (labels (DNode l kids))) by (intros x Hx; right; apply in_flat_map; eauto).
  split; [cbn [labels] in B; inversion B; subst; eapply nodup_kid; eauto|]. split; [intros x Hx; apply C, I, Hx|]. intros x y Hx Hy Ne Dx. apply (above_kid l kids k x y B Hk Hx). apply E; auto.
Qed.
Lemma closed_sub l : forall t t', closed t -> subtree l t = Some t' -> closed t' /\ root t' = l.
Proof using.
  fix IH 1. intros [l' kids] t' Cl H. cbn [subtree] in H. destruct (N.eqb_spec l' l) as [E|_]; [injection H as <-; split; [exact Cl|exact E]|].
  assert (K : forall k, In k kids -> closed k) by (intros k; apply closed_kid with l', Cl). clear Cl. induction kids as [|k kids IHk]; [discriminate|]. destruct (subtree l k) as [r|] eqn:E.
  - injection H as <-. exact (IH k r (K k (or_introl eq_refl)) E).
  - apply IHk; [exact H|]. intros k' Hk'. apply K. right. exact Hk'.
Qed.
Lemma dom_refl x : dom x x.
Proof using. intros l P. destruct (path_end _ _ _ _ P) as [l' ->]. apply in_or_app. right. left. reflexivity. Qed.
Lemma root_dom : forall t x, dominator_tree f0 t -> In x (labels t) -> dom (root t) x.
Proof using.
  induction t as [l kids IH] using dtree_ind2. intros x DT [<-|Hx]; [apply dom_refl|]. inversion DT as [? ? _ Kd]; subst. cbn [root]. apply in_flat_map in Hx. destruct Hx as (k & Hk & Hx).
  destruct (Kd k Hk) as [Dk Dl]. apply (LocalElimProofs.dom_trans _ _ _ _ _ Dl). apply IH; auto.
Qed.
Lemma above_dom t x y : dominator_tree f0 t -> above t x y -> dom x y.
Proof using.
  intros DT H. induction H as [l kids k l' Hk Hl|l kids k x y Hk H IH]; inversion DT as [? ? _ Kd]; subst; destruct (Kd k Hk) as [Dk Dl].
  - eapply LocalElimProofs.dom_trans; [exact Dl|apply root_dom; auto].
  - apply IH, Dk.
Qed.

(** ** One loop *)
Inductive followed (ins : list N) : dtree -> N -> Prop :=
| F_root t : followed ins t (root t)
| F_kid l kids k y : In k kids -> In (root k) ins -> followed ins k y -> followed ins (DNode l kids) y.
Lemma followed_all ins y : forall t, In y (labels t) -> (forall z, above t z y -> In z ins) -> In y ins -> followed ins t y.
Proof using.
  induction t as [l kids IH] using dtree_ind2. intros Hy Hz Hi. destruct Hy as [<-|Hy]; [apply (F_root ins (DNode l kids))|]. apply in_flat_map in Hy. destruct Hy as (k & Hk & Hy).
  assert (Rk : In (root k) ins).
  { destruct k as [lk kk]. cbn [root]. destruct Hy as [<-|Hy]; [exact Hi|]. apply Hz. apply in_flat_map in Hy. destruct Hy as (k2 & H2 & Hy). apply (AB_kid l kids (DNode lk kk)); [exact Hk|]. econstructor; eauto. }
  apply (F_kid ins l kids k y Hk Rk). assert (Hz' : forall z, above k z y -> In z ins) by (intros z Ha; apply Hz; econstructor; eauto).
  apply IH; auto.
Qed.
(** the tree below the header has all the blocks of the loop *)
Lemma loop_followed h p ins t y : has_preheader f0 h p ins -> subtree h d = Some t -> In y (labels d) -> In y ins -> followed ins t y.
Proof using W0 WT.
  intros PH Ht Hy Hi. destruct (closed_sub h d t closed_d Ht) as [(Dt & Nt & It & At) Rt].
  assert (Ry : forall z, In z (labels d) -> reachable (succs f0) (entry f0) z) by (intros z Hz; apply (wt_reached _ _ WT z Hz)).
  assert (Hd : dom h y).
  { intros l P. clear - P PH Hi W0. revert Hi. induction P as [|x y l P IH Hy]; intros Hi; [destruct (ph_entry _ _ _ _ PH Hi)|]. apply in_or_app. apply (succs_in f0 x y W0) in Hy. destruct Hy as (c & Hc & <- & Hs).
    destruct (ph_edges _ _ _ _ PH c y Hc Hs Hi) as [Hx|[_ ->]]; [left; auto|right; left; reflexivity]. }
  assert (Hh : In h (labels t)) by (rewrite <- Rt; apply root_in).
  apply followed_all; [|intros z Ha|exact Hi].
  - destruct (N.eq_dec h y) as [<-|Ne]; [exact Hh|]. apply (above_labels t h y). apply At; auto.
  - destruct (above_labels t z y Ha) as [Hz _]. pose proof (above_dom t z y Dt Ha) as Dz. destruct (in_dec N.eq_dec z ins) as [I|No]; [exact I|]. exfalso.
    pose proof (outside_dominates f0 h p ins W0 PH y z Hi (Ry y Hy) No Dz) as Zp. pose proof (pre_dominates f0 h p ins W0 PH h (ph_header _ _ _ _ PH)) as Ph.
    assert (Hz' : dom h z) by (rewrite <- Rt; apply root_dom; auto).
    assert (z = h) by (apply (LocalElimProofs.dom_antisym (succs f0) (entry f0)); [eapply LocalElimProofs.dom_trans; eauto|exact Hz'|apply Ry, It, Hh]). subst z. exact (No (ph_header _ _ _ _ PH)).
Qed.

Variable safe : N -> bool.
Definition trivial : machine unit unit := mkmachine (fun _ _ => Some tt) (fun _ _ _ => None) (fun _ _ => None).
Lemma trivial_nu : never_undefined trivial safe.
Proof. intros op ds _. discriminate. Qed.
(** [f] is the function with some moves made *)
Definition on_the_way (f : func) : Prop := well_formed f /\ frame f0 = frame f.
Lemma way_dom f x y : on_the_way f -> dominates (succs f) (entry f) x y -> dom x y.
Proof using W0. intros [W E]. exact (frame_dom f f0 x y W W0 (eq_sym E)). Qed.
Lemma way_reach f l : on_the_way f -> In l (labels d) -> reachable (succs f) (entry f) l.
Proof using W0 WT. intros [W E] Hl. apply (frame_reach f0 f l W0 W E). apply (wt_reached _ _ WT), Hl. Qed.
Lemma way_pre f h p ins : on_the_way f -> has_preheader f0 h p ins -> has_preheader f h p ins.
Proof using. intros [W E]. apply frame_preheader, E. Qed.
Lemma inside_set f ins a : is_inside f ins a = true <-> set_in f ins a.
Proof using.
  unfold is_inside. rewrite existsb_exists. split.
  - intros (b & Hb & H). apply andb_true_iff in H. destruct H as [Hm Hs]. apply mem_In in Hm. unfold sets in Hs. apply orb_true_iff in Hs. destruct Hs as [Hs|Hs]; apply existsb_exists in Hs.
    + destruct Hs as (q & Hq & Eq). apply N.eqb_eq in Eq. exists b, 0%nat. split; [split; [exact Hb|eauto]|exact Hm].
    + destruct Hs as (x & Hx & Ex). destruct (result x) as [z|] eqn:Rx; [|discriminate]. apply N.eqb_eq in Ex. subst z. apply In_nth_error in Hx. destruct Hx as [j Hj].
      exists b, (S j). split; [split; [exact Hb|eauto]|exact Hm].
  - intros (b & k & [Hb H] & Hi). exists b. split; [exact Hb|]. apply andb_true_iff. split; [apply mem_In, Hi|]. unfold sets. apply orb_true_iff. destruct k as [|j].
    + left. destruct H as (q & Hq & E). apply existsb_exists. exists q. rewrite E, N.eqb_refl. auto.
    + right. destruct H as (x & Hx & E). apply existsb_exists. exists x. rewrite E, N.eqb_refl. split; [eapply nth_error_In; eauto|reflexivity].
Qed.
Lemma hoist_invariant f ins i : should_hoist safe f ins i = true <-> invariant safe f ins i.
Proof using.
  destruct i as [r op args|r a|r op args]; cbn [should_hoist invariant].
  - rewrite andb_true_iff, forallb_forall. split; intros [A B]; (split; [exact A|]); intros a Ha; specialize (B a Ha).
    + apply negb_true_iff in B. intros S. apply inside_set in S. congruence.
    + apply negb_true_iff. destruct (is_inside f ins a) eqn:E; [|reflexivity]. destruct B. apply inside_set, E.
  - rewrite negb_true_iff. rewrite <- inside_set. destruct (is_inside f ins a); split; congruence.
  - split; [discriminate|intros []].
Qed.
(** an instruction that stays goes on to stay if its operands do *)
Lemma stays_mono f f' ins i : (forall a, In a (reads i) -> set_in f ins a -> set_in f' ins a) -> should_hoist safe f ins i = false -> should_hoist safe f' ins i = false.
Proof using.
  intros H F. destruct (should_hoist safe f' ins i) eqn:E; [|reflexivity]. enough (should_hoist safe f ins i = true) by congruence. apply hoist_invariant in E. apply hoist_invariant.
  destruct i as [r op args|r a|r op args]; cbn [invariant reads] in *; [|intros S; apply E, H; [left; reflexivity|exact S]|exact E].
  destruct E as [A B]. split; [exact A|]. intros a Ha S. apply (B a Ha), H; auto.
Qed.

Section Loop1.
Variables (h p : N) (ins : list N) (nested : list loop).
Hypothesis PH0 : has_preheader f0 h p ins.
Notation x := (Loop h (Some p) ins nested).
Lemma immediate_in l : immediate x l = true -> In l ins.
Proof using. cbn [immediate]. intros H. apply andb_true_iff in H. apply mem_In, H. Qed.
Definition settled (f : func) (S : list N) : Prop :=
  forall c i, In c (blocks f) -> In (label c) S -> immediate x (label c) = true -> In i (body c) -> should_hoist safe f ins i = false.

Lemma body_settled l S : In l (labels d) -> immediate x l = true -> ~ In l S -> incl S (labels d) -> (forall c, In c S -> ~ dom l c) ->
  forall rest kept f f' b, on_the_way f -> In b (blocks f) -> label b = l -> body b = kept ++ rest -> settled f S -> (forall i, In i kept -> should_hoist safe f ins i = false) ->
    hoist_body safe ins (Some p) l kept rest f = Some f' -> on_the_way f' /\ settled f' (l :: S).
Proof using W0 WT PH0.
  intros Ll Im Nl Is Nd. pose proof (immediate_in l Im) as Hin. induction rest as [|i rest IH]; intros kept f f' b OW Hb Lb Bd St Kp H; cbn [hoist_body] in H.
  - injection H as <-. split; [exact OW|]. intros c i Hc [E|Hl] Ic Hi; [|eapply St; eauto].
    assert (c = b) by (apply (same_label f (proj1 OW)); congruence). subst c. rewrite Bd, app_nil_r in Hi. apply Kp, Hi.
  - destruct (should_hoist safe f ins i) eqn:Hh.
    + pose proof (proj1 OW) as WF. pose proof (way_pre f h p ins OW PH0) as PH. assert (Rb : reach f b) by (unfold reach; rewrite Lb; apply way_reach; auto). subst l.
      pose proof (move_improves trivial safe trivial_nu f h p ins b kept rest i WF PH Hb Hin Rb Bd Hh) as M. unfold moved in M at 1.
      destruct (hoistable_pure trivial safe trivial_nu f ins i Hh) as (r & Pi & Out & _).
      assert (Dr : defined_at f r b (Datatypes.S (length kept))) by exact (def_r f h p ins WF PH b kept rest i r Hb Hin Rb Bd Pi Out).
      assert (Mono : forall i0, ~ In r (reads i0) -> should_hoist safe f ins i0 = false -> should_hoist safe (moved f p b kept rest i) ins i0 = false).
      { intros i0 Nr. apply stays_mono. intros a Ha (c & k & Dc & Ic). exists (mv p b kept rest i c), (pl b kept c k). rewrite mv_label. split; [|exact Ic].
        apply (def_moved f h p ins WF PH b kept rest i r Hb Hin Rb Bd Pi Out); [exact Dc|]. intros ->. exact (Nr Ha). }
      apply (IH kept _ f' (mv p b kept rest i b)) in H; auto.
      * split; [apply M|]. rewrite (proj2 OW). apply M.
      * fold (moved f p b kept rest i). rewrite blocks_moved. apply in_map, Hb.
      * apply mv_label.
      * exact (body_b f h p ins PH b kept rest i Hin).
      * fold (moved f p b kept rest i). intros c' i0 Hc' Hl Ic Hi. destruct (moved_in f h p ins WF PH b kept rest i r Hb Hin Rb Bd Pi Out c' Hc') as (c & Hc & ->). rewrite mv_label in Hl, Ic.
        assert (N1 : label c <> p) by (intros E; apply (ph_outside _ _ _ _ PH); rewrite <- E; apply immediate_in, Ic).
        assert (N2 : label c <> label b) by (intros E; apply Nl; rewrite <- E; exact Hl). rewrite (body_other p b kept rest i c N1 N2) in Hi.
        apply Mono; [|eapply St; eauto]. intros Hr. apply In_nth_error in Hi. destruct Hi as [j Hj].
        assert (Rc : reach f c) by (unfold reach; apply way_reach; auto).
        pose proof (wf_uses f WF c j i0 r Hc Rc Hj Hr) as Av. destruct (avail_place f c _ r b _ WF Av Dr) as [[-> _]|[Ne Db]]; [exact (Nl Hl)|].
        exact (Nd _ Hl (way_dom f _ _ OW Db)).
      * fold (moved f p b kept rest i). intros i0 Hi. apply Mono; [|apply Kp, Hi]. intros Hr. apply In_nth_error in Hi. destruct Hi as [j Hj].
        assert (Lj : (j < length kept)%nat) by (apply nth_error_Some; congruence).
        assert (Hj' : nth_error (body b) j = Some i0) by (rewrite Bd, nth_error_app1; assumption).
        pose proof (wf_uses f WF b j i0 r Hb Rb Hj' Hr) as Av. destruct (avail_place f b _ r b _ WF Av Dr) as [[_ L]|[Ne _]]; [clear - Lj L; lia|exact (Ne eq_refl)].
    + apply (IH (kept ++ [i]) f f' b) in H; auto.
      * rewrite <- app_assoc. exact Bd.
      * intros i0 Hi. apply in_app_or in Hi. destruct Hi as [Hi|[<-|[]]]; [apply Kp, Hi|exact Hh].
Qed.
Lemma blocks_settled : forall fuel todo S f f', on_the_way f -> settled f S -> incl S (labels d) -> (forall t, In t todo -> closed t) -> NoDup (flat_map labels todo) ->
  (forall l, In l (flat_map labels todo) -> ~ In l S) -> hoist_blocks safe fuel x todo f = Some f' ->
  on_the_way f' /\ forall c i, In c (blocks f') -> (In (label c) S \/ exists t, In t todo /\ followed ins t (label c)) -> immediate x (label c) = true -> In i (body c) -> should_hoist safe f' ins i = false.
Proof using W0 WT PH0.
  assert (Nil : forall S f, on_the_way f -> settled f S -> on_the_way f /\ forall c i, In c (blocks f) -> (In (label c) S \/ exists t, In t [] /\ followed ins t (label c)) ->
    immediate x (label c) = true -> In i (body c) -> should_hoist safe f ins i = false).
  { intros S f OW St. split; [exact OW|]. intros c i Hc [Hl|(t & [] & _)] Ic Hi. eapply St; eauto. }
  induction fuel as [|fuel IH]; intros [|[l kids] todo] S f f' OW St Is Cl Nt Ds H; cbn [hoist_blocks] in H; try (injection H as <-; apply Nil; assumption); [discriminate|].
  destruct (if immediate x l then _ else _) as [f1|] eqn:E1; [|discriminate].
  pose proof (Cl _ (or_introl eq_refl)) as Ct. destruct Ct as (Dt & Ndt & It & At). cbn [flat_map] in Nt, Ds. apply nodup_app in Nt. destruct Nt as (Nt1 & Nt2 & Nt3).
  assert (Ll : In l (labels d)) by (apply It; left; reflexivity). assert (NlS : ~ In l S) by (apply Ds; left; reflexivity).
  assert (M : on_the_way f1 /\ settled f1 (l :: S)).
  { destruct (immediate x l) eqn:Im.
    - destruct (find (fun b => label b =? l) (blocks f)) as [b|] eqn:F; [|discriminate]. apply find_block_inv in F. destruct F as [Hb Lb].
      apply (body_settled l S Ll Im NlS Is) with (rest := body b) (kept := []) (f := f) (b := b); auto; [|intros i []].
      intros c Hc Dc. assert (Ne : l <> c) by (intros ->; exact (NlS Hc)). pose proof (At l c (or_introl eq_refl) (Is c Hc) Ne Dc) as Ab.
      apply (Ds c); [|exact Hc]. apply in_or_app. left. apply (above_labels _ _ _ Ab).
    - injection E1 as <-. split; [exact OW|]. intros c i Hc [E|Hl] Ic Hi; [|eapply St; eauto]. congruence. }
  destruct M as [OW1 St1]. cbn [l_inside] in H.
  destruct (IH (todo ++ filter (fun k => mem (node_label k) ins) kids) (l :: S) f1 f' OW1 St1) as [OW' R]; auto.
  - intros y [<-|Hy]; auto.
  - intros t Ht. apply in_app_or in Ht. destruct Ht as [Ht|Ht]; [apply Cl; right; exact Ht|]. apply filter_In in Ht. apply (closed_kid l kids); [apply Cl; left; reflexivity|tauto].
  - rewrite flat_map_app. cbn [labels] in Nt1. inversion Nt1 as [|? ? N1 N2]; subst. apply nodup_app. split; [exact Nt2|]. split; [apply nodup_filter, N2|].
    intros y Hy I. apply (Nt3 y); [|exact Hy]. right. apply in_flat_map in I. destruct I as (k & Hk & I). apply filter_In in Hk. apply in_flat_map. exists k. tauto.
  - intros y Hy. rewrite flat_map_app in Hy. cbn [labels] in Nt1. inversion Nt1 as [|? ? N1 N2]; subst.
    assert (C : In y (flat_map labels todo) \/ In y (flat_map labels kids)).
    { apply in_app_or in Hy. destruct Hy as [Hy|Hy]; [left; exact Hy|right]. apply in_flat_map in Hy. destruct Hy as (k & Hk & I). apply filter_In in Hk. apply in_flat_map. exists k. tauto. }
    intros [E|Hs].
    + subst y. destruct C as [C|C]; [exact (Nt3 l (or_introl eq_refl) C)|exact (N1 C)].
    + apply (Ds y); [|exact Hs]. apply in_or_app. destruct C as [C|C]; [right; exact C|left; right; exact C].
  - split; [exact OW'|]. intros c i Hc Hl Ic Hi. apply (R c i Hc); auto. destruct Hl as [Hl|(t & [<-|Ht] & Fo)].
    + left. right. exact Hl.
    + inversion Fo as [t E|l0 kids0 k y Hk Rk Fk]; subst.
      * left. left. auto.
      * right. exists k. split; [|exact Fk]. apply in_or_app. right. apply filter_In. split; [exact Hk|]. destruct k. apply mem_In, Rk.
    + right. exists t. split; [apply in_or_app; left; exact Ht|exact Fo].
Qed.
End Loop1.
End Tree.
