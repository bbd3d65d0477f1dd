(** Proofs about moving instructions out of loops: nothing that could be moved is left in any loop, and the pass has a result. *)
From Coq Require Import Permutation.
From Verif Require Import Base GraphSpec NamedIds NamedIdsProofs Redundancy RedundancySpec RedundancyProofs RedundancyProofs2 Licm LicmSpec LicmProofs LicmProofs2 LicmProofs3 LicmProofs4.
Local Open Scope N_scope.

(** ** Blocks that are left alone *)
Definition leaves (P : N -> Prop) (f f' : func) : Prop := forall c, In c (blocks f) -> P (label c) -> In c (blocks f').
Lemma leaves_trans P f g h : leaves P f g -> leaves P g h -> leaves P f h.
Proof. intros A B c Hc Pc. apply B; [|exact Pc]. apply A; assumption. Qed.
Lemma leaves_edit P l g f : ~ P l -> leaves P f (edit l g f).
Proof.
  intros N c Hc Pc. unfold edit. cbn [blocks]. apply in_map_iff. exists c. split; [|exact Hc]. unfold with_body. destruct (N.eqb_spec (label c) l) as [E|_]; [rewrite E in Pc; destruct (N Pc)|reflexivity].
Qed.
Section Leave.
Variable safe : N -> bool.
Lemma leaves_body P ins pre l : ~ P l -> (forall p, pre = Some p -> ~ P p) -> forall rest kept f f', hoist_body safe ins pre l kept rest f = Some f' -> leaves P f f'.
Proof.
  intros Nl Np. induction rest as [|i rest IH]; intros kept f f' H; cbn [hoist_body] in H; [injection H as <-; intros c Hc _; exact Hc|].
  destruct (should_hoist safe f ins i); [|eauto]. destruct pre as [p|]; [|discriminate]. apply IH in H. eapply leaves_trans; [|exact H].
  eapply leaves_trans; [|apply leaves_edit; auto]. apply leaves_edit, Nl.
Qed.
Lemma leaves_blocks P x : (forall l, immediate x l = true -> ~ P l) -> (forall p, l_pre x = Some p -> ~ P p) -> forall fuel todo f f', hoist_blocks safe fuel x todo f = Some f' -> leaves P f f'.
Proof.
  intros Ni Np. induction fuel as [|fuel IH]; intros [|[l kids] todo] f f' H; cbn [hoist_blocks] in H; try (injection H as <-; intros c Hc _; exact Hc); [discriminate|].
  destruct (if immediate x l then _ else _) as [f1|] eqn:E1; [|discriminate]. apply IH in H. eapply leaves_trans; [|exact H]. destruct (immediate x l) eqn:Im; [|injection E1 as <-; intros c Hc _; exact Hc].
  destruct (find _ (blocks f)) as [b|]; [|discriminate]. destruct x as [h pre ins ns]. eapply leaves_body; eauto.
Qed.
Variable d : dtree.
(** the loop through the nested ones, by name *)
Fixpoint go (l : list loop) (f : func) : option func :=
  match l with [] => Some f | y :: l' => match process_loop safe d y f with Some f' => go l' f' | None => None end end.
Lemma process_eq h pre ins ns f : process_loop safe d (Loop h pre ins ns) f =
  match go ns f with None => None | Some f' => match subtree h d with None => None | Some t => hoist_blocks safe (size t) (Loop h pre ins ns) [t] f' end end.
Proof.
  cbn [process_loop]. match goal with |- match ?g ns f with _ => _ end = _ => assert (E : forall l f, g l f = go l f) end.
  { induction l as [|y l IH]; intros f0; cbn; [reflexivity|]. destruct (process_loop safe d y f0); [apply IH|reflexivity]. }
  rewrite E. reflexivity.
Qed.
Lemma licm_go ls : forall f, licm safe d ls f = go ls f.
Proof. induction ls as [|y ls IH]; intros f; cbn; [reflexivity|]. destruct (process_loop safe d y f); [apply IH|reflexivity]. Qed.
Lemma loop_ind2 (P : loop -> Prop) : (forall h pre ins ns, (forall y, In y ns -> P y) -> P (Loop h pre ins ns)) -> forall x, P x.
Proof.
  intros H. fix IH 1. intros [h pre ins ns]. apply H. induction ns as [|y ns IHn]; intros y' Hy; [destruct Hy|]. destruct Hy as [E|Hy]; [rewrite <- E; apply IH|exact (IHn y' Hy)].
Qed.
Definition outside (x : loop) (l : N) : Prop := ~ In l (l_inside x) /\ l_pre x <> Some l.
Lemma leaves_process x : nesting x -> forall (P : N -> Prop) f f', (forall l, P l -> outside x l) -> process_loop safe d x f = Some f' -> leaves P f f'.
Proof.
  induction x as [h pre ins ns IH] using loop_ind2. intros NE P f f' HP H. rewrite process_eq in H. destruct (go ns f) as [f1|] eqn:E1; [|discriminate]. destruct (subtree h d) as [t|]; [|discriminate].
  inversion NE as [? ? ? ? Nst Sep]; subst. eapply leaves_trans.
  - assert (G : forall l g g', (forall y, In y l -> In y ns) -> go l g = Some g' -> leaves P g g').
    { induction l as [|y l IHl]; intros g g' Hl Hg; cbn [go] in Hg; [injection Hg as <-; intros c Hc _; exact Hc|]. destruct (process_loop safe d y g) as [g1|] eqn:Ey; [|discriminate].
      destruct (Nst y (Hl y (or_introl eq_refl))) as (Ny & Iy & Py). eapply leaves_trans.
      - apply (IH y (Hl y (or_introl eq_refl)) Ny P g g1); [|exact Ey]. intros z Pz. destruct (HP z Pz) as [A B]. split; [intros I; apply A, Iy, I|]. intros E. exact (A (Py z E)).
      - apply (IHl g1 g'); [|exact Hg]. intros z Hz. apply Hl. right. exact Hz. }
    apply (G ns f f1); auto.
  - apply (leaves_blocks P) in H; [exact H| |].
    + intros l Im Pl. destruct (HP l Pl) as [A _]. apply A. cbn [immediate] in Im. apply andb_true_iff in Im. apply mem_In, Im.
    + intros p Ep Pp. destruct (HP p Pp) as [_ B]. exact (B Ep).
Qed.

(** ** All the loops *)
Variable f0 : func.
Hypothesis W0 : well_formed f0.
Hypothesis WT : whole_tree f0 d.
Definition settled_loop (f : func) (x : loop) : Prop :=
  forall c i, In c (blocks f) -> In (label c) (labels d) -> immediate x (label c) = true -> In i (body c) -> should_hoist safe f (l_inside x) i = false.
Lemma settled_kept f f' x : on_the_way f0 f -> on_the_way f0 f' -> leaves (fun l => In l (l_inside x)) f f' -> settled_loop f x -> settled_loop f' x.
Proof using.
  intros [Wf Ef] [Wf' Ef'] Lv St. assert (Eff : frame f' = frame f) by congruence.
  assert (Back : forall c', In c' (blocks f') -> In (label c') (l_inside x) -> In c' (blocks f)).
  { intros c' Hc' Hi. destruct (frame_block f' f c' Eff Hc') as (c & Hc & Lc & _). assert (In c (blocks f')) by (apply Lv; [exact Hc|rewrite Lc; exact Hi]).
    rewrite (same_label f' Wf' c' c) by auto. exact Hc. }
  assert (Imm : forall l, immediate x l = true -> In l (l_inside x)) by (intros l; destruct x; cbn [immediate l_inside]; intros Im; apply andb_true_iff in Im; apply mem_In, Im).
  intros c i Hc Hl Im Hi. apply (stays_mono safe f); [|apply (St c i); auto].
  intros a _ (b & k & [Hb Hk] & Ib). exists b, k. split; [split; [apply Lv; auto|exact Hk]|exact Ib].
Qed.
Definition ready_loop (x : loop) : Prop := loop_ok f0 x /\ nesting x /\ forall y, among y [x] -> l_pre y <> None.
Lemma nested_in y x : nesting x -> among y [x] -> incl (l_inside y) (l_inside x).
Proof using.
  revert y. induction x as [h pre ins ns IH] using loop_ind2. intros y NE Ha. inversion NE as [? ? ? ? Nst _]; subst. inversion Ha as [l Hi|z l Hz Ha']; subst.
  - destruct Hi as [<-|[]]. intros z Hz. exact Hz.
  - destruct Hz as [<-|[]]. cbn [l_nested] in Ha'. assert (Ex : exists w, In w ns /\ among y [w]).
    { inversion Ha' as [l Hi|w l Hw Ha2]; subst; [exists y; split; [exact Hi|constructor; left; reflexivity]|exists w; split; [exact Hw|econstructor; [left; reflexivity|exact Ha2]]]. }
    destruct Ex as (w & Hw & Aw). destruct (Nst w Hw) as (Nw & Iw & _). intros z Hz. apply Iw, (IH w Hw y Nw Aw), Hz.
Qed.
Lemma among_split y ns : among y ns -> exists w, In w ns /\ among y [w].
Proof using.
  intros H. inversion H as [l Hi|w l Hw Ha2]; subst; [exists y; split; [exact Hi|constructor; left; reflexivity]|exists w; split; [exact Hw|econstructor; [left; reflexivity|exact Ha2]]].
Qed.
Lemma among_cons y z ns : In z ns -> among y [z] -> among y ns.
Proof using. intros Hz H. inversion H as [l Hi|w l Hw Ha]; subst.
  - destruct Hi as [<-|[]]. constructor. exact Hz.
  - destruct Hw as [<-|[]]. exact (AM_nested y z ns Hz Ha).
Qed.
Lemma way_process x f f' : on_the_way f0 f -> loop_ok f0 x -> process_loop safe d x f = Some f' -> on_the_way f0 f'.
Proof using W0 WT.
  intros [Wf Ef] LO H. assert (M : improved trivial f f').
  { apply (process_ok trivial safe (trivial_nu safe) d x f f' Wf); [eapply frame_loop; eauto| |exact H]. exact (frame_tree f0 f d W0 Wf Ef (wt_reached _ _ WT)). }
  split; [apply M|]. rewrite Ef. apply M.
Qed.
Lemma go_settled : forall l, (forall y, In y l -> ready_loop y) -> ForallOrdPairs separate l ->
  (forall y, In y l -> forall f f', on_the_way f0 f -> process_loop safe d y f = Some f' -> forall z, among z [y] -> settled_loop f' z) ->
  forall f f', on_the_way f0 f -> go l f = Some f' -> on_the_way f0 f' /\ forall z, among z l -> settled_loop f' z.
Proof using W0 WT.
  induction l as [|y l IH]; intros Rd Sp Pr f f' OW H; cbn [go] in H.
  - injection H as <-. split; [exact OW|]. intros z Hz. destruct (among_split z [] Hz) as (w & [] & _).
  - destruct (process_loop safe d y f) as [f1|] eqn:Ey; [|discriminate]. pose proof (Rd y (or_introl eq_refl)) as (Ly & Ny & Py). pose proof (way_process y f f1 OW Ly Ey) as OW1.
    inversion Sp as [|? ? Sy Sl]; subst. destruct (IH (fun z Hz => Rd z (or_intror Hz)) Sl (fun z Hz => Pr z (or_intror Hz)) f1 f' OW1 H) as [OW' St]. split; [exact OW'|].
    intros z Hz. destruct (among_split z (y :: l) Hz) as (w & [<-|Hw] & Aw); [|apply St; eapply among_cons; eauto].
    apply (settled_kept f1 f' z OW1 OW'); [|exact (Pr y (or_introl eq_refl) f f1 OW Ey z Aw)].
    assert (G : forall l' g g', (forall v, In v l' -> In v l) -> go l' g = Some g' -> leaves (fun k => In k (l_inside z)) g g').
    { induction l' as [|v l' IHl]; intros g g' Hl Hg; cbn [go] in Hg; [injection Hg as <-; intros c Hc _; exact Hc|]. destruct (process_loop safe d v g) as [g1|] eqn:Ev; [|discriminate].
      assert (Hv : In v l) by (apply Hl; left; reflexivity). eapply leaves_trans; [|apply (IHl g1 g'); [intros u Hu; apply Hl; right; exact Hu|exact Hg]].
      apply (leaves_process v (proj1 (proj2 (Rd v (or_intror Hv)))) _ g g1); [|exact Ev]. intros k Hk. pose proof (nested_in z y Ny Aw k Hk) as Hky.
      rewrite Forall_forall in Sy. destruct (Sy v Hv) as (S1 & _ & S3). split; [apply S1, Hky|]. intros E. exact (S3 k E Hky). }
    apply (G l f1 f'); auto.
Qed.
Lemma process_settled x : ready_loop x -> forall f f', on_the_way f0 f -> process_loop safe d x f = Some f' -> forall z, among z [x] -> settled_loop f' z.
Proof using W0 WT.
  induction x as [h pre ins ns IH] using loop_ind2. intros (LO & NE & Pr) f f' OW H z Hz. rewrite process_eq in H.
  destruct (go ns f) as [f1|] eqn:E1; [|discriminate]. destruct (subtree h d) as [t|] eqn:Et; [|discriminate]. inversion LO as [? ? ? ? PH Lns]; subst. inversion NE as [? ? ? ? Nst Sep]; subst.
  assert (Rn : forall y, In y ns -> ready_loop y).
  { intros y Hy. split; [apply Lns, Hy|]. split; [apply Nst, Hy|]. intros w Hw. apply Pr. econstructor; [left; reflexivity|]. cbn [l_nested]. eapply among_cons; eauto. }
  destruct (go_settled ns Rn Sep (fun y Hy => IH y Hy (Rn y Hy)) f f1 OW E1) as [OW1 St1].
  destruct pre as [p|]; [|destruct (Pr (Loop h None ins ns)); [constructor; left; reflexivity|reflexivity]]. specialize (PH p eq_refl).
  destruct (closed_sub f0 d h d t (closed_d f0 d WT) Et) as [Ct Rt].
  destruct (blocks_settled f0 W0 d WT safe h p ins ns PH (size t) [t] [] f1 f' OW1) as [OW' St]; auto.
  - intros c i _ [].
  - intros y [].
  - intros t' [<-|[]]. exact Ct.
  - cbn [flat_map]. rewrite app_nil_r. apply Ct.
  - assert (Here : settled_loop f' (Loop h (Some p) ins ns)).
    { intros c i Hc Hl Im Hi. apply (St c i Hc); auto. right. exists t. split; [left; reflexivity|]. apply (loop_followed f0 W0 d WT h p ins t); auto. eapply immediate_in; eauto. }
    inversion Hz as [l Hi|y l Hy Ha]; subst; [destruct Hi as [<-|[]]; exact Here|]. destruct Hy as [<-|[]]. cbn [l_nested] in Ha. destruct (among_split z ns Ha) as (w & Hw & Aw). destruct (Nst w Hw) as (Nw & Iw & _).
    pose proof (nested_in z w Nw Aw) as Iz. apply (settled_kept f1 f' z OW1 OW'); [|apply St1, Ha].
    apply (leaves_blocks (fun k => In k (l_inside z))) in H; [exact H| |].
    + intros l Im Hl. cbn [immediate] in Im. apply andb_true_iff in Im. destruct Im as [_ Im]. apply negb_true_iff in Im. enough (existsb (fun y => mem l (l_inside y)) ns = true) by congruence.
      apply existsb_exists. exists w. split; [exact Hw|]. apply mem_In, Iz, Hl.
    + cbn [l_pre]. intros q Eq Hq. injection Eq as <-. apply (ph_outside _ _ _ _ PH), Iw, Iz, Hq.
Qed.
Theorem licm_settled ls f' : (forall x, In x ls -> loop_ok f0 x) -> (forall x, In x ls -> nesting x) -> ForallOrdPairs separate ls -> (forall x, among x ls -> l_pre x <> None) ->
  licm safe d ls f0 = Some f' -> forall x, among x ls -> settled_loop f' x.
Proof using W0 WT.
  intros LO NE Sep Pr H. rewrite licm_go in H. assert (Rd : forall x, In x ls -> ready_loop x).
  { intros x Hx. split; [auto|]. split; [auto|]. intros y Hy. apply Pr. eapply among_cons; eauto. }
  destruct (go_settled ls Rd Sep (fun y Hy => process_settled y (Rd y Hy)) f0 f') as [_ St]; auto. split; [exact W0|reflexivity].
Qed.
End Leave.

(** ** There is a result *)
Section Returns.
Variable safe : N -> bool.
Lemma labels_edit l g f : map label (blocks (edit l g f)) = map label (blocks f).
Proof. unfold edit. cbn [blocks]. rewrite map_map. apply map_ext. intros c. unfold with_body. destruct (label c =? l); reflexivity. Qed.
Lemma body_returns ins p l : forall rest kept f, exists f', hoist_body safe ins (Some p) l kept rest f = Some f' /\ map label (blocks f') = map label (blocks f).
Proof.
  induction rest as [|i rest IH]; intros kept f; cbn [hoist_body]; [eauto|]. destruct (should_hoist safe f ins i); [|apply IH].
  destruct (IH kept (edit p (fun is => is ++ [i]) (edit l (fun _ => kept ++ rest) f))) as (f' & E & L). exists f'. split; [exact E|]. rewrite L, !labels_edit. reflexivity.
Qed.
Definition total (l : list dtree) : nat := fold_right (fun k n => (size k + n)%nat) O l.
Lemma total_app a b : total (a ++ b) = (total a + total b)%nat.
Proof. unfold total. induction a as [|x a IH]; cbn [app fold_right]; [reflexivity|]. rewrite IH. lia. Qed.
Lemma total_filter g a : (total (filter g a) <= total a)%nat.
Proof. unfold total. induction a as [|x a IH]; cbn [filter fold_right]; [lia|]. destruct (g x); cbn [fold_right]; lia. Qed.
Lemma blocks_return x : l_pre x <> None -> forall fuel todo f, (total todo <= fuel)%nat -> (forall l, In l (flat_map labels todo) -> In l (map label (blocks f))) ->
  exists f', hoist_blocks safe fuel x todo f = Some f' /\ map label (blocks f') = map label (blocks f).
Proof.
  intros Px. induction fuel as [|fuel IH]; intros [|[l kids] todo] f Le Lb; cbn [hoist_blocks]; eauto; [exfalso; cbn in Le; lia|].
  assert (Ex : exists f1, (if immediate x l then match find (fun b => label b =? l) (blocks f) with None => None | Some b => match x with Loop _ pre ins _ => hoist_body safe ins pre l [] (body b) f end end
    else Some f) = Some f1 /\ map label (blocks f1) = map label (blocks f)).
  { destruct (immediate x l); [|eauto]. destruct (find (fun b => label b =? l) (blocks f)) as [b|] eqn:F.
    - destruct x as [h [p|] ins ns]; [apply body_returns|destruct Px; reflexivity].
    - exfalso. assert (I : In l (map label (blocks f))) by (apply Lb; left; reflexivity). apply in_map_iff in I. destruct I as (b & Eb & Hb). pose proof (find_none _ _ F b Hb) as N. cbn in N. rewrite Eb, N.eqb_refl in N. discriminate. }
  destruct Ex as (f1 & E1 & L1). cbv beta in E1. rewrite E1. destruct (IH (todo ++ filter (fun k => mem (node_label k) (l_inside x)) kids) f1) as (f' & E' & L').
  - rewrite total_app. pose proof (total_filter (fun k => mem (node_label k) (l_inside x)) kids) as T. cbn [total fold_right size] in Le. fold (total kids) (total todo) in Le. lia.
  - intros y Hy. rewrite L1. apply Lb. cbn [flat_map labels]. rewrite flat_map_app in Hy. apply in_app_or in Hy. apply in_or_app. destruct Hy as [Hy|Hy]; [right; exact Hy|left; right].
    apply in_flat_map in Hy. destruct Hy as (k & Hk & Hy). apply filter_In in Hk. apply in_flat_map. exists k. tauto.
  - exists f'. split; [exact E'|congruence].
Qed.
Lemma subtree_some l : forall t, In l (labels t) -> exists t', subtree l t = Some t'.
Proof.
  induction t as [l' kids IH] using dtree_ind2. intros Hl. cbn [subtree]. destruct (N.eqb_spec l' l) as [E|Ne]; [eauto|]. destruct Hl as [E|Hl]; [congruence|].
  induction kids as [|k kids IHk]; [destruct Hl|]. destruct (subtree l k) as [r|] eqn:E; [eauto|]. cbn [flat_map] in Hl. apply in_app_or in Hl. destruct Hl as [Hl|Hl].
  - destruct (IH k (or_introl eq_refl) Hl) as [t' Et]. congruence.
  - apply IHk; [|exact Hl]. intros k' Hk'. apply IH. right. exact Hk'.
Qed.
Variable d : dtree.
Lemma go_returns : forall ls f, (forall l, In l (labels d) -> In l (map label (blocks f))) ->
  (forall y, In y ls -> forall f, (forall l, In l (labels d) -> In l (map label (blocks f))) -> exists f', process_loop safe d y f = Some f' /\ map label (blocks f') = map label (blocks f)) ->
  exists f', go safe d ls f = Some f' /\ map label (blocks f') = map label (blocks f).
Proof.
  induction ls as [|y ls IH]; intros f Lb Pr; cbn [go]; [eauto|]. destruct (Pr y (or_introl eq_refl) f Lb) as (f1 & E1 & L1). rewrite E1.
  destruct (IH f1) as (f' & E' & L'); [rewrite L1; exact Lb|intros z Hz; apply Pr; right; exact Hz|]. exists f'. split; [exact E'|congruence].
Qed.
Lemma process_returns x : (forall y, among y [x] -> l_pre y <> None /\ In (l_header y) (labels d)) -> forall f, (forall l, In l (labels d) -> In l (map label (blocks f))) ->
  exists f', process_loop safe d x f = Some f' /\ map label (blocks f') = map label (blocks f).
Proof.
  induction x as [h pre ins ns IH] using loop_ind2. intros H f Lb. rewrite process_eq. destruct (go_returns ns f Lb) as (f1 & E1 & L1).
  { intros y Hy. apply (IH y Hy). intros z Hz. apply H. econstructor; [left; reflexivity|]. eapply among_cons; eauto. }
  rewrite E1. destruct (H (Loop h pre ins ns)) as [Hp Hh]; [constructor; left; reflexivity|]. cbn [l_header] in Hh. destruct (subtree_some h d Hh) as [t Et]. rewrite Et.
  destruct (blocks_return (Loop h pre ins ns) Hp (size t) [t] f1) as (f' & E' & L').
  - unfold total. cbn [fold_right]. lia.
  - intros l Hl. cbn [flat_map] in Hl. rewrite app_nil_r in Hl. rewrite L1. apply Lb. exact (subtree_labels h d t Et l Hl).
  - exists f'. split; [exact E'|congruence].
Qed.
Theorem licm_has_result ls f : (forall y, among y ls -> l_pre y <> None /\ In (l_header y) (labels d)) -> (forall l, In l (labels d) -> In l (map label (blocks f))) -> exists f', licm safe d ls f = Some f'.
Proof.
  intros H Lb. rewrite licm_go. destruct (go_returns ls f Lb) as (f' & E & _); [|eauto]. intros y Hy. apply process_returns. intros z Hz. apply H. eapply among_cons; eauto.
Qed.
End Returns.
