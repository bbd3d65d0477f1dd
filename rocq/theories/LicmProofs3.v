(** Proofs about moving instructions out of loops: the whole pass. *)
From Coq Require Import Permutation.
From Verif Require Import Base GraphSpec NamedIds NamedIdsProofs Redundancy RedundancySpec RedundancyProofs RedundancyProofs2 Licm LicmSpec LicmProofs LicmProofs2.
Local Open Scope N_scope.

Lemma frame_block f f' c : frame f = frame f' -> In c (blocks f) ->
  exists c', In c' (blocks f') /\ label c' = label c /\ phis c' = phis c /\ t_succ c' = t_succ c /\ t_args c' = t_args c /\ t_op c' = t_op c.
Proof.
  intros E Hc. assert (H : In (label c, phis c, t_op c, t_args c, t_succ c) (snd (frame f))) by (unfold frame; cbn [snd]; apply in_map_iff; eauto).
  rewrite E in H. unfold frame in H. cbn [snd] in H. apply in_map_iff in H. destruct H as (c' & E' & H). injection E' as A B C D F. exists c'. repeat (split; [auto|]). auto.
Qed.
Lemma frame_entry f f' : frame f = frame f' -> entry f = entry f'.
Proof.
  unfold frame, entry. intros E. injection E as _ E. destruct (blocks f), (blocks f'); cbn in E; try discriminate; [reflexivity|]. injection E as A _. exact A.
Qed.
Lemma frame_labels f f' : frame f = frame f' -> map label (blocks f) = map label (blocks f').
Proof.
  unfold frame. intros E. injection E as _ E. apply (f_equal (map (fun x => fst (fst (fst (fst x)))))) in E. rewrite !map_map in E. exact E.
Qed.
Lemma frame_succs f f' l : well_formed f -> well_formed f' -> frame f = frame f' -> forall x, In x (succs f l) -> In x (succs f' l).
Proof.
  intros W W' E x H. apply (succs_in f l x W) in H. destruct H as (c & Hc & <- & Hs). destruct (frame_block f f' c E Hc) as (c' & Hc' & El & _ & Es & _).
  apply (succs_in f' _ x W'). exists c'. rewrite Es. auto.
Qed.
Lemma frame_path f f' a x l : well_formed f -> well_formed f' -> frame f = frame f' -> path (succs f) a x l -> path (succs f') a x l.
Proof. intros W W' E P. induction P as [|x y l P IH Hy]; [constructor|]. econstructor; [exact IH|exact (frame_succs f f' x W W' E y Hy)]. Qed.
Lemma frame_reach f f' l : well_formed f -> well_formed f' -> frame f = frame f' -> reachable (succs f) (entry f) l -> reachable (succs f') (entry f') l.
Proof. intros W W' E [x P]. exists x. rewrite <- (frame_entry f f' E). exact (frame_path f f' _ _ x W W' E P). Qed.
Lemma frame_dom f f' x y : well_formed f -> well_formed f' -> frame f = frame f' -> dominates (succs f) (entry f) x y -> dominates (succs f') (entry f') x y.
Proof. intros W W' E H l P. apply H. rewrite (frame_entry f f' E). exact (frame_path f' f _ _ l W' W (eq_sym E) P). Qed.
Lemma frame_preheader f f' h p ins : frame f = frame f' -> has_preheader f h p ins -> has_preheader f' h p ins.
Proof.
  intros E [A B C (c & Hc & Lc & Sc) F]. constructor; auto.
  - rewrite <- (frame_entry f f' E). exact C.
  - destruct (frame_block f f' c E Hc) as (c' & Hc' & El & _ & Es & _). exists c'. rewrite Es, El. auto.
  - intros b l Hb Hl Hi. destruct (frame_block f' f b (eq_sym E) Hb) as (c' & Hc' & El & _ & Es & _). rewrite <- El. apply F; auto. rewrite Es. exact Hl.
Qed.
Lemma frame_loop f f' x : frame f = frame f' -> loop_ok f x -> loop_ok f' x.
Proof. intros E H. induction H as [h pre ins nested H _ IH]. constructor; [|exact IH]. intros p Ep. eapply frame_preheader; eauto. Qed.
Lemma frame_tree f f' d : well_formed f -> well_formed f' -> frame f = frame f' -> tree_reached f d -> tree_reached f' d.
Proof. intros W W' E H l Hl. destruct (H l Hl) as [A B]. rewrite <- (frame_labels f f' E). split; [exact A|exact (frame_reach f f' l W W' E B)]. Qed.

(** ** Nothing gets lost *)
Lemma flat_body_other l g bs : ~ In l (map label bs) -> map (with_body l g) bs = bs.
Proof.
  induction bs as [|c bs IH]; intros H; cbn [map] in *; [reflexivity|]. rewrite IH by (intros I; apply H; right; exact I). unfold with_body. destruct (N.eqb_spec (label c) l) as [E|_]; [|reflexivity].
  destruct H. left. exact E.
Qed.
Lemma edit_perm g bs c : NoDup (map label bs) -> In c bs -> exists X, Permutation (flat_map body bs) (body c ++ X) /\ Permutation (flat_map body (map (with_body (label c) g) bs)) (g (body c) ++ X).
Proof.
  induction bs as [|x bs IH]; intros Nd Hc; [destruct Hc|]. cbn [map] in Nd. inversion Nd as [|? ? N1 N2]; subst. cbn [map flat_map]. destruct Hc as [->|Hc].
  - exists (flat_map body bs). split; [reflexivity|]. rewrite (flat_body_other _ _ bs N1). unfold with_body. rewrite N.eqb_refl. reflexivity.
  - destruct (IH N2 Hc) as (X & A & B). exists (body x ++ X). assert (E : with_body (label c) g x = x).
    { unfold with_body. destruct (N.eqb_spec (label x) (label c)) as [E|_]; [|reflexivity]. destruct N1. rewrite E. apply in_map, Hc. }
    rewrite E. split; [rewrite A|rewrite B]; rewrite !app_assoc; apply Permutation_app_tail, Permutation_app_comm.
Qed.
Lemma moved_perm f h p ins b kept rest i : well_formed f -> has_preheader f h p ins -> In b (blocks f) -> In (label b) ins -> body b = kept ++ i :: rest ->
  Permutation (insts f) (insts (moved f p b kept rest i)).
Proof.
  intros WF PH Hb Hin Bd. unfold insts, moved, edit. cbn [blocks].
  destruct (edit_perm (fun _ => kept ++ rest) (blocks f) b (wf_labels f WF) Hb) as (X & A & B). set (bs := map (with_body (label b) (fun _ => kept ++ rest)) (blocks f)) in *.
  destruct (ph_block _ _ _ _ PH) as (c & Hc & Lc & _).
  assert (Nc : label c <> label b) by (intros E; apply (ph_outside _ _ _ _ PH); rewrite <- Lc, E; exact Hin).
  assert (Hc' : In c bs) by (unfold bs; apply in_map_iff; exists c; split; [unfold with_body; destruct (N.eqb_spec (label c) (label b)) as [E|_]; [congruence|reflexivity]|exact Hc]).
  assert (Nd : NoDup (map label bs)).
  { unfold bs. rewrite map_map. erewrite map_ext; [exact (wf_labels f WF)|]. intros x. unfold with_body. destruct (label x =? label b); reflexivity. }
  destruct (edit_perm (fun is => is ++ [i]) bs c Nd Hc') as (Y & C & E). rewrite Lc in E. rewrite E, A, Bd.
  transitivity (i :: (kept ++ rest) ++ X); [rewrite <- !app_assoc; cbn [app]; symmetry; apply Permutation_middle|].
  transitivity (i :: body c ++ Y); [apply perm_skip; rewrite <- C, B; reflexivity|]. rewrite <- app_assoc. cbn [app]. apply Permutation_middle.
Qed.

(** ** Moves in sequence *)
Section Pass.
Context {D W : Type} (m : machine D W).
Variable safe : N -> bool.
Hypothesis NU : never_undefined m safe.
Record improved (f f' : func) : Prop := {
  im_wf : well_formed f';
  im_frame : frame f = frame f';
  im_perm : Permutation (insts f) (insts f');
  im_inputs : forall g w, inputs_have_values m f g w -> inputs_have_values m f' g w;
  im_runs : forall n g w s, inputs_have_values m f g w -> run m f n g w = Some s -> run m f' n g w = Some s }.
Lemma improved_refl f : well_formed f -> improved f f.
Proof. intros W0. constructor; auto. Qed.
Lemma improved_trans f g h : improved f g -> improved g h -> improved f h.
Proof.
  intros A B. constructor.
  - apply B.
  - rewrite (im_frame _ _ A). apply B.
  - rewrite (im_perm _ _ A). apply B.
  - intros e w H. apply B, A, H.
  - intros n e w s H R. apply (im_runs _ _ B); [apply A, H|]. apply (im_runs _ _ A); assumption.
Qed.
Lemma hoistable_pure f ins i : should_hoist safe f ins i = true ->
  exists r, pure_inst i r /\ (forall a, In a (reads i) -> is_inside f ins a = false) /\ match i with IPure _ op _ => forall ds, pure m op ds <> None | _ => True end.
Proof using NU.
  destruct i as [r op args|r a|r op args]; cbn [should_hoist]; intros H; [| |discriminate]; exists r.
  - apply andb_true_iff in H. destruct H as [Hs Ho]. rewrite forallb_forall in Ho. split; [split; [reflexivity|exact I]|]. split; [intros a Ha; apply negb_true_iff, Ho, Ha|]. intros ds. apply NU, Hs.
  - split; [split; [reflexivity|exact I]|]. split; [|exact I]. intros x [<-|[]]. apply negb_true_iff, H.
Qed.
Lemma move_improves f h p ins b kept rest i : well_formed f -> has_preheader f h p ins -> In b (blocks f) -> In (label b) ins -> reach f b -> body b = kept ++ i :: rest ->
  should_hoist safe f ins i = true -> improved f (moved f p b kept rest i).
Proof using NU.
  intros WF PH Hb Hin Rb Bd Hh. destruct (hoistable_pure f ins i Hh) as (r & Pi & Out & Def). constructor.
  - exact (moved_wf f h p ins WF PH b kept rest i r Hb Hin Rb Bd Pi Out).
  - unfold frame. rewrite blocks_moved, map_map. cbn [moved edit prelude]. f_equal. apply map_ext. intros c. rewrite mv_label, mv_phis, mv_op, mv_args, mv_succ. reflexivity.
  - eapply moved_perm; eauto.
  - intros g w Inp c' x a cf Hc' Hx Ha Nd Hp.
    assert (Hx' : In x (insts f)). { eapply Permutation_in; [symmetry; eapply (moved_perm f h p ins b kept rest i); eauto|]. apply in_flat_map. eauto. }
    apply in_flat_map in Hx'. destruct Hx' as (c & Hc & Hxc). apply (Inp c x a cf Hc Hxc Ha); [|exact Hp]. intros b' k Dk. destruct (N.eq_dec a r) as [->|Ne].
    + destruct (ph_block _ _ _ _ PH) as (cp & Hcp & Lp & _). apply (Nd _ _ (def_moved_r f h p ins WF PH b kept rest i r Hb Hin Rb Bd Pi Out cp Hcp Lp)).
    + apply (Nd _ _ (def_moved f h p ins WF PH b kept rest i r Hb Hin Rb Bd Pi Out a b' k Dk Ne)).
  - intros n g w s Inp. exact (moved_runs m f h p ins WF PH b kept rest i r Hb Hin Rb Bd Pi Out Def n g w s Inp).
Qed.
Lemma hoist_body_ok h pre ins l : forall rest kept f f' b, well_formed f -> (forall p, pre = Some p -> has_preheader f h p ins) -> In b (blocks f) -> label b = l -> In l ins -> reach f b ->
  body b = kept ++ rest -> hoist_body safe ins pre l kept rest f = Some f' -> improved f f'.
Proof using NU.
  induction rest as [|i rest IH]; intros kept f f' b WF PH Hb Lb Hin Rb Bd H; cbn [hoist_body] in H.
  - injection H as <-. apply improved_refl, WF.
  - destruct (should_hoist safe f ins i) eqn:Hh.
    + destruct pre as [p|]; [|discriminate]. specialize (PH p eq_refl). subst l.
      pose proof (move_improves f h p ins b kept rest i WF PH Hb Hin Rb Bd Hh) as M. unfold moved in M at 1.
      apply (improved_trans _ _ _ M). apply (IH kept _ f' (mv p b kept rest i b)); auto.
      * apply M.
      * intros q Eq. injection Eq as <-. eapply frame_preheader; [apply M|exact PH].
      * fold (moved f p b kept rest i). rewrite blocks_moved. apply in_map, Hb.
      * apply mv_label.
      * apply (proj2 (reach_moved f p b kept rest i b)). exact Rb.
      * exact (body_b f h p ins PH b kept rest i Hin).
    + apply (IH (kept ++ [i]) f f' b); auto. rewrite <- app_assoc. exact Bd.
Qed.
Lemma hoist_blocks_ok h pre ins nested : forall fuel todo f f', well_formed f -> (forall p, pre = Some p -> has_preheader f h p ins) -> (forall t, In t todo -> tree_reached f t) ->
  hoist_blocks safe fuel (Loop h pre ins nested) todo f = Some f' -> improved f f'.
Proof using NU.
  induction fuel as [|fuel IH]; intros [|[l kids] todo] f f' WF PH TR H; cbn [hoist_blocks] in H; try (injection H as <-; apply improved_refl, WF); [discriminate|].
  destruct (if immediate (Loop h pre ins nested) l then _ else _) as [f1|] eqn:E1; [|discriminate].
  assert (M : improved f f1).
  { destruct (immediate (Loop h pre ins nested) l) eqn:Im; [|injection E1 as <-; apply improved_refl, WF].
    destruct (find (fun b => label b =? l) (blocks f)) as [b|] eqn:F; [|discriminate]. apply find_block_inv in F. destruct F as [Hb Lb].
    cbn [immediate] in Im. apply andb_true_iff in Im. destruct Im as [Im _]. apply mem_In in Im.
    apply (hoist_body_ok h pre ins l (body b) [] f f1 b); auto. unfold reach. rewrite Lb. apply (TR (DNode l kids) (or_introl eq_refl)). left. reflexivity. }
  apply (improved_trans _ _ _ M). apply IH in H; [exact H|apply M| |].
  - intros p Ep. eapply frame_preheader; [apply M|apply PH, Ep].
  - intros t Ht. eapply frame_tree; [exact WF|apply M|apply M|]. apply in_app_or in Ht. destruct Ht as [Ht|Ht]; [apply TR; right; exact Ht|].
    apply filter_In in Ht. destruct Ht as [Ht _]. intros x Hx. apply (TR (DNode l kids) (or_introl eq_refl)). right. apply in_flat_map. eauto.
Qed.
Lemma subtree_labels l : forall t t', subtree l t = Some t' -> incl (labels t') (labels t).
Proof.
  fix IH 1. intros [l' kids] t' H. cbn [subtree] in H. destruct (l' =? l); [injection H as <-; intros x Hx; exact Hx|]. cbn [labels].
  intros x Hx. right. revert H. induction kids as [|k kids IHk]; intros H; [discriminate|]. cbn [flat_map]. apply in_or_app. destruct (subtree l k) as [r|] eqn:E.
  - injection H as <-. left. exact (IH k r E x Hx).
  - right. exact (IHk H).
Qed.
Variable d : dtree.
Fixpoint process_ok (x : loop) : forall f f', well_formed f -> loop_ok f x -> tree_reached f d -> process_loop safe d x f = Some f' -> improved f f'.
Proof using NU.
  destruct x as [h pre ins nested]. intros f f' WF LO TR H. cbn [process_loop] in H. inversion LO as [? ? ? ? PH Nst]; subst.
  match type of H with match ?g nested f with _ => _ end = _ => set (go := g) in H end.
  assert (G : forall l f f', well_formed f -> (forall y, In y l -> loop_ok f y) -> tree_reached f d -> go l f = Some f' -> improved f f').
  { induction l as [|y l IHl]; intros f0 f1 W0 L0 T0 H0; cbn in H0; [injection H0 as <-; apply improved_refl, W0|].
    destruct (process_loop safe d y f0) as [f2|] eqn:Ey; [|discriminate]. pose proof (process_ok y f0 f2 W0 (L0 y (or_introl eq_refl)) T0 Ey) as M. apply (improved_trans _ _ _ M).
    apply IHl; [apply M| | |exact H0].
    - intros z Hz. eapply frame_loop; [apply M|]. apply L0. right. exact Hz.
    - eapply frame_tree; [exact W0|apply M|apply M|exact T0]. }
  destruct (go nested f) as [f1|] eqn:E1; [|discriminate]. pose proof (G nested f f1 WF Nst TR E1) as M. apply (improved_trans _ _ _ M).
  destruct (subtree h d) as [t|] eqn:Et; [|discriminate]. apply (hoist_blocks_ok h pre ins nested) in H; [exact H|apply M| |].
  - intros p Ep. eapply frame_preheader; [apply M|apply PH, Ep].
  - intros t' [<-|[]] l Hl. eapply frame_tree; [exact WF|apply M|apply M|exact TR|]. exact (subtree_labels h d t Et l Hl).
Qed.
Theorem licm_ok : forall ls f f', well_formed f -> (forall x, In x ls -> loop_ok f x) -> tree_reached f d -> licm safe d ls f = Some f' -> improved f f'.
Proof using NU.
  induction ls as [|y l IHl]; intros f0 f1 W0 L0 T0 H0; cbn [licm] in H0; [injection H0 as <-; apply improved_refl, W0|].
  destruct (process_loop safe d y f0) as [f2|] eqn:Ey; [|discriminate]. pose proof (process_ok y f0 f2 W0 (L0 y (or_introl eq_refl)) T0 Ey) as M. apply (improved_trans _ _ _ M).
  apply IHl; [apply M| | |exact H0].
  - intros z Hz. eapply frame_loop; [apply M|]. apply L0. right. exact Hz.
  - eapply frame_tree; [exact W0|apply M|apply M|exact T0].
Qed.
End Pass.
