(** Proofs about the rewriting of variables into ids: the two functions run alike. *)
From Verif Require Import Base GraphSpec SsaRewrite SsaRewriteSpec SsaRewriteProofs.
From Verif Require LocalElimProofs.
Local Open Scope N_scope.

Lemma upd_eq {A} (m : N -> A) k x : upd m k x k = x.
Proof. unfold upd. rewrite N.eqb_refl. reflexivity. Qed.
Lemma upd_ne {A} (m : N -> A) k x y : y <> k -> upd m k x y = m y.
Proof. unfold upd. intros H. apply N.eqb_neq in H. rewrite H. reflexivity. Qed.

Lemma avail_step f b k y : available f b (S k) y -> available f b k y \/ defined_at f y b k.
Proof.
  intros [N|(b1 & j1 & H1 & C1)]; [left; left; exact N|]. destruct C1 as [[-> L]|C].
  - destruct (Nat.eq_dec j1 k) as [->|Ne]; [right; exact H1|]. left. right. exists b, j1. split; [exact H1|]. left. split; [reflexivity|lia].
  - left. right. exists b1, j1. auto.
Qed.
Lemma defined_bound f y b j : defined_at f y b j -> (j < S (length (body b)))%nat.
Proof.
  intros [_ H]. destruct j as [|j]; [lia|]. destruct H as (i & H & _). assert (j < length (body b))%nat by (apply nth_error_Some; congruence). lia.
Qed.
Lemma avail_edge f b b' y : well_formed f -> In b f -> In b' f -> In (label b') (t_succ b) ->
  available f b' 0 y -> available f b (S (length (body b))) y.
Proof.
  intros WF Hb Hb' E [N|(b1 & j1 & H1 & C1)]; [left; exact N|]. right. exists b1, j1. split; [exact H1|].
  destruct C1 as [[_ L]|[Ne D]]; [lia|].
  destruct (N.eq_dec (label b1) (label b)) as [El|Nl].
  - left. assert (b1 = b) by (apply (same_label f b1 b WF); [apply H1|exact Hb|exact El]). subst b1. split; [reflexivity|]. eapply defined_bound; eauto.
  - right. split; [exact Nl|]. intros l P. assert (P' : path (succs f) (entry f) (label b') (l ++ [label b'])).
    { econstructor; [exact P|]. unfold succs. rewrite (find_block_wf f b (wf_labels f WF) Hb). exact E. }
    specialize (D _ P'). apply in_app_or in D. destruct D as [D|[D|[]]]; [exact D|congruence].
Qed.

Section Phis.
Context {D W : Type}.
Notation cfg := (config D W).
Lemma phis_app from a b old (c : cfg) :
  phis_from from (a ++ b) old c = match phis_from from a old c with Some c1 => phis_from from b old c1 | None => None end.
Proof.
  revert c. induction a as [|p a IH]; intros c; simpl; [reflexivity|]. destruct (find _ _) as [[x y]|]; [|reflexivity].
  destruct (old x); [apply IH|reflexivity].
Qed.
Lemma new_run from ps old : NoDup (map p_res ps) ->
  (forall p, In p ps -> exists a d, find (fun x => snd x =? from) (p_args p) = Some (a, from) /\ old a = Some d) ->
  forall c : cfg, exists c', phis_from from ps old c = Some c' /\ (forall v, mem c' v = mem c v) /\ world c' = world c /\
    (forall y, ~ In y (map p_res ps) -> env c' y = env c y) /\
    (forall p a, In p ps -> find (fun x => snd x =? from) (p_args p) = Some (a, from) -> env c' (p_res p) = old a).
Proof.
  induction ps as [|p ps IH]; simpl; intros Nd H c.
  - exists c. repeat split; auto; intros; contradiction.
  - destruct (H p (or_introl eq_refl)) as (a & d & Fa & Ed). rewrite Fa, Ed. inversion Nd as [|? ? Np Nd']; subst.
    destruct (IH Nd' (fun p Hp => H p (or_intror Hp)) (mkconfig (upd (env c) (p_res p) (Some d)) (mem c) (world c))) as (c' & E & Hm & Hw & He & Hr).
    exists c'. split; [exact E|]. split; [exact Hm|]. split; [exact Hw|]. split.
    + intros y Hy. rewrite He by tauto. simpl. apply upd_ne. intros ->. apply Hy. auto.
    + intros q a' [<-|Hq] Fa'; [|eapply Hr; eauto]. rewrite He by exact Np. simpl. rewrite upd_eq. rewrite Fa in Fa'. injection Fa' as <-. congruence.
Qed.
Definition ren_phi (ren : N -> N) (p : phi) : phi := mkphi (p_res p) (map (fun a => (ren (fst a), snd a)) (p_args p)).
Lemma find_arg (ren : N -> N) from l : find (fun x => snd x =? from) (map (fun a : N * N => (ren (fst a), snd a)) l) =
  match find (fun x => snd x =? from) l with Some a => Some (ren (fst a), snd a) | None => None end.
Proof. induction l as [|a l IH]; simpl; [reflexivity|]. destruct (snd a =? from); [reflexivity|exact IH]. Qed.
Lemma old_run (ren : N -> N) from ps (old old' : N -> option D) :
  (forall p a, In p ps -> In (a, from) (p_args p) -> old a = old' (ren a)) ->
  forall (o t o2 : cfg), phis_from from ps old o = Some o2 ->
  exists t2, phis_from from (map (ren_phi ren) ps) old' t = Some t2 /\
    (forall v, mem o2 v = mem o v) /\ (forall v, mem t2 v = mem t v) /\ world o2 = world o /\ world t2 = world t /\
    (forall y, ~ In y (map p_res ps) -> env o2 y = env o y /\ env t2 y = env t y) /\
    (forall y, env o y = env t y \/ In y (map p_res ps) -> env o2 y = env t2 y).
Proof.
  induction ps as [|p ps IH]; simpl; intros H o t o2 E.
  - injection E as <-. exists t. repeat split; auto. intros y [Hy|[]]. exact Hy.
  - rewrite find_arg. destruct (find (fun x => snd x =? from) (p_args p)) as [[a l]|] eqn:Fa; [|discriminate]. simpl.
    apply find_some in Fa. destruct Fa as [Fa El]. simpl in El. apply N.eqb_eq in El. subst l.
    rewrite <- (H p a (or_introl eq_refl) Fa). destruct (old a) as [d|]; [|discriminate].
    destruct (IH (fun p a Hp => H p a (or_intror Hp)) _ (mkconfig (upd (env t) (p_res p) (Some d)) (mem t) (world t)) _ E) as (t2 & Et & M1 & M2 & W1 & W2 & He & Hs).
    exists t2. simpl in *. repeat split; auto.
    + destruct (He y) as [A _]; [tauto|]. rewrite A. apply upd_ne. intros ->. tauto.
    + destruct (He y) as [_ A]; [tauto|]. rewrite A. apply upd_ne. intros ->. tauto.
    + intros y Hy. apply Hs. destruct (N.eq_dec y (p_res p)) as [->|Ne]; [left; rewrite !upd_eq; reflexivity|]. rewrite !upd_ne by exact Ne.
      destruct Hy as [Hy|[Hy|Hy]]; auto. congruence.
Qed.
End Phis.

Section Sim.
Variable f : func.
Variable undef : N -> N.
Hypothesis WF : well_formed f.
Variable C : N -> N -> N -> Prop.
Variable ren : N -> N.
Variable new : list (N * phi).
Hypothesis FIT : fits f undef C ren new.
Hypothesis UND : forall v, (forall b k, ~ defined_at f (undef v) b k).
Variable s : state.
Hypothesis KEPT : forall b j r v, is_load f b j r v -> reach f (label b) -> repl s r <> None.
Context {D W : Type} (m : machine D W).
Notation cfg := (config D W).
Notation value_at := (value_at f undef C).
Notation at_end := (at_end f undef C).
Notation at_start := (at_start f undef C).
Notation cand_id := (cand_id C).

Record rel (b : block) (j : nat) (o t : cfg) : Prop := {
  r_world : world o = world t;
  r_mem : forall v, mem o v = mem t v;
  r_env : forall y, ~ cand_id y -> available f b (S j) y -> env o y = env t (ren y);
  r_val : forall v d, value_at b j v d -> env t (ren d) = Some (mem o v) }.

Lemma read_not_cand b j i x : In b f -> nth_error (body b) j = Some i -> In x (reads i) -> ~ cand_id x.
Proof using FIT. intros Hb Hi Hx H. apply (proj1 (fit_fresh _ _ _ _ _ FIT _ H)). eapply in_ids_body; eauto. Qed.
Lemma values_rel b j o t l : rel b j o t -> (forall x, In x l -> ~ cand_id x /\ available f b (S j) x) -> values (env t) (map ren l) = values (env o) l.
Proof.
  intros R. induction l as [|x l IH]; simpl; intros H; [reflexivity|]. destruct (H x (or_introl eq_refl)) as [A B].
  rewrite <- (r_env _ _ _ _ R x A B), IH; [reflexivity|]. intros y Hy. apply H. auto.
Qed.
Lemma value_next b j i v d : nth_error (body b) j = Some i -> value_at b (S j) v d ->
  (exists x, i = IStore v x /\ d = x) \/ ((forall x, i <> IStore v x) /\ value_at b j v d).
Proof.
  intros Hi V. unfold SsaRewriteProofs.value_at in *. rewrite (firstn_snoc _ _ _ Hi), last_store_app in V. destruct i as [r w|w y|r o l].
  - right. split; [discriminate|exact V].
  - destruct (N.eqb_spec w v) as [->|Ne]; [left; eauto|right]. split; [congruence|exact V].
  - right. split; [discriminate|exact V].
Qed.

Lemma sim_step b j i o t o' : In b f -> reach f (label b) -> nth_error (body b) j = Some i -> rel b j o t -> step m i o = Some o' ->
  exists t', steps m (if kept s i then [rename ren i] else []) t = Some t' /\ rel b (S j) o' t'.
Proof using WF FIT UND KEPT.
  intros Hb R Hi Rl St. destruct i as [r v|v x|r op args]; simpl in St.
  - injection St as <-. assert (L : is_load f b j r v) by (split; assumption).
    pose proof (KEPT _ _ _ _ L R) as K. simpl. destruct (repl s r) as [z|] eqn:Er; [|congruence]. exists t. split; [reflexivity|].
    constructor; simpl; try apply Rl.
    + intros y Nc Av. destruct (N.eq_dec y r) as [->|Ne].
      * rewrite upd_eq. destruct (fit_load _ _ _ _ _ FIT _ _ _ _ L R) as (d & V & E). rewrite E. symmetry. apply (r_val _ _ _ _ Rl). exact V.
      * rewrite upd_ne by exact Ne. apply (r_env _ _ _ _ Rl); [exact Nc|]. destruct (avail_step _ _ _ _ Av) as [H|[_ (i & Hi' & H)]]; [exact H|].
        rewrite Hi in Hi'. injection Hi' as <-. simpl in H. congruence.
    + intros w d V. destruct (value_next _ _ _ _ _ Hi V) as [(x & E & _)|[_ V']]; [discriminate|]. apply (r_val _ _ _ _ Rl), V'.
  - destruct (env o x) as [d|] eqn:Ex; [|discriminate]. injection St as <-. simpl.
    assert (Nx : ~ cand_id x) by (eapply read_not_cand; eauto; simpl; auto).
    assert (Ax : available f b (S j) x) by (eapply (wf_uses f WF); eauto; simpl; auto).
    rewrite <- (r_env _ _ _ _ Rl x Nx Ax), Ex. eexists. split; [reflexivity|]. constructor; simpl.
    + apply Rl.
    + intros w. unfold upd. rewrite (r_mem _ _ _ _ Rl w). reflexivity.
    + intros y Nc Av. apply (r_env _ _ _ _ Rl); [exact Nc|]. destruct (avail_step _ _ _ _ Av) as [H|[_ (i & Hi' & H)]]; [exact H|].
      rewrite Hi in Hi'. injection Hi' as <-. discriminate.
    + intros w e V. destruct (value_next _ _ _ _ _ Hi V) as [(y & E & ->)|[Ni V']].
      * injection E as -> <-. rewrite upd_eq, <- (r_env _ _ _ _ Rl x Nx Ax). exact Ex.
      * rewrite upd_ne by (intros ->; exact (Ni x eq_refl)). apply (r_val _ _ _ _ Rl), V'.
  - simpl. rewrite (values_rel b j o t args Rl).
    2:{ intros x Hx. split; [eapply read_not_cand; eauto|eapply (wf_uses f WF); eauto]. }
    destruct (values (env o) args) as [ds|]; [|discriminate]. rewrite <- (r_world _ _ _ _ Rl).
    destruct (other m op ds (world o)) as [[d w]|]; [|discriminate]. injection St as <-. eexists. split; [reflexivity|].
    destruct r as [r|].
    2:{ constructor; simpl; try apply Rl; [reflexivity| |].
        - intros y Nc Av. apply (r_env _ _ _ _ Rl); [exact Nc|]. destruct (avail_step _ _ _ _ Av) as [H|[_ (i & Hi' & H)]]; [exact H|].
          rewrite Hi in Hi'. injection Hi' as <-. discriminate.
        - intros v e V. destruct (value_next _ _ _ _ _ Hi V) as [(y & E & _)|[_ V']]; [discriminate|]. apply (r_val _ _ _ _ Rl), V'. }
    assert (Dr : defined_at f r b (S j)) by (split; [exact Hb|eexists; split; [exact Hi|reflexivity]]).
    assert (Wr : writes f new r (label b) (S j)).
    { left. exists b. split; [exact Dr|]. split; [reflexivity|]. intros v. rewrite Hi. discriminate. }
    assert (Nr : ~ cand_id r) by (intros H; apply (proj1 (fit_fresh _ _ _ _ _ FIT _ H)); eapply defined_ids; eauto).
    assert (Er : ren r = r).
    { apply (fit_keep _ _ _ _ _ FIT r Nr). intros b' j' v L. eapply writes_not_load; eauto. }
    constructor; simpl; try apply Rl; [reflexivity| |].
    + intros y Nc Av. destruct (N.eq_dec y r) as [->|Ne]; [rewrite Er, !upd_eq; reflexivity|].
      destruct (avail_step _ _ _ _ Av) as [H|[_ (i & Hi' & H)]]; [|rewrite Hi in Hi'; injection Hi' as <-; simpl in H; congruence].
      rewrite upd_ne by exact Ne. rewrite upd_ne; [apply (r_env _ _ _ _ Rl); assumption|].
      intros E. apply Ne. eapply (not_needed f undef WF C ren new FIT UND b (S j)); eauto.
    + intros v e V. destruct (value_next _ _ _ _ _ Hi V) as [(y & E & _)|[_ V']]; [discriminate|]. rewrite upd_ne; [apply (r_val _ _ _ _ Rl), V'|].
      intros E. rewrite <- E in Wr. eapply (not_current f undef WF C ren new FIT UND b j); eauto.
Qed.
Lemma steps_app l1 l2 (c : cfg) : steps m (l1 ++ l2) c = match steps m l1 c with Some c1 => steps m l2 c1 | None => None end.
Proof. revert c. induction l1 as [|i l1 IH]; intros c; simpl; [reflexivity|]. destruct (step m i c); auto. Qed.
Lemma sim_body b : In b f -> reach f (label b) -> forall l j pre o t o', body b = pre ++ l -> length pre = j -> rel b j o t -> steps m l o = Some o' ->
  exists t', steps m (map (rename ren) (filter (kept s) l)) t = Some t' /\ rel b (length (body b)) o' t'.
Proof using WF FIT UND KEPT.
  intros Hb R. induction l as [|i l IH]; simpl; intros j pre o t o' E El Rl St.
  - injection St as <-. exists t. split; [reflexivity|]. rewrite E, app_nil_r, El. exact Rl.
  - destruct (step m i o) as [o1|] eqn:S1; [|discriminate].
    assert (Hi : nth_error (body b) j = Some i) by (rewrite E, nth_error_app2 by lia; rewrite El, Nat.sub_diag; reflexivity).
    destruct (sim_step b j i o t o1 Hb R Hi Rl S1) as (t1 & T1 & R1).
    destruct (IH (S j) (pre ++ [i]) o1 t1 o') as (t2 & T2 & R2); auto.
    + rewrite <- app_assoc. exact E.
    + rewrite app_length. simpl. lia.
    + exists t2. split; [|exact R2]. destruct (kept s i); simpl in *.
      * destruct (step m (rename ren i) t); [|discriminate]. injection T1 as ->. exact T2.
      * injection T1 as ->. exact T2.
Qed.

Definition news (l : N) : list phi := rev (map snd (filter (fun x => fst x =? l) new)).
Lemma in_news l q : In q (news l) <-> In (l, q) new.
Proof.
  unfold news. rewrite <- in_rev, in_map_iff. split.
  - intros ([l' q'] & <- & H). apply filter_In in H. destruct H as [H E]. simpl in *. apply N.eqb_eq in E. subst. exact H.
  - intros H. exists (l, q). split; [reflexivity|]. apply filter_In. split; [exact H|apply N.eqb_refl].
Qed.
Lemma news_once l : NoDup (map p_res (news l)).
Proof using FIT.
  unfold news. rewrite map_rev. apply NoDup_rev. pose proof (fit_new_once _ _ _ _ _ FIT) as Nd. revert Nd. clear FIT.
  induction new as [|[l' q] n IH]; simpl; intros Nd; [constructor|]. inversion Nd as [|? ? N1 N2]; subst. destruct (l' =? l); [|auto].
  simpl. constructor; [|auto]. intros H. apply N1. rewrite map_map in H. apply in_map_iff in H. destruct H as (x & E & Hx). apply filter_In in Hx.
  apply in_map_iff. exists x. split; [exact E|apply Hx].
Qed.
Lemma sim_enter b b' o t o2 : In b f -> reach f (label b) -> In b' f -> In (label b') (t_succ b) -> rel b (length (body b)) o t ->
  phis_from (label b) (phis b') (env o) o = Some o2 ->
  exists t2, phis_from (label b) (news (label b') ++ map (ren_phi ren) (phis b')) (env t) t = Some t2 /\ rel b' 0 o2 t2.
Proof using WF FIT UND KEPT.
  intros Hb R Hb' Edge Rl Ph.
  assert (Es : In (label b') (succs f (label b))) by (unfold succs; rewrite (find_block_wf f b (wf_labels f WF) Hb); exact Edge).
  assert (R' : reach f (label b')) by (destruct R as [l P]; exists (l ++ [label b']); econstructor; eauto).
  assert (End : forall v d, at_end (label b) v d -> env t (ren d) = Some (mem o v)).
  { intros v d (c & F & V). rewrite (find_block_wf f b (wf_labels f WF) Hb) in F. injection F as <-. apply (r_val _ _ _ _ Rl), V. }
  assert (Nw : forall q, In q (news (label b')) -> exists a d, find (fun x => snd x =? label b) (p_args q) = Some (a, label b) /\ env t a = Some d).
  { intros q Hq. apply in_news in Hq. destruct (fit_new _ _ _ _ _ FIT _ _ Hq) as (v & Hc & _ & H). destruct (H (label b) R Es) as (a & d & Fa & He & ->).
    exists (ren d), (mem o v). split; [exact Fa|]. apply End, He. }
  destruct (new_run (label b) (news (label b')) (env t) (news_once _) Nw t) as (t1 & E1 & M1 & W1 & K1 & V1).
  assert (Old : forall p a, In p (phis b') -> In (a, label b) (p_args p) -> env o a = env t (ren a)).
  { intros p a Hp Ha. apply (r_env _ _ _ _ Rl).
    - intros H. apply (proj1 (fit_fresh _ _ _ _ _ FIT _ H)). apply in_flat_map. exists b'. split; [exact Hb'|]. right. apply in_or_app. left.
      apply in_flat_map. exists p. split; [exact Hp|]. right. apply (in_map fst _ _ Ha).
    - eapply (wf_phis f WF); eauto. }
  destruct (old_run ren (label b) (phis b') (env o) (env t) Old o t1 o2 Ph) as (t2 & E2 & M2 & M3 & W2 & W3 & K2 & V2).
  exists t2. split; [rewrite phis_app, E1; exact E2|].
  assert (Frame : forall y, ~ writes f new y (label b') 0 -> env t2 y = env t y).
  { intros y Ny. destruct (K2 y) as [_ ->].
    - intros H. apply in_map_iff in H. destruct H as (p & <- & Hp). apply Ny. left. exists b'. split; [split; [exact Hb'|eauto]|auto].
    - apply K1. intros H. apply in_map_iff in H. destruct H as (q & <- & Hq). apply in_news in Hq. apply Ny. right. split; [reflexivity|]. exists q. auto. }
  constructor.
  - rewrite W2, W3, W1. apply Rl.
  - intros v. rewrite M2, M3, M1. apply Rl.
  - intros y Nc Av. destruct (in_dec N.eq_dec y (map p_res (phis b'))) as [Hy|Hy].
    + assert (Dy : defined_at f y b' 0).
      { apply in_map_iff in Hy. destruct Hy as (p & E & Hp). split; [exact Hb'|]. eauto. }
      rewrite (fit_keep _ _ _ _ _ FIT y Nc); [apply V2; auto|]. intros c j v L. apply load_defined in L. destruct (wf_once f WF _ _ _ _ _ Dy L) as [_ E]. discriminate.
    + destruct (avail_step _ _ _ _ Av) as [Av'|[_ (p & Hp & E)]]; [|destruct Hy; rewrite <- E; apply in_map, Hp].
      rewrite (proj1 (K2 y Hy)). rewrite Frame.
      * apply (r_env _ _ _ _ Rl); [exact Nc|]. eapply avail_edge; eauto.
      * intros Hw. pose proof (not_needed f undef WF C ren new FIT UND b' 0 y _ Hb' R' Av' Nc Hw eq_refl) as E. rewrite <- E in Hw.
        destruct Hw as [(c & Hd & El & _)|[_ Hn]].
        -- destruct Hd as [Hc (p & Hp & Er)]. apply (same_label f c b' WF Hc Hb') in El. subst c. apply Hy. rewrite <- Er. apply in_map, Hp.
        -- apply Nc. eapply new_cand; eauto.
  - intros v d V. rewrite M2. assert (S : at_start (label b') v d) by (unfold SsaRewriteProofs.value_at in V; exact V). clear V.
    assert (One : forall p, preds f (label b') = [p] -> p = label b).
    { intros p E. apply (in_preds_succs f _ _ WF) in Es. rewrite E in Es. destruct Es as [<-|[]]. reflexivity. }
    assert (Thru : env t (ren d) = Some (mem o v) -> (is_new new (label b') d -> False) -> env t2 (ren d) = Some (mem o v)).
    { intros E Nn. rewrite Frame; [exact E|]. intros Hw. apply Nn. eapply (not_at_start f undef WF C ren new FIT UND b' v d); eauto. }
    assert (Two : is_new new (label b') d -> (1 < length (preds f (label b')))%nat).
    { intros (q & Hq & _). destruct (fit_new _ _ _ _ _ FIT _ _ Hq) as (w & Hc & _). eapply (fit_two _ _ _ _ _ FIT); eauto. }
    inversion S as [l0 v0 E|l0 p c v0 x E F Ls|l0 p c v0 d0 E F Ls S0|l0 v0 p Tw Hc]; subst.
    + apply (in_preds_succs f _ _ WF) in Es. rewrite E in Es. destruct Es.
    + apply Thru; [|intros H; apply Two in H; rewrite E in H; simpl in H; lia]. apply End. rewrite (One p E) in F. exists c. split; [exact F|].
      unfold SsaRewriteProofs.value_at. rewrite firstn_all, Ls. reflexivity.
    + apply Thru; [|intros H; apply Two in H; rewrite E in H; simpl in H; lia]. apply End. rewrite (One p E) in F, S0. exists c. split; [exact F|].
      unfold SsaRewriteProofs.value_at. rewrite firstn_all, Ls. pose proof (find_block_in _ _ _ F) as [_ ->]. exact S0.
    + assert (Is : is_new new (label b') d -> env t2 (ren d) = Some (mem o v)).
      { intros (q & Hq & E). pose proof (fit_new _ _ _ _ _ FIT _ _ Hq) as (w & Hc' & Er & H). destruct (H (label b) R Es) as (a & e & Fa & He & ->).
        rewrite E in *. rewrite Er. destruct (fit_one _ _ _ _ _ FIT _ _ _ _ _ Hc Hc') as [_ <-].
        destruct (K2 d) as [_ ->].
        - intros Hy. apply in_map_iff in Hy. destruct Hy as (p & Ep & Hp). apply (proj1 (fit_fresh _ _ _ _ _ FIT d (ex_intro _ _ (ex_intro _ _ Hc)))).
          eapply (defined_ids f d b' 0). split; [exact Hb'|eauto].
        - rewrite <- E. erewrite V1; [apply End, He|apply in_news, Hq|exact Fa]. }
      destruct (fit_cand _ _ _ _ _ FIT _ _ _ Hc) as [H|H]; [exact (Is H)|].
      destruct (H (label b) R Es) as (e & He & Er). apply End in He. rewrite Er in He.
      destruct (in_dec N.eq_dec d (map p_res (news (label b')))) as [Hn|Hn].
      * apply Is. apply in_map_iff in Hn. destruct Hn as (q & <- & Hq). apply in_news in Hq. exists q. auto.
      * apply Thru; [exact He|]. intros (q & Hq & E). apply Hn. rewrite <- E. apply in_map, in_news, Hq.
Qed.

Lemma finish_find l b : find_block f l = Some b -> find_block (map (finish_block s ren new) f) l = Some (finish_block s ren new b).
Proof.
  unfold find_block. clear. induction f as [|a f' IH]; simpl; [discriminate|]. destruct (label a =? l); [|exact IH]. intros H. injection H as ->. reflexivity.
Qed.
Lemma sim_run n : forall b o t r, In b f -> reach f (label b) -> rel b 0 o t ->
  run_from m f n (label b) o = Some r -> run_from m (map (finish_block s ren new) f) n (label b) t = Some r.
Proof using WF FIT UND KEPT.
  induction n as [|n IH]; simpl; intros b o t r Hb R Rl H.
  - injection H as <-. rewrite (r_world _ _ _ _ Rl). reflexivity.
  - rewrite (find_block_wf f b (wf_labels f WF) Hb) in H. rewrite (finish_find _ _ (find_block_wf f b (wf_labels f WF) Hb)). simpl.
    destruct (steps m (body b) o) as [o1|] eqn:St; [|discriminate].
    destruct (sim_body b Hb R (body b) 0%nat [] o t o1 eq_refl eq_refl Rl St) as (t1 & T1 & R1). rewrite T1.
    rewrite (values_rel b _ o1 t1 (t_args b) R1).
    2:{ intros x Hx. split; [|apply (wf_term f WF); assumption]. intros Hc. apply (proj1 (fit_fresh _ _ _ _ _ FIT _ Hc)). apply in_flat_map. exists b. split; [exact Hb|].
        right. apply in_or_app. right. apply in_or_app. right. exact Hx. }
    destruct (values (env o1) (t_args b)) as [ds|]; [|discriminate]. destruct (choose m (t_op b) ds) as [k|].
    + destruct (nth_error (t_succ b) k) as [l'|] eqn:Ek; [|discriminate]. apply nth_error_In in Ek.
      destruct (find_block f l') as [b'|] eqn:F; [|discriminate]. rewrite (finish_find _ _ F). simpl. apply find_block_in in F. destruct F as [Hb' <-].
      destruct (phis_from (label b) (phis b') (env o1) o1) as [o2|] eqn:Ph; [|discriminate].
      destruct (sim_enter b b' o1 t1 o2 Hb R Hb' Ek R1 Ph) as (t2 & T2 & R2).
      change (rev (map snd (filter (fun x => fst x =? label b') new)) ++ map (fun p => mkphi (p_res p) (map (fun a => (ren (fst a), snd a)) (p_args p))) (phis b'))
        with (news (label b') ++ map (ren_phi ren) (phis b')). rewrite T2.
      apply (IH b' o2 t2 r); auto. destruct R as [l P]. exists (l ++ [label b']). econstructor; [exact P|].
      unfold succs. rewrite (find_block_wf f b (wf_labels f WF) Hb). exact Ek.
    + injection H as <-. rewrite (r_world _ _ _ _ R1). reflexivity.
Qed.

Lemma fit_preserves n globals mem0 w0 r : fair_start undef globals mem0 ->
  run m f n globals mem0 w0 = Some r -> run m (map (finish_block s ren new) f) n globals mem0 w0 = Some r.
Proof using WF FIT UND KEPT.
  intros FS. unfold run. assert (Cf : f = [] \/ exists b f', f = b :: f').
  { generalize f. clear. intros [|b f']; [left; reflexivity|right; eauto]. }
  destruct Cf as [Ef|(b & f' & Ef)]; [rewrite Ef; discriminate|].
  assert (E1 : forall F, F = b :: f' -> (match F with [] => None | b0 :: _ => run_from m f n (label b0) (mkconfig globals mem0 w0) end) =
     run_from m f n (label b) (mkconfig globals mem0 w0)) by (intros F ->; reflexivity).
  rewrite (E1 f Ef). clear E1.
  assert (E2 : match map (finish_block s ren new) f with [] => None | b0 :: _ => run_from m (map (finish_block s ren new) f) n (label b0) (mkconfig globals mem0 w0) end =
     run_from m (map (finish_block s ren new) f) n (label b) (mkconfig globals mem0 w0)).
  { rewrite Ef. reflexivity. }
  rewrite E2. clear E2.
  assert (Hb : In b f) by (rewrite Ef; left; reflexivity).
  assert (En : entry f = label b) by (unfold entry; rewrite Ef; reflexivity).
  assert (R : reach f (label b)) by (exists [label b]; rewrite En; constructor).
  assert (Ph : phis b = []) by (pose proof (wf_entry f WF) as H; rewrite Ef in H; apply H).
  clear Ef. apply sim_run; auto. constructor; simpl; auto.
  - intros y Nc Av. rewrite (fit_keep _ _ _ _ _ FIT y Nc); [reflexivity|]. intros c j v L. destruct Av as [Nd|(b' & k & Dy & [[-> Lt]|[Ne Dm]])].
    + exact (Nd _ _ (load_defined _ _ _ _ _ L)).
    + destruct (wf_once f WF _ _ _ _ _ Dy (load_defined _ _ _ _ _ L)) as [_ ->]. lia.
    + assert (P : path (succs f) (entry f) (label b) [label b]) by (rewrite En; constructor). specialize (Dm _ P). destruct Dm as [E|[]]. congruence.
  - intros v d V. assert (S : at_start (label b) v d) by exact V. pose proof (entry_no_preds f WF) as Np. rewrite En in Np.
    inversion S as [l0 v0 E|l0 p c v0 x E F Ls|l0 p c v0 d0 E F Ls S0|l0 v0 p Tw Hc]; subst; try (rewrite Np in E; discriminate).
    + rewrite (ren_undef f undef C ren new FIT UND). apply FS.
    + rewrite Np in Tw. simpl in Tw. lia.
Qed.
End Sim.
