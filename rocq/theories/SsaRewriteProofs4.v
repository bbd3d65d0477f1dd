(** Proofs about the rewriting of variables into ids: the scan of the blocks, and the completion of the candidates. *)
From Verif Require Import Base GraphSpec SsaRewrite SsaRewriteSpec SsaRewriteProofs SsaRewriteProofs2 SsaRewriteProofs3.
Local Open Scope N_scope.

(** ** Candidates stay, with all they have *)
Definition below (s : state) : Prop := forall p c, cands s p = Some c -> p < next s.
Record grow (s s' : state) : Prop := {
  g_cand : forall p c, cands s p = Some c -> exists c', cands s' p = Some c' /\ same_kind c c' /\ incl (c_users c) (c_users c') /\
    (c_done c = true -> c_done c' = true) /\ (c_copy c <> 0 -> c_copy c' <> 0);
  g_below : below s';
  g_repl : forall r, repl s r <> None <-> repl s' r <> None }.
Lemma grow_refl s : below s -> grow s s.
Proof. intros B. split; [|exact B|tauto]. intros p c H. exists c. repeat split; auto. intros x Hx. exact Hx. Qed.
Lemma grow_trans s1 s2 s3 : grow s1 s2 -> grow s2 s3 -> grow s1 s3.
Proof.
  intros A B. split; [|apply B|intros r; rewrite (g_repl _ _ A r); apply B].
  intros p c H. destruct (g_cand _ _ A p c H) as (c1 & H1 & [K1 K2] & U1 & D1 & Y1). destruct (g_cand _ _ B p c1 H1) as (c2 & H2 & [K3 K4] & U2 & D2 & Y2).
  exists c2. repeat split; auto; try congruence. intros x Hx. auto.
Qed.
Lemma grow_same s s' : below s -> cands s' = cands s -> next s' = next s -> (forall r, repl s r <> None <-> repl s' r <> None) -> grow s s'.
Proof. intros B E1 E2 E3. split; [|unfold below; rewrite E1, E2; exact B|exact E3]. rewrite E1. apply (grow_refl s B). Qed.
Lemma grow_edit s p g : below s -> (forall c, cands s p = Some c -> same_kind c (g c) /\ incl (c_users c) (c_users (g c)) /\ (c_done c = true -> c_done (g c) = true) /\ (c_copy c <> 0 -> c_copy (g c) <> 0)) ->
  grow s (edit s p g).
Proof.
  intros B H. unfold edit. destruct (cands s p) as [c|] eqn:E; [|apply grow_refl, B]. destruct (H c eq_refl) as (K & U & D & Y). split; simpl.
  - intros x d Hd. destruct (N.eq_dec x p) as [->|Ne]; [rewrite upd_eq; rewrite E in Hd; injection Hd as <-; exists (g c); auto|].
    rewrite upd_ne by exact Ne. exists d. repeat split; auto. intros y Hy; exact Hy.
  - intros x d. simpl. destruct (N.eq_dec x p) as [->|Ne]; [intros _; apply (B p c E)|rewrite upd_ne by exact Ne; apply B].
  - tauto.
Qed.
Lemma grow_add_user s p u : below s -> grow s (add_user s p u).
Proof. intros B. apply grow_edit; [exact B|]. intros c _. simpl. repeat split; auto. intros x Hx. apply in_or_app. auto. Qed.
Lemma grow_write s v l x : below s -> grow s (write s v l x).
Proof. intros B. unfold write. eapply grow_trans; [|apply grow_add_user; exact B]. apply grow_same; auto; tauto. Qed.
Lemma incl_same (l : list N) : incl l l. Proof. intros x Hx; exact Hx. Qed.
Lemma grow_replace_user f p v x s u : below s -> grow s (replace_user f p v x s u).
Proof.
  intros B. unfold replace_user. destruct (cands s u); [|destruct (is_label f u)].
  - apply grow_edit; [exact B|]. intros c0 _. simpl. repeat split; auto using incl_same.
  - apply grow_write, B.
  - apply grow_same; auto. simpl. intros r. destruct (repl s r); split; congruence.
Qed.
Lemma grow_replace_all f p v x us : forall s, below s -> grow s (fold_left (replace_user f p v x) us s).
Proof.
  induction us as [|u us IH]; intros s B; simpl; [apply grow_refl, B|]. pose proof (grow_replace_user f p v x s u B) as G. eapply grow_trans; [exact G|]. apply IH. apply G.
Qed.
Lemma grow_try_remove f p s y s' : below s -> try_remove f p s = Some (y, s') -> grow s s'.
Proof.
  intros B. unfold try_remove. destruct (cands s p) as [c|]; [|discriminate]. destruct (only_value p 0 (c_args c)) as [x|]; [|intros H; injection H as <- <-; apply grow_refl, B].
  destruct x as [|x]; [discriminate|]. intros H. injection H as <- <-. set (s1 := edit _ _ _). assert (G : grow s s1).
  { apply grow_edit; [exact B|]. intros c0 _. simpl. repeat split; auto using incl_same. discriminate. }
  eapply grow_trans; [exact G|]. apply grow_replace_all, G.
Qed.
Lemma grow_create v b s : below s -> grow s (create v b s).
Proof.
  intros B. split; simpl.
  - intros p c H. pose proof (B p c H). rewrite upd_ne by lia. exists c. repeat split; auto using incl_same.
  - intros p c. simpl. destruct (N.eq_dec p (next s)) as [->|Ne]; [intros _; lia|]. rewrite upd_ne by exact Ne. intros H. apply B in H. lia.
  - tauto.
Qed.
Lemma grow_operands (look : N -> state -> option (N * state)) P : (forall q s x s', below s -> look q s = Some (x, s') -> grow s s') ->
  forall ps s s', below s -> operands look P ps s = Some s' -> grow s s'.
Proof.
  intros Look. induction ps as [|q ps IH]; intros s s' B H; simpl in H; [injection H as <-; apply grow_refl, B|].
  assert (Step : exists a s1, grow s s1 /\ operands look P ps (if a =? P then push_arg s1 P a else add_user (push_arg s1 P a) a P) = Some s').
  { destruct (is_sealed s q); [destruct (look q s) as [[a s1]|] eqn:E; [|discriminate]; eauto|]. exists 0, s. split; [apply grow_refl, B|exact H]. }
  destruct Step as (a & s1 & G & Rest). assert (G2 : grow s1 (push_arg s1 P a)).
  { apply grow_edit; [apply G|]. intros c _. simpl. repeat split; auto using incl_same. }
  destruct (a =? P).
  - eapply grow_trans; [exact G|]. eapply grow_trans; [exact G2|]. eapply IH; [apply G2|exact Rest].
  - pose proof (grow_add_user _ a P (g_below _ _ G2)) as G3. eapply grow_trans; [exact G|]. eapply grow_trans; [exact G2|]. eapply grow_trans; [exact G3|]. eapply IH; [apply G3|exact Rest].
Qed.
Lemma grow_mark s p : below s -> grow s (mark_done s p).
Proof. intros B. apply grow_edit; [exact B|]. intros c _. simpl. repeat split; auto using incl_same. Qed.
Lemma grow_settle f P s y s' : below s -> settle f P s = Some (y, s') -> grow s s'.
Proof.
  intros B. unfold settle. destruct (cands s P) as [c|]; [|discriminate]. destruct (existsb _ _); [intros H; injection H as <- <-; apply grow_same; auto; tauto|].
  destruct (try_remove f P s) as [[x s1]|] eqn:E; [|discriminate]. pose proof (grow_try_remove _ _ _ _ _ B E) as G. destruct (x =? P); intros H; injection H as <- <-; [|exact G].
  pose proof (grow_mark s1 P (g_below _ _ G)) as G2. eapply grow_trans; [exact G|]. eapply grow_trans; [exact G2|]. apply grow_same; [apply G2|reflexivity|reflexivity|tauto].
Qed.
Lemma grow_reaching f undef fuel : forall v b s x s', below s -> reaching f undef fuel v b s = Some (x, s') -> grow s s'.
Proof.
  induction fuel as [|n IH]; intros v b s x s' B H; [discriminate|]. simpl in H. destruct (negb _); [injection H as <- <-; apply grow_refl, B|].
  assert (Last : forall y s1, grow s s1 -> Some (y, write s1 v b y) = Some (x, s') -> grow s s').
  { intros y s1 G E. injection E as <- <-. eapply grow_trans; [exact G|apply grow_write, G]. }
  destruct (preds f b) as [|p0 [|p1 ps]].
  - eapply Last; [apply grow_refl, B|exact H].
  - destruct (reaching f undef n v p0 s) as [[y s1]|] eqn:E; [|discriminate]. eapply Last; [eapply IH; eauto|exact H].
  - set (s1 := write (create v b s) v b (next s)) in *.
    assert (G1 : grow s s1). { pose proof (grow_create v b s B) as G. eapply grow_trans; [exact G|apply grow_write, G]. }
    destruct (operands (reaching f undef n v) (next s) (p0 :: p1 :: ps) s1) as [s2|] eqn:Eo; [|simpl in Eo; simpl in H; rewrite Eo in H; discriminate].
    assert (H' : match settle f (next s) s2 with Some (x1, s3) => let y := if x1 =? 0 then undef v else x1 in Some (y, write s3 v b y) | None => None end = Some (x, s')).
    { simpl in Eo. simpl in H. rewrite Eo in H. exact H. } clear H.
    assert (G2 : grow s1 s2) by (eapply grow_operands; [|apply G1|exact Eo]; intros; eapply IH; eauto).
    destruct (settle f (next s) s2) as [[y s3]|] eqn:Es; [|discriminate]. pose proof (grow_settle _ _ _ _ _ (g_below _ _ G2) Es) as G3.
    eapply Last; [|exact H']. eapply grow_trans; [exact G1|]. eapply grow_trans; eauto.
Qed.
Lemma grow_set s p i a : below s -> grow s (set_arg s p i a).
Proof. intros B. apply grow_edit; [exact B|]. intros c _. simpl. repeat split; auto using incl_same. Qed.
Lemma grow_complete f undef fuel p v : forall ps i s s', below s -> complete f undef fuel p v ps i s = Some s' -> grow s s'.
Proof.
  induction ps as [|q ps IH]; intros i s s' B H; simpl in H; [injection H as <-; apply grow_refl, B|]. destruct (cands s p) as [c|]; [|discriminate].
  destruct (nth i (c_args c) 1 =? 0); [|eapply IH; eauto].
  assert (Step : exists a s1, grow s s1 /\ complete f undef fuel p v ps (S i) (set_arg s1 p i a) = Some s').
  { destruct (is_sealed s q); [destruct (reaching f undef fuel v q s) as [[a s1]|] eqn:E; [|discriminate]; exists a, s1; split; [eapply grow_reaching; eauto|exact H]|].
    exists (undef v), s. split; [apply grow_refl, B|exact H]. }
  destruct Step as (a & s1 & G & Rest). pose proof (grow_set s1 p i a (g_below _ _ G)) as G2. eapply grow_trans; [exact G|]. eapply grow_trans; [exact G2|]. eapply IH; [apply G2|exact Rest].
Qed.
Lemma grow_finalize f undef fuel p s s' : below s -> finalize f undef fuel p s = Some s' -> grow s s'.
Proof.
  intros B. unfold finalize. destruct (cands s p) as [c|]; [|discriminate]. destruct (complete f undef fuel p (c_var c) (preds f (c_bb c)) 0 s) as [s1|] eqn:E; [|discriminate].
  pose proof (grow_complete _ _ _ _ _ _ _ _ _ B E) as G1. pose proof (grow_mark s1 p (g_below _ _ G1)) as G2.
  destruct (try_remove f p (mark_done s1 p)) as [[x s2]|] eqn:Et; [|discriminate]. pose proof (grow_try_remove _ _ _ _ _ (g_below _ _ G2) Et) as G3.
  intros H. assert (G : grow s s2) by (eapply grow_trans; [exact G1|]; eapply grow_trans; eauto). destruct (x =? p); injection H as <-; [|exact G].
  eapply grow_trans; [exact G|]. apply grow_same; [apply G|reflexivity|reflexivity|tauto].
Qed.
Lemma grow_finalize_all f undef fuel : forall n s s', below s -> finalize_all f undef fuel n s = Some s' -> grow s s'.
Proof.
  induction n as [|n IH]; intros s s' B H; [discriminate|]. simpl in H. destruct (queue s) as [|p q]; [injection H as <-; apply grow_refl, B|].
  set (s0 := mkstate _ _ _ _ _ _ _) in H. destruct (finalize f undef fuel p s0) as [s1|] eqn:E; [|discriminate].
  assert (G0 : grow s s0) by (apply grow_same; auto; tauto). pose proof (grow_finalize _ _ _ _ _ _ (g_below _ _ G0) E) as G1.
  eapply grow_trans; [exact G0|]. eapply grow_trans; [exact G1|]. eapply IH; [apply G1|exact H].
Qed.

(** ** The scan *)
Section Visit.
Variable f : func.
Variable undef : N -> N.
Variable first : N.
Hypothesis WF : well_formed f.
Hypothesis FR : fresh_from f undef first.

(** what has been scanned: the sealed blocks, and the first instructions of the current one *)
Definition part (sl : list N) (cur : option (block * nat)) (l : N) (i : list inst) : Prop :=
  (In l sl /\ exists b, find_block f l = Some b /\ i = body b) \/ (exists b j, cur = Some (b, j) /\ label b = l /\ i = firstn j (body b)).
Record place (sl : list N) (cur : option (block * nat)) : Prop := {
  pl_cur : forall b j, cur = Some (b, j) -> ~ In (label b) sl /\ find_block f (label b) = Some b;
  pl_blocks : forall q, In q sl -> exists b, find_block f q = Some b;
  pl_sealed : forall l p, In l sl -> preds f l = [p] -> In p sl;
  pl_next : forall b j p, cur = Some (b, j) -> preds f (label b) = [p] -> In p sl }.
Notation Inv sl cur fin base := (inv f undef first sl (part sl cur) fin base).
Lemma place_one sl cur : place sl cur -> forall l i i', part sl cur l i -> part sl cur l i' -> i = i'.
Proof.
  intros P l i i' [(S & b & F & ->)|(b & j & E & El & ->)] [(S' & b' & F' & ->)|(b' & j' & E' & El' & ->)]; try congruence.
  - exfalso. apply (pl_cur _ _ P) in E'. subst l. tauto.
  - exfalso. apply (pl_cur _ _ P) in E. subst l. tauto.
Qed.
Lemma place_sealed sl cur : place sl cur -> forall q, In q sl -> exists b, find_block f q = Some b /\ part sl cur q (body b).
Proof. intros P q Hq. destruct (pl_blocks _ _ P q Hq) as [b F]. exists b. split; [exact F|]. left. split; [exact Hq|]. exists b. auto. Qed.
Lemma place_order sl cur : place sl cur -> forall l i p, part sl cur l i -> preds f l = [p] -> In p sl.
Proof. intros P l i p [(S & _)|(b & j & E & <- & _)] Ep; [eapply pl_sealed; eauto|eapply pl_next; eauto]. Qed.

Lemma inv_move sl sl' (pt pt' : N -> list inst -> Prop) base open s R :
  (forall l v i, pt l i -> exists i', pt' l i' /\ last_store v i' = last_store v i) ->
  (forall l v i', pt' l i' -> last_store v i' <> None -> exists i, pt l i /\ last_store v i <> None) ->
  incl sl sl' -> inv f undef first sl pt false base open s R ->
  inv f undef first sl' pt' false base open (mkstate (defs s) (cands s) (repl s) sl' (queue s) (gen s) (next s)) R.
Proof.
  intros P P' S I. constructor; try apply I.
  - reflexivity.
  - intros l v H. destruct (i_def _ _ _ _ _ _ _ _ _ _ I l v H) as (d & (i & Pi & M) & E). exists d. split; [|exact E]. destruct (P l v i Pi) as (i' & Pi' & El). exists i'. rewrite El. auto.
  - intros l v i' Pi' H. destruct (P' l v i' Pi' H) as (i & Pi & Hi). eapply (i_store _ _ _ _ _ _ _ _ _ _ I); eauto.
  - intros p c i a q H Ai Na Q. destruct (i_arg _ _ _ _ _ _ _ _ _ _ I p c i a q H Ai Na Q) as [[A B]|[A _]]; [left; split; [apply S, A|exact B]|discriminate].
Qed.
Lemma inv_base sl pt fin base base' open s R : base <= base' <= next s -> inv f undef first sl pt fin base open s R -> inv f undef first sl pt fin base' open s R.
Proof.
  intros L I. constructor; try apply I.
  - pose proof (i_base _ _ _ _ _ _ _ _ _ _ I). lia.
  - intros p c u H Hu Lu. destruct (i_user _ _ _ _ _ _ _ _ _ _ I p c u H Hu Lu) as [A [B|[B D]]]; split; auto. right. split; [lia|exact D].
Qed.
Lemma inv_fin sl pt base open s R : inv f undef first sl pt false base open s R -> inv f undef first sl pt true base open s R.
Proof. intros I. constructor; try apply I. intros p c i a q H Ai Na Q. destruct (i_arg _ _ _ _ _ _ _ _ _ _ I p c i a q H Ai Na Q) as [A|[A _]]; [left; exact A|discriminate]. Qed.
Lemma state_eta s sl : sealed s = sl -> mkstate (defs s) (cands s) (repl s) sl (queue s) (gen s) (next s) = s.
Proof. intros <-. destruct s. reflexivity. Qed.
Lemma inv_step sl b j i base open s R : nth_error (body b) j = Some i -> (forall v x, i <> IStore v x) ->
  Inv sl (Some (b, j)) false base open s R -> Inv sl (Some (b, S j)) false base open s R.
Proof.
  intros Hi Ns I. rewrite <- (state_eta s sl) by apply I. apply (inv_move sl sl (part sl (Some (b, j)))); auto.
  - intros l v x [A|(b' & j' & E & El & ->)]; [exists x; split; [left; exact A|reflexivity]|]. injection E as <- <-. exists (firstn (S j) (body b)). split; [right; eauto 6|].
    rewrite (firstn_snoc _ _ _ Hi), last_store_app. destruct i as [r w|w x|r o l0]; simpl; [reflexivity|destruct (Ns w x eq_refl)|reflexivity].
  - intros l v x [A|(b' & j' & E & El & ->)] Hx; [exists x; split; [left; exact A|exact Hx]|]. injection E as <- <-. exists (firstn j (body b)). split; [right; eauto 6|].
    rewrite (firstn_snoc _ _ _ Hi), last_store_app in Hx. destruct i as [r w|w x|r o l0]; simpl in Hx; [exact Hx|destruct (Ns w x eq_refl)|exact Hx].
  - intros x Hx; exact Hx.
Qed.
Lemma inv_open_block sl b base open s R : Inv sl None false base open s R -> Inv sl (Some (b, O)) false base open s R.
Proof.
  intros I. rewrite <- (state_eta s sl) by apply I. apply (inv_move sl sl (part sl None)); auto.
  - intros l v x [A|(b' & j' & E & _)]; [|discriminate]. exists x. split; [left; exact A|reflexivity].
  - intros l v x [A|(b' & j' & E & El & ->)] Hx; [exists x; split; [left; exact A|exact Hx]|]. injection E as <- <-. destruct (Hx eq_refl).
  - intros x Hx; exact Hx.
Qed.
Lemma inv_seal sl b base open s R : find_block f (label b) = Some b -> Inv sl (Some (b, length (body b))) false base open s R -> Inv (label b :: sl) None false base open (seal (label b) s) R.
Proof.
  intros F I. unfold seal. rewrite (i_sealed _ _ _ _ _ _ _ _ _ _ I). apply (inv_move sl (label b :: sl) (part sl (Some (b, length (body b))))); auto.
  - intros l v x [(S & B)|(b' & j' & E & <- & ->)]; [exists x; split; [left; split; [right; exact S|exact B]|reflexivity]|]. injection E as <- <-. rewrite firstn_all. exists (body b). split; [|reflexivity].
    left. split; [left; reflexivity|eauto].
  - intros l v x [([<-|S] & bb & Fb & ->)|(b' & j' & E & _)] Hx; [| |discriminate].
    + exists (body b). split; [right; exists b, (length (body b)); rewrite firstn_all; auto|]. assert (bb = b) by congruence. subst bb. exact Hx.
    + exists (body bb). split; [left; split; [exact S|eauto]|exact Hx].
  - intros x Hx; right; exact Hx.
Qed.
Lemma inv_store sl b j v x open s R : place sl (Some (b, j)) -> nth_error (body b) j = Some (IStore v x) ->
  Inv sl (Some (b, j)) false (next s) open s R -> Inv sl (Some (b, S j)) false (next s) open (write s v (label b) x) R.
Proof using All.
  intros Pl Hi I. destruct (pl_cur _ _ Pl b j eq_refl) as [Ns Fb]. pose proof (find_block_in _ _ _ Fb) as [Hb _].
  assert (Ix : 0 < x < first). { apply (proj1 FR). apply in_flat_map. exists b. split; [exact Hb|]. right. apply in_or_app. right. apply in_or_app. left. apply in_flat_map. exists (IStore v x). split; [eapply nth_error_In; eauto|left; reflexivity]. }
  assert (Nx : cands s x = None). { destruct (cands s x) as [c|] eqn:E; [|reflexivity]. apply (i_next _ _ _ _ _ _ _ _ _ _ I) in E. lia. }
  assert (Hst : has_store f (label b) v).
  { exists b. split; [exact Fb|]. intros N. apply nth_error_In in Hi. clear - Hi N. induction (body b) as [|i l IH] using rev_ind; [destruct Hi|]. rewrite last_store_app in N. apply in_app_or in Hi. destruct Hi as [Hi|[->|[]]].
    - apply IH; [exact Hi|]. destruct i as [|w y|]; auto. destruct (w =? v); [discriminate|exact N].
    - rewrite N.eqb_refl in N. discriminate. }
  unfold write, add_user, edit. simpl. rewrite Nx. set (l := label b) in *. set (s' := set_defs s (upd (defs s) l (upd (defs s l) v x))).
  assert (Def : forall l' v', (l' = l /\ v' = v /\ defs s' l' v' = x) \/ (~ (l' = l /\ v' = v) /\ defs s' l' v' = defs s l' v')).
  { intros l' v'. unfold s', upd. simpl. destruct (N.eqb_spec l' l) as [->|N1]; [destruct (N.eqb_spec v' v) as [->|N2]|].
    - left. auto.
    - right. split; [tauto|reflexivity].
    - right. split; [tauto|reflexivity]. }
  assert (Lst : last_store v (firstn (S j) (body b)) = Some x).
  { rewrite (firstn_snoc _ _ _ Hi), last_store_app. simpl. rewrite N.eqb_refl. reflexivity. }
  assert (Oth : forall w, w <> v -> last_store w (firstn (S j) (body b)) = last_store w (firstn j (body b))).
  { intros w Nw. rewrite (firstn_snoc _ _ _ Hi), last_store_app. simpl. destruct (N.eqb_spec v w) as [->|_]; [congruence|reflexivity]. }
  assert (Np : 0 < x) by lia.
  constructor; simpl; try apply I.
  - intros l' v' p Hc. change (defs s' l' v' <> 0). destruct (Def l' v') as [(_ & _ & ->)|[_ ->]]; [lia|]. eapply (i_cdef _ _ _ _ _ _ _ _ _ _ I); eauto.
  - intros l' v' H. change (defs s' l' v' <> 0) in H. change (exists d, now f undef (part sl (Some (b, S j))) s l' v' d /\ R (defs s' l' v') = R d).
    destruct (Def l' v') as [(-> & -> & E)|[Nd E]]; rewrite E in *.
    + exists x. split; [|reflexivity]. exists (firstn (S j) (body b)). split; [right; eauto 6|]. rewrite Lst. reflexivity.
    + destruct (i_def _ _ _ _ _ _ _ _ _ _ I l' v' H) as (d & (i & [A|(b' & j' & Ec & El & ->)] & M) & Ed); exists d; (split; [|exact Ed]).
      * exists i. split; [left; exact A|exact M].
      * injection Ec as <- <-. exists (firstn (S j) (body b)). split; [right; eauto 6|]. rewrite Oth; [exact M|]. intros ->. apply Nd. auto.
  - intros l' v'. change (known first s v' (defs s' l' v')). destruct (Def l' v') as [(_ & _ & ->)|[_ ->]]; [left; lia|apply (i_dvar _ _ _ _ _ _ _ _ _ _ I)].
  - intros l' v' i Pi Hl. change (defs s' l' v' <> 0). destruct (Def l' v') as [(_ & _ & ->)|[Nd ->]]; [lia|]. destruct Pi as [A|(b' & j' & Ec & El & ->)].
    + eapply (i_store _ _ _ _ _ _ _ _ _ _ I); [left; exact A|exact Hl].
    + injection Ec as <- <-. eapply (i_store _ _ _ _ _ _ _ _ _ _ I); [right; eauto 6|]. rewrite Oth in Hl; [exact Hl|]. intros ->. apply Nd. auto.
  - intros p c u Hp Hu Lu. change (defs s' u (c_var c) <> 0 /\ (R (defs s' u (c_var c)) = R p \/ (p < next s /\ has_store f u (c_var c)))).
    destruct (Def u (c_var c)) as [(-> & -> & ->)|[Nd ->]]; [|apply (i_user _ _ _ _ _ _ _ _ _ _ I p c u Hp Hu Lu)]. split; [lia|]. right. split; [apply (i_next _ _ _ _ _ _ _ _ _ _ I p c Hp)|exact Hst].
Qed.
Lemma load_not_label b j r v : In b f -> nth_error (body b) j = Some (ILoad r v) -> is_label f r = false.
Proof using WF.
  intros Hb Hi. unfold is_label. destruct (existsb _ f) eqn:E; [|reflexivity]. apply existsb_exists in E. destruct E as (b' & Hb' & El). apply N.eqb_eq in El. subst r.
  destruct (wf_label_ids f WF b' b (S j) Hb'). split; [exact Hb|]. exists (ILoad (label b') v). auto.
Qed.

Lemma visit_inst_ok fuel sl b j i s s' R : place sl (Some (b, j)) -> nth_error (body b) j = Some i -> Inv sl (Some (b, j)) false (next s) [] s R ->
  visit_inst f undef fuel (label b) i s = Some s' ->
  (exists R', Inv sl (Some (b, S j)) false (next s') [] s' R') /\ (forall r, repl s r <> None -> repl s' r <> None) /\ (forall r v, i = ILoad r v -> repl s' r <> None).
Proof using All.
  intros Pl Hi I H. destruct (pl_cur _ _ Pl b j eq_refl) as [Ns Fb]. pose proof (find_block_in _ _ _ Fb) as [Hb _]. destruct i as [r v|v x|r o l]; simpl in H.
  - destruct (reaching f undef fuel v (label b) s) as [[x s1]|] eqn:Er; [|discriminate]. injection H as <-.
    assert (Pb : part sl (Some (b, j)) (label b) (firstn j (body b))) by (right; eauto 6).
    destruct (reaching_ok f undef first WF FR sl (part sl (Some (b, j))) false (next s) (place_one _ _ Pl) (place_sealed _ _ Pl) (place_order _ _ Pl) fuel v (label b) s s1 x [] R _ I Pb Er)
      as (R1 & I1 & Co & X & Nx & Kn & d & (i & Pi & M) & Ed).
    rewrite (place_one _ _ Pl _ _ _ Pi Pb) in M.
    set (s2 := set_repl s1 (upd (repl s1) r (Some x))).
    assert (I2 : Inv sl (Some (b, j)) false (next s) [] s2 R1).
    { constructor; simpl; try apply I1. intros r' y. destruct (N.eq_dec r' r) as [->|Ne]; [rewrite upd_eq|rewrite upd_ne by exact Ne; apply (i_load _ _ _ _ _ _ _ _ _ _ I1)].
      intros E. injection E as <-. exists b, j, v, d. split; [split; assumption|]. split; [exact M|exact Ed]. }
    assert (I3 : Inv sl (Some (b, j)) false (next s) [] (add_user s2 x r) R1).
    { apply inv_add_user; [exact I2|]. intros c _ L. rewrite (load_not_label b j r v Hb Hi) in L. discriminate. }
    assert (En : next (add_user s2 x r) = next s1) by (unfold add_user, edit; destruct (cands s2 x); reflexivity).
    assert (Ep : repl (add_user s2 x r) = upd (repl s1) r (Some x)) by (unfold add_user, edit; destruct (cands s2 x); reflexivity).
    split; [exists R1|split].
    + eapply inv_step; eauto; [intros; discriminate|]. eapply inv_base; [|exact I3]. rewrite En. pose proof (x_next _ _ _ X). lia.
    + intros r' Hr. rewrite Ep. unfold upd. destruct (r' =? r); [discriminate|]. apply X, Hr.
    + intros r' v' E. injection E as <- <-. rewrite Ep, upd_eq. discriminate.
  - injection H as <-. assert (E : next (write s v (label b) x) = next s /\ repl (write s v (label b) x) = repl s) by (unfold write, add_user, edit; simpl; destruct (cands s x); auto). destruct E as [E1 E2]. rewrite E1, E2.
    split; [exists R; eapply inv_store; eauto|]. split; [auto|discriminate].
  - injection H as <-. split; [exists R; eapply inv_step; eauto; intros; discriminate|]. split; [auto|discriminate].
Qed.
Lemma place_step sl b j j' : place sl (Some (b, j)) -> place sl (Some (b, j')).
Proof.
  intros P. split; [| | |].
  - intros b0 j0 E. injection E as <- <-. eapply pl_cur; eauto.
  - apply P.
  - apply P.
  - intros b0 j0 p E. injection E as <- <-. eapply pl_next; eauto.
Qed.
Lemma visit_insts_ok fuel sl b : forall l pre s s' R, body b = pre ++ l -> place sl (Some (b, length pre)) -> Inv sl (Some (b, length pre)) false (next s) [] s R ->
  visit_insts f undef fuel (label b) l s = Some s' ->
  (exists R', Inv sl (Some (b, length (body b))) false (next s') [] s' R') /\ (forall r, repl s r <> None -> repl s' r <> None) /\ (forall r v, In (ILoad r v) l -> repl s' r <> None).
Proof using All.
  induction l as [|i l IH]; intros pre s s' R Eb Pl I H; simpl in H.
  - injection H as <-. rewrite app_nil_r in Eb. rewrite Eb. split; [exists R; exact I|]. split; [auto|intros r v []].
  - destruct (visit_inst f undef fuel (label b) i s) as [s1|] eqn:Ei; [|discriminate].
    assert (Hi : nth_error (body b) (length pre) = Some i) by (rewrite Eb, nth_error_app2, Nat.sub_diag by lia; reflexivity).
    destruct (visit_inst_ok fuel sl b (length pre) i s s1 R Pl Hi I Ei) as ((R1 & I1) & K1 & L1).
    assert (El : length (pre ++ [i]) = S (length pre)) by (rewrite app_length; simpl; lia).
    destruct (IH (pre ++ [i]) s1 s' R1) as (I2 & K2 & L2).
    { rewrite <- app_assoc. exact Eb. } { rewrite El. eapply place_step; eauto. } { rewrite El. exact I1. } { exact H. }
    split; [exact I2|]. split; [auto|]. intros r v [->|Hr]; [apply K2; eapply L1; reflexivity|eapply L2; eauto].
Qed.

Definition ordered (o : list N) : Prop :=
  NoDup o /\ (forall l, In l o -> exists b, find_block f l = Some b) /\ forall pre l post p, o = pre ++ l :: post -> preds f l = [p] -> In p pre.
Definition loads_done (s : state) (sl : list N) : Prop := forall l b r v, In l sl -> find_block f l = Some b -> In (ILoad r v) (body b) -> repl s r <> None.
Lemma visit_blocks_ok fuel o : ordered o -> forall order pre s s' R, o = pre ++ order -> place (rev pre) None -> loads_done s (rev pre) -> Inv (rev pre) None false (next s) [] s R ->
  visit_blocks f undef fuel order s = Some s' -> (exists R', Inv (rev o) None false (next s') [] s' R') /\ loads_done s' (rev o) /\ place (rev o) None.
Proof using All.
  intros (Nd & Fo & Oo). induction order as [|l order IH]; intros pre s s' R Eo Pl Ld I H; simpl in H.
  - injection H as <-. rewrite app_nil_r in Eo. subst o. split; [exists R; exact I|auto].
  - destruct (find_block f l) as [b|] eqn:Fb; [|discriminate]. pose proof (find_block_in _ _ _ Fb) as [Hb El].
    destruct (visit_insts f undef fuel l (body b) s) as [s1|] eqn:Ei; [|discriminate].
    assert (Nl : ~ In l (rev pre)). { rewrite <- in_rev. rewrite Eo in Nd. apply NoDup_remove_2 in Nd. intros K. apply Nd, in_or_app. auto. }
    assert (Pl' : place (rev pre) (Some (b, O))).
    { split; [| | |].
      - intros b0 j0 E. injection E as <- <-. rewrite El. auto.
      - apply Pl.
      - apply Pl.
      - intros b0 j0 p E Ep. injection E as <- <-. rewrite El in Ep. rewrite <- in_rev. eapply Oo; eauto. }
    rewrite <- El in Ei. destruct (visit_insts_ok fuel (rev pre) b (body b) [] s s1 R eq_refl Pl' (inv_open_block _ _ _ _ _ _ I) Ei) as ((R1 & I1) & K1 & L1).
    assert (Er : rev (pre ++ [l]) = l :: rev pre) by apply rev_unit.
    apply (IH (pre ++ [l]) (seal l s1) s' R1); auto.
    + rewrite <- app_assoc. exact Eo.
    + rewrite Er. split; [| | |].
      * discriminate.
      * intros q [<-|Hq]; [eauto|apply (pl_blocks _ _ Pl q Hq)].
      * intros l' p [<-|Hl] Ep; right; [rewrite <- in_rev; eapply Oo; eauto|eapply (pl_sealed _ _ Pl); eauto].
      * discriminate.
    + rewrite Er. intros l' b' r v [<-|Hl] Fb' Hr.
      * assert (b' = b) by congruence. subst b'. eapply L1; eauto.
      * apply K1. eapply Ld; eauto.
    + rewrite Er. rewrite <- El. apply inv_seal; [rewrite El; exact Fb|exact I1].
Qed.
Lemma start_ok : Inv [] None false first [] (start first) (fun x => x).
Proof using FR.
  clear WF. constructor; simpl; try discriminate; try congruence; auto.
  - lia.
  - intros l v p p' (c & H & _). discriminate.
  - intros l v p (c & H & _). discriminate.
  - intros l v. left. pose proof (proj1 (proj2 FR 0)). simpl. lia.
  - intros l v i [[[] _]|(b & j & E & _)]. discriminate.
  - intros p [].
  - split; [constructor|intros p []].
  - split; [constructor|intros p []].
Qed.

(** ** The completion *)
(** no block that writes to a variable holds a candidate of this variable that was removed at the end *)
Definition no_stale (s : state) : Prop := forall p c u, cands s p = Some c -> c_done c = true -> c_copy c <> 0 -> In u (c_users c) -> is_label f u = true -> ~ has_store f u (c_var c).
Lemma no_stale_grow s s' : grow s s' -> no_stale s' -> no_stale s.
Proof.
  intros G N p c u H D Z Hu Lu. destruct (g_cand _ _ G p c H) as (c' & H' & [<- _] & U & D' & Z'). eapply N; eauto.
Qed.
Lemma complete_ok fuel sl p v : place sl None -> forall ps pre s s' R c, preds f (c_bb c) = pre ++ ps -> Inv sl None true (next s) [p] s R -> cands s p = Some c -> c_var c = v ->
  length (c_args c) = length (preds f (c_bb c)) -> (forall k, (k < length pre)%nat -> nth_error (c_args c) k <> Some 0) ->
  complete f undef fuel p v ps (length pre) s = Some s' ->
  exists R' c', Inv sl None true (next s') [p] s' R' /\ (forall r, repl s r <> None -> repl s' r <> None) /\ cands s' p = Some c' /\ length (c_args c') = length (preds f (c_bb c')) /\ ~ In 0 (c_args c').
Proof using All.
  intros Pl. induction ps as [|q ps IH]; intros pre s s' R c Ep I Hc Ev Len Nz H; simpl in H.
  - injection H as <-. exists R, c. split; [exact I|]. split; [auto|]. split; [exact Hc|]. split; [exact Len|]. intros H0. apply In_nth_error in H0. destruct H0 as [k Hk]. rewrite app_nil_r in Ep.
    assert (k < length (c_args c))%nat by (apply nth_error_Some; congruence). rewrite Len, Ep in H. exact (Nz k H Hk).
  - rewrite Hc in H. assert (Lp : (length pre < length (c_args c))%nat) by (rewrite Len, Ep, app_length; simpl; lia).
    assert (Qq : nth_error (preds f (c_bb c)) (length pre) = Some q) by (rewrite Ep, nth_error_app2, Nat.sub_diag by lia; reflexivity).
    assert (El : length (pre ++ [q]) = S (length pre)) by (rewrite app_length; simpl; lia).
    destruct (nth_error (c_args c) (length pre)) as [a0|] eqn:Ea; [|apply nth_error_None in Ea; lia]. rewrite (nth_error_nth _ _ 1 Ea) in H. destruct (N.eqb_spec a0 0) as [E0|Na0].
    + subst a0. assert (Step : exists a s1 R1, Inv sl None true (next s1) [p] s1 R1 /\ ext [p] s s1 /\ a <> 0 /\ known first s1 v a /\
        ((In q sl /\ exists d, at_end f undef (C s1) q v d /\ R1 a = R1 d) \/ (true = true /\ ~ In q sl)) /\ complete f undef fuel p v ps (S (length pre)) (set_arg s1 p (length pre) a) = Some s').
      { destruct (is_sealed s q) eqn:Sq.
        - assert (Hq : In q sl). { unfold is_sealed in Sq. apply existsb_exists in Sq. destruct Sq as (q' & Hq' & E). apply N.eqb_eq in E. subst q'. rewrite (i_sealed _ _ _ _ _ _ _ _ _ _ I) in Hq'. exact Hq'. }
          destruct (reaching f undef fuel v q s) as [[a s1]|] eqn:Er; [|discriminate]. destruct (place_sealed _ _ Pl q Hq) as (bb & _ & Pq).
          destruct (reaching_ok f undef first WF FR sl (part sl None) true (next s) (place_one _ _ Pl) (place_sealed _ _ Pl) (place_order _ _ Pl) fuel v q s s1 a [p] R _ I Pq Er)
            as (R1 & I1 & Co & X & Nx & Kn & d & Nw & Ed).
          exists a, s1, R1. split; [eapply inv_base; [|exact I1]; pose proof (x_next _ _ _ X); lia|]. split; [exact X|]. split; [exact Nx|]. split; [exact Kn|]. split; [|exact H]. left. split; [exact Hq|]. exists d. split; [|exact Ed].
          apply (now_end f undef first WF FR sl (part sl None) true (next s) (place_one _ _ Pl) (place_sealed _ _ Pl) (place_order _ _ Pl) s1 q v d Hq). exact Nw.
        - exists (undef v), s, R. destruct (proj2 FR v) as [U _]. split; [exact I|]. split; [apply ext_refl|]. split; [lia|]. split; [left; lia|]. split; [|exact H]. right. split; [reflexivity|].
          intros Hq. assert (is_sealed s q = true) by (apply existsb_exists; exists q; split; [rewrite (i_sealed _ _ _ _ _ _ _ _ _ _ I); exact Hq|apply N.eqb_refl]). congruence. }
      destruct Step as (a & s1 & R1 & I1 & X & Na & Kn & Ha & Rest).
      destruct (x_cand _ _ _ X p c Hc) as (c1 & Hc1 & [Kv Kb] & _). destruct (x_open _ _ _ X p c (or_introl eq_refl) Hc) as (c1' & Hc1' & Len1 & Z1). assert (c1' = c1) by congruence. subst c1'.
      set (s2 := set_arg s1 p (length pre) a) in *.
      assert (I2 : Inv sl None true (next s1) [p] s2 R1).
      { eapply inv_set; eauto; [apply place_one, Pl|apply place_sealed, Pl|apply place_order, Pl|left; reflexivity|congruence|].
        intros q' Hq'. rewrite Kb, Qq in Hq'. injection Hq' as <-. rewrite Kv, Ev. exact Ha. }
      set (c2 := mkcand (c_var c1) (c_bb c1) (set_nth (c_args c1) (length pre) a) (c_copy c1) (c_done c1) (c_users c1)).
      assert (H2 : cands s2 p = Some c2) by (unfold s2, set_arg, edit; rewrite Hc1; simpl; apply upd_eq).
      assert (E2 : next s2 = next s1 /\ repl s2 = repl s1) by (unfold s2, set_arg, edit; rewrite Hc1; auto). destruct E2 as [E2 E2'].
      destruct (IH (pre ++ [q]) s2 s' R1 c2) as (R' & c' & I' & K' & Rst).
      * simpl. rewrite Kb, <- app_assoc. exact Ep.
      * rewrite E2. exact I2.
      * exact H2.
      * simpl. congruence.
      * simpl. rewrite set_nth_length, Kb. congruence.
      * intros k Hk. simpl. rewrite set_nth_ok. destruct (Nat.eqb_spec k (length pre)) as [->|Nk]; [destruct (nth_error (c_args c1) (length pre)); [intros E; injection E; congruence|discriminate]|].
        intros E. apply Z1 in E. apply (Nz k); [lia|exact E].
      * rewrite El. exact Rest.
      * exists R', c'. split; [exact I'|]. split; [|exact Rst]. intros r Hr. apply K'. rewrite E2'. apply X, Hr.
    + destruct (IH (pre ++ [q]) s s' R c) as (R' & c' & Rst); auto.
      * rewrite <- app_assoc. exact Ep.
      * intros k Hk. rewrite El in Hk. destruct (Nat.eq_dec k (length pre)) as [->|Nk]; [congruence|apply Nz; lia].
      * rewrite El. exact H.
      * exists R', c'. exact Rst.
Qed.
Lemma finalize_ok fuel sl p s s' R : place sl None -> Inv sl None true (next s) [p] s R -> (exists c, cands s p = Some c /\ length (c_args c) = length (preds f (c_bb c))) ->
  finalize f undef fuel p s = Some s' -> no_stale s' ->
  exists R', Inv sl None true (next s') [] s' R' /\ (forall r, repl s r <> None -> repl s' r <> None).
Proof using All.
  intros Pl I (c & Hc & Len). unfold finalize. rewrite Hc. destruct (complete f undef fuel p (c_var c) (preds f (c_bb c)) 0 s) as [s1|] eqn:Ec; [|discriminate].
  destruct (complete_ok fuel sl p (c_var c) Pl (preds f (c_bb c)) [] s s1 R c eq_refl I Hc eq_refl Len) as (R1 & c1 & I1 & K1 & H1 & L1 & Z1); [simpl; intros; lia|exact Ec|].
  set (cd := mkcand (c_var c1) (c_bb c1) (c_args c1) (c_copy c1) true (c_users c1)). set (sm := mark_done s1 p).
  assert (Hm : cands sm p = Some cd) by (unfold sm, mark_done, edit; rewrite H1; simpl; apply upd_eq).
  assert (Em : next sm = next s1 /\ repl sm = repl s1 /\ queue sm = queue s1 /\ gen sm = gen s1) by (unfold sm, mark_done, edit; rewrite H1; auto). destruct Em as (Em & Emr & Emq & Emg).
  assert (Im : Inv sl None true (next s1) [p] sm R1).
  { destruct (i_open _ _ _ _ _ _ _ _ _ _ I1 p (or_introl eq_refl)) as (Nq & Ng & c0 & Hc0 & Z0). assert (c0 = c1) by congruence. subst c0.
    unfold sm, mark_done, edit. rewrite H1. eapply inv_edit; eauto; simpl; try tauto.
    - split; reflexivity.
    - intros. eapply (i_arg _ _ _ _ _ _ _ _ _ _ I1); eauto.
    - intros. eapply (i_avar _ _ _ _ _ _ _ _ _ _ I1); eauto. }
  destruct (try_remove f p sm) as [[x s2]|] eqn:Et; [|discriminate]. intros H NS.
  assert (Bm : below sm) by (intros y d Hd; apply (i_next _ _ _ _ _ _ _ _ _ _ Im) in Hd; lia).
  pose proof (grow_try_remove _ _ _ _ _ Bm Et) as Gt.
  assert (Case : only_value p 0 (c_args cd) = None \/ exists c2, cands s2 p = Some c2 /\ c_copy c2 <> 0 /\ c_done c2 = true /\ c_var c2 = c_var cd /\ incl (c_users cd) (c_users c2)).
  { unfold try_remove in Et. rewrite Hm in Et. destruct (only_value p 0 (c_args cd)) as [y|] eqn:Ov; [right|left; reflexivity]. destruct y as [|y]; [discriminate|]. injection Et as <- <-.
    unfold edit. rewrite Hm. set (ce := mkcand _ _ _ _ _ _). set (se := set_cands sm (upd (cands sm) p (Some ce))).
    assert (Be : below se). { intros z d. unfold se. simpl. destruct (N.eq_dec z p) as [->|Ne]; [intros _; apply (Bm p cd Hm)|rewrite upd_ne by exact Ne; apply Bm]. }
    assert (He : cands se p = Some ce) by (unfold se; simpl; apply upd_eq).
    destruct (g_cand _ _ (grow_replace_all f p (c_var cd) (N.pos y) (c_users cd) se Be) p ce He) as (c2 & H2 & [Kv _] & U & D & Z). exists c2. split; [exact H2|].
    split; [apply Z; simpl; discriminate|]. split; [apply D; reflexivity|]. split; [exact Kv|exact U]. }
  destruct Case as [Ov|(c2 & H2 & Z2 & D2 & V2 & U2)].
  - unfold try_remove in Et. rewrite Hm, Ov in Et. injection Et as <- <-. rewrite N.eqb_refl in H. injection H as <-. exists R1. split.
    + simpl. rewrite Em. eapply inv_generate; eauto; [apply place_one, Pl|apply place_sealed, Pl|apply place_order, Pl].
    + simpl. rewrite Emr. exact K1.
  - assert (NS2 : no_stale s2) by (destruct (x =? p); injection H as <-; exact NS).
    assert (Hh : holds f sm R1 p (c_var cd) (c_users cd)).
    { intros u Hu Lu. destruct (i_user _ _ _ _ _ _ _ _ _ _ Im p cd u Hm Hu Lu) as [A [B|[_ B]]]; [auto|]. exfalso. apply (NS2 p c2 u H2 D2 Z2 (U2 u Hu) Lu). rewrite V2. exact B. }
    destruct (try_remove_ok f undef first WF FR sl (part sl None) true (next s1) (place_one _ _ Pl) (place_sealed _ _ Pl) (place_order _ _ Pl) [] sm R1 p cd x s2 Im (fun F => F) Hm L1 Z1 Hh Et)
      as [[-> ->]|(Nx & Nx0 & R' & I' & Co & X & _)].
    + exfalso. rewrite Hm in H2. injection H2 as <-. simpl in Z2. destruct (i_open _ _ _ _ _ _ _ _ _ _ I1 p (or_introl eq_refl)) as (_ & _ & c0 & Hc0 & Z0). congruence.
    + apply N.eqb_neq in Nx. rewrite Nx in H. injection H as <-. exists R'. split.
      * eapply inv_base; [|exact I']. pose proof (x_next _ _ _ X). lia.
      * intros r Hr. apply X. rewrite Emr. apply K1, Hr.
Qed.
Lemma finalize_all_ok fuel sl : place sl None -> forall n s s' R, Inv sl None true (next s) [] s R -> finalize_all f undef fuel n s = Some s' -> no_stale s' ->
  exists R', Inv sl None true (next s') [] s' R' /\ queue s' = [] /\ (forall r, repl s r <> None -> repl s' r <> None).
Proof using All.
  intros Pl. induction n as [|n IH]; intros s s' R I H NS; [discriminate|]. simpl in H. destruct (queue s) as [|p q] eqn:Eq; [injection H as <-; exists R; auto|].
  set (s0 := mkstate _ _ _ _ _ _ _) in H. destruct (finalize f undef fuel p s0) as [s1|] eqn:Ef; [|discriminate].
  destruct (i_queue _ _ _ _ _ _ _ _ _ _ I) as [Nq Hq]. rewrite Eq in Nq, Hq. inversion Nq as [|? ? Np Nq']; subst. destruct (Hq p (or_introl eq_refl)) as (Ng & c & Hc & Z & Len).
  assert (I0 : Inv sl None true (next s0) [p] s0 R).
  { constructor; simpl; try apply I.
    - intros y [<-|[]]. split; [exact Np|]. split; [exact Ng|]. exists c. auto.
    - split; [exact Nq'|]. intros y Hy. apply Hq. right. exact Hy.
    - intros y d Hd. destruct (i_all _ _ _ _ _ _ _ _ _ _ I y d Hd) as [[]|[A|[A|A]]]; auto. rewrite Eq in A. destruct A as [<-|A]; auto. }
  assert (B0 : below s0) by (intros y d Hd; apply (i_next _ _ _ _ _ _ _ _ _ _ I0) in Hd; lia).
  pose proof (grow_finalize _ _ _ _ _ _ B0 Ef) as G0. pose proof (grow_finalize_all _ _ _ _ _ _ (g_below _ _ G0) H) as G1.
  destruct (finalize_ok fuel sl p s0 s1 R Pl I0) as (R1 & I1 & K1); [exists c; auto|exact Ef|eapply no_stale_grow; eauto|].
  destruct (IH s1 s' R1 I1 H NS) as (R' & I' & Q' & K'). exists R'. split; [exact I'|]. split; [exact Q'|]. intros r Hr. apply K', K1. exact Hr.
Qed.
Lemma tables_ok fuel o s : ordered o -> tables f undef fuel o first = Some s -> no_stale s ->
  exists R, Inv (rev o) None true (next s) [] s R /\ queue s = [] /\ loads_done s (rev o).
Proof using All.
  intros O. unfold tables. destruct (visit_blocks f undef fuel o (start first)) as [s1|] eqn:Ev; [|discriminate]. intros H NS.
  destruct (visit_blocks_ok fuel o O o [] (start first) s1 (fun x => x) eq_refl) as ((R1 & I1) & L1 & P1); auto.
  { split; try discriminate; [intros q []|intros l p []]. }
  { intros l b r v []. }
  { apply start_ok. }
  destruct (finalize_all_ok fuel (rev o) P1 fuel s1 s R1 (inv_fin _ _ _ _ _ _ I1) H NS) as (R & I & Q & K). exists R. split; [exact I|]. split; [exact Q|].
  intros l b r v Hl Fb Hr. apply K. eapply L1; eauto.
Qed.
Lemma tables_loads fuel o s : ordered o -> tables f undef fuel o first = Some s -> loads_done s (rev o).
Proof using All.
  intros O. unfold tables. destruct (visit_blocks f undef fuel o (start first)) as [s1|] eqn:Ev; [|discriminate]. intros H.
  destruct (visit_blocks_ok fuel o O o [] (start first) s1 (fun x => x) eq_refl) as ((R1 & I1) & L1 & P1); auto.
  { split; try discriminate; [intros q []|intros l p []]. }
  { intros l b r v []. }
  { apply start_ok. }
  assert (B1 : below s1) by (intros y d Hd; apply (i_next _ _ _ _ _ _ _ _ _ _ I1) in Hd; lia).
  intros l b r v Hl Fb Hr. apply (g_repl _ _ (grow_finalize_all _ _ _ _ _ _ B1 H)). eapply L1; eauto.
Qed.
Definition keys_loads (s : state) : Prop := below s /\ forall r, repl s r <> None -> In r (loads f).
Lemma visit_insts_keys fuel b : In b f -> forall l, incl l (body b) -> forall s s', keys_loads s -> visit_insts f undef fuel (label b) l s = Some s' -> keys_loads s'.
Proof.
  intros Hb. induction l as [|i l IH]; intros Il s s' [B K] H; simpl in H; [injection H as <-; split; assumption|].
  destruct (visit_inst f undef fuel (label b) i s) as [s1|] eqn:Ei; [|discriminate]. apply (IH (fun x Hx => Il x (or_intror Hx)) s1 s'); [|exact H].
  destruct i as [r v|v x|r op args]; simpl in Ei.
  - destruct (reaching f undef fuel v (label b) s) as [[x s2]|] eqn:Er; [|discriminate]. injection Ei as <-. pose proof (grow_reaching _ _ _ _ _ _ _ _ B Er) as G.
    set (s3 := set_repl s2 (upd (repl s2) r (Some x))). assert (B3 : below s3) by (intros p c Hp; exact (g_below _ _ G p c Hp)). pose proof (grow_add_user s3 x r B3) as G3. split; [apply G3|].
    intros r' Hr. apply (g_repl _ _ G3) in Hr. simpl in Hr. unfold upd in Hr. destruct (N.eqb_spec r' r) as [E|_]; [rewrite E; clear E|apply K, (g_repl _ _ G), Hr].
    unfold loads. apply in_flat_map. exists b. split; [exact Hb|]. apply in_flat_map. exists (ILoad r v). split; [apply Il; left; reflexivity|left; reflexivity].
  - injection Ei as <-. pose proof (grow_write s v (label b) x B) as G. split; [apply G|]. intros r' Hr. apply K, (g_repl _ _ G), Hr.
  - injection Ei as <-. split; assumption.
Qed.
Lemma visit_blocks_keys fuel : forall o s s', keys_loads s -> visit_blocks f undef fuel o s = Some s' -> keys_loads s'.
Proof.
  induction o as [|l o IH]; intros s s' K H; simpl in H; [injection H as <-; exact K|]. destruct (find_block f l) as [b|] eqn:F; [|discriminate]. apply find_block_in in F. destruct F as [Hb <-].
  destruct (visit_insts f undef fuel (label b) (body b) s) as [s1|] eqn:E; [|discriminate]. apply (IH (seal (label b) s1) s'); [|exact H]. exact (visit_insts_keys fuel b Hb (body b) (fun x Hx => Hx) s s1 K E).
Qed.
Lemma tables_keys fuel o s : tables f undef fuel o first = Some s -> keys_loads s.
Proof.
  unfold tables. destruct (visit_blocks f undef fuel o (start first)) as [s1|] eqn:Ev; [|discriminate]. intros H.
  assert (K1 : keys_loads s1). { eapply visit_blocks_keys; [|exact Ev]. split; [intros p c Hp; discriminate|intros r Hr; destruct (Hr eq_refl)]. }
  pose proof (grow_finalize_all _ _ _ _ _ _ (proj1 K1) H) as G. split; [apply G|]. intros r Hr. apply K1, (g_repl _ _ G), Hr.
Qed.
End Visit.
