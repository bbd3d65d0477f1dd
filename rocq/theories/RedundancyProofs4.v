(** Proofs about the removal of redundant instructions: the new function does what the old one does. *)
From Verif Require Import Base GraphSpec Redundancy RedundancySpec RedundancyProofs RedundancyProofs2 RedundancyProofs3.
Local Open Scope N_scope.

Section Sim.
Context {D W : Type} (m : machine D W).
Variables (f : func) (comm : N -> bool) (t : table) (tr : N -> tree) (s : progress) (ls : list N).
Hypothesis WF : well_formed f.
Hypothesis HC : commutes m comm.
Hypothesis HS : sound f comm t tr.
Hypothesis HI : inv f t (visited f ls) s.

Lemma gone_keep y : ~ In y (gone s) -> ren s y = y.
Proof using HI. apply (d_keep f t s (i_done _ _ _ _ HI)). Qed.
Lemma gone_same y : num t y <> 0 /\ num t (ren s y) = num t y \/ ren s y = y.
Proof using HI. destruct (in_dec N.eq_dec y (gone s)) as [G|G]; [left|right; apply gone_keep, G]. destruct (d_gone f t s (i_done _ _ _ _ HI) y G) as (A & B & _). auto. Qed.
Lemma ren_not_gone y : ~ In (ren s y) (gone s).
Proof using HI.
  destruct (in_dec N.eq_dec y (gone s)) as [G|G]; [|rewrite gone_keep; auto]. destruct (d_gone f t s (i_done _ _ _ _ HI) y G) as (_ & _ & C & _). exact C.
Qed.
Lemma ren_idem y : ren s (ren s y) = ren s y.
Proof using HI. apply gone_keep, ren_not_gone. Qed.
Lemma ren_avail c k y : reach f c -> available f c k y -> available f c k (ren s y).
Proof using WF HI.
  intros R Av. destruct (in_dec N.eq_dec y (gone s)) as [G|G]; [|rewrite gone_keep; auto].
  destruct (d_gone f t s (i_done _ _ _ _ HI) y G) as (_ & _ & _ & Sf). destruct (i_gone _ _ _ _ HI y G) as (b & Hb & _ & Hy). destruct (results_place f b y Hb Hy) as (k0 & D0 & _).
  pose proof (avail_place f c k y b k0 WF Av D0) as L. apply (later_avail f b (S k0) c k _ R L). apply Sf; [exact D0|]. eapply later_reach; eauto.
Qed.

Definition rel (o u : config D W) (c : block) (k : nat) : Prop := world u = world o /\ forall y, available f c k y -> env u (ren s y) = env o y.
Lemma values_rel o u c k l : rel o u c k -> (forall a, In a l -> available f c k a) -> values (env u) (map (ren s) l) = values (env o) l.
Proof.
  intros [_ H]. induction l as [|a l IH]; intros Hl; simpl; [reflexivity|]. rewrite (H a (Hl a (or_introl eq_refl))), IH; [reflexivity|]. intros b Hb. apply Hl. right. exact Hb.
Qed.
Lemma ren_value e V c k y : good m f comm e V c k -> reach f c -> available f c k y -> e (ren s y) = e y.
Proof using WF HI HS.
  intros G R Av. destruct (gone_same y) as [[Ny E]|E]; [|rewrite E; reflexivity].
  destruct (s_num _ _ _ _ HS y Ny) as [_ My]. assert (Nr : num t (ren s y) <> 0) by congruence. destruct (s_num _ _ _ _ HS (ren s y) Nr) as [_ Mr].
  rewrite <- (G y _ My Av), <- (G (ren s y) _ Mr (ren_avail c k y R Av)), E. reflexivity.
Qed.
(** an instruction that is gone has a value that is there already *)
Lemma gone_step c k i r o o' u V : In c (blocks f) -> reach f c -> nth_error (body c) k = Some i -> result i = Some r -> In r (gone s) -> step m i o = Some o' ->
  good m f comm (env o) V c (S k) -> rel o u c (S k) -> rel o' u c (S (S k)).
Proof using WF HC HS HI.
  intros Hc R Hi Ri Gr Hs G [Ew Ey]. assert (Dr : defined_at f r c (S k)) by (split; [exact Hc|eauto]).
  pose proof (good_step m f comm WF HC c k i o o' V Hc R Hi Hs G) as G'.
  assert (Nr : ren s r <> r) by (intros E; apply (ren_not_gone r); rewrite E; exact Gr).
  assert (A2 : available f c (S (S k)) (ren s r)) by (apply ren_avail; [exact R|eapply avail_def; eauto]).
  assert (A1 : available f c (S k) (ren s r)).
  { destruct (avail_step f c (S k) _ A2) as [A|Dx]; [exact A|]. exfalso. apply Nr. destruct Dx as [_ (i' & Hi' & Ri')]. rewrite Hi in Hi'. injection Hi' as <-. congruence. }
  split.
  - rewrite Ew. destruct i as [r' op args|r' a|r' op args]; simpl in Hs.
    + destruct (values (env o) args) as [ds|]; [|discriminate]. destruct (pure m op ds); [|discriminate]. injection Hs as <-. reflexivity.
    + destruct (env o a); [|discriminate]. injection Hs as <-. reflexivity.
    + exfalso. simpl in Ri. subst r'. assert (Ow : is_own f r) by (exists op, args; right; eauto).
      destruct (d_gone f t s (i_done _ _ _ _ HI) r Gr) as (Nn & En & _). assert (Nn' : num t (ren s r) <> 0) by congruence.
      destruct (s_num _ _ _ _ HS (ren s r) Nn') as [_ Mr]. rewrite En, (s_own _ _ _ _ HS r Ow Nn) in Mr.
      pose proof (means_ready f comm (ren s r) (LId r) WF Mr c (S k) Hc R A1) as Rd. exact (avail_ne f c (S k) r r WF Dr Rd eq_refl).
  - intros y Ay. destruct (N.eq_dec y r) as [->|Ne].
    + rewrite <- (ren_value (env o') V c (S (S k)) r G' R Ay). rewrite (step_other m i o o' (ren s r) Hs) by congruence.
      rewrite <- (ren_idem r) at 1. apply Ey, A1.
    + assert (Ay1 : available f c (S k) y).
      { destruct (avail_step f c (S k) y Ay) as [A|Dx]; [exact A|]. exfalso. apply Ne. destruct Dx as [_ (i' & Hi' & Ri')]. rewrite Hi in Hi'. injection Hi' as <-. congruence. }
      rewrite (step_other m i o o' y Hs) by congruence. apply Ey, Ay1.
Qed.
Lemma result_rename i : result (rename (ren s) i) = result i.
Proof. destruct i; reflexivity. Qed.
Lemma kept_step c k i o o' u : In c (blocks f) -> reach f c -> nth_error (body c) k = Some i -> (forall r, result i = Some r -> ~ In r (gone s)) -> step m i o = Some o' ->
  rel o u c (S k) -> exists u', step m (rename (ren s) i) u = Some u' /\ rel o' u' c (S (S k)).
Proof using WF HI.
  intros Hc R Hi Kr Hs Rl. pose proof Rl as [Ew Ey].
  assert (Va : values (env u) (map (ren s) (reads i)) = values (env o) (reads i)) by (eapply values_rel; eauto; intros a Ha; eapply (wf_uses f WF); eauto).
  assert (Q : exists u', step m (rename (ren s) i) u = Some u' /\ world u' = world o' /\ forall r, result i = Some r -> env u' r = env o' r).
  { destruct i as [r op args|r a|r op args]; simpl in *.
    - rewrite Va. destruct (values (env o) args) as [ds|]; [|discriminate]. destruct (pure m op ds) as [d|]; [|discriminate]. injection Hs as <-. eexists. split; [reflexivity|].
      simpl. split; [exact Ew|]. intros r0 E. injection E as <-. rewrite !upd_same. reflexivity.
    - destruct (env u (ren s a)) as [d'|], (env o a) as [d|]; try discriminate. injection Va as ->. injection Hs as <-. eexists. split; [reflexivity|].
      simpl. split; [exact Ew|]. intros r0 E. injection E as <-. rewrite !upd_same. reflexivity.
    - rewrite Va. destruct (values (env o) args) as [ds|]; [|discriminate]. rewrite Ew. destruct (own m op ds (world o)) as [[d w]|]; [|discriminate]. injection Hs as <-. eexists. split; [reflexivity|].
      simpl. split; [reflexivity|]. intros r0 ->. rewrite !upd_same. reflexivity. }
  destruct Q as (u' & Hu & Ew' & Er). exists u'. split; [exact Hu|]. split; [exact Ew'|]. intros y Ay. destruct (avail_step f c (S k) y Ay) as [A|Dx].
  - pose proof (ren_avail c (S k) y R A) as Ar. rewrite (step_other m _ u u' (ren s y) Hu), (step_other m i o o' y Hs); [apply Ey, A| |].
    + intros E. assert (Dy : defined_at f y c (S k)) by (split; [exact Hc|eauto]). exact (avail_ne f c (S k) y y WF Dy A eq_refl).
    + rewrite result_rename. intros E. assert (Dy : defined_at f (ren s y) c (S k)) by (split; [exact Hc|eauto]). exact (avail_ne f c (S k) _ _ WF Dy Ar eq_refl).
  - destruct Dx as [_ (i' & Hi' & Ri')]. rewrite Hi in Hi'. injection Hi' as <-. rewrite gone_keep by (apply Kr, Ri'). apply Er, Ri'.
Qed.
Lemma gone_in r : is_gone s r = true <-> In r (gone s).
Proof. unfold is_gone. rewrite existsb_exists. split; [intros (x & Hx & E); apply N.eqb_eq in E; subst x; exact Hx|intros H; exists r; split; [exact H|apply N.eqb_refl]]. Qed.
Lemma not_gone r : is_gone s r = false <-> ~ In r (gone s).
Proof. rewrite <- gone_in. destruct (is_gone s r); split; congruence. Qed.
Lemma steps_sim c V : In c (blocks f) -> reach f c -> forall l2 l1 o u o', body c = l1 ++ l2 -> steps m l2 o = Some o' -> good m f comm (env o) V c (S (length l1)) -> rel o u c (S (length l1)) ->
  exists u', steps m (map (rename (ren s)) (filter (fun i => match result i with Some r => negb (is_gone s r) | None => true end) l2)) u = Some u' /\
    good m f comm (env o') V c (S (length (body c))) /\ rel o' u' c (S (length (body c))).
Proof using WF HC HS HI.
  intros Hc R. induction l2 as [|i l2 IH]; intros l1 o u o' E H G Rl.
  - simpl in H. injection H as <-. exists u. rewrite app_nil_r in E. rewrite E. auto.
  - cbn [steps] in H. destruct (step m i o) as [o1|] eqn:Hs; [|discriminate].
    assert (Hi : nth_error (body c) (length l1) = Some i) by (rewrite E, nth_error_app2, Nat.sub_diag; [reflexivity|lia]).
    assert (E1 : body c = (l1 ++ [i]) ++ l2) by (rewrite <- app_assoc; exact E).
    assert (L1 : length (l1 ++ [i]) = S (length l1)) by (rewrite app_length; simpl; lia).
    pose proof (good_step m f comm WF HC c (length l1) i o o1 V Hc R Hi Hs G) as G1. specialize (IH (l1 ++ [i])). rewrite L1 in IH.
    cbn [filter]. destruct (match result i with Some r => negb (is_gone s r) | None => true end) eqn:K.
    + destruct (kept_step c (length l1) i o o1 u Hc R Hi) as (u1 & Hu & R1); auto.
      { intros r Ri. rewrite Ri in K. apply negb_true_iff, not_gone in K. exact K. }
      cbn [map steps]. rewrite Hu. apply (IH o1 u1 o' E1 H G1 R1).
    + destruct (result i) as [r|] eqn:Ri; [|discriminate]. apply negb_false_iff, gone_in in K.
      apply (IH o1 u o' E1 H G1). eapply gone_step; eauto.
Qed.
Lemma find_ren from (l : list (N * N)) : find (fun a => snd a =? from) (map (fun a => (ren s (fst a), snd a)) l) =
  match find (fun a => snd a =? from) l with Some (a, k) => Some (ren s a, k) | None => None end.
Proof. induction l as [|[a k] l IH]; simpl; [reflexivity|]. destruct (k =? from); [reflexivity|exact IH]. Qed.
Lemma phis_run from (u0 : config D W) : forall ps u, (forall p, In p ps -> exists a l, find (fun a => snd a =? from) (p_args p) = Some (a, l) /\ env u0 a <> None) ->
  exists u', phis_from from ps u0 u = Some u'.
Proof.
  induction ps as [|p ps IH]; intros u H; simpl; [eauto|]. destruct (H p (or_introl eq_refl)) as (a & l & -> & Na). destruct (env u0 a); [|congruence]. apply IH.
  intros q Hq. apply H. right. exact Hq.
Qed.
Lemma edge_sim c c' o u o' V : In c (blocks f) -> reach f c -> In c' (blocks f) -> In (label c') (t_succ c) ->
  phis_from (label c) (phis c') o o = Some o' -> good m f comm (env o) V c (S (length (body c))) -> rel o u c (S (length (body c))) ->
  exists u', phis_from (label c) (phis (finish s c')) u u = Some u' /\ good m f comm (env o') (next_V m (env o) V (label c) c') c' 1 /\ rel o' u' c' 1.
Proof using WF HC HS HI.
  intros Hc R Hc' Hs Hp G [Ew Ey]. pose proof (reach_edge f c c' WF Hc R Hs) as R'.
  pose proof (good_edge m f comm WF HC c c' o o' V Hc R Hc' Hs Hp G) as G'. pose proof (wf_phi_once f WF c' Hc') as Np.
  pose proof (phis_values _ _ _ _ _ Np Hp) as Pv. destruct (phis_other _ _ _ _ _ Hp) as [Pw Po].
  assert (Arg : forall p, In p (phis c') -> exists a l, find (fun a => snd a =? label c) (p_args p) = Some (a, l) /\ env o' (p_res p) = env o a /\ env u (ren s a) = env o a /\ env o a <> None).
  { intros p Hin. destruct (Pv p Hin) as (a & l & F & Er & Na). exists a, l. split; [exact F|]. split; [exact Er|]. split; [|exact Na]. apply Ey.
    pose proof (find_some _ _ F) as [Fi Fl]. simpl in Fl. apply N.eqb_eq in Fl. subst l. eapply (wf_phis f WF c' p); eauto. }
  set (ps := phis (finish s c')).
  assert (Inp : forall q, In q ps <-> exists p, In p (phis c') /\ ~ In (p_res p) (gone s) /\ q = mkphi (p_res p) (map (fun a => (ren s (fst a), snd a)) (p_args p))).
  { intros q. unfold ps, finish. simpl. rewrite in_map_iff. split.
    - intros (p & <- & Hin). apply filter_In in Hin. destruct Hin as [Hin K]. apply negb_true_iff, not_gone in K. eauto.
    - intros (p & Hin & K & ->). exists p. split; [reflexivity|]. apply filter_In. split; [exact Hin|]. apply negb_true_iff, not_gone, K. }
  destruct (phis_run (label c) u ps u) as [u' Hu].
  { intros q Hq. apply Inp in Hq. destruct Hq as (p & Hin & _ & ->). destruct (Arg p Hin) as (a & l & F & _ & Eu & Na). simpl. rewrite find_ren, F. exists (ren s a), l. split; [reflexivity|congruence]. }
  exists u'. split; [exact Hu|]. split; [exact G'|].
  assert (Nq : NoDup (map p_res ps)).
  { unfold ps, finish. simpl. rewrite map_map. simpl. clear - Np. induction (phis c') as [|p l IH]; simpl; [constructor|]. simpl in Np. inversion Np as [|? ? N1 N2]; subst.
    destruct (negb (is_gone s (p_res p))); [|apply IH, N2]. simpl. constructor; [|apply IH, N2]. intros Hin. apply N1. apply in_map_iff in Hin. destruct Hin as (q & <- & Hq). apply filter_In in Hq.
    apply in_map. tauto. }
  destruct (phis_other _ _ _ _ _ Hu) as [Uw Uo]. pose proof (phis_values _ _ _ _ _ Nq Hu) as Uv.
  (* ids that stay *)
  assert (Stay : forall y, ~ In y (gone s) -> available f c' 1 y -> env u' y = env o' y).
  { intros y Ny Ay. destruct (avail_step f c' 0 y Ay) as [A|Dx].
    - assert (No : ~ In y (map p_res (phis c'))).
      { intros Hin. apply in_map_iff in Hin. destruct Hin as (p & Ep & Hin). assert (Dy : defined_at f y c' 0) by (split; [exact Hc'|eauto]). exact (avail_ne f c' 0 y y WF Dy A eq_refl). }
      rewrite (Po y No), (Uo y).
      + rewrite <- (gone_keep y Ny) at 1. apply Ey. eapply avail_edge; eauto.
      + intros Hin. apply No. apply in_map_iff in Hin. destruct Hin as (q & <- & Hq). apply Inp in Hq. destruct Hq as (p & Hin & _ & ->). simpl. apply in_map. exact Hin.
    - destruct Dx as [_ (p & Hin & Ep)]. destruct (Arg p Hin) as (a & l & F & Er & Eu & Na).
      destruct (Uv (mkphi (p_res p) (map (fun a => (ren s (fst a), snd a)) (p_args p)))) as (a' & l' & F' & Er' & _).
      { apply Inp. exists p. split; [exact Hin|]. rewrite Ep. auto. }
      simpl in F', Er'. rewrite find_ren, F in F'. injection F' as <- <-. rewrite Ep in *. congruence. }
  split; [congruence|]. intros y Ay. rewrite (Stay (ren s y) (ren_not_gone y) (ren_avail c' 1 y R' Ay)). eapply ren_value; eauto.
Qed.
Lemma find_finish l bs : find (fun b => label b =? l) (map (finish s) bs) = match find (fun b => label b =? l) bs with Some b => Some (finish s b) | None => None end.
Proof. induction bs as [|b bs IH]; simpl; [reflexivity|]. destruct (label b =? l); [reflexivity|exact IH]. Qed.
Lemma run_sim : forall n c o u V r, In c (blocks f) -> reach f c -> good m f comm (env o) V c 1 -> rel o u c 1 -> run_from m (blocks f) n (label c) o = Some r ->
  run_from m (map (finish s) (blocks f)) n (label c) u = Some r.
Proof using WF HC HS HI.
  induction n as [|n IH]; intros c o u V r Hc R G Rl H; cbn [run_from] in *.
  - destruct Rl as [Ew _]. rewrite Ew. exact H.
  - rewrite find_finish. rewrite (find_block f c WF Hc) in *. destruct (steps m (body c) o) as [o1|] eqn:Hs; [|discriminate].
    destruct (steps_sim c V Hc R (body c) [] o u o1 eq_refl Hs G Rl) as (u1 & Hu & G1 & R1).
    cbn [finish body t_args t_op t_succ]. rewrite Hu. rewrite (values_rel o1 u1 c _ (t_args c) R1) by (intros a Ha; eapply (wf_term f WF); eauto).
    destruct (values (env o1) (t_args c)) as [ds|]; [|discriminate]. destruct (choose m (t_op c) ds) as [k|]; [|destruct R1 as [Ew _]; rewrite Ew; exact H].
    destruct (nth_error (t_succ c) k) as [l'|] eqn:Hn; [|discriminate]. rewrite find_finish. destruct (find (fun b => label b =? l') (blocks f)) as [c'|] eqn:F; [|discriminate].
    apply find_block_inv in F. destruct F as [Hc' El]. subst l'. destruct (phis_from (label c) (phis c') o1 o1) as [o2|] eqn:Hp; [|discriminate].
    destruct (edge_sim c c' o1 u1 o2 V Hc R Hc' (nth_error_In _ _ Hn) Hp G1 R1) as (u2 & Hu2 & G2 & R2). rewrite Hu2.
    exact (IH c' o2 u2 _ r Hc' (reach_edge f c c' WF Hc R (nth_error_In _ _ Hn)) G2 R2 H).
Qed.
Lemma run_preserved n globals w0 r : run m f n globals w0 = Some r -> run m (mkfunc (prelude f) (map (finish s) (blocks f))) n globals w0 = Some r.
Proof using WF HC HS HI.
  unfold run. cbn [blocks prelude]. destruct (blocks f) as [|b bs] eqn:Eb; [discriminate|]. cbn [map]. destruct (steps m (prelude f) (mkconfig globals w0)) as [c|] eqn:Hp; [|discriminate].
  intros H. cbn [finish label]. change (finish s b :: map (finish s) bs) with (map (finish s) (b :: bs)). rewrite <- Eb in *.
  assert (Hb : In b (blocks f)) by (rewrite Eb; left; reflexivity). assert (El : label b = entry f) by (unfold entry; rewrite Eb; reflexivity).
  pose proof (good_start m f comm WF HC globals w0 c (fun _ => None) b Hp Hb El) as G.
  assert (Rb : reach f b) by (unfold reach; rewrite El; exists [entry f]; constructor).
  apply (run_sim n b c c (fun _ => None) r Hb Rb G); [|exact H]. split; [reflexivity|]. intros y Ay. eapply ren_value; eauto.
Qed.
End Sim.
