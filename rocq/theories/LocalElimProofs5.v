(** Proofs about the elimination of loads and stores: whole functions. *)
From Verif Require Import Base GraphSpec LocalElim LocalElimSpec LocalElimProofs LocalElimProofs2 LocalElimProofs3 LocalElimProofs4.
Local Open Scope N_scope.

Lemma finish_find K ren l bs : forall b0 c, find (fun x => label x =? l) bs = Some c ->
  exists b, nth_error bs b = Some c /\ find (fun x => label x =? l) (finish K ren b0 bs) = Some (finish_block K ren (b0 + b) c).
Proof.
  induction bs as [|x bs IH]; simpl; intros b0 c H; [discriminate|]. destruct (label x =? l).
  - injection H as <-. exists O. rewrite Nat.add_0_r. auto.
  - destruct (IH (S b0) c H) as (b & H1 & H2). exists (S b). rewrite Nat.add_succ_r. auto.
Qed.
Lemma find_arg (ren : N -> N) (from : N) (l : list (N * N)) : find (fun a => snd a =? from) (map (fun a : N * N => (ren (fst a), snd a)) l) =
  match find (fun a => snd a =? from) l with Some a => Some (ren (fst a), snd a) | None => None end.
Proof. induction l as [|a l IH]; simpl; [reflexivity|]. destruct (snd a =? from); [reflexivity|exact IH]. Qed.

Section Whole.
Variable f : func.
Hypothesis WF : well_formed f.
Context {D W : Type} (m : machine D W).
Hypothesis SM : sane m.
Hypothesis NV : no_volatile f.
Hypothesis PNS : pointers_not_stored f.
Variable sf : state.
Hypothesis Wk : visit_blocks f 0 (blocks f) start = Some sf.

Notation fin := (st_ren sf).
Notation K := (st_kill sf).
Notation cfg := (config D W).

Lemma final : inv_at f (length (blocks f)) sf.
Proof using WF Wk. eapply (inv_blocks f WF (blocks f) 0%nat [] start); eauto. apply inv_start. Qed.
Lemma Pf : renamed_passed f sf (length (blocks f)) 0.
Proof using WF Wk. apply final. Qed.
Lemma Bf : renamed_before f sf.
Proof using WF Wk. apply final. Qed.

Record same (A : N -> Prop) (o t : cfg) : Prop := {
  s_env : env_ok f m fin A (env o) (env t) (known o);
  s_known : forall v, known t v = known o v;
  s_world : world t = world o;
  s_unknown : forall v, good f v -> known o v = false;
  s_free : forall x, In x (vars f) -> v_target x = false -> known o (v_id x) = true;
  s_mem : forall v, mem t v = mem o v }.
Lemma same_view A o t : same A o t -> view (vars f) (known t) (mem t) = view (vars f) (known o) (mem o).
Proof using Type. intros S. unfold view. apply map_ext. intros v. rewrite (s_known _ _ _ S), (s_mem _ _ _ S). reflexivity. Qed.
Lemma enter c s o t : same (available f c 1) o t -> rel f m sf c 0 (forget s) o t.
Proof using Type.
  intros S. constructor; try apply S; simpl; try discriminate. intros v. left. symmetry. apply S.
Qed.

Lemma sim_body b c : nth_error (blocks f) b = Some c -> reach f c -> forall l i pre s s' o o' t,
  body c = pre ++ l -> length pre = i -> inv f b c i s -> visit_body f b i l s = Some s' ->
  coarser s' sf -> kill_grows s' sf -> (forall q, closed q s' -> fst q = b -> ~ In q K) ->
  rel f m sf c i s o t -> steps m (vars f) l o = Some o' ->
  exists t', steps m (vars f) (sweep K fin b i l) t = Some t' /\ rel f m sf c (length (body c)) s' o' t'.
Proof using WF SM NV PNS Wk.
  intros Hb R. induction l as [|x l IH]; simpl; intros i pre s s' o o' t E L Iv V Co Kg Cl Re St.
  - injection V as <-. injection St as <-. exists t. split; [reflexivity|]. rewrite E, app_nil_r, L. exact Re.
  - destruct (visit f (b, i) x s) as [s1|] eqn:V1; [|discriminate]. apply visit_did in V1.
    destruct (step m (vars f) x o) as [o1|] eqn:St1; [|discriminate].
    assert (Hx : nth_error (body c) i = Some x) by (rewrite E, nth_error_app2 by lia; replace (i - length pre)%nat with O by lia; reflexivity).
    destruct (body_coarser f b l _ _ _ V) as [Co1 Kg1].
    assert (Cl1 : forall q, closed q s1 -> fst q = b -> (snd q < S i)%nat -> ~ In q K).
    { intros q C Eq Lq. apply Cl; [|exact Eq]. eapply body_closed; eauto. }
    destruct (sim_one f WF m SM NV PNS sf Pf Bf b c i x s s1 o o1 t Hb Hx R Iv V1 (fun y z H => Co _ _ (Co1 _ _ H)) (fun q H => Kg _ (Kg1 _ H)) Cl1 Re St1) as [Ki Ke].
    assert (Iv1 : inv f b c (S i) s1) by (eapply inv_step; eauto).
    assert (E1 : body c = (pre ++ [x]) ++ l) by (rewrite <- app_assoc; exact E).
    assert (L1 : length (pre ++ [x]) = S i) by (rewrite app_length; simpl; lia).
    destruct (existsb (pos_eqb (b, i)) K) eqn:Ek.
    + apply pos_in in Ek. eapply IH; eauto.
    + apply pos_not_in in Ek. destruct (Ke Ek) as (t1 & Et & Re1). simpl. rewrite Et. eapply IH; eauto.
Qed.
Lemma sim_block b c o o' t : nth_error (blocks f) b = Some c -> reach f c -> same (available f c 1) o t -> steps m (vars f) (body c) o = Some o' ->
  exists t', steps m (vars f) (sweep K fin b 0 (body c)) t = Some t' /\ same (available f c (S (length (body c)))) o' t'.
Proof using WF SM NV PNS Wk.
  intros Hb R Sm St.
  destruct (walk_at_block f WF (blocks f) 0%nat [] start sf eq_refl eq_refl (inv_start f) Wk b c (Nat.le_0_l _) Hb) as (s & s' & rest & I0 & V & Vr).
  pose proof (inv_enter f b c s I0) as I1.
  pose proof (inv_body f WF b c Hb (body c) 0%nat [] (forget s) s' eq_refl eq_refl I1 V) as I2.
  destruct (blocks_coarser f rest _ _ _ Vr) as [Co Kg].
  assert (Cl : forall q, closed q s' -> fst q = b -> ~ In q K).
  { intros q C Eq. apply (blocks_closed f rest q _ _ _ Vr); [lia|exact C]. }
  destruct (sim_body b c Hb R (body c) 0%nat [] (forget s) s' o o' t eq_refl eq_refl I1 V Co Kg Cl (enter c s o t Sm) St) as (t' & Et & Re).
  exists t'. split; [exact Et|]. constructor; try apply Re. intros v. destruct (r_mem _ _ _ _ _ _ _ _ Re v) as [H|(q & a & H & Hq)]; [auto|exfalso].
  destruct (i_open _ _ _ _ _ I2 v q a H) as [Nk (j & -> & Lj)]. clear Cl. destruct rest as [|y rest]; simpl in Vr.
  - injection Vr as Ev. rewrite <- Ev in Hq. contradiction.
  - destruct (visit_body f (S b) 0 (body y) (forget s')) as [s2|] eqn:V2; [|discriminate].
    assert (C : closed (b, j) (forget s')) by (split; [exact Nk|right; simpl; discriminate]).
    assert (C2 : closed (b, j) s2) by (eapply body_closed; [exact V2|left; simpl; lia|exact C]).
    destruct (blocks_closed f rest (b, j) _ _ _ Vr ltac:(simpl; lia) C2) as [Nq _]. contradiction.
Qed.

Lemma phi_fixed c p : In c (blocks f) -> In p (phis c) -> fin (p_res p) = p_res p.
Proof using WF Wk.
  intros Hc Hp. destruct (N.eq_dec (fin (p_res p)) (p_res p)) as [|Ne]; [assumption|exfalso].
  destruct (Pf _ Ne) as (b' & c' & j & q & vol & Hb' & Hj & _).
  assert (D1 : defined_at f (p_res p) c 0) by (split; [exact Hc|exists p; auto]).
  assert (D2 : defined_at f (p_res p) c' (S j)) by (split; [eapply nth_error_In; eauto|exists (ILoad (p_res p) q vol); auto]).
  destruct (wf_once f WF _ _ _ _ _ D1 D2) as [_ E]. discriminate.
Qed.
Lemma phi_not_inst c p i : In c (blocks f) -> In p (phis c) -> In i (all_insts f) -> result i <> Some (p_res p).
Proof using WF.
  intros Hc Hp Hi E. destruct (inst_defined f i _ Hi E) as (c' & j & D2 & _).
  assert (D1 : defined_at f (p_res p) c 0) by (split; [exact Hc|exists p; auto]).
  destruct (wf_once f WF _ _ _ _ _ D1 D2) as [_ E2]. discriminate.
Qed.

Lemma sim_phis c c' (o0 t0 : cfg) : In c (blocks f) -> reach f c -> In c' (blocks f) -> In (label c') (t_succ c) ->
  same (available f c (S (length (body c)))) o0 t0 ->
  forall ps done o t o2, (forall p, In p ps -> In p (phis c')) -> (forall y, In y done -> exists p, In p (phis c') /\ p_res p = y) ->
  same (fun y => available f c' 0 y \/ In y done) o t ->
  phis_from m (label c) ps o0 o = Some o2 ->
  exists t2, phis_from m (label c) (map (fun p => mkphi (p_res p) (map (fun a => (fin (fst a), snd a)) (p_args p))) ps) t0 t = Some t2 /\
    same (fun y => available f c' 0 y \/ In y (map p_res ps ++ done)) o2 t2.
Proof using WF SM Wk.
  intros Hc R Hc' Edge S0. pose proof (reach_edge f c c' WF Hc R Edge) as R'.
  induction ps as [|p ps IH]; simpl; intros done o t o2 Hps Hdone Sm H.
  - injection H as <-. exists t. auto.
  - rewrite find_arg. destruct (find (fun a => snd a =? label c) (p_args p)) as [[a la]|] eqn:Fa; [|discriminate]. simpl.
    apply find_some in Fa. destruct Fa as [Ha El]. simpl in El. apply N.eqb_eq in El. subst la.
    destruct (env o0 a) as [d|] eqn:Ea; [|discriminate].
    assert (Hp : In p (phis c')) by (apply Hps; auto).
    assert (Av : available f c (S (length (body c))) a) by (eapply (wf_phis f WF); eauto).
    rewrite <- (e_sim _ _ _ _ _ _ _ (s_env _ _ _ S0) a Av), Ea.
    set (r := p_res p) in *.
    assert (Dr : defined_at f r c' 0) by (split; [exact Hc'|exists p; auto]).
    assert (Ug : forall v, good f v -> give m d (known o) v = false).
    { intros v G. destruct (give m d (known o) v) eqn:Ek; [|reflexivity]. exfalso. apply give_new in Ek. destruct Ek as [Ek|[q Ep]].
      - rewrite (s_unknown _ _ _ Sm v G) in Ek. discriminate.
      - assert (Dv : derived f v a) by (eapply (e_ptr _ _ _ _ _ _ _ (s_env _ _ _ S0)); eauto; apply (s_unknown _ _ _ S0), G).
        destruct (supported_derived f v a G Dv) as [n Sup]. exact (supported_no_phi n f a c' p _ Sup Hc' Hp Ha). }
    assert (Un : unneeded f fin (fun y => available f c' 0 y \/ In y done) r).
    { split; [|split; [|split]].
      - intros y [Ay|Hy] Ne E.
        + destruct Ay as [Nd|Ay]; [rewrite (unrenamed f sf _ _ y Pf Nd) in E; congruence|].
          pose proof Ay as (b1 & j1 & Dy & _). assert (Ay' : available f c' 0 y) by (right; exact Ay).
          destruct (Bf y b1 j1 Dy) as [E'|E']; [eapply avail_reach; eauto|congruence|]. rewrite E in E'. eapply (keep f c' 0 r y); eauto.
        + destruct (Hdone y Hy) as (p' & Hp' & <-). rewrite (phi_fixed c' p' Hc' Hp') in E. congruence.
      - intros y b idx [Ay|Hy] Ne Hi ->.
        + destruct (inst_defined f _ y Hi eq_refl) as (c1 & j1 & Dy & Hn). eapply (keep f c' 0 r y c1 (S j1)); eauto.
          eapply (wf_uses f WF); eauto; [apply Dy|eapply avail_reach; eauto|simpl; auto].
        + destruct (Hdone y Hy) as (p' & Hp' & <-). exact (phi_not_inst c' p' _ Hc' Hp' Hi eq_refl).
      - intros y b [Ay|Hy] Ne Hi ->.
        + destruct (inst_defined f _ y Hi eq_refl) as (c1 & j1 & Dy & Hn). eapply (keep f c' 0 r y c1 (S j1)); eauto.
          eapply (wf_uses f WF); eauto; [apply Dy|eapply avail_reach; eauto|simpl; auto].
        + destruct (Hdone y Hy) as (p' & Hp' & <-). exact (phi_not_inst c' p' _ Hc' Hp' Hi eq_refl).
      - intros v Hv E. rewrite <- E in Dr. exact (wf_var_ids f WF v c' 0%nat Hv Dr). }
    destruct (IH (r :: done) (mkconfig (upd (env o) r (Some d)) (mem o) (give m d (known o)) (world o))
                 (mkconfig (upd (env t) r (Some d)) (mem t) (give m d (known t)) (world t)) o2) as (t2 & Et & S2); auto.
    + intros y [<-|Hy]; [exists p; auto|apply Hdone, Hy].
    + constructor; simpl.
      * eapply env_sub; [eapply (env_update f m fin (fun y => available f c' 0 y \/ In y done)); [eapply env_known; [apply Sm|]|exact Un| | | |]|].
        -- intros v Hk. apply give_mono, Hk.
        -- left. split; [reflexivity|]. apply (phi_fixed c' p Hc' Hp).
        -- intros b idx Hi. destruct (phi_not_inst c' p _ Hc' Hp Hi eq_refl).
        -- intros a' Hi. destruct (phi_not_inst c' p _ Hc' Hp Hi eq_refl).
        -- intros v q Ep Ek. unfold give in Ek. rewrite Ep, upd_eq in Ek. discriminate.
        -- intros y [Hy|[<-|Hy]]; auto.
      * intros v. apply give_ext. apply Sm.
      * apply Sm.
      * exact Ug.
      * intros x Hx T. apply give_mono. apply (s_free _ _ _ Sm x Hx T).
      * apply Sm.
    + exists t2. split; [exact Et|]. destruct S2 as [A1 A2 A3 A4 A5 A6]. constructor; auto. eapply env_sub; [exact A1|].
      intros y [Hy|[<-|Hy]]; [left; exact Hy| |]; right; apply in_or_app; simpl; auto. apply in_app_or in Hy. destruct Hy; auto.
Qed.

Lemma sim_run : forall n c o t r, In c (blocks f) -> reach f c -> same (available f c 1) o t ->
  run_from m (vars f) (blocks f) n (label c) o = Some r -> run_from m (vars f) (finish K fin 0 (blocks f)) n (label c) t = Some r.
Proof using WF SM NV PNS Wk.
  induction n as [|n IH]; simpl; intros c o t r Hc R Sm H.
  - injection H as <-. rewrite (same_view _ _ _ Sm), (s_world _ _ _ Sm). reflexivity.
  - rewrite (find_block f c WF Hc) in H.
    destruct (finish_find K fin (label c) (blocks f) 0%nat c (find_block f c WF Hc)) as (b & Hb & Ff). simpl in Ff. rewrite Ff. simpl.
    destruct (steps m (vars f) (body c) o) as [o1|] eqn:St; [|discriminate].
    destruct (sim_block b c o o1 t Hb R Sm St) as (t1 & Et & S1). rewrite Et.
    rewrite (values_sim f m sf _ _ _ _ (t_args c) (s_env _ _ _ S1)) by (intros a Ha; apply (wf_term f WF); auto).
    destruct (values (env o1) (t_args c)) as [ds|]; [|discriminate]. destruct (choose m (t_op c) ds) as [k|].
    + destruct (nth_error (t_succ c) k) as [l'|] eqn:Ek; [|discriminate].
      destruct (find (fun b => label b =? l') (blocks f)) as [c'|] eqn:Fc; [|discriminate].
      destruct (finish_find K fin l' (blocks f) 0%nat c' Fc) as (b' & Hb' & Ff'). simpl in Ff'. rewrite Ff'. simpl.
      apply find_block_inv in Fc. destruct Fc as [Hc' <-].
      assert (Edge : In (label c') (t_succ c)) by (eapply nth_error_In; eauto).
      pose proof (reach_edge f c c' WF Hc R Edge) as R'.
      destruct (phis_from m (label c) (phis c') o1 o1) as [o2|] eqn:Ph; [|discriminate].
      destruct (sim_phis c c' o1 t1 Hc R Hc' Edge S1 (phis c') [] o1 t1 o2) as (t2 & Ph2 & S2); auto.
      * intros y [].
      * destruct S1 as [A1 A2 A3 A4 A5 A6]. constructor; auto. eapply env_sub; [exact A1|]. intros y [Hy|[]]. eapply avail_edge; eauto.
      * rewrite Ph2. apply (IH c' o2 t2 r Hc' R'); [|exact H].
        destruct S2 as [A1 A2 A3 A4 A5 A6]. constructor; auto. eapply env_sub; [exact A1|]. intros y Hy.
        destruct (avail_step f c' 0 y Hy) as [Hy'|[_ (p & Hp & <-)]]; [left; exact Hy'|right]. rewrite app_nil_r. apply in_map, Hp.
    + injection H as <-. rewrite (same_view _ _ _ S1), (s_world _ _ _ S1). reflexivity.
Qed.

Lemma whole n globals mem0 known0 w0 r : fair_start m f globals known0 ->
  run m f n globals mem0 known0 w0 = Some r -> run m (mkfunc (vars f) (finish K fin 0 (blocks f))) n globals mem0 known0 w0 = Some r.
Proof using WF SM NV PNS Wk.
  intros [Fk Fg]. unfold run. simpl. destruct (blocks f) as [|c bs] eqn:Eb in |- *; [discriminate|]. simpl.
  rewrite <- Eb. assert (Fs : finish_block K fin 0 c :: finish K fin 1 bs = finish K fin 0 (blocks f)) by (rewrite Eb; reflexivity). rewrite Fs. clear Fs.
  assert (Hc : In c (blocks f)) by (rewrite Eb; left; reflexivity).
  assert (En : entry f = label c) by (unfold entry; rewrite Eb; reflexivity).
  assert (R : reach f c) by (exists [label c]; rewrite <- En; constructor).
  assert (Ph : phis c = []) by (pose proof (wf_entry f WF) as H; rewrite Eb in H; exact H).
  assert (Und : forall y, available f c 1 y -> forall b k, ~ defined_at f y b k).
  { intros y [Nd|(b' & j & Dy & [[-> L]|[Ne Dm]])]; [exact Nd| |].
    - destruct j; [|lia]. destruct Dy as [_ (p & Hp & _)]. rewrite Ph in Hp. destruct Hp.
    - exfalso. assert (P : path (succs f) (entry f) (label c) [label c]) by (rewrite <- En; constructor). specialize (Dm _ P). destruct Dm as [E|[]]. congruence. }
  apply (sim_run n c); auto. constructor; simpl; auto.
  - constructor.
    + intros y Ay. rewrite (unrenamed f sf _ _ y Pf (Und y Ay)). reflexivity.
    + intros y b idx Ay Hi. destruct (inst_defined f _ y Hi eq_refl) as (c1 & j1 & Dy & _). destruct (Und y Ay _ _ Dy).
    + intros y a Ay Hi. destruct (inst_defined f _ y Hi eq_refl) as (c1 & j1 & Dy & _). destruct (Und y Ay _ _ Dy).
    + intros y d v q Ay Ed Ep Ek. destruct (existsb (fun v => v_id v =? y) (vars f)) eqn:Ev.
      * injection Ed as <-. rewrite (sane_ptr m SM) in Ep. injection Ep as <- _. apply existsb_exists in Ev. destruct Ev as (x & Hx & E). apply N.eqb_eq in E.
        eapply D_var; eauto.
      * rewrite (Fg y d v q Ed Ep) in Ek. discriminate.
    + intros x Hx. assert (Ev : existsb (fun v => v_id v =? v_id x) (vars f) = true) by (apply existsb_exists; exists x; split; [exact Hx|apply N.eqb_refl]).
      rewrite Ev. reflexivity.
  - intros v G. destruct (good_var f v G) as (x & Hx & <- & T). rewrite (Fk x Hx), T. reflexivity.
  - intros x Hx T. rewrite (Fk x Hx), T. reflexivity.
Qed.
End Whole.

Theorem elim_preserves {D W} (m : machine D W) f g n globals mem0 known0 w0 r :
  sane m -> well_formed f -> no_volatile f -> pointers_not_stored f -> fair_start m f globals known0 ->
  elim f = Some g -> run m f n globals mem0 known0 w0 = Some r -> run m g n globals mem0 known0 w0 = Some r.
Proof.
  intros SM WF NV PNS FS E. unfold elim in E. destruct (visit_blocks f 0 (blocks f) start) as [sf|] eqn:Wk; [|discriminate]. injection E as <-.
  apply (whole f WF m SM NV PNS sf Wk n globals mem0 known0 w0 r FS).
Qed.
