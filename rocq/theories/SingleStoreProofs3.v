(** Proofs about the elimination of loads of variables stored to once: the function before and after. *)
From Verif Require Import Base GraphSpec LocalElim LocalElimSpec LocalElimProofs LocalElimProofs2 LocalElimProofs3 LocalElimProofs4 LocalElimProofs5 SingleStore SingleStoreProofs
  SingleStoreProofs2.
Local Open Scope N_scope.

Section Sim.
Variable f : func.
Hypothesis WF : well_formed f.
Context {D W : Type} (m : machine D W).
Hypothesis SM : sane m.
Hypothesis NV : no_volatile f.
Hypothesis PNS : pointers_not_stored f.
Variable dom : N -> N -> bool.
Hypothesis DR : forall b c, In b (blocks f) -> In c (blocks f) -> reach f c -> dom (label b) (label c) = true -> dominates (succs f) (entry f) (label b) (label c).
Variable s : progress.
Hypothesis Fu : full f dom s.

Notation sf := (as_state s).
Notation fin := (st_ren (as_state s)).
Notation K := (gone s).
Notation cfg := (config D W).

Lemma Pp : renamed_passed f sf (length (blocks f)) 0.
Proof using All. eapply sound_passed; eauto. apply Fu. Qed.
Lemma Bp : renamed_before f sf.
Proof using All. apply Fu. Qed.

Record alike (A : N -> Prop) (B : block -> nat -> Prop) (o t : cfg) : Prop := {
  a_env : env_ok f m fin A (env o) (env t) (known o);
  a_known : forall v, known t v = known o v;
  a_world : world t = world o;
  a_unknown : forall v st a0, eligible f v st a0 -> known o v = false;
  a_mem : forall v, mem t v = mem o v;
  (** past the store, the variable holds what was stored *)
  a_val : forall v bs js a0 cs, eligible f v (bs, js) a0 -> nth_error (blocks f) bs = Some cs -> B cs (S js) -> env o a0 = Some (mem o v) }.
Lemma alike_view A B o t : alike A B o t -> view (vars f) (known t) (mem t) = view (vars f) (known o) (mem o).
Proof using Type. intros S. unfold view. apply map_ext. intros v. rewrite (a_known _ _ _ _ S), (a_mem _ _ _ _ S). reflexivity. Qed.

Lemma whole_value c k e te kn v p : In c (blocks f) -> reach f c -> env_ok f m fin (available f c k) e te kn -> whole f v p -> available f c k p -> e p = Some (of_ptr m v []).
Proof using All.
  intros Hc R E Wp. induction Wp as [x Hx Ex|r a Hi Wp IH]; intros Av.
  - subst v. apply (e_var _ _ _ _ _ _ _ E x Hx).
  - rewrite (e_copy _ _ _ _ _ _ _ E r a Av Hi). apply IH. destruct (inst_defined f _ r Hi eq_refl) as (c' & j & Df & Hn).
    eapply used_avail; eauto. simpl. auto.
Qed.

Section One.
Variables (b : nat) (c : block) (i : nat) (x : inst) (o o' t : cfg).
Hypothesis Hb : nth_error (blocks f) b = Some c.
Hypothesis Hx : nth_error (body c) i = Some x.
Hypothesis R : reach f c.
Hypothesis Al : alike (available f c (S i)) (fun cs j => before f cs j c (S i)) o t.
Hypothesis St : step m (vars f) x o = Some o'.
Definition outcome : Prop :=
  (In (b, i) K -> alike (available f c (S (S i))) (fun cs j => before f cs j c (S (S i))) o' t) /\
  (~ In (b, i) K -> exists t', step m (vars f) (rename fin x) t = Some t' /\ alike (available f c (S (S i))) (fun cs j => before f cs j c (S (S i))) o' t').

Lemma Hc : In c (blocks f).
Proof using All. eapply nth_error_In; eauto. Qed.
Lemma Hin : In x (all_insts f).
Proof using All. eapply place_inst; eauto using nth_error_In. Qed.
Lemma Hat : at_pos f (b, i) x.
Proof using All. apply in_placed. eauto. Qed.
Lemma use_avail a : In a (reads x) -> available f c (S i) a.
Proof using All. intros H. eapply (wf_uses f WF); eauto using nth_error_In. Qed.
Lemma sim_use a : In a (reads x) -> env t (fin a) = env o a.
Proof using All. intros H. symmetry. apply (e_sim _ _ _ _ _ _ _ (a_env _ _ _ _ Al)). apply use_avail, H. Qed.
Lemma gone_load : In (b, i) K -> exists r p vol, x = ILoad r p vol.
Proof using All. intros H. destruct (so_gone f s (fu_sound _ _ _ Fu) _ H) as (r & p & vol & Hq). exists r, p, vol. eapply at_pos_fun; [exact Hat|exact Hq]. Qed.
(** a pointer to a variable that is stored to once was made from it *)
Lemma ptr_derived v st a0 p d q : eligible f v st a0 -> In p (reads x) -> env o p = Some d -> as_ptr m d = Some (v, q) -> derived f v p.
Proof using All.
  intros El Hp Ed Ep. eapply (e_ptr _ _ _ _ _ _ _ (a_env _ _ _ _ Al)); eauto; [apply use_avail, Hp|]. eapply (a_unknown _ _ _ _ Al); eauto.
Qed.
Lemma stored_before v bs js a0 cs : eligible f v (bs, js) a0 -> nth_error (blocks f) bs = Some cs -> before f cs (S js) c (S i) -> available f c (S i) a0.
Proof using All.
  intros El Hcs B. destruct (el_store _ _ _ _ El) as (p & vol & Hs & _). apply in_placed in Hs. destruct Hs as (cs' & H1 & H2). assert (cs' = cs) by congruence. subst cs'.
  eapply before_avail; eauto using nth_error_In, Hc. eapply (wf_uses f WF); eauto using nth_error_In; [eapply before_reach; eauto|simpl; auto].
Qed.
Lemma is_store v bs js a0 cs : eligible f v (bs, js) a0 -> nth_error (blocks f) bs = Some cs -> before f cs (S js) c (S (S i)) ->
  before f cs (S js) c (S i) \/ (bs, js) = (b, i) /\ exists p vol, x = IStore p a0 vol /\ whole f v p.
Proof using All.
  intros El Hcs B. destruct (before_step _ _ _ _ _ B) as [H|[-> E]]; [left; exact H|]. injection E as ->. right.
  assert (bs = b) by (eapply same_index; eauto). subst bs. split; [reflexivity|]. destruct (el_store _ _ _ _ El) as (p & vol & Hs & Wp). exists p, vol.
  split; [|exact Wp]. eapply at_pos_fun; [exact Hat|exact Hs].
Qed.
(** an instruction with a result does not touch the values of stored ids *)
Lemma val_result r d mm : result x = Some r -> (forall v st a0, eligible f v st a0 -> mm v = mem o v) ->
  forall v bs js a0 cs, eligible f v (bs, js) a0 -> nth_error (blocks f) bs = Some cs -> before f cs (S js) c (S (S i)) -> upd (env o) r (Some d) a0 = Some (mm v).
Proof using All.
  intros Hr Hm v bs js a0 cs El Hcs B. destruct (is_store _ _ _ _ _ El Hcs B) as [H|(_ & p & vol & E & _)]; [|subst x; discriminate].
  rewrite upd_ne; [rewrite (Hm _ _ _ El); eapply (a_val _ _ _ _ Al); eauto|]. eapply avail_ne; [exact WF| |eapply stored_before; eauto]. split; [apply Hc|]. exists x. auto.
Qed.
Lemma define r d te' : result x = Some r ->
  te' = upd (env t) r (Some d) /\ fin r = r \/ te' = env t /\ env t (fin r) = Some d ->
  match x with
  | IChain _ b _ => exists db v q ds, env o b = Some db /\ as_ptr m db = Some (v, q) /\ d = of_ptr m v (q ++ ds)
  | ICopy _ a => env o a = Some d
  | _ => forall v q, as_ptr m d = Some (v, q) -> known o v = true
  end ->
  alike (available f c (S (S i))) (fun cs j => before f cs j c (S (S i))) (mkconfig (upd (env o) r (Some d)) (mem o) (known o) (world o)) (mkconfig te' (mem t) (known t) (world t)).
Proof using All.
  intros Hr T Sh. constructor; cbn [env mem known world]; try apply Al.
  - eapply (env_define f WF m SM sf Pp Bp c i x r); [exact Hc|exact R|exact Hx|exact Hr|apply Al|exact T|exact Sh].
  - apply val_result; auto.
Qed.
Lemma kept r : ~ In (b, i) K -> result x = Some r -> fin r = r.
Proof using All. intros NK Hr. eapply (kept_fixed f WF sf Pp b c i x r); eauto. Qed.

Lemma sim_load r p vol : x = ILoad r p vol -> outcome.
Proof using All.
  intros Ex. pose proof St as St'. rewrite Ex in St'. simpl in St'. assert (Rp : In p (reads x)) by (rewrite Ex; simpl; auto).
  destruct (env o p) as [dp|] eqn:Ep; [|discriminate]. destruct (as_ptr m dp) as [[v q]|] eqn:Ea; [|discriminate]. destruct (read m (mem o v) q) as [d|] eqn:Er; [|discriminate].
  destruct (honest m (known o) d) eqn:Hh; [|discriminate]. injection St' as Eo.
  assert (Ev : vol = false) by (pose proof (NV x Hin) as H; rewrite Ex in H; exact H). subst vol. simpl in Eo. unfold outcome. rewrite <- Eo.
  assert (Sh : match x with IChain _ b0 _ => exists db v0 q0 ds, env o b0 = Some db /\ as_ptr m db = Some (v0, q0) /\ d = of_ptr m v0 (q0 ++ ds) | ICopy _ a => env o a = Some d
    | _ => forall v0 q0, as_ptr m d = Some (v0, q0) -> known o v0 = true end) by (rewrite Ex; intros v0 q0 H; eapply honest_ptr; eauto).
  assert (Hr : result x = Some r) by (rewrite Ex; reflexivity). split.
  - intros HK. destruct (fu_just _ _ _ Fu _ HK) as (r1 & p1 & vol1 & v1 & [bs js] & a0 & J1 & J2 & J3 & J4 & J5).
    pose proof (at_pos_fun f (b, i) _ _ Hat J1) as E. rewrite Ex in E. injection E as <- <- <-.
    assert (Hx' : nth_error (body c) i = Some (ILoad r p false)) by (rewrite Hx, Ex; reflexivity).
    destruct (stored_avail f WF PNS dom DR v1 bs js a0 b i c r p false J3 Hb Hx' R J4) as (cs & Hcs & Bf & Av).
    pose proof (whole_value c (S i) _ _ _ v1 p Hc R (a_env _ _ _ _ Al) J2 (use_avail p Rp)) as Vp. rewrite Ep in Vp. injection Vp as ->.
    rewrite (sane_ptr m SM) in Ea. injection Ea as <- <-. rewrite (sane_read m SM) in Er. injection Er as <-.
    pose proof (a_val _ _ _ _ Al _ _ _ _ _ J3 Hcs Bf) as Va.
    assert (Td : env t (fin r) = Some (mem o v1)). { change (fin r) with (ren s r). rewrite J5. change (ren s a0) with (fin a0). rewrite <- (e_sim _ _ _ _ _ _ _ (a_env _ _ _ _ Al) a0 Av). exact Va. }
    pose proof (define r (mem o v1) (env t) Hr (or_intror (conj eq_refl Td)) Sh) as Df. destruct t. exact Df.
  - intros NK. rewrite Ex. simpl. change (ren s p) with (fin p). rewrite (sim_use p Rp), Ep, Ea, (a_mem _ _ _ _ Al), Er, (honest_ext m d _ _ (a_known _ _ _ _ Al)), Hh.
    eexists. split; [reflexivity|]. apply (define r d _ Hr); [left; split; [reflexivity|apply kept; auto]|exact Sh].
Qed.
Lemma sim_pure r d : result x = Some r -> (forall p q vol, x <> ILoad p q vol) ->
  match x with
  | IChain _ b _ => exists db v q ds, env o b = Some db /\ as_ptr m db = Some (v, q) /\ d = of_ptr m v (q ++ ds)
  | ICopy _ a => env o a = Some d
  | _ => forall v q, as_ptr m d = Some (v, q) -> known o v = true
  end ->
  o' = mkconfig (upd (env o) r (Some d)) (mem o) (known o) (world o) ->
  step m (vars f) (rename fin x) t = Some (mkconfig (upd (env t) r (Some d)) (mem t) (known t) (world t)) -> outcome.
Proof using All.
  intros Hr Nl Sh Eo Et. split; [intros HK; destruct (gone_load HK) as (r1 & p1 & vol1 & E); destruct (Nl _ _ _ E)|]. intros NK. eexists. split; [exact Et|]. rewrite Eo.
  apply (define r d _ Hr); [left; split; [reflexivity|apply kept; auto]|exact Sh].
Qed.
Lemma sim_store p a vol : x = IStore p a vol -> outcome.
Proof using All.
  intros Ex. split; [intros HK; destruct (gone_load HK) as (r1 & p1 & vol1 & E); congruence|]. intros NK.
  pose proof St as St'. rewrite Ex in St'. simpl in St'. assert (Rp : In p (reads x)) by (rewrite Ex; simpl; auto). assert (Ra : In a (reads x)) by (rewrite Ex; simpl; auto).
  rewrite Ex. simpl. change (ren s p) with (fin p). change (ren s a) with (fin a). rewrite (sim_use p Rp), (sim_use a Ra).
  destruct (env o p) as [dp|] eqn:Ep; [|discriminate]. destruct (env o a) as [d|] eqn:Ed; [|discriminate]. destruct (as_ptr m dp) as [[v q]|] eqn:Ea; [|discriminate].
  rewrite (a_mem _ _ _ _ Al), (a_world _ _ _ _ Al). destruct (write m (mem o v) q d) as [y|] eqn:Ew; [|discriminate]. injection St' as Eo. rewrite <- Eo. eexists. split; [reflexivity|].
  constructor; cbn [env mem known world].
  - eapply env_advance; [exact Hx|rewrite Ex; reflexivity|]. eapply env_known; [apply Al|]. intros w. apply give_mono.
  - intros w. apply give_ext. apply Al.
  - reflexivity.
  - intros w st a0 El. destruct (give m d (known o) w) eqn:G; [|reflexivity]. exfalso. apply give_new in G. destruct G as [G|[q' G]].
    + rewrite (a_unknown _ _ _ _ Al w st a0 El) in G. discriminate.
    + pose proof (ptr_derived w st a0 a d q' El Ra Ed G) as Dv. destruct (el_var _ _ _ _ El) as (vx & Hv & <- & T). eapply (PNS p a vol vx); eauto. rewrite <- Ex. apply Hin.
  - intros w. unfold upd. rewrite (a_mem _ _ _ _ Al). reflexivity.
  - intros w bs js a0 cs El Hcs B. unfold upd at 1. destruct (N.eqb_spec w v) as [Ev|Nv].
    + subst w. pose proof (ptr_derived v _ _ p dp q El Rp Ep Ea) as Dv. pose proof (el_use _ _ _ _ El p (b, i) x Dv Hat Rp) as Eq. rewrite Ex in Eq.
      destruct (el_store _ _ _ _ El) as (p1 & vol1 & Hs & Wp). rewrite <- Eq in Hs. pose proof (at_pos_fun f (b, i) _ _ Hat Hs) as E. rewrite Ex in E. injection E as <- <- <-.
      pose proof (whole_value c (S i) _ _ _ v p Hc R (a_env _ _ _ _ Al) Wp (use_avail p Rp)) as Vp. rewrite Ep in Vp. injection Vp as ->.
      rewrite (sane_ptr m SM) in Ea. injection Ea as <-. rewrite (sane_write m SM) in Ew. injection Ew as <-. exact Ed.
    + destruct (is_store _ _ _ _ _ El Hcs B) as [H|(_ & p1 & vol1 & E & Wp)]; [eapply (a_val _ _ _ _ Al); eauto|]. exfalso. rewrite Ex in E. injection E as <- <- <-.
      pose proof (whole_value c (S i) _ _ _ w p Hc R (a_env _ _ _ _ Al) Wp (use_avail p Rp)) as Vp. rewrite Ep in Vp. injection Vp as ->.
      rewrite (sane_ptr m SM) in Ea. injection Ea as E _. congruence.
Qed.
Lemma sim_effect what (res : option N) args : reads x = args -> result x = res ->
  match x with ICall _ _ _ | IOther _ _ _ => True | _ => False end ->
  step m (vars f) x o = effect m (vars f) what res args o -> step m (vars f) (rename fin x) t = effect m (vars f) what res (map fin args) t -> outcome.
Proof using All.
  intros Er Hr Hsh E1 E2. split; [intros HK; destruct (gone_load HK) as (r1 & p1 & vol1 & E); rewrite E in Hsh; destruct Hsh|]. intros NK.
  rewrite E2. pose proof St as St'. rewrite E1 in St'. unfold effect in St' |- *.
  rewrite (values_sim f m sf _ _ _ _ args (a_env _ _ _ _ Al)) by (intros a Ha; apply use_avail; rewrite Er; exact Ha).
  destruct (values (env o) args) as [ds|] eqn:Ev; [|discriminate].
  assert (Ug : forall v st a0, eligible f v st a0 -> fold_right (give m) (known o) ds v = false).
  { intros v st a0 El. destruct (fold_right (give m) (known o) ds v) eqn:Ek; [|reflexivity]. exfalso. apply gives_new in Ek. destruct Ek as [Ek|(d & q & Hd & Ep)].
    - rewrite (a_unknown _ _ _ _ Al v st a0 El) in Ek. discriminate.
    - destruct (values_in _ _ _ _ Ev Hd) as (a & Ha & Ea). rewrite <- Er in Ha. pose proof (ptr_derived v st a0 a d q El Ha Ea Ep) as Dv.
      pose proof (el_use _ _ _ _ El a (b, i) x Dv Hat Ha) as U. destruct x; simpl in Hsh; contradiction. }
  assert (Kx : forall v, fold_right (give m) (known t) ds v = fold_right (give m) (known o) ds v) by (apply gives_ext, Al).
  assert (Vw : view (vars f) (fold_right (give m) (known t) ds) (mem t) = view (vars f) (fold_right (give m) (known o) ds) (mem o)).
  { unfold view. apply map_ext. intros v. rewrite Kx, (a_mem _ _ _ _ Al). reflexivity. }
  cbv zeta in St' |- *. rewrite Vw, (a_world _ _ _ _ Al). destruct (what ds (view (vars f) (fold_right (give m) (known o) ds) (mem o)) (world o)) as [[[d mm] w]|]; [|discriminate].
  rewrite (honest_ext m d _ _ Kx). destruct (honest m (fold_right (give m) (known o) ds) d) eqn:Hh; [|discriminate]. injection St' as Eo.
  eexists. split; [reflexivity|]. rewrite <- Eo.
  assert (Ek : env_ok f m fin (available f c (S i)) (env o) (env t) (fold_right (give m) (known o) ds)).
  { eapply env_known; [apply Al|]. intros v H. apply gives_mono, H. }
  assert (Mv : forall v st a0, eligible f v st a0 -> (if fold_right (give m) (known o) ds v then mm v else mem o v) = mem o v) by (intros v st a0 El; rewrite (Ug v st a0 El); reflexivity).
  constructor; cbn [env mem known world]; auto.
  - destruct res as [r|]; [|eapply env_advance; eauto].
    eapply (env_define f WF m SM sf Pp Bp c i x r); [exact Hc|exact R|exact Hx|exact Hr|exact Ek|left; split; [reflexivity|apply kept; auto]|].
    destruct x; simpl in Hsh; try contradiction; intros v q H; eapply honest_ptr; eauto.
  - intros v. rewrite Kx, (a_mem _ _ _ _ Al). reflexivity.
  - destruct res as [r|]; [apply (val_result r d (fun v => if fold_right (give m) (known o) ds v then mm v else mem o v) Hr Mv)|].
    intros v bs js a0 cs El Hcs B. rewrite (Mv _ _ _ El). destruct (is_store _ _ _ _ _ El Hcs B) as [H|(_ & p1 & vol1 & E & _)]; [eapply (a_val _ _ _ _ Al); eauto|]. rewrite E in Hsh. destruct Hsh.
Qed.
Lemma sim_one : outcome.
Proof using All.
  destruct x as [r p vol|p a vol|r b0 idx|r a|r fn args|r op args] eqn:Ex.
  - rewrite <- Ex in *. eapply sim_load; eauto.
  - rewrite <- Ex in *. eapply sim_store; eauto.
  - pose proof St as St'. simpl in St'. assert (Rb : In b0 (reads x)) by (rewrite Ex; simpl; auto).
    destruct (env o b0) as [db|] eqn:Eb; [|discriminate]. destruct (values (env o) idx) as [ds|] eqn:Ev; [|discriminate]. destruct (as_ptr m db) as [[v q]|] eqn:Ea; [|discriminate].
    injection St' as Eo. rewrite <- Ex in *. apply (sim_pure r (of_ptr m v (q ++ ds))); auto; [rewrite Ex; reflexivity|rewrite Ex; discriminate|rewrite Ex; eauto 8|].
    rewrite Ex. simpl. change (ren s b0) with (fin b0). rewrite (sim_use b0 Rb), Eb. change (ren s) with fin.
    rewrite (values_sim f m sf _ _ _ _ idx (a_env _ _ _ _ Al)) by (intros a Ha; apply use_avail; rewrite Ex; simpl; auto). rewrite Ev, Ea. reflexivity.
  - pose proof St as St'. simpl in St'. assert (Ra : In a (reads x)) by (rewrite Ex; simpl; auto). destruct (env o a) as [d|] eqn:Ea; [|discriminate].
    injection St' as Eo. rewrite <- Ex in *. apply (sim_pure r d); auto; [rewrite Ex; reflexivity|rewrite Ex; discriminate|rewrite Ex; exact Ea|].
    rewrite Ex. simpl. change (ren s a) with (fin a). rewrite (sim_use a Ra), Ea. reflexivity.
  - rewrite <- Ex in *. apply (sim_effect (call m fn) (Some r) args); rewrite Ex; auto; exact I.
  - rewrite <- Ex in *. apply (sim_effect (other m op) r args); rewrite Ex; auto; exact I.
Qed.
End One.

Lemma alike_sub (A A' : N -> Prop) (B B' : block -> nat -> Prop) o t : alike A B o t -> (forall y, A' y -> A y) -> (forall cs j, In cs (blocks f) -> (S j <= length (body cs))%nat -> B' cs (S j) -> B cs (S j)) ->
  alike A' B' o t.
Proof using All.
  intros S HA HB. constructor; try apply S; [eapply env_sub; [apply S|exact HA]|]. intros v bs js a0 cs El Hcs HB'.
  eapply (a_val _ _ _ _ S); eauto. apply HB; eauto using nth_error_In. destruct (el_store _ _ _ _ El) as (p & vol & Hs & _). apply in_placed in Hs. destruct Hs as (cs' & H1 & H2).
  assert (cs' = cs) by congruence. subst cs'. apply nth_error_Some. simpl in H2. congruence.
Qed.
Lemma sim_body b c : nth_error (blocks f) b = Some c -> reach f c -> forall l i pre o o' t,
  body c = pre ++ l -> length pre = i -> alike (available f c (S i)) (fun cs j => before f cs j c (S i)) o t -> steps m (vars f) l o = Some o' ->
  exists t', steps m (vars f) (sweep K fin b i l) t = Some t' /\ alike (available f c (S (length (body c)))) (fun cs j => before f cs j c (S (length (body c)))) o' t'.
Proof using All.
  intros Hb R. induction l as [|x l IH]; intros i pre o o' t E L Al St; cbn [steps sweep] in St |- *.
  - injection St as <-. exists t. split; [reflexivity|]. rewrite E, app_nil_r, L. exact Al.
  - destruct (step m (vars f) x o) as [o1|] eqn:St1; [|discriminate].
    assert (Hx : nth_error (body c) i = Some x) by (rewrite E, nth_error_app2 by lia; replace (i - length pre)%nat with O by lia; reflexivity).
    destruct (sim_one b c i x o o1 t Hb Hx R Al St1) as [Ki Ke].
    assert (E1 : body c = (pre ++ [x]) ++ l) by (rewrite <- app_assoc; exact E).
    assert (L1 : length (pre ++ [x]) = S i) by (rewrite app_length; simpl; lia).
    destruct (existsb (pos_eqb (b, i)) K) eqn:Ek.
    + apply pos_in in Ek. eapply IH; eauto.
    + apply pos_not_in in Ek. destruct (Ke Ek) as (t1 & Et & Re1). cbn [steps]. rewrite Et. eapply IH; eauto.
Qed.

Lemma phi_fixed c p : In c (blocks f) -> In p (phis c) -> fin (p_res p) = p_res p.
Proof using All.
  intros Hc Hp. destruct (N.eq_dec (fin (p_res p)) (p_res p)) as [|Ne]; [assumption|exfalso].
  destruct (Pp _ Ne) as (b' & c' & j & q & vol & Hb' & Hj & _).
  assert (D1 : defined_at f (p_res p) c 0) by (split; [exact Hc|exists p; auto]).
  assert (D2 : defined_at f (p_res p) c' (S j)) by (split; [eapply nth_error_In; eauto|exists (ILoad (p_res p) q vol); auto]).
  destruct (wf_once f WF _ _ _ _ _ D1 D2) as [_ E]. discriminate.
Qed.

Lemma sim_phis c c' (o0 t0 : cfg) : In c (blocks f) -> reach f c -> In c' (blocks f) -> In (label c') (t_succ c) ->
  alike (available f c (S (length (body c)))) (fun cs j => before f cs j c (S (length (body c)))) o0 t0 ->
  forall ps done o t o2, (forall p, In p ps -> In p (phis c')) -> (forall y, In y done -> exists p, In p (phis c') /\ p_res p = y) ->
  alike (fun y => available f c' 0 y \/ In y done) (fun cs j => before f cs j c' 0) o t ->
  phis_from m (label c) ps o0 o = Some o2 ->
  exists t2, phis_from m (label c) (map (fun p => mkphi (p_res p) (map (fun a => (fin (fst a), snd a)) (p_args p))) ps) t0 t = Some t2 /\
    alike (fun y => available f c' 0 y \/ In y (map p_res ps ++ done)) (fun cs j => before f cs j c' 0) o2 t2.
Proof using All.
  intros Hc R Hc' Edge S0. pose proof (reach_edge f c c' WF Hc R Edge) as R'.
  induction ps as [|p ps IH]; intros done o t o2 Hps Hdone Sm H; cbn [phis_from map] in H |- *.
  - injection H as <-. exists t. auto.
  - cbn [p_args p_res]. rewrite find_arg. destruct (find (fun a => snd a =? label c) (p_args p)) as [[a la]|] eqn:Fa; [|discriminate]. cbn [fst snd].
    apply find_some in Fa. destruct Fa as [Ha El]. simpl in El. apply N.eqb_eq in El. subst la.
    destruct (env o0 a) as [d|] eqn:Ea; [|discriminate].
    assert (Hp : In p (phis c')) by (apply Hps; simpl; auto).
    assert (Av : available f c (S (length (body c))) a) by (eapply (wf_phis f WF); eauto).
    rewrite <- (e_sim _ _ _ _ _ _ _ (a_env _ _ _ _ S0) a Av), Ea.
    set (r := p_res p) in *.
    assert (Dr : defined_at f r c' 0) by (split; [exact Hc'|exists p; auto]).
    assert (Ug : forall v st a0, eligible f v st a0 -> give m d (known o) v = false).
    { intros v st a0 G. destruct (give m d (known o) v) eqn:Ek; [|reflexivity]. exfalso. apply give_new in Ek. destruct Ek as [Ek|[q Ep]].
      - rewrite (a_unknown _ _ _ _ Sm v st a0 G) in Ek. discriminate.
      - assert (Dv : derived f v a) by (eapply (e_ptr _ _ _ _ _ _ _ (a_env _ _ _ _ S0)); eauto; eapply (a_unknown _ _ _ _ S0), G).
        exact (el_phi _ _ _ _ G a c' p _ Dv Hc' Hp Ha). }
    assert (Un : unneeded f fin (fun y => available f c' 0 y \/ In y done) r).
    { split; [|split; [|split]].
      - intros y [Ay|Hy] Ne E.
        + destruct Ay as [Nd|Ay]; [rewrite (unrenamed f sf _ _ y Pp Nd) in E; congruence|].
          pose proof Ay as (b1 & j1 & Dy & _). assert (Ay' : available f c' 0 y) by (right; exact Ay).
          destruct (Bp y b1 j1 Dy) as [E'|E']; [eapply avail_reach; eauto|congruence|]. rewrite E in E'. eapply (keep f c' 0 r y); eauto.
        + destruct (Hdone y Hy) as (p' & Hp' & <-). rewrite (phi_fixed c' p' Hc' Hp') in E. congruence.
      - intros y b idx [Ay|Hy] Ne Hi ->.
        + destruct (inst_defined f _ y Hi eq_refl) as (c1 & j1 & Dy & Hn). eapply (keep f c' 0 r y c1 (S j1)); eauto.
          eapply (wf_uses f WF); eauto; [apply Dy|eapply avail_reach; eauto|simpl; auto].
        + destruct (Hdone y Hy) as (p' & Hp' & <-). exact (phi_not_inst f WF c' p' _ Hc' Hp' Hi eq_refl).
      - intros y b [Ay|Hy] Ne Hi ->.
        + destruct (inst_defined f _ y Hi eq_refl) as (c1 & j1 & Dy & Hn). eapply (keep f c' 0 r y c1 (S j1)); eauto.
          eapply (wf_uses f WF); eauto; [apply Dy|eapply avail_reach; eauto|simpl; auto].
        + destruct (Hdone y Hy) as (p' & Hp' & <-). exact (phi_not_inst f WF c' p' _ Hc' Hp' Hi eq_refl).
      - intros v Hv E. rewrite <- E in Dr. exact (wf_var_ids f WF v c' 0%nat Hv Dr). }
    destruct (IH (r :: done) (mkconfig (upd (env o) r (Some d)) (mem o) (give m d (known o)) (world o))
                 (mkconfig (upd (env t) r (Some d)) (mem t) (give m d (known t)) (world t)) o2) as (t2 & Et & S2); auto.
    + intros p' Hp'. apply Hps. simpl. auto.
    + intros y [<-|Hy]; [exists p; auto|apply Hdone, Hy].
    + constructor; cbn [env mem known world].
      * eapply env_sub; [eapply (env_update f m fin (fun y => available f c' 0 y \/ In y done)); [eapply env_known; [apply Sm|]|exact Un| | | |]|].
        -- intros v Hk. apply give_mono, Hk.
        -- left. split; [reflexivity|]. apply (phi_fixed c' p Hc' Hp).
        -- intros b idx Hi. destruct (phi_not_inst f WF c' p _ Hc' Hp Hi eq_refl).
        -- intros a' Hi. destruct (phi_not_inst f WF c' p _ Hc' Hp Hi eq_refl).
        -- intros v q Ep Ek. unfold give in Ek. rewrite Ep, upd_eq in Ek. discriminate.
        -- intros y [Hy|[<-|Hy]]; auto.
      * intros v. apply give_ext. apply Sm.
      * apply Sm.
      * exact Ug.
      * apply Sm.
      * intros v bs js a0 cs El Hcs Bq. rewrite upd_ne; [eapply (a_val _ _ _ _ Sm); eauto|].
        destruct (el_store _ _ _ _ El) as (ps' & vol & Hs & _). apply in_placed in Hs. destruct Hs as (cs' & H1 & H2). assert (cs' = cs) by congruence. subst cs'.
        assert (Aa : available f c' 0 a0).
        { eapply before_avail; eauto using nth_error_In. eapply (wf_uses f WF); eauto using nth_error_In; [eapply before_reach; eauto|simpl; auto]. }
        intros ->. destruct Aa as [Nd|(b1 & j1 & Dy & [[-> L]|[Ne _]])]; [exact (Nd _ _ Dr)|lia|]. destruct (wf_once f WF _ _ _ _ _ Dr Dy) as [-> _]. congruence.
    + exists t2. split; [exact Et|]. eapply alike_sub; [exact S2| |auto].
      intros y [Hy|Hy]; [left; exact Hy|]. simpl in Hy. right; apply in_or_app. destruct Hy as [<-|Hy]; simpl; auto. apply in_app_or in Hy. destruct Hy; auto.
Qed.

Lemma sim_run : forall n c o t r, In c (blocks f) -> reach f c -> alike (available f c 1) (fun cs j => before f cs j c 1) o t ->
  run_from m (vars f) (blocks f) n (label c) o = Some r -> run_from m (vars f) (finish K fin 0 (blocks f)) n (label c) t = Some r.
Proof using All.
  induction n as [|n IH]; intros c o t r Hc R Sm H; cbn [run_from] in H |- *.
  - injection H as <-. rewrite (alike_view _ _ _ _ Sm), (a_world _ _ _ _ Sm). reflexivity.
  - rewrite (find_block f c WF Hc) in H.
    destruct (finish_find K fin (label c) (blocks f) 0%nat c (find_block f c WF Hc)) as (b & Hb & Ff). rewrite Nat.add_0_l in Ff. rewrite Ff. unfold finish_block. cbn [body t_args t_op t_succ].
    destruct (steps m (vars f) (body c) o) as [o1|] eqn:St; [|discriminate].
    destruct (sim_body b c Hb R (body c) 0%nat [] o o1 t eq_refl eq_refl Sm St) as (t1 & Et & S1). rewrite Et.
    rewrite (values_sim f m sf _ _ _ _ (t_args c) (a_env _ _ _ _ S1)) by (intros a Ha; apply (wf_term f WF); auto).
    destruct (values (env o1) (t_args c)) as [ds|]; [|discriminate]. destruct (choose m (t_op c) ds) as [k|].
    + destruct (nth_error (t_succ c) k) as [l'|] eqn:Ek; [|discriminate].
      destruct (find (fun b => label b =? l') (blocks f)) as [c'|] eqn:Fc; [|discriminate].
      destruct (finish_find K fin l' (blocks f) 0%nat c' Fc) as (b' & Hb' & Ff'). rewrite Nat.add_0_l in Ff'. rewrite Ff'. unfold finish_block. cbn [phis].
      apply find_block_inv in Fc. destruct Fc as [Hc' <-].
      assert (Edge : In (label c') (t_succ c)) by (eapply nth_error_In; eauto).
      pose proof (reach_edge f c c' WF Hc R Edge) as R'.
      destruct (phis_from m (label c) (phis c') o1 o1) as [o2|] eqn:Ph; [|discriminate].
      destruct (sim_phis c c' o1 t1 Hc R Hc' Edge S1 (phis c') [] o1 t1 o2) as (t2 & Ph2 & S2); auto.
      * intros y [].
      * eapply alike_sub; [exact S1| |].
        -- intros y [Hy|[]]. eapply avail_edge; eauto.
        -- intros cs j Hcs L Hb0. eapply before_edge; eauto.
      * rewrite Ph2. apply (IH c' o2 t2 r Hc' R'); [|exact H].
        eapply alike_sub; [exact S2| |].
        -- intros y Hy. destruct (avail_step f c' 0 y Hy) as [Hy'|[_ (p & Hp & <-)]]; [left; exact Hy'|right]. rewrite app_nil_r. apply in_map, Hp.
        -- intros cs j Hcs L Hb0. destruct (before_step _ _ _ _ _ Hb0) as [H0|[_ H0]]; [exact H0|discriminate].
    + injection H as <-. rewrite (alike_view _ _ _ _ S1), (a_world _ _ _ _ S1). reflexivity.
Qed.

Lemma whole_run n globals mem0 known0 w0 r : fair_start m f globals known0 ->
  run m f n globals mem0 known0 w0 = Some r -> run m (mkfunc (vars f) (finish K fin 0 (blocks f))) n globals mem0 known0 w0 = Some r.
Proof using All.
  intros [Fk Fg]. unfold run. cbn [vars blocks]. destruct (blocks f) as [|c bs] eqn:Eb in |- *; [discriminate|]. cbn [finish].
  assert (Lc : label (finish_block K fin 0 c) = label c) by reflexivity. rewrite Lc. clear Lc.
  rewrite <- Eb. assert (Fs : finish_block K fin 0 c :: finish K fin 1 bs = finish K fin 0 (blocks f)) by (rewrite Eb; reflexivity). rewrite Fs. clear Fs.
  assert (Hc : In c (blocks f)) by (rewrite Eb; left; reflexivity).
  assert (En : entry f = label c) by (unfold entry; rewrite Eb; reflexivity).
  assert (R : reach f c) by (exists [label c]; rewrite <- En; constructor).
  assert (Ph : phis c = []) by (pose proof (wf_entry f WF) as H; rewrite Eb in H; exact H).
  assert (Und : forall y, available f c 1 y -> forall b k, ~ defined_at f y b k).
  { intros y [Nd|(b' & j & Dy & [[-> L]|[Ne Dm]])]; [exact Nd| |].
    - destruct j; [|lia]. destruct Dy as [_ (p & Hp & _)]. rewrite Ph in Hp. destruct Hp.
    - exfalso. assert (P : path (succs f) (entry f) (label c) [label c]) by (rewrite <- En; constructor). specialize (Dm _ P). destruct Dm as [E|[]]. congruence. }
  apply (sim_run n c); auto. constructor; cbn [env mem known world]; auto.
  - constructor.
    + intros y Ay. rewrite (unrenamed f sf _ _ y Pp (Und y Ay)). reflexivity.
    + intros y b idx Ay Hi. destruct (inst_defined f _ y Hi eq_refl) as (c1 & j1 & Dy & _). destruct (Und y Ay _ _ Dy).
    + intros y a Ay Hi. destruct (inst_defined f _ y Hi eq_refl) as (c1 & j1 & Dy & _). destruct (Und y Ay _ _ Dy).
    + intros y d v q Ay Ed Ep Ek. destruct (existsb (fun v => v_id v =? y) (vars f)) eqn:Ev.
      * injection Ed as <-. rewrite (sane_ptr m SM) in Ep. injection Ep as <- _. apply existsb_exists in Ev. destruct Ev as (x & Hx & E). apply N.eqb_eq in E.
        eapply D_var; eauto.
      * rewrite (Fg y d v q Ed Ep) in Ek. discriminate.
    + intros x Hx. assert (Ev : existsb (fun v => v_id v =? v_id x) (vars f) = true) by (apply existsb_exists; exists x; split; [exact Hx|apply N.eqb_refl]).
      rewrite Ev. reflexivity.
  - intros v st a0 G. destruct (el_var _ _ _ _ G) as (x & Hx & <- & T). rewrite (Fk x Hx), T. reflexivity.
  - intros v bs' js a0 cs El Hcs Bq. exfalso. destruct Bq as [[-> L]|[Ne Dm]]; [lia|].
    assert (P : path (succs f) (entry f) (label c) [label c]) by (rewrite <- En; constructor). specialize (Dm _ P). destruct Dm as [E|[]]. congruence.
Qed.
End Sim.

Theorem single_store_run {D W} (m : machine D W) dom f g n globals mem0 known0 w0 r :
  sane m -> well_formed f -> no_volatile f -> pointers_not_stored f -> fair_start m f globals known0 ->
  (forall b c, In b (blocks f) -> In c (blocks f) -> reach f c -> dom (label b) (label c) = true -> dominates (succs f) (entry f) (label b) (label c)) ->
  single_store_elim dom f = Some g -> run m f n globals mem0 known0 w0 = Some r -> run m g n globals mem0 known0 w0 = Some r.
Proof.
  intros SM WF NV PNS FS DR E. unfold single_store_elim in E.
  destruct (process_variables dom f (vars f) (mkprogress (fun x => x) [])) as [s|] eqn:Es; [|discriminate]. injection E as <-.
  assert (Fu : full f dom s) by (eapply full_variables; eauto using full_start).
  apply (whole_run f WF m SM NV PNS dom DR s Fu n globals mem0 known0 w0 r FS).
Qed.
