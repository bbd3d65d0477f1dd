(** Proofs about the elimination of loads and stores: the function before and after, instruction by instruction. *)
From Verif Require Import Base GraphSpec LocalElim LocalElimSpec LocalElimProofs LocalElimProofs2 LocalElimProofs3.
Local Open Scope N_scope.

Section Steps.
Variable f : func.
Hypothesis WF : well_formed f.
Context {D W : Type} (m : machine D W).
Hypothesis SM : sane m.
Hypothesis NV : no_volatile f.
Hypothesis PNS : pointers_not_stored f.
Variable sf : state.
Hypothesis Pf : renamed_passed f sf (length (blocks f)) 0.
Hypothesis Bf : renamed_before f sf.

Notation fin := (st_ren sf).
Notation K := (st_kill sf).
Notation cfg := (config D W).

Record rel (c : block) (i : nat) (s : state) (o t : cfg) : Prop := {
  r_env : env_ok f m fin (available f c (S i)) (env o) (env t) (known o);
  r_known : forall v, known t v = known o v;
  r_world : world t = world o;
  r_unknown : forall v, good f v -> known o v = false;
  r_free : forall x, In x (vars f) -> v_target x = false -> known o (v_id x) = true;
  r_mem : forall v, mem o v = mem t v \/ exists q a, st_store s v = Some (q, a) /\ In q K;
  r_store : forall v q a, st_store s v = Some (q, a) -> exists a0, st_ren s a0 = a /\ available f c (S i) a0 /\ env o a0 = Some (mem o v);
  r_load : forall v x, st_load s v = Some x -> available f c (S i) x /\ env o x = Some (mem o v) }.

Lemma values_sim (A : N -> Prop) e te k l : env_ok f m fin A e te k -> (forall a, In a l -> A a) -> values te (map fin l) = values e l.
Proof using Type.
  intros E. induction l as [|a l IH]; simpl; intros H; [reflexivity|]. rewrite (e_sim _ _ _ _ _ _ _ E a) by (apply H; auto). rewrite IH by auto. reflexivity.
Qed.
Lemma values_in (e : N -> option D) l (ds : list D) d : values e l = Some ds -> In d ds -> exists a, In a l /\ e a = Some d.
Proof using Type.
  revert ds. induction l as [|a l IH]; simpl; intros ds H Hd; [injection H as <-; destruct Hd|].
  destruct (e a) as [d0|] eqn:Ea; [|discriminate]. destruct (values e l) as [ds0|]; [|discriminate]. injection H as <-.
  destruct Hd as [<-|Hd]; [eauto|]. destruct (IH ds0 eq_refl Hd) as (a' & H1 & H2). eauto.
Qed.
Lemma give_mono d k v : k v = true -> give m d k v = true.
Proof using Type.
  unfold give. destruct (as_ptr m d) as [[v' q]|]; [|auto]. intros H. unfold upd. destruct (v =? v'); auto.
Qed.
Lemma gives_mono ds k v : k v = true -> fold_right (give m) k ds v = true.
Proof using Type. intros H. induction ds as [|d ds IH]; simpl; [exact H|]. apply give_mono, IH. Qed.
Lemma give_ext d k k' v : (forall v, k' v = k v) -> give m d k' v = give m d k v.
Proof using Type. intros H. unfold give. destruct (as_ptr m d) as [[v' q]|]; [|apply H]. unfold upd. destruct (v =? v'); auto. Qed.
Lemma gives_ext ds k k' : (forall v, k' v = k v) -> forall v, fold_right (give m) k' ds v = fold_right (give m) k ds v.
Proof using Type. intros H. induction ds as [|d ds IH]; simpl; [exact H|]. intros v. apply give_ext, IH. Qed.
Lemma give_new d k v : give m d k v = true -> k v = true \/ exists q, as_ptr m d = Some (v, q).
Proof using Type.
  unfold give. destruct (as_ptr m d) as [[v' q]|] eqn:E; [|auto]. unfold upd. destruct (v =? v') eqn:Ev; [|auto]. apply N.eqb_eq in Ev. subst v'. eauto.
Qed.
Lemma gives_new ds k v : fold_right (give m) k ds v = true -> k v = true \/ exists d q, In d ds /\ as_ptr m d = Some (v, q).
Proof using Type.
  induction ds as [|d ds IH]; simpl; [auto|]. intros H. apply give_new in H. destruct H as [H|[q H]].
  - destruct (IH H) as [H1|(d' & q & H1 & H2)]; [auto|]. right. exists d', q. auto.
  - right. exists d, q. auto.
Qed.
Lemma honest_ext d k k' : (forall v, k' v = k v) -> honest m k' d = honest m k d.
Proof using Type. intros H. unfold honest. destruct (as_ptr m d) as [[v q]|]; [apply H|reflexivity]. Qed.
Lemma honest_ptr d k v q : honest m k d = true -> as_ptr m d = Some (v, q) -> k v = true.
Proof using Type. unfold honest. intros H E. rewrite E in H. exact H. Qed.

(** ** The ids *)
Lemma place_unneeded c i x r : In c (blocks f) -> reach f c -> nth_error (body c) i = Some x -> result x = Some r -> unneeded f fin (available f c (S i)) r.
Proof using WF Pf Bf.
  intros Hc R Hx Hr. assert (Dr : defined_at f r c (S i)) by (split; [exact Hc|exists x; auto]).
  split; [|split; [|split]].
  - intros y Av Ne E. destruct Av as [Nd|Av].
    + rewrite (unrenamed f sf _ _ y Pf Nd) in E. congruence.
    + pose proof Av as (b' & j & Dy & _). assert (Ay : available f c (S i) y) by (right; exact Av).
      destruct (Bf y b' j Dy) as [E'|E']; [eapply avail_reach; eauto|congruence|]. rewrite E in E'. eapply keep; eauto.
  - intros y b idx Av Ne Hi ->. destruct (inst_defined f _ y Hi eq_refl) as (c' & j & Dy & Hn).
    eapply (keep f c (S i) r y c' (S j)); eauto. eapply (wf_uses f WF); eauto; [apply Dy|eapply avail_reach; eauto|simpl; auto].
  - intros y a Av Ne Hi ->. destruct (inst_defined f _ y Hi eq_refl) as (c' & j & Dy & Hn).
    eapply (keep f c (S i) r y c' (S j)); eauto. eapply (wf_uses f WF); eauto; [apply Dy|eapply avail_reach; eauto|simpl; auto].
  - intros v Hv E. subst r. eapply (wf_var_ids f WF); eauto.
Qed.
Lemma avail_ne c k r y : defined_at f r c k -> available f c k y -> y <> r.
Proof using WF.
  intros Dr [Nd|(b' & j & Dy & C)] ->; [exact (Nd _ _ Dr)|]. destruct (wf_once f WF _ _ _ _ _ Dy Dr) as [-> ->].
  destruct C as [[_ L]|[N _]]; [lia|congruence].
Qed.
Lemma avail_result c i x y : nth_error (body c) i = Some x -> available f c (S (S i)) y -> available f c (S i) y \/ result x = Some y.
Proof using Type.
  intros Hx Av. destruct (avail_step f c (S i) y Av) as [H|[_ (x' & H1 & H2)]]; [auto|]. right. congruence.
Qed.
Lemma kept_fixed b c i x r : nth_error (blocks f) b = Some c -> nth_error (body c) i = Some x -> result x = Some r -> ~ In (b, i) K -> fin r = r.
Proof using WF Pf.
  intros Hb Hx Hr NK. destruct (N.eq_dec (fin r) r) as [|Ne]; [assumption|exfalso]. destruct (Pf r Ne) as (b' & c' & j & p & vol & Hb' & Hj & _ & Hk).
  assert (D1 : defined_at f r c (S i)) by (split; [eapply nth_error_In; eauto|exists x; auto]).
  assert (D2 : defined_at f r c' (S j)) by (split; [eapply nth_error_In; eauto|exists (ILoad r p vol); auto]).
  destruct (wf_once f WF _ _ _ _ _ D1 D2) as [<- E]. injection E as <-. rewrite (same_index f WF _ _ _ Hb Hb') in NK. contradiction.
Qed.
Lemma env_advance c i x e te k : nth_error (body c) i = Some x -> result x = None -> env_ok f m fin (available f c (S i)) e te k ->
  env_ok f m fin (available f c (S (S i))) e te k.
Proof using Type.
  intros Hx Hr E. eapply env_sub; [exact E|]. intros y Av. destruct (avail_result c i x y Hx Av) as [H|H]; [exact H|congruence].
Qed.
Lemma env_define c i x r e te te' k d : In c (blocks f) -> reach f c -> nth_error (body c) i = Some x -> result x = Some r ->
  env_ok f m fin (available f c (S i)) e te k ->
  te' = upd te r (Some d) /\ fin r = r \/ te' = te /\ te (fin r) = Some d ->
  match x with
  | IChain _ b _ => exists db v q ds, e b = Some db /\ as_ptr m db = Some (v, q) /\ d = of_ptr m v (q ++ ds)
  | ICopy _ a => e a = Some d
  | _ => forall v q, as_ptr m d = Some (v, q) -> k v = true
  end ->
  env_ok f m fin (available f c (S (S i))) (upd e r (Some d)) te' k.
Proof using WF Pf Bf SM.
  intros Hc R Hx Hr E T Sh. assert (Dr : defined_at f r c (S i)) by (split; [exact Hc|exists x; auto]).
  pose proof (place_inst f c i x Hc Hx) as Hin.
  assert (Us : forall a, In a (reads x) -> available f c (S i) a) by (intros a Ha; eapply (wf_uses f WF); eauto).
  eapply env_sub; [eapply env_update; [exact E|eapply place_unneeded; eauto|exact T| | |]|].
  - intros b idx Hi. rewrite (result_inj f WF _ _ r Hin Hi Hr eq_refl) in Sh, Us. destruct Sh as (db & v & q & ds & H1 & H2 & H3).
    exists db, v, q, ds. split; [|auto]. eapply avail_ne; [exact Dr|]. apply Us. simpl; auto.
  - intros a Hi. rewrite (result_inj f WF _ _ r Hin Hi Hr eq_refl) in Sh, Us. split; [|exact Sh]. eapply avail_ne; [exact Dr|]. apply Us. simpl; auto.
  - intros v q Ep Ek. destruct x as [r0 ptr vol|ptr x vol|r0 b0 l|r0 a|r0 fn l|r0 o l]; simpl in Hr; try discriminate.
    + rewrite (Sh v q Ep) in Ek. discriminate.
    + injection Hr as ->. destruct Sh as (db & v' & q' & ds & H1 & H2 & ->). rewrite (sane_ptr m SM) in Ep. injection Ep as -> _.
      eapply D_chain; [exact Hin|]. eapply (e_ptr _ _ _ _ _ _ _ E); eauto. apply Us. simpl; auto.
    + injection Hr as ->. eapply D_copy; [exact Hin|]. eapply (e_ptr _ _ _ _ _ _ _ E); eauto. apply Us. simpl; auto.
    + rewrite (Sh v q Ep) in Ek. discriminate.
    + rewrite (Sh v q Ep) in Ek. discriminate.
  - intros y Av. destruct (avail_result c i x y Hx Av) as [H|H]; [left; exact H|right; congruence].
Qed.

(** ** One instruction *)
Section One.
Variables (b : nat) (c : block) (i : nat) (x : inst) (s s' : state) (o o' t : cfg).
Hypothesis Hb : nth_error (blocks f) b = Some c.
Hypothesis Hx : nth_error (body c) i = Some x.
Hypothesis R : reach f c.
Hypothesis I : inv f b c i s.
Hypothesis Dd : did f (b, i) x s s'.
Hypothesis Co : coarser s' sf.
Hypothesis Kg : kill_grows s' sf.
Hypothesis Cl : forall q, closed q s' -> fst q = b -> (snd q < S i)%nat -> ~ In q K.
Hypothesis Re : rel c i s o t.
Hypothesis St : step m (vars f) x o = Some o'.

Definition outcome : Prop :=
  (In (b, i) K -> rel c (S i) s' o' t) /\
  (~ In (b, i) K -> exists t', step m (vars f) (rename fin x) t = Some t' /\ rel c (S i) s' o' t').

Lemma Hc : In c (blocks f).
Proof using Hb. eapply nth_error_In; eauto. Qed.
Lemma Hin : In x (all_insts f).
Proof using Hb Hx. eapply place_inst; [exact Hc|exact Hx]. Qed.
Lemma co_s : forall y z, st_ren s y = st_ren s z -> fin y = fin z.
Proof using Dd Co. intros y z E. apply Co. eapply did_coarser; eauto. Qed.
Lemma use_avail a : In a (reads x) -> available f c (S i) a.
Proof using WF Hb Hx R. intros Ha. eapply (wf_uses f WF); eauto. exact Hc. Qed.
Lemma sim_use a : In a (reads x) -> env t (fin a) = env o a.
Proof using WF Hb Hx R Re. intros Ha. symmetry. apply (e_sim _ _ _ _ _ _ _ (r_env _ _ _ _ _ Re)). apply use_avail, Ha. Qed.
(** this position is not killed unless it is killed or remembered at once *)
Lemma not_here : ~ In (b, i) (st_kill s') -> (forall v a, st_store s' v <> Some ((b, i), a)) -> ~ In (b, i) K.
Proof using Cl. intros A B. apply (Cl (b, i)); [split; [exact A|right; exact B]|reflexivity|simpl; lia]. Qed.
Lemma here_new : ~ In (b, i) (st_kill s) /\ forall v a, st_store s v <> Some ((b, i), a).
Proof using I.
  split.
  - intros H. destruct (i_kill _ _ _ _ _ I _ H) as [L|[_ L]]; simpl in L; lia.
  - intros v a H. destruct (i_open _ _ _ _ _ I v _ a H) as [_ (j & E & L)]. injection E as E. lia.
Qed.
(** a variable the pass has no store of is the same on both sides *)
Lemma mem_same v : st_store s v = None -> mem o v = mem t v.
Proof using Re. intros H. destruct (r_mem _ _ _ _ _ Re v) as [E|(q & a & E & _)]; [exact E|congruence]. Qed.
Lemma not_good_none v : ~ good f v -> st_store s v = None /\ st_load s v = None.
Proof using I.
  intros N. split.
  - destruct (st_store s v) as [q|] eqn:E; [|reflexivity]. destruct (N (i_good_store _ _ _ _ _ I v q E)).
  - destruct (st_load s v) as [q|] eqn:E; [|reflexivity]. destruct (N (i_good_load _ _ _ _ _ I v q E)).
Qed.
Lemma good_derived p d v q : In p (reads x) -> env o p = Some d -> as_ptr m d = Some (v, q) -> good f v -> derived f v p.
Proof using WF Hb Hx R Re.
  intros Hp E Ep G. eapply (e_ptr _ _ _ _ _ _ _ (r_env _ _ _ _ _ Re)); eauto; [apply use_avail, Hp|]. apply (r_unknown _ _ _ _ _ Re), G.
Qed.
Lemma not_subject p d v q : In p (reads x) -> subject f (st_ren s) (st_ren s p) = Some None -> env o p = Some d -> as_ptr m d = Some (v, q) -> ~ good f v.
Proof using WF Hb Hx R Re I.
  intros Hp Sub E Ep G. pose proof (good_derived p d v q Hp E Ep G) as Dv.
  destruct (derived_subject f WF s b i v p (i_passed _ _ _ _ _ I) G Dv _ Sub) as [w H]. discriminate.
Qed.
Lemma right_subject p d v w v' q : In p (reads x) -> subject f (st_ren s) (st_ren s p) = Some (Some (v, w)) -> env o p = Some d -> as_ptr m d = Some (v', q) ->
  v' = v /\ (w = true -> q = []).
Proof using WF SM Hb Hx R Re I Dd Co.
  intros Hp Sub E Ep. exact (subject_right f WF m SM fin c (S i) (env o) (env t) (known o) s b i Hc R (r_env _ _ _ _ _ Re) (i_passed _ _ _ _ _ I)
    (i_before _ _ _ _ _ I) (i_idem _ _ _ _ _ I) co_s p v w d v' q (use_avail p Hp) Sub E Ep).
Qed.
(** storing makes nothing new known *)
Lemma store_known p a vol d : x = IStore p a vol -> env o a = Some d -> forall v, give m d (known o) v = known o v.
Proof using WF Hb Hx R Re PNS.
  intros E Ea v. destruct (give m d (known o) v) eqn:G.
  - apply give_new in G. destruct G as [G|[q G]]; [congruence|]. destruct (known o v) eqn:Ek; [reflexivity|exfalso].
    assert (Ha : In a (reads x)) by (rewrite E; simpl; auto).
    assert (Dv : derived f v a) by (eapply (e_ptr _ _ _ _ _ _ _ (r_env _ _ _ _ _ Re)); eauto; apply use_avail, Ha).
    assert (Hv : exists y, In y (vars f) /\ v_id y = v) by (clear - Dv; induction Dv; eauto).
    destruct Hv as (y & Hy & <-). destruct (v_target y) eqn:T.
    + pose proof Hin as Hi. rewrite E in Hi. exact (PNS p a vol y Hi Hy T Dv).
    + rewrite (r_free _ _ _ _ _ Re y Hy T) in Ek. discriminate.
  - destruct (known o v) eqn:Ek; [|reflexivity]. apply (give_mono d) in Ek. congruence.
Qed.
Lemma vol_false : match x with ILoad _ _ vol | IStore _ _ vol => vol = false | _ => True end.
Proof using NV Hb Hx. apply (NV x Hin). Qed.

(** what is remembered survives the definition of another id *)
Lemma store_survives r e mm : result x = Some r -> (forall y, y <> r -> e y = env o y) ->
  forall v q a, st_store s v = Some (q, a) -> mm v = mem o v -> exists a0, st_ren s a0 = a /\ available f c (S (S i)) a0 /\ e a0 = Some (mm v).
Proof using WF Hb Hx Re.
  intros Hr He v q a E Em. destruct (r_store _ _ _ _ _ Re v q a E) as (a0 & H1 & H2 & H3). exists a0. split; [exact H1|].
  split; [eapply avail_later; [exact H2|apply Nat.le_succ_diag_r]|]. rewrite He, Em; [exact H3|]. eapply avail_ne; [|exact H2]. split; [exact Hc|]. exists x. auto.
Qed.
Lemma load_survives r e mm : result x = Some r -> (forall y, y <> r -> e y = env o y) ->
  forall v y, st_load s v = Some y -> mm v = mem o v -> available f c (S (S i)) y /\ e y = Some (mm v).
Proof using WF Hb Hx Re.
  intros Hr He v y E Em. destruct (r_load _ _ _ _ _ Re v y E) as [H2 H3]. 
  split; [eapply avail_later; [exact H2|apply Nat.le_succ_diag_r]|]. rewrite He, Em; [exact H3|]. eapply avail_ne; [|exact H2]. split; [exact Hc|]. exists x. auto.
Qed.

Definition sh (d : D) : Prop :=
  match x with
  | IChain _ b _ => exists db v q ds, env o b = Some db /\ as_ptr m db = Some (v, q) /\ d = of_ptr m v (q ++ ds)
  | ICopy _ a => env o a = Some d
  | _ => forall v q, as_ptr m d = Some (v, q) -> known o v = true
  end.
Lemma define_kept r d : result x = Some r -> ~ In (b, i) K -> sh d ->
  env_ok f m fin (available f c (S (S i))) (upd (env o) r (Some d)) (upd (env t) r (Some d)) (known o).
Proof using WF Pf Bf SM Hb Hx R Re.
  intros Hr NK Sh. eapply (env_define c i x r); [exact Hc|exact R|exact Hx|exact Hr|apply Re|left|exact Sh]. split; [reflexivity|].
  eapply kept_fixed; eauto.
Qed.
Lemma define_killed r d : result x = Some r -> env t (fin r) = Some d -> sh d ->
  env_ok f m fin (available f c (S (S i))) (upd (env o) r (Some d)) (env t) (known o).
Proof using WF Pf Bf SM Hb Hx R Re.
  intros Hr Et Sh. eapply (env_define c i x r); [exact Hc|exact R|exact Hx|exact Hr|apply Re|right|exact Sh]. split; [reflexivity|exact Et].
Qed.

Lemma sim_load_none r ptr vol : x = ILoad r ptr vol -> s' = s -> subject f (st_ren s) (st_ren s ptr) = Some None -> outcome.
Proof using All.
  intros E Es Sub. pose proof vol_false as Vf. pose proof here_new as [N1 N2].
  assert (Hp : In ptr (reads x)) by (rewrite E; simpl; auto). pose proof (sim_use ptr Hp) as Sp.
  assert (Hr : result x = Some r) by (rewrite E; reflexivity).
  pose proof St as St'. rewrite E in Vf, St'. subst vol. simpl in St'. destruct (env o ptr) as [dp|] eqn:Ed; [|discriminate].
  destruct (as_ptr m dp) as [[v q]|] eqn:Ep; [|discriminate]. destruct (read m (mem o v) q) as [d|] eqn:Er; [|discriminate].
  destruct (honest m (known o) d) eqn:Hh; [|discriminate]. injection St' as Eo.
  pose proof (not_subject ptr dp v q Hp Sub Ed Ep) as Ng. destruct (not_good_none v Ng) as [Ns Nl].
  assert (NK : ~ In (b, i) K) by (apply not_here; rewrite Es; assumption).
  split; [intros H; contradiction|]. intros _. rewrite E. simpl. rewrite Sp, Ep, <- (mem_same v Ns), Er, (honest_ext d (known o) (known t) (r_known _ _ _ _ _ Re)), Hh.
  eexists. split; [reflexivity|]. rewrite Es, <- Eo. constructor; simpl; try apply Re.
  - apply (define_kept r d Hr NK). unfold sh. rewrite E. intros v0 q0 H. eapply honest_ptr; eauto.
  - intros v0 q0 a H. eapply (store_survives r _ (mem o) Hr); eauto. intros y Ne. apply upd_ne, Ne.
  - intros v0 y H. eapply (load_survives r _ (mem o) Hr); eauto. intros y' Ne. apply upd_ne, Ne.
Qed.
Lemma sim_load_part r ptr vol v : x = ILoad r ptr vol -> s' = load_part v s -> subject f (st_ren s) (st_ren s ptr) = Some (Some (v, false)) -> outcome.
Proof using All.
  intros E Es Sub. pose proof vol_false as Vf. pose proof here_new as [N1 N2].
  assert (Hp : In ptr (reads x)) by (rewrite E; simpl; auto). pose proof (sim_use ptr Hp) as Sp.
  assert (Hr : result x = Some r) by (rewrite E; reflexivity).
  pose proof St as St'. rewrite E in Vf, St'. subst vol. simpl in St'. destruct (env o ptr) as [dp|] eqn:Ed; [|discriminate].
  destruct (as_ptr m dp) as [[v' q]|] eqn:Ep; [|discriminate]. destruct (read m (mem o v') q) as [d|] eqn:Er; [|discriminate].
  destruct (honest m (known o) d) eqn:Hh; [|discriminate]. injection St' as Eo.
  destruct (right_subject ptr dp v false v' q Hp Sub Ed Ep) as [-> _].
  assert (Ss : st_store s' = st_store s) by (rewrite Es; unfold load_part; destruct (st_store s v) as [[q1 a1]|]; reflexivity).
  assert (Sl : st_load s' = st_load s) by (rewrite Es; unfold load_part; destruct (st_store s v) as [[q1 a1]|]; reflexivity).
  assert (Sk : st_kill s' = st_kill s) by (rewrite Es; unfold load_part; destruct (st_store s v) as [[q1 a1]|]; reflexivity).
  assert (Sr : st_ren s' = st_ren s) by (rewrite Es; unfold load_part; destruct (st_store s v) as [[q1 a1]|]; reflexivity).
  assert (NK : ~ In (b, i) K) by (apply not_here; [rewrite Sk; assumption|rewrite Ss; assumption]).
  assert (Ms : mem o v = mem t v).
  { destruct (r_mem _ _ _ _ _ Re v) as [H|(q1 & a1 & H1 & H2)]; [exact H|exfalso]. destruct (i_open _ _ _ _ _ I v q1 a1 H1) as [Nk (j & -> & L)].
    apply (Cl (b, j)); [split|reflexivity|simpl; lia|exact H2].
    - rewrite Sk. exact Nk.
    - left. rewrite Es. unfold load_part. rewrite H1. left. reflexivity. }
  split; [intros H; contradiction|]. intros _. rewrite E. simpl. rewrite Sp, Ep, <- Ms, Er, (honest_ext d (known o) (known t) (r_known _ _ _ _ _ Re)), Hh.
  eexists. split; [reflexivity|]. rewrite <- Eo. constructor; simpl; rewrite ?Ss, ?Sl, ?Sr; try apply Re.
  - apply (define_kept r d Hr NK). unfold sh. rewrite E. intros v0 q0 H. eapply honest_ptr; eauto.
  - intros v0 q0 a H. eapply (store_survives r _ (mem o) Hr); eauto. intros y Ne. apply upd_ne, Ne.
  - intros v0 y H. eapply (load_survives r _ (mem o) Hr); eauto. intros y' Ne. apply upd_ne, Ne.
Qed.
(** a load whose result is replaced by an id that has the same value *)
Lemma sim_replaced r ptr vol y0 repl d : x = ILoad r ptr vol -> s' = replace_load (b, i) r repl s ->
  st_ren s y0 = repl -> available f c (S i) y0 -> env o y0 = Some d -> (forall v q, as_ptr m d = Some (v, q) -> known o v = true) ->
  (o' = mkconfig (upd (env o) r (Some d)) (mem o) (known o) (world o)) -> outcome.
Proof using All.
  intros E Es Ey Ay Dy Kd Eo. assert (Hr : result x = Some r) by (rewrite E; reflexivity).
  assert (Dr : defined_at f r c (S i)) by (split; [exact Hc|exists x; auto]).
  pose proof (avail_ne _ _ _ _ Dr Ay) as Ny.
  assert (Fr : st_ren s r = r) by (eapply fresh_load; [exact WF|exact Hb|rewrite <- E; exact Hx|apply I]).
  assert (IK : In (b, i) K) by (apply Kg; rewrite Es; left; reflexivity).
  split; [|intros H; contradiction]. intros _.
  assert (Ef : fin r = fin y0).
  { apply Co. rewrite Es. simpl. rewrite Fr, replace1_eq, Ey. unfold replace1. destruct (repl =? r); reflexivity. }
  assert (Et : env t (fin r) = Some d) by (rewrite Ef, <- (e_sim _ _ _ _ _ _ _ (r_env _ _ _ _ _ Re) y0 Ay); exact Dy).
  rewrite Es, Eo. constructor; simpl; try apply Re.
  - apply (define_killed r d Hr Et). unfold sh. rewrite E. exact Kd.
  - intros v0. destruct (r_mem _ _ _ _ _ Re v0) as [H|(q1 & a1 & H1 & H2)]; [left; exact H|right]. rewrite H1. eauto.
  - intros v0 q0 a H. destruct (st_store s v0) as [[q1 a1]|] eqn:Ev; [|discriminate]. injection H as <- <-.
    destruct (store_survives r (upd (env o) r (Some d)) (mem o) Hr (fun y Ne => upd_ne _ _ _ _ Ne) v0 q1 a1 Ev eq_refl) as (a0 & <- & H2 & H3).
    exists a0. auto.
  - intros v0 y H. eapply (load_survives r _ (mem o) Hr); eauto. intros y' Ne. apply upd_ne, Ne.
Qed.
Lemma sim_load_whole r ptr vol v : x = ILoad r ptr vol -> s' = load_whole (b, i) v r s -> subject f (st_ren s) (st_ren s ptr) = Some (Some (v, true)) -> outcome.
Proof using All.
  intros E Es Sub. pose proof vol_false as Vf. pose proof here_new as [N1 N2].
  assert (Hp : In ptr (reads x)) by (rewrite E; simpl; auto). pose proof (sim_use ptr Hp) as Sp.
  assert (Hr : result x = Some r) by (rewrite E; reflexivity).
  pose proof St as St'. rewrite E in Vf, St'. subst vol. simpl in St'. destruct (env o ptr) as [dp|] eqn:Ed; [|discriminate].
  destruct (as_ptr m dp) as [[v' q]|] eqn:Ep; [|discriminate]. destruct (read m (mem o v') q) as [d|] eqn:Er; [|discriminate].
  destruct (honest m (known o) d) eqn:Hh; [|discriminate]. injection St' as Eo.
  destruct (right_subject ptr dp v true v' q Hp Sub Ed Ep) as [-> Hq]. rewrite (Hq eq_refl) in *. rewrite (sane_read m SM) in Er. injection Er as <-.
  assert (Kd : forall v0 q0, as_ptr m (mem o v) = Some (v0, q0) -> known o v0 = true) by (intros v0 q0 H; eapply honest_ptr; eauto).
  unfold load_whole in Es. destruct (st_store s v) as [[qs a]|] eqn:Ev; [|destruct (st_load s v) as [r'|] eqn:El].
  - destruct (r_store _ _ _ _ _ Re v qs a Ev) as (a0 & H1 & H2 & H3). eapply sim_replaced; eauto.
  - destruct (r_load _ _ _ _ _ Re v r' El) as [H2 H3]. destruct (i_load _ _ _ _ _ I v r' El) as [H4 _]. eapply sim_replaced; eauto.
  - assert (NK : ~ In (b, i) K) by (apply not_here; rewrite Es; simpl; assumption).
    split; [intros H; contradiction|]. intros _. rewrite E. simpl. rewrite Sp, Ep, <- (mem_same v Ev), (sane_read m SM), (honest_ext _ (known o) (known t) (r_known _ _ _ _ _ Re)), Hh.
    eexists. split; [reflexivity|]. rewrite Es, <- Eo. constructor; simpl; try apply Re.
    + apply (define_kept r _ Hr NK). unfold sh. rewrite E. exact Kd.
    + intros v0 q0 a H. eapply (store_survives r _ (mem o) Hr); eauto. intros y Ne. apply upd_ne, Ne.
    + intros v0 y H. destruct (N.eq_dec v0 v) as [->|Nv].
      * rewrite set_eq in H. injection H as <-. rewrite upd_eq. split; [|reflexivity]. eapply avail_def with (k := S i); [split; [exact Hc|exists x; auto]|lia].
      * rewrite set_ne in H by exact Nv. eapply (load_survives r _ (mem o) Hr); eauto. intros y' Ne. apply upd_ne, Ne.
Qed.

(** ** Stores *)
Lemma store_survives0 mm : result x = None -> forall v q a, st_store s v = Some (q, a) -> mm v = mem o v ->
  exists a0, st_ren s a0 = a /\ available f c (S (S i)) a0 /\ env o a0 = Some (mm v).
Proof using Re.
  intros Hr v q a E Em. destruct (r_store _ _ _ _ _ Re v q a E) as (a0 & H1 & H2 & H3). exists a0. split; [exact H1|].
  split; [eapply avail_later; [exact H2|apply Nat.le_succ_diag_r]|]. rewrite Em. exact H3.
Qed.
Lemma load_survives0 mm : result x = None -> forall v y, st_load s v = Some y -> mm v = mem o v -> available f c (S (S i)) y /\ env o y = Some (mm v).
Proof using Re.
  intros Hr v y E Em. destruct (r_load _ _ _ _ _ Re v y E) as [H2 H3].
  split; [eapply avail_later; [exact H2|apply Nat.le_succ_diag_r]|]. rewrite Em. exact H3.
Qed.
(** the parts of the relation that a store does not touch *)
Lemma store_rel (k : N -> bool) mm tt : result x = None -> (forall v, k v = known o v) ->
  env tt = env t -> world tt = world o -> (forall v, known tt v = known o v) ->
  (forall v, mm v = mem tt v \/ exists q a, st_store s' v = Some (q, a) /\ In q K) ->
  (forall v q a, st_store s' v = Some (q, a) -> exists a0, st_ren s' a0 = a /\ available f c (S (S i)) a0 /\ env o a0 = Some (mm v)) ->
  (forall v y, st_load s' v = Some y -> available f c (S (S i)) y /\ env o y = Some (mm v)) ->
  rel c (S i) s' (mkconfig (env o) mm k (world o)) tt.
Proof using Hx Re.
  intros Hr Hk Et Ew Ek Hm Hs Hl. constructor; simpl; auto.
  - eapply env_known; [eapply env_advance; [exact Hx|exact Hr|rewrite Et; apply Re]|]. intros v H. rewrite Hk. exact H.
  - intros v. rewrite Hk. apply Ek.
  - intros v G. rewrite Hk. apply (r_unknown _ _ _ _ _ Re v G).
  - intros y Hy T. rewrite Hk. apply (r_free _ _ _ _ _ Re y Hy T).
Qed.
Lemma sim_store_none ptr a vol : x = IStore ptr a vol -> s' = s -> subject f (st_ren s) (st_ren s ptr) = Some None -> outcome.
Proof using All.
  intros E Es Sub. pose proof vol_false as Vf. pose proof here_new as [N1 N2].
  assert (Hp : In ptr (reads x)) by (rewrite E; simpl; auto). assert (Ha : In a (reads x)) by (rewrite E; simpl; auto).
  pose proof (sim_use ptr Hp) as Sp. pose proof (sim_use a Ha) as Sa.
  assert (Hr : result x = None) by (rewrite E; reflexivity).
  pose proof St as St'. rewrite E in Vf, St'. subst vol. simpl in St'. destruct (env o ptr) as [dp|] eqn:Ed; [|discriminate].
  destruct (env o a) as [d|] eqn:Ea; [|discriminate].
  destruct (as_ptr m dp) as [[v q]|] eqn:Ep; [|discriminate]. destruct (write m (mem o v) q d) as [y|] eqn:Er; [|discriminate]. injection St' as Eo.
  pose proof (store_known ptr a false d E Ea) as Sk.
  pose proof (not_subject ptr dp v q Hp Sub Ed Ep) as Ng. destruct (not_good_none v Ng) as [Ns Nl].
  assert (NK : ~ In (b, i) K) by (apply not_here; rewrite Es; assumption).
  split; [intros H; contradiction|]. intros _. rewrite E. simpl. rewrite Sp, Sa, Ep, <- (mem_same v Ns), Er.
  eexists. split; [reflexivity|]. rewrite <- Eo. apply store_rel; simpl; auto.
  - apply (r_world _ _ _ _ _ Re).
  - intros v0. rewrite (give_ext d (known o) (known t) v0 (r_known _ _ _ _ _ Re)). apply Sk.
  - intros v0. destruct (N.eq_dec v0 v) as [->|Nv]; [rewrite !upd_eq; auto|]. rewrite !upd_ne by exact Nv. rewrite Es. apply (r_mem _ _ _ _ _ Re).
  - rewrite Es. intros v0 q0 a0 H. assert (Nv : v0 <> v) by congruence. eapply store_survives0; eauto. apply upd_ne, Nv.
  - rewrite Es. intros v0 y0 H. assert (Nv : v0 <> v) by congruence. eapply load_survives0; eauto. apply upd_ne, Nv.
Qed.
Lemma sim_store_part ptr a vol v : x = IStore ptr a vol -> s' = store_part v s -> subject f (st_ren s) (st_ren s ptr) = Some (Some (v, false)) -> outcome.
Proof using All.
  intros E Es Sub. pose proof vol_false as Vf. pose proof here_new as [N1 N2].
  assert (Hp : In ptr (reads x)) by (rewrite E; simpl; auto). assert (Ha : In a (reads x)) by (rewrite E; simpl; auto).
  pose proof (sim_use ptr Hp) as Sp. pose proof (sim_use a Ha) as Sa.
  assert (Hr : result x = None) by (rewrite E; reflexivity).
  pose proof St as St'. rewrite E in Vf, St'. subst vol. simpl in St'. destruct (env o ptr) as [dp|] eqn:Ed; [|discriminate].
  destruct (env o a) as [d|] eqn:Ea; [|discriminate].
  destruct (as_ptr m dp) as [[v' q]|] eqn:Ep; [|discriminate]. destruct (write m (mem o v') q d) as [y|] eqn:Er; [|discriminate]. injection St' as Eo.
  pose proof (store_known ptr a false d E Ea) as Sk. destruct (right_subject ptr dp v false v' q Hp Sub Ed Ep) as [-> _].
  assert (NK : ~ In (b, i) K).
  { apply not_here; rewrite Es; simpl; [assumption|]. intros v0 a0. destruct (N.eq_dec v0 v) as [->|Nv]; [rewrite set_eq; discriminate|]. rewrite set_ne by exact Nv. apply N2. }
  assert (Ms : mem o v = mem t v).
  { destruct (r_mem _ _ _ _ _ Re v) as [H|(q1 & a1 & H1 & H2)]; [exact H|exfalso]. destruct (i_open _ _ _ _ _ I v q1 a1 H1) as [Nk (j & -> & L)].
    apply (Cl (b, j)); [split|reflexivity|simpl; lia|exact H2].
    - rewrite Es. exact Nk.
    - right. rewrite Es. simpl. intros v0 a0. destruct (N.eq_dec v0 v) as [->|Nv]; [rewrite set_eq; discriminate|]. rewrite set_ne by exact Nv. intros H.
      apply Nv. eapply (i_distinct _ _ _ _ _ I); eauto. }
  split; [intros H; contradiction|]. intros _. rewrite E. simpl. rewrite Sp, Sa, Ep, <- Ms, Er.
  eexists. split; [reflexivity|]. rewrite <- Eo. apply store_rel; simpl; auto.
  - apply (r_world _ _ _ _ _ Re).
  - intros v0. rewrite (give_ext d (known o) (known t) v0 (r_known _ _ _ _ _ Re)). apply Sk.
  - intros v0. destruct (N.eq_dec v0 v) as [->|Nv]; [rewrite !upd_eq; auto|]. rewrite !upd_ne by exact Nv. rewrite Es. simpl. rewrite set_ne by exact Nv. apply (r_mem _ _ _ _ _ Re).
  - rewrite Es. simpl. intros v0 q0 a0. destruct (N.eq_dec v0 v) as [->|Nv]; [rewrite set_eq; discriminate|]. rewrite set_ne by exact Nv. intros H. eapply store_survives0; eauto. apply upd_ne, Nv.
  - rewrite Es. simpl. intros v0 y0. destruct (N.eq_dec v0 v) as [->|Nv]; [rewrite set_eq; discriminate|]. rewrite set_ne by exact Nv. intros H. eapply load_survives0; eauto. apply upd_ne, Nv.
Qed.
Lemma sim_store_whole ptr a vol v : x = IStore ptr a vol -> s' = store_whole f (b, i) v (st_ren s a) s ->
  subject f (st_ren s) (st_ren s ptr) = Some (Some (v, true)) -> outcome.
Proof using All.
  intros E Es Sub. pose proof vol_false as Vf. pose proof here_new as [N1 N2].
  assert (Hp : In ptr (reads x)) by (rewrite E; simpl; auto). assert (Ha : In a (reads x)) by (rewrite E; simpl; auto).
  pose proof (sim_use ptr Hp) as Sp. pose proof (sim_use a Ha) as Sa.
  assert (Hr : result x = None) by (rewrite E; reflexivity).
  pose proof St as St'. rewrite E in Vf, St'. subst vol. simpl in St'. destruct (env o ptr) as [dp|] eqn:Ed; [|discriminate].
  destruct (env o a) as [d|] eqn:Ea; [|discriminate].
  destruct (as_ptr m dp) as [[v' q]|] eqn:Ep; [|discriminate]. destruct (write m (mem o v') q d) as [y|] eqn:Er; [|discriminate]. injection St' as Eo.
  pose proof (store_known ptr a false d E Ea) as Sk. destruct (right_subject ptr dp v true v' q Hp Sub Ed Ep) as [-> Hq]. rewrite (Hq eq_refl) in *.
  rewrite (sane_write m SM) in Er. injection Er as <-.
  pose proof (use_avail a Ha) as Av. assert (Av' : available f c (S (S i)) a) by (eapply avail_later; [exact Av|lia]).
  unfold store_whole in Es. set (k1 := match st_store s v with Some _ => _ | None => _ end) in Es.
  destruct (match st_load s v with Some r => st_ren s a =? r | None => false end) eqn:Ek.
  - (* the value is there already *)
    destruct (st_load s v) as [r|] eqn:El; [|discriminate]. apply N.eqb_eq in Ek.
    assert (Ev : st_store s v = None). { destruct (st_store s v) as [q1|] eqn:Ev; [|reflexivity]. destruct (i_one _ _ _ _ _ I v q1 r Ev El). }
    assert (IK : In (b, i) K) by (apply Kg; rewrite Es; left; reflexivity).
    split; [|intros H; contradiction]. intros _. rewrite <- Eo.
    destruct (r_load _ _ _ _ _ Re v r El) as [Ar Dr]. destruct (i_load _ _ _ _ _ I v r El) as [Fr _].
    assert (Ef : fin a = fin r) by (apply co_s; congruence).
    assert (Ed2 : Some d = Some (mem o v)).
    { rewrite <- Dr, <- Ea. rewrite (e_sim _ _ _ _ _ _ _ (r_env _ _ _ _ _ Re) a Av), (e_sim _ _ _ _ _ _ _ (r_env _ _ _ _ _ Re) r Ar). congruence. }
    injection Ed2 as ->.
    assert (Mm : forall v0, upd (mem o) v (mem o v) v0 = mem o v0) by (intros v0; unfold upd; destruct (v0 =? v) eqn:E0; [apply N.eqb_eq in E0; congruence|reflexivity]).
    apply store_rel; simpl; auto.
    + apply (r_world _ _ _ _ _ Re).
    + apply (r_known _ _ _ _ _ Re).
    + intros v0. rewrite Mm, Es. simpl. apply (r_mem _ _ _ _ _ Re).
    + rewrite Es. simpl. intros v0 q0 a0 H. eapply store_survives0; eauto.
    + rewrite Es. simpl. intros v0 y0 H. eapply load_survives0; eauto.
  - assert (Hs : forall v0 q a0, st_store s' v0 = Some (q, a0) -> exists a1, st_ren s' a1 = a0 /\ available f c (S (S i)) a1 /\ env o a1 = Some (upd (mem o) v d v0)).
    { rewrite Es. simpl. intros v0 q0 a0. destruct (N.eq_dec v0 v) as [->|Nv].
      - rewrite set_eq. intros H. injection H as <- <-. exists a. rewrite upd_eq. auto.
      - rewrite set_ne by exact Nv. intros H. eapply store_survives0; eauto. apply upd_ne, Nv. }
    assert (Hl : forall v0 y, st_load s' v0 = Some y -> available f c (S (S i)) y /\ env o y = Some (upd (mem o) v d v0)).
    { rewrite Es. simpl. intros v0 y0. destruct (N.eq_dec v0 v) as [->|Nv]; [rewrite set_eq; discriminate|]. rewrite set_ne by exact Nv. intros H. eapply load_survives0; eauto. apply upd_ne, Nv. }
    split.
    + intros IK. rewrite <- Eo. apply store_rel; auto.
      * apply (r_world _ _ _ _ _ Re).
      * apply (r_known _ _ _ _ _ Re).
      * intros v0. destruct (N.eq_dec v0 v) as [->|Nv].
        -- right. exists (b, i), (st_ren s a). rewrite Es. simpl. rewrite set_eq. auto.
        -- rewrite upd_ne by exact Nv. rewrite Es. simpl. rewrite set_ne by exact Nv. apply (r_mem _ _ _ _ _ Re).
    + intros NK. rewrite E. simpl. rewrite Sp, Sa, Ep, (sane_write m SM). eexists. split; [reflexivity|]. rewrite <- Eo. apply store_rel; simpl; auto.
      * apply (r_world _ _ _ _ _ Re).
      * intros v0. rewrite (give_ext d (known o) (known t) v0 (r_known _ _ _ _ _ Re)). apply Sk.
      * intros v0. destruct (N.eq_dec v0 v) as [->|Nv]; [rewrite !upd_eq; auto|]. rewrite !upd_ne by exact Nv. rewrite Es. simpl. rewrite set_ne by exact Nv. apply (r_mem _ _ _ _ _ Re).
Qed.

(** ** The rest *)
Lemma sim_effect what (res : option N) args : reads x = args -> result x = res ->
  match x with ICall _ _ _ | IOther _ _ _ => True | _ => False end ->
  step m (vars f) x o = effect m (vars f) what res args o -> step m (vars f) (rename fin x) t = effect m (vars f) what res (map fin args) t ->
  st_ren s' = st_ren s -> st_kill s' = st_kill s -> (forall v q, st_store s' v = Some q -> st_store s v = Some q) -> (forall v y, st_load s' v = Some y -> st_load s v = Some y) ->
  outcome.
Proof using All.
  intros Er Hr Hsh E1 E2 Sr Sk Ss Sl. pose proof here_new as [N1 N2].
  assert (NK : ~ In (b, i) K). { apply not_here; [rewrite Sk; exact N1|]. intros v a H. exact (N2 v a (Ss v _ H)). }
  split; [intros H; contradiction|]. intros _. rewrite E2. pose proof St as St'. rewrite E1 in St'. unfold effect in St' |- *.
  rewrite (values_sim _ _ _ _ args (r_env _ _ _ _ _ Re)) by (intros a Ha; apply use_avail; rewrite Er; exact Ha).
  destruct (values (env o) args) as [ds|] eqn:Ev; [|discriminate].
  assert (Ug : forall v, good f v -> fold_right (give m) (known o) ds v = false).
  { intros v G. destruct (fold_right (give m) (known o) ds v) eqn:Ek; [|reflexivity]. exfalso. apply gives_new in Ek. destruct Ek as [Ek|(d & q & Hd & Ep)].
    - rewrite (r_unknown _ _ _ _ _ Re v G) in Ek. discriminate.
    - destruct (values_in _ _ _ _ Ev Hd) as (a & Ha & Ea). rewrite <- Er in Ha. pose proof (good_derived a d v q Ha Ea Ep G) as Dv.
      destruct (supported_derived f v a G Dv) as [n Sup]. destruct (supported_user n f a x Sup Hin Ha) as (n' & _ & U). destruct x; simpl in U, Hsh; try contradiction; discriminate. }
  assert (Kx : forall v, fold_right (give m) (known t) ds v = fold_right (give m) (known o) ds v) by (apply gives_ext, Re).
  assert (Mx : forall v, fold_right (give m) (known o) ds v = true -> mem t v = mem o v).
  { intros v Hk. destruct (r_mem _ _ _ _ _ Re v) as [H|(q & a & H & _)]; [auto|exfalso]. pose proof (i_good_store _ _ _ _ _ I v _ H) as G. rewrite (Ug v G) in Hk. discriminate. }
  assert (Vw : view (vars f) (fold_right (give m) (known t) ds) (mem t) = view (vars f) (fold_right (give m) (known o) ds) (mem o)).
  { unfold view. apply map_ext. intros v. rewrite Kx. destruct (fold_right (give m) (known o) ds (v_id v)) eqn:Ek; [|reflexivity]. rewrite Mx by exact Ek. reflexivity. }
  cbv zeta in St' |- *. rewrite Vw, (r_world _ _ _ _ _ Re). destruct (what ds (view (vars f) (fold_right (give m) (known o) ds) (mem o)) (world o)) as [[[d mm] w]|]; [|discriminate].
  rewrite (honest_ext d _ _ Kx). destruct (honest m (fold_right (give m) (known o) ds) d) eqn:Hh; [|discriminate]. injection St' as Eo.
  eexists. split; [reflexivity|]. rewrite <- Eo.
  assert (Gs : forall v q, st_store s v = Some q -> fold_right (give m) (known o) ds v = false) by (intros v q H; apply Ug; eapply (i_good_store _ _ _ _ _ I); eauto).
  assert (Gl : forall v q, st_load s v = Some q -> fold_right (give m) (known o) ds v = false) by (intros v q H; apply Ug; eapply (i_good_load _ _ _ _ _ I); eauto).
  assert (Re' : forall r d0, result x = Some r -> env_ok f m fin (available f c (S i)) (env o) (env t) (fold_right (give m) (known o) ds) ->
     d0 = d -> env_ok f m fin (available f c (S (S i))) (upd (env o) r (Some d0)) (upd (env t) r (Some d0)) (fold_right (give m) (known o) ds)).
  { intros r d0 Hr' He ->. eapply (env_define c i x r); [exact Hc|exact R|exact Hx|exact Hr'|exact He|left; split; [reflexivity|eapply kept_fixed; eauto]|].
    destruct x; simpl in Hsh; try contradiction; intros v q H; eapply honest_ptr; eauto. }
  assert (Ek : env_ok f m fin (available f c (S i)) (env o) (env t) (fold_right (give m) (known o) ds)).
  { eapply env_known; [apply Re|]. intros v H. apply gives_mono, H. }
  constructor; simpl; auto.
  - destruct res as [r|]; [apply Re'; auto|]. eapply env_advance; eauto.
  - intros y Hy T. apply gives_mono. apply (r_free _ _ _ _ _ Re y Hy T).
  - intros v. rewrite Kx. destruct (fold_right (give m) (known o) ds v) eqn:Ekv; [auto|].
    destruct (r_mem _ _ _ _ _ Re v) as [H|(q & a & H & Hq)]; [auto|].
    destruct (i_open _ _ _ _ _ I v q a H) as [Nk (j & -> & L)].
    destruct (st_store s' v) as [[q1 a1]|] eqn:Ev'.
    + right. exists q1, a1. split; [reflexivity|]. apply Ss in Ev'. rewrite H in Ev'. injection Ev' as <- _. exact Hq.
    + exfalso. apply (Cl (b, j)); [split|reflexivity|simpl; lia|exact Hq].
      * rewrite Sk. exact Nk.
      * right. intros v0 a0 H0. pose proof (Ss _ _ H0) as H1. pose proof (i_distinct _ _ _ _ _ I _ _ _ _ _ H1 H). subst v0. congruence.
  - intros v q a H. rewrite (Gs v _ (Ss _ _ H)). destruct (r_store _ _ _ _ _ Re v q a (Ss _ _ H)) as (a0 & H1 & H2 & H3). exists a0.
    split; [rewrite Sr; exact H1|]. split; [eapply avail_later; [exact H2|lia]|]. destruct res as [r|]; [|exact H3]. rewrite upd_ne; [exact H3|].
    eapply avail_ne; [|exact H2]. split; [exact Hc|]. exists x. auto.
  - intros v y H. rewrite (Gl v _ (Sl _ _ H)). destruct (r_load _ _ _ _ _ Re v y (Sl _ _ H)) as [H2 H3].
    split; [eapply avail_later; [exact H2|lia]|]. destruct res as [r|]; [|exact H3]. rewrite upd_ne; [exact H3|].
    eapply avail_ne; [|exact H2]. split; [exact Hc|]. exists x. auto.
Qed.
Lemma sim_pure r d : result x = Some r -> s' = s -> o' = mkconfig (upd (env o) r (Some d)) (mem o) (known o) (world o) -> sh d ->
  step m (vars f) (rename fin x) t = Some (mkconfig (upd (env t) r (Some d)) (mem t) (known t) (world t)) -> outcome.
Proof using All.
  intros Hr Es Eo Sh E2. pose proof here_new as [N1 N2].
  assert (NK : ~ In (b, i) K) by (apply not_here; rewrite Es; assumption).
  split; [intros H; contradiction|]. intros _. rewrite E2. eexists. split; [reflexivity|]. rewrite Es, Eo. constructor; simpl; try apply Re.
  - apply (define_kept r d Hr NK Sh).
  - intros v0 q0 a H. eapply (store_survives r _ (mem o) Hr); eauto. intros y Ne. apply upd_ne, Ne.
  - intros v0 y H. eapply (load_survives r _ (mem o) Hr); eauto. intros y' Ne. apply upd_ne, Ne.
Qed.
Lemma sim_one : outcome.
Proof using All.
  inversion Dd as [ptr a vol E Sub Es|r ptr vol E Sub Es|ptr a vol v E Sub Es|ptr a vol v E Sub Es|r ptr vol v E Sub Es|r ptr vol v E Sub Es|r fn args E Es|Sub Es].
  - eapply sim_store_none; [exact E|symmetry; exact Es|first [exact Sub|rewrite Es; exact Sub]].
  - eapply sim_load_none; [exact E|symmetry; exact Es|first [exact Sub|rewrite Es; exact Sub]].
  - eapply sim_store_whole; [exact E|symmetry; exact Es|first [exact Sub|rewrite Es; exact Sub]].
  - eapply sim_store_part; [exact E|symmetry; exact Es|first [exact Sub|rewrite Es; exact Sub]].
  - eapply sim_load_whole; [exact E|symmetry; exact Es|first [exact Sub|rewrite Es; exact Sub]].
  - eapply sim_load_part; [exact E|symmetry; exact Es|first [exact Sub|rewrite Es; exact Sub]].
  - assert (Ex := E). eapply (sim_effect (call m fn) (Some r) args).
    + rewrite Ex. reflexivity.
    + rewrite Ex. reflexivity.
    + rewrite Ex. exact Logic.I.
    + rewrite Ex. reflexivity.
    + rewrite Ex. reflexivity.
    + rewrite <- Es. reflexivity.
    + rewrite <- Es. reflexivity.
    + rewrite <- Es. simpl. discriminate.
    + rewrite <- Es. simpl. discriminate.
  - assert (Es' : s' = s) by (symmetry; exact Es).
    assert (Cs : (exists r b0 l, x = IChain r b0 l) \/ (exists r a, x = ICopy r a) \/ exists r op l, x = IOther r op l).
    { clear - Sub. destruct x; try contradiction; eauto 10. }
    pose proof St as St'. destruct Cs as [(r & b0 & l & E)|[(r & a & E)|(r & op & l & E)]].
    + rewrite E in St'. simpl in St'. assert (Vs : values (env t) (map fin l) = values (env o) l).
      { eapply values_sim; [apply Re|]. intros a Ha. apply use_avail. rewrite E. simpl. auto. }
      destruct (env o b0) as [db|] eqn:Eb; [|discriminate]. destruct (values (env o) l) as [ds|]; [|discriminate].
      destruct (as_ptr m db) as [[v q]|] eqn:Ep; [|discriminate]. injection St' as Eo.
      apply (sim_pure r (of_ptr m v (q ++ ds))).
      * rewrite E. reflexivity.
      * exact Es'.
      * symmetry. exact Eo.
      * unfold sh. rewrite E. exists db, v, q, ds. auto.
      * rewrite E. simpl. rewrite (sim_use b0) by (rewrite E; simpl; auto). rewrite Eb, Vs, Ep. reflexivity.
    + rewrite E in St'. simpl in St'. destruct (env o a) as [d|] eqn:Ea; [|discriminate]. injection St' as Eo.
      apply (sim_pure r d).
      * rewrite E. reflexivity.
      * exact Es'.
      * symmetry. exact Eo.
      * unfold sh. rewrite E. exact Ea.
      * rewrite E. simpl. rewrite (sim_use a) by (rewrite E; simpl; auto). rewrite Ea. reflexivity.
    + apply (sim_effect (other m op) r l).
      * rewrite E. reflexivity.
      * rewrite E. reflexivity.
      * rewrite E. exact Logic.I.
      * rewrite E. reflexivity.
      * rewrite E. reflexivity.
      * rewrite Es'. reflexivity.
      * rewrite Es'. reflexivity.
      * rewrite Es'. auto.
      * rewrite Es'. auto.
Qed.
End One.
End Steps.
