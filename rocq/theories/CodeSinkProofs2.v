(** One move of an instruction from a block to the start of a block below it: the function runs as before. *)
From Verif Require Import Base GraphSpec NamedIds NamedIdsProofs DominatorProofs DominatorTreeProofs LocalElimProofs Redundancy RedundancySpec RedundancyProofs RedundancyProofs2 Licm LicmSpec
  LicmProofs LicmProofs2 CodeSink CodeSinkSpec CodeSinkProofs.
Local Open Scope N_scope.

Lemma values_nth {D} (e : N -> option D) : forall args ds k a d, values e args = Some ds -> nth_error args k = Some a -> nth_error ds k = Some d -> e a = Some d.
Proof.
  induction args as [|z args IH]; intros ds [|k] a d H A B; cbn in *; try discriminate; destruct (e z) as [d0|] eqn:E; try discriminate; destruct (values e args) as [ds0|]; try discriminate; injection H as <-; cbn in B.
  - congruence.
  - eapply IH; eauto.
Qed.
Lemma in_body f c j y : In c (blocks f) -> nth_error (body c) j = Some y -> In y (all_insts f).
Proof. intros Hc Hj. unfold all_insts. apply in_or_app. right. apply in_flat_map. exists c. split; [exact Hc|]. eapply nth_error_In; eauto. Qed.
Lemma in_body' f c y : In c (blocks f) -> In y (body c) -> In y (all_insts f).
Proof. intros Hc Hj. unfold all_insts. apply in_or_app. right. apply in_flat_map. eauto. Qed.
(** an id is the result of one instruction *)
Lemma one_def f y y' a : well_formed f -> In y (all_insts f) -> In y' (all_insts f) -> result y = Some a -> result y' = Some a -> y = y'.
Proof.
  intros WF H H' R R'. unfold all_insts in *.
  assert (K : forall z z', In z (prelude f) -> In z' (flat_map body (blocks f)) -> result z = Some a -> result z' = Some a -> False).
  { intros z z' Hz Hz' Rz Rz'. apply in_split in Hz. destruct Hz as (l1 & l2 & E). apply in_flat_map in Hz'. destruct Hz' as (c & Hc & Hz'). apply In_nth_error in Hz'. destruct Hz' as [j Hj].
    apply (proj1 (wf_prelude f WF l1 z l2 a E Rz) c (S j)). split; [exact Hc|]. eauto. }
  apply in_app_or in H. apply in_app_or in H'. destruct H as [H|H], H' as [H'|H'].
  - apply in_split in H. destruct H as (l1 & l2 & E). destruct (wf_prelude f WF l1 y l2 a E R) as (_ & B & _).
    rewrite E in H'. apply in_app_or in H'. destruct H' as [H'|[H'|H']]; [|exact H'|destruct (B y' H' R')].
    apply in_split in H'. destruct H' as (l3 & l4 & ->). rewrite <- app_assoc in E. cbn [app] in E. destruct (wf_prelude f WF l3 y' _ a E R') as (_ & B' & _).
    destruct (B' y); [|exact R]. apply in_or_app. right. left. reflexivity.
  - destruct (K y y'); auto.
  - destruct (K y' y); auto.
  - apply in_flat_map in H. destruct H as (c & Hc & H). apply In_nth_error in H. destruct H as [j Hj]. apply in_flat_map in H'. destruct H' as (c' & Hc' & H'). apply In_nth_error in H'. destruct H' as [j' Hj'].
    assert (D1 : defined_at f a c (S j)) by (split; eauto). assert (D2 : defined_at f a c' (S j')) by (split; eauto).
    destruct (wf_once f WF _ _ _ _ _ D1 D2) as [-> E]. injection E as ->. congruence.
Qed.
Lemma no_phi_def f y a c p : well_formed f -> In y (all_insts f) -> result y = Some a -> In c (blocks f) -> In p (phis c) -> p_res p <> a.
Proof.
  intros WF H R Hc Hp E. assert (D0 : defined_at f a c 0) by (split; eauto). unfold all_insts in H. apply in_app_or in H. destruct H as [H|H].
  - apply in_split in H. destruct H as (l1 & l2 & E'). exact (proj1 (wf_prelude f WF l1 y l2 a E' R) _ _ D0).
  - apply in_flat_map in H. destruct H as (c' & Hc' & H). apply In_nth_error in H. destruct H as [j Hj]. assert (D1 : defined_at f a c' (S j)) by (split; eauto).
    destruct (wf_once f WF _ _ _ _ _ D0 D1) as [_ E']. discriminate.
Qed.

(** ** Pointers *)
Section Pointers.
Context {D W : Type} (m : machine D W) (x : info) (points : D -> N -> Prop) (f : func).
Hypothesis WF : well_formed f.
Hypothesis MR : memory_rules m x points.
Hypothesis VO : variables_outside x f.
Definition pointing (e : N -> option D) : Prop := forall y v q, rests_on x f y v -> e y = Some q -> points q v.
Lemma rests_inv z v y : rests_on x f z v -> In y (all_insts f) -> result y = Some z ->
  (exists a, y = ICopy z a /\ rests_on x f a v) \/ exists op a l, y = IPure z op (a :: l) /\ path_op (i_kind x op) /\ rests_on x f a v.
Proof using WF VO.
  intros H Hy R. destruct H as [v Nv|z a v Hi Ha|z op a l v Hi Po Ha].
  - destruct (proj1 (VO v Nv) y Hy R).
  - left. exists a. split; [|exact Ha]. apply (one_def f _ _ z WF Hy Hi R eq_refl).
  - right. exists op, a, l. split; [|auto]. apply (one_def f _ _ z WF Hy Hi R eq_refl).
Qed.
Lemma pointing_step y o o' : In y (all_insts f) -> step m y o = Some o' -> pointing (env o) -> pointing (env o').
Proof using WF MR VO.
  intros Hy Hs P z v q Hz Ez. destruct (result y) as [z'|] eqn:R; [|rewrite (step_other m y o o' z Hs) in Ez by congruence; eauto].
  destruct (N.eq_dec z' z) as [->|Nz]; [|rewrite (step_other m y o o' z Hs) in Ez by congruence; eauto].
  destruct (rests_inv z v y Hz Hy R) as [(a & -> & Ha)|(op & a & l & -> & Po & Ha)]; cbn [step] in Hs.
  - destruct (env o a) as [d|] eqn:Ea; [|discriminate]. injection Hs as <-. cbn in Ez. rewrite upd_same in Ez. injection Ez as <-. eauto.
  - cbn [values] in Hs. destruct (env o a) as [p|] eqn:Ea; [|discriminate]. destruct (values (env o) l) as [ds|]; [|discriminate]. destruct (pure m op (p :: ds)) as [d|] eqn:Ep; [|discriminate].
    injection Hs as <-. cbn in Ez. rewrite upd_same in Ez. injection Ez as <-. eapply (mr_path _ _ _ MR); eauto.
Qed.
Lemma pointing_steps l : forall o o', (forall y, In y l -> In y (all_insts f)) -> steps m l o = Some o' -> pointing (env o) -> pointing (env o').
Proof using WF MR VO.
  induction l as [|y l IH]; intros o o' Hl H P; cbn [steps] in H; [injection H as <-; exact P|]. destruct (step m y o) as [o1|] eqn:Hs; [|discriminate].
  apply (IH o1 o'); [intros z Hz; apply Hl; right; exact Hz|exact H|]. apply (pointing_step y o o1); auto. apply Hl. left. reflexivity.
Qed.
Lemma rests_no_phi z v c p : rests_on x f z v -> In c (blocks f) -> In p (phis c) -> p_res p <> z.
Proof using WF VO.
  intros H Hc Hp. destruct H as [v Nv|z a v Hi Ha|z op a l v Hi Po Ha].
  - exact (proj2 (VO v Nv) c p Hc Hp).
  - exact (no_phi_def f _ z c p WF Hi eq_refl Hc Hp).
  - exact (no_phi_def f _ z c p WF Hi eq_refl Hc Hp).
Qed.
Lemma pointing_phis from c (o o' : config D W) : In c (blocks f) -> phis_from from (phis c) o o = Some o' -> pointing (env o) -> pointing (env o').
Proof using WF VO.
  intros Hc Hp P z v q Hz Ez. rewrite (proj2 (phis_other from _ _ _ _ Hp) z) in Ez; [eauto|]. intros I. apply in_map_iff in I. destruct I as (p & E & Ip). exact (rests_no_phi z v c p Hz Hc Ip E).
Qed.
Lemma pointing_start globals : variables_point x points globals -> starts_clean f globals -> pointing globals.
Proof using.
  intros Vp Cl y v q H E. destruct H as [v Nv|z a v Hi Ha|z op a l v Hi Po Ha].
  - eauto.
  - rewrite (Cl _ z Hi eq_refl) in E. discriminate.
  - rewrite (Cl _ z Hi eq_refl) in E. discriminate.
Qed.
Lemma pointing_fits (o : config D W) args ds : pointing (env o) -> values (env o) args = Some ds -> fits x f points args ds.
Proof using. intros P V k a d v A B H. exact (P a v d H (values_nth _ _ _ _ _ _ V A B)). Qed.
End Pointers.

(** the instructions that are moved *)
Definition movable {D W} (m : machine D W) (x : info) (points : D -> N -> Prop) (f : func) (i : inst) (r : N) : Prop :=
  (exists op args, i = IPure r op args) \/
  exists op p v, i = IOwn (Some r) op [p] /\ i_kind x op = KLoad /\ rests_on x f p v /\ not_written m x points f v.

Section Sim.
Context {D W : Type} (m : machine D W) (x : info) (points : D -> N -> Prop).
Variable f : func.
Variable t : N.
Hypothesis WF : well_formed f.
Variables (b : block) (kept rest : list inst) (i : inst) (r : N).
Hypothesis Hb : In b (blocks f).
Hypothesis Rb : reach f b.
Hypothesis Bd : body b = kept ++ i :: rest.
Hypothesis Ri : result i = Some r.
Hypothesis Ht : In t (map label (blocks f)).
Hypothesis Ne : t <> label b.
Hypothesis Dt : dominates (succs f) (entry f) (label b) t.
Hypothesis Cut : forall u l, In u (uses f r) -> path (succs f) (label b) u l -> In t l.
Hypothesis MR : memory_rules m x points.
Hypothesis VO : variables_outside x f.
Hypothesis Mv : movable m x points f i r.
Notation mv := (mv t b kept rest i).
Notation n := (n kept).

Definition value_of (c : config D W) : option D :=
  match values (env c) (reads i) with
  | None => None
  | Some ds => match i with IPure _ op _ => pure m op ds | ICopy _ _ => None | IOwn _ op _ => option_map fst (own m op ds (world c)) end
  end.
Lemma i_step c c' : step m i c = Some c' -> exists d, value_of c = Some d /\ env c' r = Some d /\ world c' = world c.
Proof using WF Hb Rb Bd Ri Ht Ne Dt Cut MR VO Mv.
  intros H. unfold value_of. destruct Mv as [(op & args & ->)|(op & p & v & -> & Kl & _)]; cbn [step reads] in *.
  - destruct (values (env c) args) as [ds|]; [|discriminate]. destruct (pure m op ds) as [d|]; [|discriminate]. injection H as <-. exists d. cbn. rewrite upd_same. auto.
  - destruct (values (env c) [p]) as [ds|]; [|discriminate]. destruct (own m op ds (world c)) as [[d w]|] eqn:Eo; [|discriminate]. injection H as <-. exists d. cbn. rewrite upd_same.
    split; [reflexivity|]. split; [reflexivity|]. exact (mr_load _ _ _ MR _ _ _ _ _ Kl Eo).
Qed.
Lemma i_steps c d : value_of c = Some d -> exists c', step m i c = Some c' /\ env c' r = Some d /\ world c' = world c.
Proof using WF Hb Rb Bd Ri Ht Ne Dt Cut MR VO Mv.
  unfold value_of. destruct Mv as [(op & args & ->)|(op & p & v & -> & Kl & _)]; cbn [step reads]; intros H.
  - destruct (values (env c) args) as [ds|]; [|discriminate]. rewrite H. eexists. split; [reflexivity|]. cbn. rewrite upd_same. auto.
  - destruct (values (env c) [p]) as [ds|]; [|discriminate]. destruct (own m op ds (world c)) as [[d' w]|] eqn:Eo; [|discriminate]. cbn in H. injection H as ->. eexists. split; [reflexivity|]. cbn. rewrite upd_same.
    split; [reflexivity|]. exact (mr_load _ _ _ MR _ _ _ _ _ Kl Eo).
Qed.
Lemma value_ext c c' : world c' = world c -> (forall a, In a (reads i) -> env c' a = env c a) -> value_of c' = value_of c.
Proof using. intros Ew Ee. unfold value_of. rewrite (values_ext (env c') (env c) (reads i) Ee), Ew. reflexivity. Qed.
Lemma value_step y o o' : In y (all_insts f) -> (forall a, In a (reads i) -> result y <> Some a) -> pointing x points f (env o) -> step m y o = Some o' -> value_of o' = value_of o.
Proof using WF Hb Rb Bd Ri Ht Ne Dt Cut MR VO Mv.
  intros Hy Na P Hs. assert (Ee : forall a, In a (reads i) -> env o' a = env o a) by (intros a Ha; apply (step_other m y o o' a Hs (Na a Ha))).
  unfold value_of. rewrite (values_ext (env o') (env o) (reads i) Ee). destruct (values (env o) (reads i)) as [ds|] eqn:V; [|reflexivity].
  destruct Mv as [(op & args & ->)|(op & p & v & -> & Kl & Hr & Nw)]; [reflexivity|]. cbn [reads values] in V. destruct (env o p) as [q|] eqn:Ep; [|discriminate]. injection V as <-.
  destruct y as [r0 op0 args0|r0 a0|r0 op0 args0]; cbn [step] in Hs.
  - destruct (values (env o) args0) as [ds0|]; [|discriminate]. destruct (pure m op0 ds0); [|discriminate]. injection Hs as <-. reflexivity.
  - destruct (env o a0); [|discriminate]. injection Hs as <-. reflexivity.
  - destruct (values (env o) args0) as [ds0|] eqn:V0; [|discriminate]. destruct (own m op0 ds0 (world o)) as [[d w]|] eqn:Eo; [|discriminate]. injection Hs as <-. cbn [world].
    apply (Nw r0 op0 args0 ds0 Hy (pointing_fits x points f o args0 ds0 P V0) _ _ _ Eo); [exact Kl|]. exact (P p v q Hr Ep).
Qed.
Lemma value_steps l : forall o o', (forall y, In y l -> In y (all_insts f)) -> (forall y a, In y l -> In a (reads i) -> result y <> Some a) -> pointing x points f (env o) ->
  steps m l o = Some o' -> value_of o' = value_of o.
Proof using WF Hb Rb Bd Ri Ht Ne Dt Cut MR VO Mv.
  induction l as [|y l IH]; intros o o' Hl Na P H; cbn [steps] in H; [injection H as <-; reflexivity|]. destruct (step m y o) as [o1|] eqn:Hs; [|discriminate].
  assert (Hy : In y (all_insts f)) by (apply Hl; left; reflexivity). rewrite (IH o1 o').
  - apply (value_step y o o1); auto. intros a Ha. apply Na; [left; reflexivity|exact Ha].
  - intros z Hz. apply Hl. right. exact Hz.
  - intros z a Hz Ha. apply Na; [right; exact Hz|exact Ha].
  - exact (pointing_step m x points f WF MR VO y o o1 Hy Hs P).
  - exact H.
Qed.

(** both sides *)
Definition alike (o u : config D W) : Prop := world u = world o /\ forall y, y <> r -> env u y = env o y.
Lemma same_step y o u o' : alike o u -> values (env u) (reads y) = values (env o) (reads y) -> step m y o = Some o' -> exists u', step m y u = Some u' /\ alike o' u'.
Proof using.
  intros [Ew Ey] Va Hs. destruct y as [r0 op args|r0 a|r0 op args]; cbn [step reads] in *.
  - rewrite Va. destruct (values (env o) args) as [ds|]; [|discriminate]. destruct (pure m op ds) as [d|]; [|discriminate]. injection Hs as <-. eexists. split; [reflexivity|].
    split; [exact Ew|]. intros y Ny. cbn. unfold upd. destruct (y =? r0); [reflexivity|apply Ey, Ny].
  - cbn [values] in Va. destruct (env u a) as [d'|], (env o a) as [d|]; try discriminate. injection Va as ->. injection Hs as <-. eexists. split; [reflexivity|].
    split; [exact Ew|]. intros y Ny. cbn. unfold upd. destruct (y =? r0); [reflexivity|apply Ey, Ny].
  - rewrite Va. destruct (values (env o) args) as [ds|]; [|discriminate]. rewrite Ew. destruct (own m op ds (world o)) as [[d w]|]; [|discriminate]. injection Hs as <-. eexists. split; [reflexivity|].
    split; [reflexivity|]. intros y Ny. cbn. destruct r0 as [r0|]; [unfold upd; destruct (y =? r0); [reflexivity|apply Ey, Ny]|apply Ey, Ny].
Qed.
Lemma seg l : forall o u o', (forall y, In y l -> result y <> Some r) -> alike o u -> (env u r = env o r \/ forall y, In y l -> ~ In r (reads y)) -> steps m l o = Some o' ->
  exists u', steps m l u = Some u' /\ alike o' u' /\ env o' r = env o r /\ env u' r = env u r.
Proof using.
  induction l as [|y l IH]; intros o u o' Nr Al C H; cbn [steps] in *; [injection H as <-; exists u; auto|]. destruct (step m y o) as [o1|] eqn:Hs; [|discriminate].
  assert (Va : values (env u) (reads y) = values (env o) (reads y)).
  { apply values_ext. intros a Ha. destruct (N.eq_dec a r) as [->|Na]; [|apply Al, Na]. destruct C as [C|C]; [exact C|]. destruct (C y (or_introl eq_refl) Ha). }
  destruct (same_step y o u o1 Al Va Hs) as (u1 & Hu & Al1). rewrite Hu. assert (N1 : result y <> Some r) by (apply Nr; left; reflexivity).
  pose proof (step_other m y o o1 r Hs N1) as E1. pose proof (step_other m y u u1 r Hu N1) as E2.
  destruct (IH o1 u1 o') as (u' & Hu' & Al' & E3 & E4).
  - intros z Hz. apply Nr. right. exact Hz.
  - exact Al1.
  - destruct C as [C|C]; [left; congruence|right; intros z Hz; apply C; right; exact Hz].
  - exact H.
  - exists u'. split; [exact Hu'|]. split; [exact Al'|]. split; congruence.
Qed.

(** block [t] can be reached without going through [b] *)
Definition avoid (c : N) : Prop := exists l, path (succs f) c t l /\ ~ In (label b) l.
(** the block can be entered after [b] with the instruction still to be run *)
Definition lost (c : N) : Prop := exists l y, path (succs f) (label b) y l /\ ~ In t l /\ In c (succs f y).
Record sim (o u : config D W) (c : block) : Prop := {
  s_alike : alike o u;
  s_point : pointing x points f (env o);
  s_val : avoid (label c) -> exists d, env o r = Some d /\ value_of o = Some d;
  s_eq : env u r = env o r \/ lost (label c) }.

Lemma avoid_b : ~ avoid (label b).
Proof using. intros (l & P & Nb). destruct (path_first _ _ _ _ P) as [l' ->]. apply Nb. left. reflexivity. Qed.
Lemma join_avoid a c l : path (succs f) a c l -> ~ In (label b) l -> avoid c -> exists l', path (succs f) a t l' /\ ~ In (label b) l'.
Proof using.
  intros P Nb (l2 & P2 & N2). destruct (path_uncons _ _ _ _ P2) as [[-> E]|(d & l3 & -> & Hd & P3)]; [rewrite <- E in P; eauto|].
  exists (l ++ l3). split; [exact (path_join _ _ _ _ _ _ P Hd _ P3)|]. intros I. apply in_app_or in I. destruct I as [I|I]; [exact (Nb I)|]. apply N2. right. exact I.
Qed.
Lemma entry_avoid : ~ avoid (entry f).
Proof using WF Hb Rb Bd Ri Ht Ne Dt Cut MR VO Mv. intros (l & P & Nb). exact (Nb (Dt l P)). Qed.
(** such a block sets none of the operands *)
Lemma no_def c a j : In c (blocks f) -> reach f c -> avoid (label c) -> In a (reads i) -> ~ defined_at f a c j.
Proof using WF Hb Rb Bd Ri Ht Ne Dt Cut MR VO Mv.
  intros Hc R Av Ha Df. assert (Nb : label c <> label b) by (intros E; rewrite E in Av; exact (avoid_b Av)).
  assert (Hi : nth_error (body b) (length kept) = Some i) by (rewrite Bd, nth_error_app2, Nat.sub_diag by (clear; lia); reflexivity).
  destruct (wf_uses f WF b _ i a Hb Rb Hi Ha) as [Nd|(c0 & k & D0 & C)]; [exact (Nd _ _ Df)|]. destruct (wf_once f WF _ _ _ _ _ Df D0) as [-> ->].
  destruct C as [[-> _]|[_ C]]; [congruence|]. destruct R as [l P]. destruct (DominatorProofs.path_simple _ _ _ _ P) as (l' & P' & Nd & _).
  destruct (in_dec N.eq_dec (label b) l') as [I|I].
  - destruct (DominatorProofs.path_prefix _ _ _ _ _ P' I) as (l1 & l2 & -> & P1). pose proof (C _ P1) as I1. destruct (path_end _ _ _ _ P') as [l3 E3]. destruct (path_end _ _ _ _ P1) as [l4 E4].
    destruct l2 as [|z l2] using rev_ind.
    + rewrite app_nil_r in E3. rewrite E4 in E3. apply app_inj_tail in E3. destruct E3 as [_ E3]. congruence.
    + rewrite app_assoc in E3. apply app_inj_tail in E3. destruct E3 as [_ ->]. rewrite app_assoc in Nd. apply NoDup_remove_2 in Nd. rewrite app_nil_r in Nd. apply Nd. apply in_or_app. left. exact I1.
  - destruct (join_avoid _ _ _ P' I Av) as (l2 & P2 & N2). exact (N2 (Dt l2 P2)).
Qed.
Lemma lost_no_use c : lost (label c) -> label c <> t -> ~ In (label c) (uses f r).
Proof using WF Hb Rb Bd Ri Ht Ne Dt Cut MR VO Mv.
  intros (l & y & P & Nt & Hs) Nc U. pose proof (Cut _ _ U (path_step _ _ _ _ _ P Hs)) as I. apply in_app_or in I. destruct I as [I|[E|[]]]; [exact (Nt I)|congruence].
Qed.
Lemma b_no_use : ~ In (label b) (uses f r).
Proof using WF Hb Rb Bd Ri Ht Ne Dt Cut MR VO Mv. intros U. destruct (Cut _ _ U (path_here _ _)) as [E|[]]. congruence. Qed.
Lemma no_use_reads c y : In c (blocks f) -> ~ In (label c) (uses f r) -> In y (body c) -> ~ In r (reads y).
Proof using. intros Hc U Hy Hr. apply U. apply In_nth_error in Hy. destruct Hy as [j Hj]. eapply uses_body; eauto. Qed.
Lemma def_i : defined_at f r b (S (length kept)).
Proof using WF Hb Rb Bd Ri Ht Ne Dt Cut MR VO Mv. split; [exact Hb|]. exists i. rewrite Bd, nth_error_app2, Nat.sub_diag by (clear; lia). auto. Qed.
Lemma not_r c j y : In c (blocks f) -> nth_error (body c) j = Some y -> (label c = label b -> j <> length kept) -> result y <> Some r.
Proof using WF Hb Rb Bd Ri Ht Ne Dt Cut MR VO Mv.
  intros Hc Hj Nj R. assert (Df : defined_at f r c (S j)) by (split; eauto). destruct (wf_once f WF _ _ _ _ _ Df def_i) as [-> E]. injection E as E. exact (Nj eq_refl E).
Qed.

Lemma block_sim c o u o' : In c (blocks f) -> reach f c -> sim o u c -> steps m (body c) o = Some o' ->
  exists u', steps m (body (mv c)) u = Some u' /\ alike o' u' /\ pointing x points f (env o') /\
    (label c = label b \/ avoid (label c) -> exists d, env o' r = Some d /\ value_of o' = Some d) /\
    (env u' r = env o' r \/ (~ In (label c) (uses f r) /\ label c <> t /\ (label c = label b \/ lost (label c)))).
Proof using WF Hb Rb Bd Ri Ht Ne Dt Cut MR VO Mv.
  intros Hc R [Al Po Va Eq] H. assert (Po' : pointing x points f (env o')).
  { apply (pointing_steps m x points f WF MR VO (body c) o o'); auto. intros y Hy. exact (in_body' f c y Hc Hy). }
  destruct (N.eq_dec (label c) (label b)) as [E|E].
  - assert (c = b) by (apply (same_label f WF); auto). subst c. clear E. rewrite (body_b t b kept rest i Ne). rewrite Bd in H.
    apply (LicmProofs2.steps_split m) in H. destruct H as (o1 & H1 & H2). cbn [steps] in H2. destruct (step m i o1) as [o2|] eqn:Hs; [|discriminate].
    assert (Nk : forall y, In y kept -> result y <> Some r /\ ~ In r (reads y)).
    { intros y Hy. pose proof (no_use_reads b y Hb b_no_use) as K. split; [|apply K; rewrite Bd; apply in_or_app; left; exact Hy]. apply In_nth_error in Hy. destruct Hy as [j Hj].
      assert (L : (j < length kept)%nat) by (apply nth_error_Some; congruence). apply (not_r b j y Hb); [rewrite Bd, nth_error_app1 by exact L; exact Hj|clear - L; lia]. }
    assert (Nr : forall y, In y rest -> result y <> Some r /\ ~ In r (reads y) /\ forall a, In a (reads i) -> result y <> Some a).
    { intros y Hy. pose proof (no_use_reads b y Hb b_no_use) as K. pose proof Hy as Hy'. apply In_nth_error in Hy. destruct Hy as [j Hj].
      assert (Hj' : nth_error (body b) (length kept + S j) = Some y).
      { rewrite Bd, nth_error_app2 by (clear; lia). replace (length kept + S j - length kept)%nat with (S j) by (clear; lia). exact Hj. }
      split; [apply (not_r b _ y Hb Hj'); clear; lia|]. split; [apply K; rewrite Bd; apply in_or_app; right; right; exact Hy'|].
      intros a Ha Ra. assert (Df : defined_at f a b (S (length kept + S j))) by (split; eauto).
      assert (Hi : nth_error (body b) (length kept) = Some i) by (rewrite Bd, nth_error_app2, Nat.sub_diag by (clear; lia); reflexivity).
      destruct (wf_uses f WF b _ i a Hb Rb Hi Ha) as [Nd|(c0 & k & D0 & C)]; [exact (Nd _ _ Df)|]. destruct (wf_once f WF _ _ _ _ _ D0 Df) as [-> ->].
      destruct C as [[_ L]|[C _]]; [clear - L; lia|congruence]. }
    destruct (seg kept o u o1) as (u1 & Hu1 & Al1 & _ & _); auto; [intros y Hy; apply Nk, Hy|right; intros y Hy; apply Nk, Hy|].
    destruct (i_step o1 o2 Hs) as (d & Vd & Ed & Ew).
    assert (Al2 : alike o2 u1).
    { destruct Al1 as [A1 A2]. split; [congruence|]. intros y Ny. rewrite (A2 y Ny). symmetry. apply (step_other m i o1 o2 y Hs). congruence. }
    destruct (seg rest o2 u1 o') as (u' & Hu' & Al' & E3 & E4); auto; [intros y Hy; exact (proj1 (Nr y Hy))|right; intros y Hy; exact (proj1 (proj2 (Nr y Hy)))|].
    exists u'. rewrite (LicmProofs2.steps_join m _ _ _ _ Hu1). split; [exact Hu'|]. split; [exact Al'|]. split; [exact Po'|]. split.
    + intros _. exists d. split; [congruence|].
      assert (P1 : pointing x points f (env o1)).
      { apply (pointing_steps m x points f WF MR VO kept o o1); auto. intros y Hy. apply (in_body' f b y Hb). rewrite Bd. apply in_or_app. left. exact Hy. }
      assert (P2 : pointing x points f (env o2)).
      { apply (pointing_step m x points f WF MR VO i o1 o2); auto. apply (in_body' f b i Hb). rewrite Bd. apply in_or_app. right. left. reflexivity. }
      rewrite (value_steps rest o2 o').
      * rewrite <- Vd. apply value_ext; [exact Ew|]. intros a Ha. apply (step_other m i o1 o2 a Hs). intros Ea.
        apply (CodeSinkProofs.reads_ne f t WF b kept rest i r Hb Rb Bd Ri Ht Ne Dt Cut a Ha). congruence.
      * intros y Hy. apply (in_body' f b y Hb). rewrite Bd. apply in_or_app. right. right. exact Hy.
      * intros y a Hy. exact (proj2 (proj2 (Nr y Hy)) a).
      * exact P2.
      * exact H2.
    + right. split; [exact b_no_use|]. split; [congruence|]. left. reflexivity.
  - assert (Nr : forall y, In y (body c) -> result y <> Some r).
    { intros y Hy. apply In_nth_error in Hy. destruct Hy as [j Hj]. apply (not_r c j y Hc Hj). congruence. }
    assert (Vs : avoid (label c) -> exists d, env o' r = Some d /\ value_of o' = Some d).
    { intros Av. destruct (Va Av) as (d & E1 & E2). exists d.
      assert (E3 : env o' r = env o r).
      { clear - H Nr. revert o H. induction (body c) as [|y l IH]; intros o H; cbn [steps] in H; [congruence|]. destruct (step m y o) as [o1|] eqn:Hs; [|discriminate].
        rewrite (IH (fun z Hz => Nr z (or_intror Hz)) o1 H). apply (step_other m y o o1 r Hs). apply Nr. left. reflexivity. }
      split; [congruence|]. rewrite (value_steps (body c) o o'); auto.
      - intros y Hy. exact (in_body' f c y Hc Hy).
      - intros y a Hy Ha Ra. apply In_nth_error in Hy. destruct Hy as [j Hj]. apply (no_def c a (S j) Hc R Av Ha). split; eauto. }
    destruct (N.eq_dec (label c) t) as [Et|Et].
    + rewrite (body_t t b kept rest i Ne c Et). assert (Av : avoid (label c)).
      { rewrite Et. exists [t]. split; [constructor|]. intros [e|[]]. congruence. }
      destruct (Va Av) as (d & E1 & E2).
      assert (Vu : value_of u = Some d).
      { rewrite <- E2. apply value_ext; [apply Al|]. intros a Ha. apply Al. exact (CodeSinkProofs.reads_ne f t WF b kept rest i r Hb Rb Bd Ri Ht Ne Dt Cut a Ha). }
      destruct (i_steps u d Vu) as (u1 & Hu1 & Eu & Ew). cbn [steps]. rewrite Hu1.
      assert (Al1 : alike o u1).
      { destruct Al as [A1 A2]. split; [congruence|]. intros y Ny. rewrite (step_other m i u u1 y Hu1) by congruence. apply A2, Ny. }
      destruct (seg (body c) o u1 o') as (u' & Hu' & Al' & E3 & E4); auto; [left; congruence|].
      exists u'. split; [exact Hu'|]. split; [exact Al'|]. split; [exact Po'|]. split; [intros _; apply Vs, Av|]. left. congruence.
    + rewrite (body_other t b kept rest i c Et E).
      assert (Eq' : env u r = env o r \/ (lost (label c) /\ ~ In (label c) (uses f r))).
      { destruct Eq as [Eq|Lo]; [left; exact Eq|right; split; [exact Lo|apply lost_no_use; auto]]. }
      destruct (seg (body c) o u o') as (u' & Hu' & Al' & E3 & E4); auto.
      { destruct Eq' as [Eq'|[_ U]]; [left; exact Eq'|right; intros y Hy; apply (no_use_reads c y Hc U Hy)]. }
      exists u'. split; [exact Hu'|]. split; [exact Al'|]. split; [exact Po'|]. split; [intros [e|Av]; [congruence|apply Vs, Av]|].
      destruct Eq' as [Eq'|[Lo U]]; [left; congruence|right; auto].
Qed.
Lemma phis_alike from (o u : config D W) : forall ps x y x', (forall q a l, In q ps -> find (fun a => snd a =? from) (p_args q) = Some (a, l) -> env u a = env o a) ->
  alike x y -> phis_from from ps o x = Some x' -> exists y', phis_from from ps u y = Some y' /\ alike x' y'.
Proof using.
  induction ps as [|q ps IH]; intros z y x' Ha Al H; cbn [phis_from] in *; [injection H as <-; eauto|].
  destruct (find (fun a => snd a =? from) (p_args q)) as [[a l]|] eqn:F; [|discriminate]. rewrite (Ha q a l (or_introl eq_refl) F). destruct (env o a) as [d|]; [|discriminate].
  apply (IH _ (mkconfig (upd (env y) (p_res q) (Some d)) (world y)) x' (fun q' a' l' Hq => Ha q' a' l' (or_intror Hq))) in H; [exact H|].
  destruct Al as [Ew Ey]. split; [exact Ew|]. intros w Nw. cbn. unfold upd. destruct (w =? p_res q); [reflexivity|apply Ey, Nw].
Qed.
Lemma run_sim : forall k c o u s, In c (blocks f) -> reach f c -> sim o u c -> run_from m (blocks f) k (label c) o = Some s ->
  run_from m (map mv (blocks f)) k (label c) u = Some s.
Proof using WF Hb Rb Bd Ri Ht Ne Dt Cut MR VO Mv.
  induction k as [|k IH]; intros c o u s Hc R S H; cbn [run_from] in *.
  - rewrite (proj1 (s_alike _ _ _ S)). exact H.
  - rewrite find_mv. rewrite (find_block f c WF Hc) in *. destruct (steps m (body c) o) as [o1|] eqn:Hs; [|discriminate].
    destruct (block_sim c o u o1 Hc R S Hs) as (u1 & Hu & Al & Po & Va & Eq). rewrite Hu, mv_args, mv_op, mv_succ.
    rewrite (values_ext (env u1) (env o1) (t_args c)).
    2:{ intros a Ha. destruct (N.eq_dec a r) as [->|Na]; [|apply Al, Na]. destruct Eq as [Eq|(U & _)]; [exact Eq|]. destruct (U (uses_term f r c Hc Ha)). }
    destruct (values (env o1) (t_args c)) as [ds|]; [|discriminate]. destruct (choose m (t_op c) ds) as [j|]; [|rewrite (proj1 Al); exact H].
    destruct (nth_error (t_succ c) j) as [l'|] eqn:Hn; [|discriminate]. rewrite find_mv. destruct (find (fun b => label b =? l') (blocks f)) as [c'|] eqn:F; [|discriminate].
    apply find_block_inv in F. destruct F as [Hc' El]. subst l'. destruct (phis_from (label c) (phis c') o1 o1) as [o2|] eqn:Hp; [|discriminate]. rewrite mv_phis.
    apply nth_error_In in Hn. assert (R' : reach f c') by exact (reach_edge f c c' WF Hc R Hn).
    assert (Hsu : In (label c') (succs f (label c))) by (apply (succs_in f _ _ WF); eauto).
    destruct (phis_alike (label c) o1 u1 (phis c') o1 u1 o2) as (u2 & Hu2 & Al2); auto.
    { intros q a l Hq Fq. destruct (N.eq_dec a r) as [->|Na]; [|apply Al, Na]. destruct Eq as [Eq|(U & _)]; [exact Eq|]. apply find_some in Fq. destruct Fq as [Fi Fl]. cbn in Fl. apply N.eqb_eq in Fl. subst l.
      destruct (U (uses_phi f r c' q (label c) Hc' Hq Fi)). }
    rewrite Hu2. refine (IH c' o2 u2 s Hc' R' _ H).
    assert (Np : ~ In r (map p_res (phis c'))).
    { intros I. apply in_map_iff in I. destruct I as (q & Er & Hq). assert (D0 : defined_at f r c' 0) by (split; eauto). destruct (wf_once f WF _ _ _ _ _ D0 def_i) as [_ Z]. discriminate. }
    pose proof (proj2 (phis_other (label c) _ _ _ _ Hp) r Np) as Er. pose proof (proj2 (phis_other (label c) _ _ _ _ Hu2) r Np) as Eru.
    constructor.
    + exact Al2.
    + exact (pointing_phis x points f WF VO (label c) c' o1 o2 Hc' Hp Po).
    + intros Av. destruct Va as (d & E1 & E2).
      { destruct (N.eq_dec (label c) (label b)) as [E|E]; [left; exact E|right]. apply (join_avoid (label c) (label c') [label c; label c']); [|intros [e|[e|[]]]; [congruence|]|exact Av].
        - apply (path_step _ _ _ _ [label c] (path_here _ _) Hsu).
        - rewrite e in Av. exact (avoid_b Av). }
      exists d. split; [congruence|]. rewrite <- E2. apply value_ext; [apply (phis_other (label c) _ _ _ _ Hp)|]. intros a Ha. apply (proj2 (phis_other (label c) _ _ _ _ Hp) a).
      intros I. apply in_map_iff in I. destruct I as (q & Eq' & Hq). apply (no_def c' a 0 Hc' R' Av Ha). split; eauto.
    + destruct Eq as [Eq|(_ & Nt & [E|(l & y & P & Nl & Hy)])]; [left; congruence|right|right].
      * exists [label b], (label b). split; [constructor|]. split; [intros [e|[]]; congruence|]. rewrite <- E. exact Hsu.
      * exists (l ++ [label c]), (label c). split; [econstructor; eauto|]. split; [|exact Hsu]. intros I. apply in_app_or in I. destruct I as [I|[I|[]]]; [exact (Nl I)|exact (Nt I)].
Qed.
Theorem sunk_runs k globals w0 s : variables_point x points globals -> starts_clean f globals -> run m f k globals w0 = Some s -> run m (sunk f t b kept rest i) k globals w0 = Some s.
Proof using WF Hb Rb Bd Ri Ht Ne Dt Cut MR VO Mv.
  intros Vp Cl. unfold run. rewrite blocks_sunk. change (prelude (sunk f t b kept rest i)) with (prelude f). destruct (blocks f) as [|c0 bs] eqn:Eb; [discriminate|]. cbn [map].
  destruct (steps m (prelude f) (mkconfig globals w0)) as [c|] eqn:Hp; [|discriminate].
  intros H. rewrite mv_label. change (mv c0 :: map mv bs) with (map mv (c0 :: bs)). rewrite <- Eb in *.
  assert (H0 : In c0 (blocks f)) by (rewrite Eb; left; reflexivity). assert (El : label c0 = entry f) by (unfold entry; rewrite Eb; reflexivity).
  assert (R0 : reach f c0) by (unfold reach; rewrite El; exists [entry f]; constructor).
  apply (run_sim k c0 c c s H0 R0); [|exact H]. constructor.
  - split; reflexivity.
  - apply (pointing_steps m x points f WF MR VO (prelude f) (mkconfig globals w0) c); [intros y Hy; unfold all_insts; apply in_or_app; left; exact Hy|exact Hp|].
    exact (pointing_start x points f globals Vp Cl).
  - rewrite El. intros Av. destruct (entry_avoid Av).
  - left. reflexivity.
Qed.
End Sim.
