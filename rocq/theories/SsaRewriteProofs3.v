(** Proofs about the rewriting of variables into ids: what the tables mean while they are filled. *)
From Verif Require Import Base GraphSpec SsaRewrite SsaRewriteSpec SsaRewriteProofs SsaRewriteProofs2.
Local Open Scope N_scope.

Definition same_kind (c c' : cand) : Prop := c_var c' = c_var c /\ c_bb c' = c_bb c.
Definition C (s : state) (l v p : N) : Prop := exists c, cands s p = Some c /\ c_var c = v /\ c_bb c = l.
Definition coarser (R R' : N -> N) : Prop := forall x y, R x = R y -> R' x = R' y.
Lemma coarser_trans R1 R2 R3 : coarser R1 R2 -> coarser R2 R3 -> coarser R1 R3.
Proof. intros A B x y E. apply B, A, E. Qed.
Definition has_store (f : func) (l v : N) : Prop := exists b, find_block f l = Some b /\ last_store v (body b) <> None.

(** what changes, and what does not, in the course of the algorithm; the candidates in [open] are being worked on *)
Record ext (open : list N) (s s' : state) : Prop := {
  x_cand : forall p c, cands s p = Some c -> exists c', cands s' p = Some c' /\ same_kind c c' /\ incl (c_users c) (c_users c') /\
    (c_done c = true -> c_done c' = true) /\ (c_copy c <> 0 -> c_copy c' <> 0);
  x_next : next s <= next s';
  x_open : forall p c, In p open -> cands s p = Some c -> exists c', cands s' p = Some c' /\ length (c_args c') = length (c_args c) /\
    forall i, nth_error (c_args c) i = Some 0 <-> nth_error (c_args c') i = Some 0;
  x_repl : forall r, repl s r <> None -> repl s' r <> None }.
Lemma ext_refl open s : ext open s s.
Proof.
  split; [|lia| |auto].
  - intros p c H. exists c. repeat split; auto. intros x Hx. exact Hx.
  - intros p c _ H. exists c. repeat split; auto.
Qed.
Lemma ext_trans open s1 s2 s3 : ext open s1 s2 -> ext open s2 s3 -> ext open s1 s3.
Proof.
  intros A B. split; [|pose proof (x_next _ _ _ A); pose proof (x_next _ _ _ B); lia| |intros r Hr; apply B, A, Hr].
  - intros p c H. destruct (x_cand _ _ _ A p c H) as (c1 & H1 & [K1 K2] & U1 & D1 & Y1). destruct (x_cand _ _ _ B p c1 H1) as (c2 & H2 & [K3 K4] & U2 & D2 & Y2).
    exists c2. repeat split; auto; try congruence. intros x Hx. auto.
  - intros p c Ho H. destruct (x_open _ _ _ A p c Ho H) as (c1 & H1 & L1 & Z1). destruct (x_open _ _ _ B p c1 Ho H1) as (c2 & H2 & L2 & Z2).
    exists c2. repeat split; auto; try congruence; [intros Hz; apply Z2, Z1, Hz|intros Hz; apply Z1, Z2, Hz].
Qed.
Lemma ext_sub o1 o2 s s' : incl o1 o2 -> ext o2 s s' -> ext o1 s s'.
Proof. intros I A. split; try apply A. intros p c Hp. apply A, I, Hp. Qed.
Lemma ext_C open s s' : ext open s s' -> forall l v p, C s l v p -> C s' l v p.
Proof. intros A l v p (c & H & <- & <-). destruct (x_cand _ _ _ A p c H) as (c' & H' & [K1 K2] & _). exists c'. auto. Qed.

Lemma nodup_snoc (l : list N) x : ~ In x l -> NoDup l -> NoDup (l ++ [x]).
Proof.
  intros H N. induction N as [|y l Hy N IH]; simpl; [constructor; [tauto|constructor]|].
  constructor; [|apply IH; intros K; apply H; right; exact K]. intros K. apply in_app_or in K. destruct K as [K|[->|[]]]; [tauto|]. apply H. left. reflexivity.
Qed.
Section Inv.
Variable f : func.
Variable undef : N -> N.
Variable first : N.
Hypothesis WF : well_formed f.
Hypothesis FR : fresh_from f undef first.
Variable sl : list N.                       (* the sealed blocks *)
Variable part : N -> list inst -> Prop.     (* what has been scanned of a block *)
Variable fin : bool.                        (* the blocks have all been scanned *)
Variable base : N.
Hypothesis PF : forall l i i', part l i -> part l i' -> i = i'.
Hypothesis PS : forall q, In q sl -> exists b, find_block f q = Some b /\ part q (body b).
Hypothesis ORD : forall l i p, part l i -> preds f l = [p] -> In p sl.

Definition now (s : state) (l v d : N) : Prop :=
  exists i, part l i /\ match last_store v i with Some x => d = x | None => at_start f undef (C s) l v d end.
Definition known (s : state) (v x : N) : Prop := x < first \/ exists c, cands s x = Some c /\ c_var c = v.
Record inv (open : list N) (s : state) (R : N -> N) : Prop := {
  i_sealed : sealed s = sl;
  i_next : forall p c, cands s p = Some c -> first <= p < next s;
  i_base : base <= next s /\ first <= next s;
  i_two : forall p c, cands s p = Some c -> (1 < length (preds f (c_bb c)))%nat;
  i_root : forall x, match cands s x with Some c => c_copy c = 0 -> R x = x | None => R x = x end;
  i_copy : forall p c, cands s p = Some c -> c_copy c <> 0 -> R p = R (c_copy c);
  i_uniq : forall l v p p', C s l v p -> C s l v p' -> p = p';
  i_cdef : forall l v p, C s l v p -> defs s l v <> 0;
  i_def : forall l v, defs s l v <> 0 -> exists d, now s l v d /\ R (defs s l v) = R d;
  i_dvar : forall l v, known s v (defs s l v);
  i_store : forall l v i, part l i -> last_store v i <> None -> defs s l v <> 0;
  i_arg : forall p c i a q, cands s p = Some c -> nth_error (c_args c) i = Some a -> a <> 0 -> nth_error (preds f (c_bb c)) i = Some q ->
    (In q sl /\ exists d, at_end f undef (C s) q (c_var c) d /\ R a = R d) \/ (fin = true /\ ~ In q sl);
  i_avar : forall p c a, cands s p = Some c -> In a (c_args c) -> known s (c_var c) a;
  i_rem : forall p c, cands s p = Some c -> c_copy c <> 0 -> length (c_args c) = length (preds f (c_bb c)) /\ forall a, In a (c_args c) -> a <> 0 /\ R a = R p;
  i_user : forall p c u, cands s p = Some c -> In u (c_users c) -> is_label f u = true ->
    defs s u (c_var c) <> 0 /\ (R (defs s u (c_var c)) = R p \/ (p < base /\ has_store f u (c_var c)));
  i_open : forall p, In p open -> ~ In p (queue s) /\ ~ In p (gen s) /\ exists c, cands s p = Some c /\ c_copy c = 0;
  i_queue : NoDup (queue s) /\ forall p, In p (queue s) -> ~ In p (gen s) /\ exists c, cands s p = Some c /\ c_copy c = 0 /\ length (c_args c) = length (preds f (c_bb c));
  i_gen : NoDup (gen s) /\ forall p, In p (gen s) -> exists c, cands s p = Some c /\ c_copy c = 0 /\ c_done c = true /\ length (c_args c) = length (preds f (c_bb c)) /\ ~ In 0 (c_args c);
  i_all : forall p c, cands s p = Some c -> In p open \/ In p (queue s) \/ In p (gen s) \/ c_copy c <> 0;
  i_load : forall r x, repl s r = Some x -> exists b j v d, is_load f b j r v /\ value_at f undef (C s) b j v d /\ R x = R d }.

Lemma known_ext open s s' v x : ext open s s' -> known s v x -> known s' v x.
Proof. intros X [L|(c & H & E)]; [left; exact L|right]. destruct (x_cand _ _ _ X x c H) as (c' & H' & [K _] & _). exists c'. split; [exact H'|congruence]. Qed.
Lemma known_var open s R v x c : inv open s R -> known s v x -> cands s x = Some c -> c_var c = v.
Proof using All. intros I [L|(c' & H & E)] H'; [apply (i_next _ _ _ I) in H'; lia|congruence]. Qed.
Lemma now_mono s s' l v d : (forall l v p, C s l v p -> C s' l v p) -> now s l v d -> now s' l v d.
Proof. intros H (i & P & M). exists i. split; [exact P|]. destruct (last_store v i); [exact M|]. eapply at_start_mono; eauto. Qed.
Lemma start_unique s l v d d' : (forall l v p p', C s l v p -> C s l v p' -> p = p') -> at_start f undef (C s) l v d -> at_start f undef (C s) l v d' -> d = d'.
Proof.
  intros U A. revert d'. induction A as [l v E|l p b v x E F Ls|l p b v d E F Ls A IH|l v p T Hc]; intros d' B;
    inversion B as [l0 v0 E'|l0 p' b' v0 x' E' F' Ls'|l0 p' b' v0 d0 E' F' Ls' A'|l0 v0 p' T' Hc']; subst; try congruence;
    try (rewrite E in T'; simpl in T'; lia); try (rewrite E' in T; simpl in T; lia).
  - apply IH. congruence.
  - eapply U; eauto.
Qed.
Lemma now_unique s l v d d' : (forall l v p p', C s l v p -> C s l v p' -> p = p') -> now s l v d -> now s l v d' -> d = d'.
Proof.
  intros U (i & P & A) (i' & P' & B). rewrite <- (PF _ _ _ P P') in B. destruct (last_store v i); [congruence|]. eapply start_unique; eauto.
Qed.
Lemma now_end s q v d : In q sl -> now s q v d <-> at_end f undef (C s) q v d.
Proof using All.
  intros Hq. destruct (PS q Hq) as (b & F & P). pose proof (find_block_in _ _ _ F) as [_ El]. unfold at_end, value_at. split.
  - intros (i & P' & M). rewrite (PF _ _ _ P' P) in M. exists b. split; [exact F|]. rewrite firstn_all, El. exact M.
  - intros (b' & F' & M). assert (b' = b) by congruence. subst b'. rewrite firstn_all, El in M. exists (body b). auto.
Qed.
Lemma start_from_pred s l p v d : preds f l = [p] -> In p sl -> now s p v d -> at_start f undef (C s) l v d.
Proof using All.
  intros E Hp H. apply (now_end s p v d Hp) in H. destruct H as (b & F & M). unfold value_at in M. rewrite firstn_all in M.
  pose proof (find_block_in _ _ _ F) as [_ El]. destruct (last_store v (body b)) as [x|] eqn:Ls.
  - subst d. eapply S_store; eauto.
  - rewrite El in M. eapply S_pass; eauto.
Qed.
Lemma cand_not_label s open R u : inv open s R -> is_label f u = true -> cands s u = None.
Proof using All.
  intros I H. destruct (cands s u) as [c|] eqn:E; [|reflexivity]. apply (i_next _ _ _ I) in E. apply existsb_exists in H. destruct H as (b & Hb & El). apply N.eqb_eq in El.
  assert (In u (ids f)) by (apply in_flat_map; exists b; split; [exact Hb|left; exact El]). apply (proj1 FR) in H. lia.
Qed.
Lemma first_pos s open R p c : inv open s R -> cands s p = Some c -> p <> 0.
Proof using All. intros I H. apply (i_next _ _ _ I) in H. pose proof (proj1 (proj2 FR 0)). lia. Qed.

(** ** Changing one candidate *)
Lemma inv_edit open s R p c c' : inv open s R -> cands s p = Some c -> same_kind c c' -> c_copy c' = c_copy c -> (c_done c = true -> c_done c' = true) ->
  (forall i a q, nth_error (c_args c') i = Some a -> a <> 0 -> nth_error (preds f (c_bb c)) i = Some q ->
     (In q sl /\ exists d, at_end f undef (C s) q (c_var c) d /\ R a = R d) \/ (fin = true /\ ~ In q sl)) ->
  (forall a, In a (c_args c') -> known s (c_var c) a) ->
  (c_copy c <> 0 -> length (c_args c') = length (c_args c) /\ forall a, In a (c_args c') -> a <> 0 /\ R a = R p) ->
  (In p (queue s) -> length (c_args c') = length (c_args c)) ->
  (In p (gen s) -> length (c_args c') = length (c_args c) /\ ~ In 0 (c_args c')) ->
  (forall u, In u (c_users c') -> is_label f u = true -> In u (c_users c) \/ (defs s u (c_var c) <> 0 /\ R (defs s u (c_var c)) = R p)) ->
  inv open (set_cands s (upd (cands s) p (Some c'))) R.
Proof.
  intros I Hp [Kv Kb] Kc Kd Ha Hv Hr Hq Hg Hu. set (s' := set_cands s (upd (cands s) p (Some c'))).
  assert (Get : forall x d, cands s' x = Some d -> (x = p /\ d = c') \/ (x <> p /\ cands s x = Some d)).
  { intros x d. unfold s'. simpl. destruct (N.eq_dec x p) as [->|Ne]; [rewrite upd_eq; intros E; injection E as <-; auto|rewrite upd_ne by exact Ne; auto]. }
  assert (Same : forall x d, cands s' x = Some d -> exists d0, cands s x = Some d0 /\ same_kind d0 d /\ c_copy d = c_copy d0).
  { intros x d H. destruct (Get x d H) as [[-> ->]|[_ H']]; [exists c; repeat split; auto|exists d; repeat split; auto]. }
  assert (Put : forall x d, cands s x = Some d -> exists d', cands s' x = Some d' /\ same_kind d d' /\ c_copy d' = c_copy d /\ (c_done d = true -> c_done d' = true) /\ ((x = p /\ d' = c' /\ d = c) \/ (x <> p /\ d' = d))).
  { intros x d H. unfold s'. simpl. destruct (N.eq_dec x p) as [->|Ne].
    - rewrite upd_eq. exists c'. rewrite Hp in H. injection H as <-. repeat split; auto.
    - rewrite upd_ne by exact Ne. exists d. repeat split; auto. }
  assert (CC : forall l v x, C s' l v x -> C s l v x).
  { intros l v x (d & H & <- & <-). destruct (Same x d H) as (d0 & H0 & [-> ->] & _). exists d0. auto. }
  assert (CC' : forall l v x, C s l v x -> C s' l v x).
  { intros l v x (d & H & <- & <-). destruct (Put x d H) as (d' & H' & [E1 E2] & _). exists d'. auto. }
  assert (None_ : forall x, cands s' x = None -> cands s x = None).
  { intros x H. destruct (cands s x) as [d|] eqn:E; [|reflexivity]. destruct (Put x d E) as (d' & H' & _). congruence. }
  constructor; simpl.
  - apply I.
  - intros x d H. destruct (Same x d H) as (d0 & H0 & _). apply (i_next _ _ _ I x d0 H0).
  - apply I.
  - intros x d H. destruct (Same x d H) as (d0 & H0 & [_ ->] & _). apply (i_two _ _ _ I x d0 H0).
  - intros x. change (upd (cands s) p (Some c') x) with (cands s' x). pose proof (i_root _ _ _ I x) as Hx. destruct (cands s' x) as [d|] eqn:E.
    + destruct (Same x d E) as (d0 & H0 & _ & ->). rewrite H0 in Hx. exact Hx.
    + rewrite (None_ x E) in Hx. exact Hx.
  - intros x d H. destruct (Same x d H) as (d0 & H0 & _ & ->). apply (i_copy _ _ _ I x d0 H0).
  - intros l v x x' A B. eapply (i_uniq _ _ _ I); apply CC; eassumption.
  - intros l v x A. eapply (i_cdef _ _ _ I). apply CC; eassumption.
  - intros l v H. destruct (i_def _ _ _ I l v H) as (d & N & E). exists d. split; [eapply now_mono; eauto|exact E].
  - intros l v. destruct (i_dvar _ _ _ I l v) as [L|(d & H & E)]; [left; exact L|right]. destruct (CC' (c_bb d) (c_var d) (defs s l v)) as (d' & H' & E' & _); [exists d; auto|]. exists d'. split; [exact H'|congruence].
  - apply I.
  - intros x d i a q H Ai An Q. destruct (Get x d H) as [[-> ->]|[Ne H']].
    + rewrite Kb in Q. rewrite Kv. destruct (Ha i a q Ai An Q) as [(S & e & E & Er)|F]; [left|right; exact F]. split; [exact S|]. exists e. split; [eapply at_end_mono; eauto|exact Er].
    + destruct (i_arg _ _ _ I x d i a q H' Ai An Q) as [(S & e & E & Er)|F]; [left|right; exact F]. split; [exact S|]. exists e. split; [eapply at_end_mono; eauto|exact Er].
  - intros x d a H Ai. assert (Kn : known s (c_var d) a). { destruct (Get x d H) as [[-> ->]|[Ne H']]; [rewrite Kv; apply Hv, Ai|eapply (i_avar _ _ _ I); eauto]. }
    destruct Kn as [L|(e & He & E)]; [left; exact L|right]. destruct (CC' (c_bb e) (c_var e) a) as (d' & H' & E' & _); [exists e; auto|]. exists d'. split; [exact H'|congruence].
  - intros x d H Cp. destruct (Get x d H) as [[-> ->]|[Ne H']].
    + rewrite Kc in Cp. destruct (Hr Cp) as [L A]. rewrite Kb, L. split; [apply (i_rem _ _ _ I p c Hp Cp)|exact A].
    + apply (i_rem _ _ _ I x d H' Cp).
  - intros x d u H Hx Lu. destruct (Get x d H) as [[-> ->]|[Ne H']].
    + rewrite Kv. destruct (Hu u Hx Lu) as [O|[A B]]; [apply (i_user _ _ _ I p c u Hp O Lu)|split; [exact A|left; exact B]].
    + apply (i_user _ _ _ I x d u H' Hx Lu).
  - intros x Hx. destruct (i_open _ _ _ I x Hx) as (A & B & d & Hd & E). split; [exact A|]. split; [exact B|]. destruct (Put x d Hd) as (d' & H' & _ & Ec & _). exists d'. split; [exact H'|congruence].
  - split; [apply I|]. intros x Hx. destruct (proj2 (i_queue _ _ _ I) x Hx) as (A & d & Hd & E & L). split; [exact A|].
    destruct (Put x d Hd) as (d' & H' & [_ Kb'] & Ec & _ & Cs). exists d'. split; [exact H'|]. split; [congruence|]. rewrite Kb'. destruct Cs as [(-> & -> & ->)|[_ ->]]; [rewrite (Hq Hx); exact L|exact L].
  - split; [apply I|]. intros x Hx. destruct (proj2 (i_gen _ _ _ I) x Hx) as (d & Hd & E & Dn & L & Z).
    destruct (Put x d Hd) as (d' & H' & [_ Kb'] & Ec & Dn' & Cs). exists d'. split; [exact H'|]. split; [congruence|]. split; [auto|]. rewrite Kb'.
    destruct Cs as [(-> & -> & ->)|[_ ->]]; [|auto]. destruct (Hg Hx) as [L' Z']. split; [congruence|exact Z'].
  - intros x d H. destruct (Same x d H) as (d0 & H0 & _ & ->). apply (i_all _ _ _ I x d0 H0).
  - intros r x H. destruct (i_load _ _ _ I r x H) as (b & j & v & d & L & V & E). exists b, j, v, d. split; [exact L|]. split; [eapply value_at_mono; eauto|exact E].
Qed.
Lemma ext_edit open s p c c' : cands s p = Some c -> same_kind c c' -> c_copy c' = c_copy c -> (c_done c = true -> c_done c' = true) -> incl (c_users c) (c_users c') ->
  (In p open -> length (c_args c') = length (c_args c) /\ forall i, nth_error (c_args c) i = Some 0 <-> nth_error (c_args c') i = Some 0) ->
  ext open s (set_cands s (upd (cands s) p (Some c'))).
Proof.
  intros Hp K Kc Kd U O. split; simpl; [|lia| |auto].
  - intros x d H. destruct (N.eq_dec x p) as [->|Ne].
    + rewrite upd_eq. rewrite Hp in H. injection H as <-. exists c'. repeat split; auto; try apply K. congruence.
    + rewrite upd_ne by exact Ne. exists d. repeat split; auto. intros y Hy; exact Hy.
  - intros x d Ho H. destruct (N.eq_dec x p) as [->|Ne].
    + rewrite upd_eq. rewrite Hp in H. injection H as <-. exists c'. destruct (O Ho) as [L Z]. auto.
    + rewrite upd_ne by exact Ne. exists d. repeat split; auto.
Qed.

Lemma inv_add_user open s R p u : inv open s R ->
  (forall c, cands s p = Some c -> is_label f u = true -> defs s u (c_var c) <> 0 /\ R (defs s u (c_var c)) = R p) ->
  inv open (add_user s p u) R.
Proof.
  intros I H. unfold add_user, edit. destruct (cands s p) as [c|] eqn:E; [|exact I].
  eapply inv_edit; eauto; simpl; auto.
  - split; reflexivity.
  - intros. eapply (i_arg _ _ _ I); eauto.
  - intros. eapply (i_avar _ _ _ I); eauto.
  - intros Cp. split; [reflexivity|]. apply (i_rem _ _ _ I p c E Cp).
  - intros Hg. split; [reflexivity|]. destruct (proj2 (i_gen _ _ _ I) p Hg) as (d & Hd & _ & _ & _ & Z). rewrite E in Hd. injection Hd as <-. exact Z.
  - intros w Hw Lw. apply in_app_or in Hw. destruct Hw as [Hw|[<-|[]]]; auto.
Qed.
Lemma ext_add_user open s p u : ext open s (add_user s p u).
Proof.
  unfold add_user, edit. destruct (cands s p) as [c|] eqn:E; [|apply ext_refl]. eapply ext_edit; eauto; simpl; auto.
  - split; reflexivity.
  - intros x Hx. apply in_or_app. auto.
  - intros _. split; [reflexivity|tauto].
Qed.

(** ** Setting the value of a variable at a block *)
Lemma inv_write open s R v l x d : inv open s R -> now s l v d -> R x = R d -> x <> 0 -> known s v x ->
  inv open (write s v l x) R.
Proof using All.
  intros I Nw E Nx Vx. unfold write. apply inv_add_user.
  - set (s' := set_defs s (upd (defs s) l (upd (defs s l) v x))).
    assert (Get : forall l' v', (l' = l /\ v' = v /\ defs s' l' v' = x) \/ (~ (l' = l /\ v' = v) /\ defs s' l' v' = defs s l' v')).
    { intros l' v'. unfold s', upd. simpl. destruct (N.eqb_spec l' l) as [->|N1]; [destruct (N.eqb_spec v' v) as [->|N2]|].
      - left. auto.
      - right. split; [tauto|reflexivity].
      - right. split; [tauto|reflexivity]. }
    constructor; simpl; try apply I.
    + intros l' v' p Hc. change (defs s' l' v' <> 0). destruct (Get l' v') as [(-> & -> & ->)|[_ ->]]; [exact Nx|]. eapply (i_cdef _ _ _ I); eauto.
    + intros l' v' H. change (exists d, now s l' v' d /\ R (defs s' l' v') = R d). change (defs s' l' v' <> 0) in H.
      destruct (Get l' v') as [(-> & -> & Eg)|[_ Eg]]; rewrite Eg in *; [exists d; auto|]. apply (i_def _ _ _ I l' v' H).
    + intros l' v'. change (known s v' (defs s' l' v')). destruct (Get l' v') as [(-> & -> & ->)|[_ ->]]; [exact Vx|]. apply (i_dvar _ _ _ I).
    + intros l' v' i P Ls. change (defs s' l' v' <> 0). destruct (Get l' v') as [(-> & -> & ->)|[_ ->]]; [exact Nx|]. eapply (i_store _ _ _ I); eauto.
    + intros p c u Hp Hu Lu. change (defs s' u (c_var c) <> 0 /\ (R (defs s' u (c_var c)) = R p \/ (p < base /\ has_store f u (c_var c)))).
      destruct (i_user _ _ _ I p c u Hp Hu Lu) as [A B]. destruct (Get u (c_var c)) as [(-> & Ev & ->)|[_ ->]]; [|auto]. split; [exact Nx|].
      destruct B as [B|B]; [left|right; exact B]. destruct (i_def _ _ _ I _ _ A) as (d' & Nw' & E'). rewrite Ev in *.
      rewrite (now_unique s l v d d') in E by (auto; apply I). congruence.
  - intros c Hc Ll. simpl in *. rewrite (known_var _ _ _ _ _ _ I Vx Hc). unfold upd. rewrite !N.eqb_refl. auto.
Qed.
Lemma ext_write open s v l x : ext open s (write s v l x).
Proof. unfold write. eapply ext_trans; [|apply ext_add_user]. destruct (ext_refl open s) as [A B D E]. split; assumption. Qed.

(** ** Removing a candidate *)
Lemma only_value_ok p args : forall same x, only_value p same args = Some x -> (same <> 0 -> x = same) /\ forall a, In a args -> a = x \/ a = p \/ (a = 0 /\ same = 0).
Proof.
  induction args as [|a args IH]; simpl; intros same x H.
  - injection H as <-. split; auto. intros a [].
  - destruct ((a =? same) || (a =? p)) eqn:E.
    + destruct (IH same x H) as [A B]. split; [exact A|]. intros a' [<-|Ha]; [|apply B, Ha]. apply orb_true_iff in E. rewrite !N.eqb_eq in E. destruct E as [->| ->]; [|auto].
      destruct (N.eq_dec same 0) as [->|Ns]; [auto|left; symmetry; auto].
    + apply orb_false_iff in E. rewrite !N.eqb_neq in E. destruct E as [E1 E2]. destruct (same =? 0) eqn:Es; simpl in H; [|discriminate]. apply N.eqb_eq in Es. subst same.
      destruct (IH a x H) as [A B]. split; [congruence|]. intros a' [<-|Ha]; [left; symmetry; auto|]. destruct (B a' Ha) as [|[|[_ Z]]]; auto; congruence.
Qed.

Definition join (R : N -> N) (p x : N) : N -> N := fun y => if R y =? p then R x else R y.
Lemma join_coarser R p x : coarser R (join R p x).
Proof. intros a b E. unfold join. rewrite E. reflexivity. Qed.
Lemma join_x R p x : R p = p -> join R p x x = join R p x p.
Proof. intros E. unfold join. rewrite E, N.eqb_refl. destruct (R x =? p) eqn:H; [|reflexivity]. apply N.eqb_eq in H. congruence. Qed.

Lemma inv_coarser_copy open s R p c x : inv (p :: open) s R -> ~ In p open -> cands s p = Some c -> x <> 0 ->
  length (c_args c) = length (preds f (c_bb c)) -> (forall a, In a (c_args c) -> a <> 0 /\ (a = x \/ a = p)) ->
  inv open (set_cands s (upd (cands s) p (Some (mkcand (c_var c) (c_bb c) (c_args c) x (c_done c) (c_users c))))) (join R p x).
Proof.
  intros I No Hp Nx Len Ha. set (c' := mkcand _ _ _ _ _ _). set (s' := set_cands s (upd (cands s) p (Some c'))). set (R' := join R p x).
  destruct (i_open _ _ _ I p (or_introl eq_refl)) as (Nq & Ng & c0 & Hc0 & Cp0). assert (c0 = c) by congruence. subst c0. clear Hc0.
  assert (Rp : R p = p) by (pose proof (i_root _ _ _ I p) as H; rewrite Hp in H; auto).
  assert (Co : coarser R R') by apply join_coarser. assert (Ex : R' x = R' p) by (apply join_x, Rp).
  assert (Get : forall y d, cands s' y = Some d -> (y = p /\ d = c') \/ (y <> p /\ cands s y = Some d)).
  { intros y d. unfold s'. simpl. destruct (N.eq_dec y p) as [->|Ne]; [rewrite upd_eq; intros E; injection E as <-; auto|rewrite upd_ne by exact Ne; auto]. }
  assert (Same : forall y d, cands s' y = Some d -> exists d0, cands s y = Some d0 /\ same_kind d0 d /\ c_args d = c_args d0 /\ c_users d = c_users d0).
  { intros y d H. destruct (Get y d H) as [[-> ->]|[_ H']]; [exists c; repeat split; auto|exists d; repeat split; auto]. }
  assert (Put : forall y d, y <> p -> cands s y = Some d -> cands s' y = Some d).
  { intros y d Ne H. unfold s'. simpl. rewrite upd_ne by exact Ne. exact H. }
  assert (Pp : cands s' p = Some c') by (unfold s'; simpl; apply upd_eq).
  assert (CC : forall l v y, C s' l v y -> C s l v y).
  { intros l v y (d & H & <- & <-). destruct (Same y d H) as (d0 & H0 & [-> ->] & _). exists d0. auto. }
  assert (CC' : forall l v y, C s l v y -> C s' l v y).
  { intros l v y (d & H & <- & <-). destruct (N.eq_dec y p) as [->|Ne]; [|exists d; auto]. rewrite Hp in H. injection H as <-. exists c'. auto. }
  constructor; simpl.
  - apply I.
  - intros y d H. destruct (Same y d H) as (d0 & H0 & _). apply (i_next _ _ _ I y d0 H0).
  - apply I.
  - intros y d H. destruct (Same y d H) as (d0 & H0 & [_ ->] & _). apply (i_two _ _ _ I y d0 H0).
  - intros y. change (upd (cands s) p (Some c') y) with (cands s' y). destruct (cands s' y) as [d|] eqn:E.
    + destruct (Get y d E) as [[-> ->]|[Ne H']]; simpl; [congruence|]. intros Z. pose proof (i_root _ _ _ I y) as Hy. rewrite H' in Hy. specialize (Hy Z). unfold R', join. rewrite Hy.
      apply N.eqb_neq in Ne. rewrite Ne. reflexivity.
    + assert (Ne : y <> p) by congruence. assert (Hn : cands s y = None) by (unfold s' in E; simpl in E; rewrite upd_ne in E by exact Ne; exact E).
      pose proof (i_root _ _ _ I y) as Hy. rewrite Hn in Hy. unfold R', join. rewrite Hy. apply N.eqb_neq in Ne. rewrite Ne. reflexivity.
  - intros y d H Z. destruct (Get y d H) as [[-> ->]|[Ne H']]; simpl in *; [congruence|]. apply Co. apply (i_copy _ _ _ I y d H' Z).
  - intros l v y y' A B. eapply (i_uniq _ _ _ I); apply CC; eassumption.
  - intros l v y A. eapply (i_cdef _ _ _ I). apply CC; eassumption.
  - intros l v H. destruct (i_def _ _ _ I l v H) as (d & N & E). exists d. split; [eapply now_mono; eauto|apply Co, E].
  - intros l v. destruct (i_dvar _ _ _ I l v) as [L|(d & H & E)]; [left; exact L|right]. destruct (CC' (c_bb d) (c_var d) (defs s l v)) as (d' & H' & E' & _); [exists d; auto|]. exists d'. split; [exact H'|congruence].
  - apply I.
  - intros y d i a q H Ai An Q. destruct (Same y d H) as (d0 & H0 & [Ev Eb] & Ea & _). rewrite Ea in Ai. rewrite Eb in Q. rewrite Ev.
    destruct (i_arg _ _ _ I y d0 i a q H0 Ai An Q) as [(S & e & E & Er)|F]; [left|right; exact F]. split; [exact S|]. exists e. split; [eapply at_end_mono; eauto|apply Co, Er].
  - intros y d a H Ai. destruct (Same y d H) as (d1 & H1 & [-> _] & Ea & _). rewrite Ea in Ai.
    destruct (i_avar _ _ _ I y d1 a H1 Ai) as [L|(e & He & E)]; [left; exact L|right]. destruct (CC' (c_bb e) (c_var e) a) as (d' & H' & E' & _); [exists e; auto|]. exists d'. split; [exact H'|congruence].
  - intros y d H Z. destruct (Get y d H) as [[-> ->]|[Ne H']]; simpl in *.
    + split; [exact Len|]. intros a Hin. destruct (Ha a Hin) as [An [->| ->]]; auto.
    + destruct (i_rem _ _ _ I y d H' Z) as [L A]. split; [exact L|]. intros a Hin. destruct (A a Hin) as [An Ar]. split; [exact An|apply Co, Ar].
  - intros y d u H Hu Lu. destruct (Same y d H) as (d0 & H0 & [Ev Eb] & _ & Eu). rewrite Eu in Hu. rewrite Ev. destruct (i_user _ _ _ I y d0 u H0 Hu Lu) as [A [B|B]]; split; auto.
  - intros y Hy. destruct (i_open _ _ _ I y (or_intror Hy)) as (A & B & d & Hd & E). split; [exact A|]. split; [exact B|]. exists d. split; [|exact E]. apply Put; [congruence|exact Hd].
  - split; [apply I|]. intros y Hy. destruct (proj2 (i_queue _ _ _ I) y Hy) as (A & d & Hd & E). split; [exact A|]. exists d. split; [|exact E]. apply Put; [congruence|exact Hd].
  - split; [apply I|]. intros y Hy. destruct (proj2 (i_gen _ _ _ I) y Hy) as (d & Hd & E). exists d. split; [|exact E]. apply Put; [congruence|exact Hd].
  - intros y d H. destruct (Get y d H) as [[-> ->]|[Ne H']]; simpl; [auto|]. destruct (i_all _ _ _ I y d H') as [[E|A]|A]; [congruence|auto|auto].
  - intros r y H. destruct (i_load _ _ _ I r y H) as (b & j & v & d & L & V & E). exists b, j, v, d. split; [exact L|]. split; [eapply value_at_mono; eauto|apply Co, E].
Qed.

Lemma inv_replace_user open s R p v x u : inv open s R -> R x = R p -> x <> 0 -> p <> 0 ->
  (exists c, cands s p = Some c /\ c_var c = v) -> known s v x ->
  (is_label f u = true -> defs s u v <> 0 /\ R (defs s u v) = R p) ->
  inv open (replace_user f p v x s u) R.
Proof using All.
  intros I E Nx Np (cp & Hcp & Vp) Vx Hu. unfold replace_user. destruct (cands s u) as [c|] eqn:Eu.
  - unfold edit. rewrite Eu.
    assert (Ma : forall i a, nth_error (map (fun a => if a =? p then x else a) (c_args c)) i = Some a -> exists a0, nth_error (c_args c) i = Some a0 /\ R a = R a0 /\ (a <> 0 -> a0 <> 0) /\ (a0 <> 0 -> a <> 0) /\ ((a = x /\ a0 = p) \/ a = a0)).
    { intros i a H. rewrite nth_error_map in H. destruct (nth_error (c_args c) i) as [a0|]; [|discriminate]. simpl in H. injection H as <-. exists a0.
      destruct (N.eqb_spec a0 p) as [->|Ne]; repeat split; auto. }
    assert (Mi : forall a, In a (map (fun a => if a =? p then x else a) (c_args c)) -> exists a0, In a0 (c_args c) /\ R a = R a0 /\ (a0 <> 0 -> a <> 0) /\ ((a = x /\ a0 = p) \/ a = a0)).
    { intros a H. apply In_nth_error in H. destruct H as [i H]. destruct (Ma i a H) as (a0 & H0 & A & _ & B & D). exists a0. repeat split; auto. eapply nth_error_In; eauto. }
    eapply inv_edit; eauto; simpl; auto.
    + split; reflexivity.
    + intros i a q Hi An Q. destruct (Ma i a Hi) as (a0 & H0 & -> & B & _). eapply (i_arg _ _ _ I); eauto.
    + intros a Hin. destruct (Mi a Hin) as (a0 & H0 & _ & _ & [[-> ->]| ->]).
      * rewrite <- (known_var _ _ _ _ _ _ I (i_avar _ _ _ I u c p Eu H0) Hcp), Vp. exact Vx.
      * eapply (i_avar _ _ _ I); eauto.
    + intros Z. split; [apply map_length|]. intros a Hin. destruct (Mi a Hin) as (a0 & H0 & -> & B & _). destruct (i_rem _ _ _ I u c Eu Z) as [_ A]. destruct (A a0 H0). auto.
    + intros _. apply map_length.
    + intros Hg. split; [apply map_length|]. intros Hin. destruct (Mi 0 Hin) as (a0 & H0 & _ & B & _). destruct (proj2 (i_gen _ _ _ I) u Hg) as (d & Hd & _ & _ & _ & Z).
      rewrite Eu in Hd. injection Hd as <-. apply B; [|reflexivity]. intros ->. exact (Z H0).
  - destruct (is_label f u) eqn:Lu.
    + destruct (Hu eq_refl) as [A B]. destruct (i_def _ _ _ I u v A) as (d & Nw & Ed). eapply inv_write; eauto. congruence.
    + constructor; simpl; try apply I. intros r y H. destruct (repl s r) as [y0|] eqn:Er; [|discriminate]. injection H as <-.
      destruct (i_load _ _ _ I r y0 Er) as (b & j & w & d & L & V & Ed). exists b, j, w, d. split; [exact L|]. split; [exact V|]. destruct (N.eqb_spec y0 p) as [->|_]; congruence.
Qed.
Lemma ext_replace_user open s p v x u : x <> 0 -> p <> 0 -> ext open s (replace_user f p v x s u).
Proof.
  intros Nx Np. unfold replace_user. destruct (cands s u) as [c|] eqn:Eu.
  - unfold edit. rewrite Eu. eapply ext_edit; eauto; simpl; auto.
    + split; reflexivity.
    + intros y Hy. exact Hy.
    + intros _. split; [apply map_length|]. intros i. rewrite nth_error_map. destruct (nth_error (c_args c) i) as [a|]; simpl; [|split; discriminate].
      destruct (N.eqb_spec a p) as [->|Ne]; [|tauto]. split; intros H; injection H; congruence.
  - destruct (is_label f u); [apply ext_write|]. destruct (ext_refl open s) as [A B D _]. split; try assumption. simpl. intros r H. destruct (repl s r); [discriminate|exact H].
Qed.
(** the blocks that hold the candidate *)
Definition holds (s : state) (R : N -> N) (p v : N) (us : list N) : Prop := forall u, In u us -> is_label f u = true -> defs s u v <> 0 /\ R (defs s u v) = R p.
Lemma holds_replace s R p v x u us : R x = R p -> x <> 0 -> holds s R p v us -> holds (replace_user f p v x s u) R p v us.
Proof.
  intros E Nx H w Hw Lw. specialize (H w Hw Lw). unfold replace_user. destruct (cands s u) as [c|] eqn:Eu; [unfold edit; rewrite Eu; exact H|].
  destruct (is_label f u); [|exact H]. unfold write, add_user, edit.
  assert (G : let d := upd (defs s) u (upd (defs s u) v x) in d w v <> 0 /\ R (d w v) = R p).
  { simpl. unfold upd. destruct (w =? u) eqn:Ew; [|exact H]. rewrite N.eqb_refl. auto. }
  simpl. destruct (cands s x); exact G.
Qed.
Lemma inv_replace_all open p v x us R : x <> 0 -> p <> 0 -> R x = R p -> forall s, inv open s R ->
  (exists c, cands s p = Some c /\ c_var c = v) -> known s v x -> holds s R p v us ->
  inv open (fold_left (replace_user f p v x) us s) R /\ ext open s (fold_left (replace_user f p v x) us s).
Proof using All.
  intros Nx Np E. induction us as [|u us IH]; intros s I Vp Vx Hh; simpl.
  - split; [exact I|apply ext_refl].
  - pose proof (ext_replace_user open s p v x u Nx Np) as X.
    destruct (IH (replace_user f p v x s u)) as [I' X'].
    + apply inv_replace_user; auto. apply Hh. left. reflexivity.
    + destruct Vp as (c & Hc & <-). destruct (x_cand _ _ _ X p c Hc) as (c' & H & [K _] & _). eauto.
    + eapply known_ext; eauto.
    + apply holds_replace; auto. intros w Hw. apply Hh. right. exact Hw.
    + split; [exact I'|eapply ext_trans; eauto].
Qed.

(** TryRemoveTrivialPhi on a candidate whose arguments are all known *)
Lemma try_remove_ok open s R p c y s' : inv (p :: open) s R -> ~ In p open -> cands s p = Some c -> length (c_args c) = length (preds f (c_bb c)) -> ~ In 0 (c_args c) ->
  holds s R p (c_var c) (c_users c) -> try_remove f p s = Some (y, s') ->
  (y = p /\ s' = s) \/
  (y <> p /\ y <> 0 /\ exists R', inv open s' R' /\ coarser R R' /\ ext open s s' /\ R' y = R' p /\ known s' (c_var c) y /\
   exists c', cands s' p = Some c' /\ c_copy c' <> 0).
Proof using All.
  intros I No Hp Len Nz Hh. unfold try_remove. rewrite Hp. destruct (only_value p 0 (c_args c)) as [x|] eqn:Ov; [|intros H; injection H as <- <-; auto].
  destruct (N.eq_dec x 0) as [->|Nx]; [discriminate|].
  destruct (only_value_ok _ _ _ _ Ov) as [_ Ha].
  assert (Hx : In x (c_args c) /\ x <> p).
  { clear - Ov Nx Nz. assert (G : forall args same, only_value p same args = Some x -> same <> p -> (x = same \/ In x args) /\ x <> p).
    { induction args as [|a args IH]; simpl; intros same H Ns.
      - injection H as <-. auto.
      - destruct ((a =? same) || (a =? p)) eqn:E.
        + destruct (IH same H Ns) as [[A|A] B]; auto.
        + apply orb_false_iff in E. rewrite !N.eqb_neq in E. destruct E as [E1 E2]. destruct (same =? 0); simpl in H; [|discriminate]. destruct (IH a H E2) as [[A|A] B]; auto. }
    destruct (N.eq_dec p 0) as [->|Np].
    - (* the id is not 0 *) destruct (c_args c) as [|a args] eqn:Ea; [simpl in Ov; injection Ov as <-; congruence|].
      simpl in Ov. destruct (a =? 0) eqn:E0; simpl in Ov; [apply N.eqb_eq in E0; subst a; simpl in Nz; tauto|]. apply N.eqb_neq in E0.
      destruct (G args a Ov E0) as [[->|A] B]; simpl; auto.
    - destruct (G (c_args c) 0 Ov) as [[->|A] B]; auto; congruence. }
  destruct Hx as [Hx Nxp].
  intros H. assert (H' : Some (x, fold_left (replace_user f p (c_var c) x) (c_users c) (edit s p (fun c => mkcand (c_var c) (c_bb c) (c_args c) x (c_done c) (c_users c)))) = Some (y, s')).
  { destruct x; [congruence|exact H]. } clear H. injection H' as <- <-. right. split; [exact Nxp|]. split; [exact Nx|].
  unfold edit. rewrite Hp. set (c' := mkcand _ _ _ _ _ _). set (s1 := set_cands s (upd (cands s) p (Some c'))).
  assert (I1 : inv open s1 (join R p x)).
  { apply inv_coarser_copy; auto. intros a Hin. split; [intros ->; exact (Nz Hin)|]. destruct (Ha a Hin) as [|[|[-> _]]]; auto. destruct (Nz Hin). }
  assert (Rp : R p = p). { pose proof (i_root _ _ _ I p) as E. rewrite Hp in E. apply E. destruct (i_open _ _ _ I p (or_introl eq_refl)) as (_ & _ & c0 & Hc0 & Cp0). congruence. }
  assert (Np : p <> 0) by exact (first_pos _ _ _ _ _ I Hp).
  assert (X1 : ext open s s1).
  { split; simpl; [|lia| |auto].
    - intros z d Hz. destruct (N.eq_dec z p) as [->|Ne]; [rewrite upd_eq|rewrite upd_ne by exact Ne; exists d; repeat split; auto; intros w Hw; exact Hw].
      rewrite Hp in Hz. injection Hz as <-. exists c'. repeat split; auto; simpl; auto. intros w Hw; exact Hw.
    - intros z d Ho Hz. rewrite upd_ne by congruence. exists d. repeat split; auto. }
  destruct (inv_replace_all open p (c_var c) x (c_users c) (join R p x) Nx Np (join_x R p x Rp) s1 I1) as [I2 X2].
  - exists c'. split; [unfold s1; simpl; apply upd_eq|reflexivity].
  - eapply known_ext; [exact X1|]. eapply (i_avar _ _ _ I); eauto.
  - intros u Hu Lu. destruct (Hh u Hu Lu) as [A B]. split; [exact A|]. apply join_coarser. exact B.
  - exists (join R p x). split; [exact I2|]. split; [apply join_coarser|]. split; [eapply ext_trans; eauto|]. split; [apply join_x, Rp|]. split.
    + eapply known_ext; [exact X2|]. eapply known_ext; [exact X1|]. eapply (i_avar _ _ _ I); eauto.
    + destruct (x_cand _ _ _ X2 p c') as (d & Hd & _ & _ & _ & Z); [unfold s1; simpl; apply upd_eq|]. exists d. split; [exact Hd|]. apply Z. exact Nx.
Qed.

(** ** Making a candidate *)
Lemma inv_create open s R v b i : inv open s R -> part b i -> defs s b v = 0 -> (1 < length (preds f b))%nat ->
  let s' := write (create v b s) v b (next s) in
  inv (next s :: open) s' R /\ ext open s s' /\ C s' b v (next s) /\ exists c, cands s' (next s) = Some c /\ c_bb c = b /\ c_var c = v /\ c_args c = [].
Proof using All.
  intros I Hb D0 T. set (P := next s). set (c0 := mkcand v b [] 0 false []). set (s0 := set_defs (create v b s) (upd (defs s) b (upd (defs s b) v P))).
  assert (Fresh : cands s P = None).
  { destruct (cands s P) as [c|] eqn:E; [|reflexivity]. apply (i_next _ _ _ I) in E. unfold P in E. lia. }
  assert (Pp : P <> 0). { pose proof (proj1 (proj2 FR 0)). pose proof (proj2 (i_base _ _ _ I)). unfold P. lia. }
  assert (Rp : R P = P). { pose proof (i_root _ _ _ I P) as H. rewrite Fresh in H. exact H. }
  assert (Get : forall y d, cands s0 y = Some d -> (y = P /\ d = c0) \/ (y <> P /\ cands s y = Some d)).
  { intros y d. unfold s0, create. simpl. destruct (N.eq_dec y P) as [->|Ne]; [rewrite upd_eq; intros E; injection E as <-; auto|rewrite upd_ne by exact Ne; auto]. }
  assert (Put : forall y d, cands s y = Some d -> cands s0 y = Some d).
  { intros y d H. unfold s0, create. simpl. rewrite upd_ne; [exact H|]. intros ->. fold P in H. congruence. }
  assert (PP : cands s0 P = Some c0) by (unfold s0, create; simpl; apply upd_eq).
  assert (CC : forall l w y, C s l w y -> C s0 l w y) by (intros l w y (d & H & E); exists d; split; [apply Put, H|exact E]).
  assert (NoC : forall y, ~ C s b v y) by (intros y H; apply (i_cdef _ _ _ I) in H; congruence).
  assert (Def : forall l w, (l = b /\ w = v /\ defs s0 l w = P) \/ (~ (l = b /\ w = v) /\ defs s0 l w = defs s l w)).
  { intros l w. unfold s0, upd. simpl. destruct (N.eqb_spec l b) as [->|N1]; [destruct (N.eqb_spec w v) as [->|N2]|].
    - left. auto.
    - right. split; [tauto|reflexivity].
    - right. split; [tauto|reflexivity]. }
  assert (Ls : last_store v i = None).
  { destruct (last_store v i) eqn:E; [|reflexivity]. exfalso. apply (i_store _ _ _ I b v i Hb); [congruence|exact D0]. }
  assert (Kn : forall w y, known s w y -> known s0 w y).
  { intros w y [L|(d & H & E)]; [left; exact L|right]. exists d. split; [apply Put, H|exact E]. }
  assert (CP : C s0 b v P) by (exists c0; auto).
  assert (I0 : inv (P :: open) s0 R).
  { constructor.
    - apply I.
    - intros y d H. change (next s0) with (next s + 1). destruct (Get y d H) as [[-> _]|[_ H']]; [unfold P; pose proof (proj2 (i_base _ _ _ I)); lia|]. apply (i_next _ _ _ I) in H'. lia.
    - change (next s0) with (next s + 1). pose proof (i_base _ _ _ I). lia.
    - intros y d H. destruct (Get y d H) as [[-> ->]|[_ H']]; [exact T|apply (i_two _ _ _ I y d H')].
    - intros y. destruct (cands s0 y) as [d|] eqn:E.
      + destruct (Get y d E) as [[-> ->]|[_ H']]; [auto|]. pose proof (i_root _ _ _ I y) as H. rewrite H' in H. exact H.
      + pose proof (i_root _ _ _ I y) as H. destruct (cands s y) eqn:E'; [rewrite (Put _ _ E') in E; discriminate|exact H].
    - intros y d H Z. destruct (Get y d H) as [[-> ->]|[_ H']]; [simpl in Z; congruence|apply (i_copy _ _ _ I y d H' Z)].
    - intros l w y y' (d & H & E1 & E2) (d' & H' & E1' & E2'). destruct (Get y d H) as [[-> ->]|[_ K]]; destruct (Get y' d' H') as [[-> ->]|[_ K']]; auto.
      + exfalso. simpl in *. subst l w. apply (NoC y'). exists d'. auto.
      + exfalso. simpl in *. subst l w. apply (NoC y). exists d. auto.
      + eapply (i_uniq _ _ _ I); [exists d|exists d']; eauto.
    - intros l w y (d & H & E1 & E2). destruct (Def l w) as [(-> & -> & ->)|[Nd ->]]; [exact Pp|]. destruct (Get y d H) as [[-> ->]|[_ K]]; [simpl in *; subst; tauto|].
      eapply (i_cdef _ _ _ I). exists d. eauto.
    - intros l w H. destruct (Def l w) as [(-> & -> & E)|[Nd E]]; rewrite E in *.
      + exists P. split; [|reflexivity]. exists i. split; [exact Hb|]. rewrite Ls. apply S_phi; auto.
      + destruct (i_def _ _ _ I l w H) as (d & N & Er). exists d. split; [eapply now_mono; eauto|exact Er].
    - intros l w. destruct (Def l w) as [(-> & -> & ->)|[Nd ->]]; [right; exists c0; auto|apply Kn, (i_dvar _ _ _ I)].
    - intros l w j Pj Lj. destruct (Def l w) as [(-> & -> & ->)|[Nd ->]]; [exact Pp|eapply (i_store _ _ _ I); eauto].
    - intros y d j a q H Aj An Q. destruct (Get y d H) as [[-> ->]|[_ H']]; [destruct j; discriminate|].
      destruct (i_arg _ _ _ I y d j a q H' Aj An Q) as [(S & e & E & Er)|F]; [left|right; exact F]. split; [exact S|]. exists e. split; [eapply at_end_mono; eauto|exact Er].
    - intros y d a H Ai. destruct (Get y d H) as [[-> ->]|[_ H']]; [destruct Ai|]. apply Kn. eapply (i_avar _ _ _ I); eauto.
    - intros y d H Z. destruct (Get y d H) as [[-> ->]|[_ H']]; [simpl in Z; congruence|apply (i_rem _ _ _ I y d H' Z)].
    - intros y d u H Hu Lu. destruct (Get y d H) as [[-> ->]|[_ H']]; [destruct Hu|]. destruct (i_user _ _ _ I y d u H' Hu Lu) as [A B].
      destruct (Def u (c_var d)) as [(-> & E & _)|[Nd ->]]; [rewrite E in A; congruence|auto].
    - intros y [<-|Hy].
      + split; [|split].
        * intros H. destruct (proj2 (i_queue _ _ _ I) P H) as (_ & d & Hd & _). congruence.
        * intros H. destruct (proj2 (i_gen _ _ _ I) P H) as (d & Hd & _). congruence.
        * exists c0. auto.
      + destruct (i_open _ _ _ I y Hy) as (A & B & d & Hd & E). split; [exact A|]. split; [exact B|]. exists d. auto.
    - split; [apply I|]. intros y Hy. destruct (proj2 (i_queue _ _ _ I) y Hy) as (A & d & Hd & E). split; [exact A|]. exists d. auto.
    - split; [apply I|]. intros y Hy. destruct (proj2 (i_gen _ _ _ I) y Hy) as (d & Hd & E). exists d. auto.
    - intros y d H. destruct (Get y d H) as [[-> ->]|[_ H']]; [left; left; reflexivity|]. destruct (i_all _ _ _ I y d H') as [A|A]; [left; right; exact A|right; exact A].
    - intros r y H. destruct (i_load _ _ _ I r y H) as (b' & j & w & d & L & V & E). exists b', j, w, d. split; [exact L|]. split; [eapply value_at_mono; eauto|exact E]. }
  assert (X0 : ext open s s0).
  { split.
    - intros y d H. exists d. repeat split; auto. intros w Hw; exact Hw.
    - change (next s0) with (next s + 1). lia.
    - intros y d _ H. exists d. repeat split; auto.
    - auto. }
  change (write (create v b s) v b P) with (add_user s0 P b). cbv zeta. split; [|split; [|split]].
  - apply inv_add_user; auto. intros c Hc _. rewrite PP in Hc. injection Hc as <-. simpl. unfold upd. rewrite !N.eqb_refl. auto.
  - eapply ext_trans; [exact X0|apply ext_add_user].
  - eapply ext_C; [apply (ext_add_user open)|exact CP].
  - unfold add_user, edit. rewrite PP. simpl. rewrite upd_eq. eexists. split; [reflexivity|]. auto.
Qed.

Lemma inv_push open s R p c a : inv open s R -> In p open -> cands s p = Some c -> known s (c_var c) a ->
  (a <> 0 -> forall q, nth_error (preds f (c_bb c)) (length (c_args c)) = Some q -> In q sl /\ exists d, at_end f undef (C s) q (c_var c) d /\ R a = R d) ->
  inv open (push_arg s p a) R.
Proof using All.
  intros I Ho Hp Kn Hd. destruct (i_open _ _ _ I p Ho) as (Nq & Ng & c' & Hc' & Z). assert (c' = c) by congruence. subst c'.
  unfold push_arg, edit. rewrite Hp. eapply inv_edit; eauto; simpl; try tauto.
  - split; reflexivity.
  - intros i x q Hi Nx Q. destruct (Nat.lt_ge_cases i (length (c_args c))) as [L|L].
    + rewrite nth_error_app1 in Hi by exact L. eapply (i_arg _ _ _ I); eauto.
    + rewrite nth_error_app2 in Hi by exact L. destruct (i - length (c_args c))%nat as [|k] eqn:Ek; [|destruct k; discriminate]. simpl in Hi. injection Hi as <-.
      left. apply Hd; [exact Nx|]. replace (length (c_args c)) with i by lia. exact Q.
  - intros x Hx. apply in_app_or in Hx. destruct Hx as [Hx|[<-|[]]]; [eapply (i_avar _ _ _ I); eauto|exact Kn].
Qed.
Lemma ext_push open s p a : ~ In p open -> ext open s (push_arg s p a).
Proof.
  intros No. unfold push_arg, edit. destruct (cands s p) as [c|] eqn:E; [|apply ext_refl]. eapply ext_edit; eauto; simpl; try tauto.
  - split; reflexivity.
  - intros x Hx; exact Hx.
Qed.

Definition good (open : list N) (s : state) (R : N -> N) (v b x : N) (s' : state) : Prop :=
  exists R', inv open s' R' /\ coarser R R' /\ ext open s s' /\ x <> 0 /\ known s' v x /\ exists d, now s' b v d /\ R' x = R' d.

Lemma operands_ok look open P v b : ~ In P open ->
  (forall q s R x s', In q sl -> inv (P :: open) s R -> look q s = Some (x, s') -> good (P :: open) s R v q x s') ->
  forall ps pre s R s' c, preds f b = pre ++ ps -> inv (P :: open) s R -> cands s P = Some c -> c_bb c = b -> c_var c = v -> length (c_args c) = length pre ->
  operands look P ps s = Some s' ->
  exists R' c', inv (P :: open) s' R' /\ coarser R R' /\ ext open s s' /\ cands s' P = Some c' /\ c_bb c' = b /\ c_var c' = v /\ length (c_args c') = length (preds f b).
Proof using All.
  intros No Look. induction ps as [|q ps IH]; intros pre s R s' c Ep I Hc Eb Ev Len H; simpl in H.
  - injection H as <-. exists R, c. rewrite app_nil_r in Ep. rewrite Ep. split; [exact I|]. split; [intros x y E; exact E|]. split; [apply ext_refl|]. auto.
  - assert (Step : exists a s1 R1, inv (P :: open) s1 R1 /\ coarser R R1 /\ ext (P :: open) s s1 /\ known s1 v a /\
      (a <> 0 -> In q sl /\ exists d, at_end f undef (C s1) q v d /\ R1 a = R1 d) /\
      operands look P ps (if a =? P then push_arg s1 P a else add_user (push_arg s1 P a) a P) = Some s').
    { destruct (is_sealed s q) eqn:Sq.
      - assert (Hq : In q sl). { unfold is_sealed in Sq. apply existsb_exists in Sq. destruct Sq as (q' & Hq' & E). apply N.eqb_eq in E. subst q'. rewrite (i_sealed _ _ _ I) in Hq'. exact Hq'. }
        destruct (look q s) as [[a s1]|] eqn:El; [|discriminate]. destruct (Look q s R a s1 Hq I El) as (R1 & I1 & Co & X & Na & Kn & d & Nw & Er).
        exists a, s1, R1. split; [exact I1|]. split; [exact Co|]. split; [exact X|]. split; [exact Kn|]. split; [|exact H]. intros _. split; [exact Hq|]. exists d. split; [|exact Er]. apply (now_end s1 q v d Hq). exact Nw.
      - exists 0, s, R. split; [exact I|]. split; [intros x y E; exact E|]. split; [apply ext_refl|]. split; [left; pose proof (proj1 (proj2 FR 0)); lia|]. split; [congruence|exact H]. }
    destruct Step as (a & s1 & R1 & I1 & Co & X1 & Kn & Ha & Rest).
    destruct (x_cand _ _ _ X1 P c Hc) as (c1 & Hc1 & [Kv Kb] & _). destruct (x_open _ _ _ X1 P c (or_introl eq_refl) Hc) as (c1' & Hc1' & Len1 & _).
    assert (c1' = c1) by congruence. subst c1'.
    assert (I2 : inv (P :: open) (push_arg s1 P a) R1).
    { eapply inv_push; eauto; [left; reflexivity|rewrite Kv, Ev; exact Kn|]. intros Na q' Hq'. destruct (Ha Na) as [S D]. rewrite Kb, Eb, Ep, Len1, Len in Hq'.
      rewrite nth_error_app2, Nat.sub_diag in Hq' by lia. simpl in Hq'. injection Hq' as <-. rewrite Kv, Ev. auto. }
    assert (X2 : ext open s1 (push_arg s1 P a)) by (apply ext_push, No).
    assert (H2 : cands (push_arg s1 P a) P = Some (mkcand (c_var c1) (c_bb c1) (c_args c1 ++ [a]) (c_copy c1) (c_done c1) (c_users c1))).
    { unfold push_arg, edit. rewrite Hc1. simpl. apply upd_eq. }
    set (s3 := if a =? P then push_arg s1 P a else add_user (push_arg s1 P a) a P) in Rest.
    assert (G3 : inv (P :: open) s3 R1 /\ ext open (push_arg s1 P a) s3 /\ exists c3, cands s3 P = Some c3 /\ c_bb c3 = b /\ c_var c3 = v /\ length (c_args c3) = length (pre ++ [q])).
    { unfold s3. rewrite app_length. simpl. destruct (N.eqb_spec a P) as [Ea|Ne].
      - split; [exact I2|]. split; [apply ext_refl|]. eexists. split; [exact H2|]. simpl. rewrite app_length. simpl. repeat split; try congruence.
      - split; [|split].
        + apply inv_add_user; auto. intros c' _ Lp. rewrite (cand_not_label _ _ _ _ I2 Lp) in H2. discriminate.
        + apply ext_add_user.
        + unfold add_user, edit. destruct (cands (push_arg s1 P a) a) as [ca|] eqn:Ea.
          * eexists. split; [simpl; rewrite upd_ne by congruence; exact H2|]. simpl. rewrite app_length. simpl. repeat split; try congruence.
          * eexists. split; [exact H2|]. simpl. rewrite app_length. simpl. repeat split; try congruence. }
    destruct G3 as (I3 & X3 & c3 & H3 & Eb3 & Ev3 & L3).
    destruct (IH (pre ++ [q]) s3 R1 s' c3) as (R' & c' & I' & Co' & X' & H' & Rst); auto.
    { rewrite <- app_assoc. exact Ep. }
    exists R', c'. split; [exact I'|]. split; [eapply coarser_trans; eauto|]. split; [|auto].
    eapply ext_trans; [eapply ext_sub; [|exact X1]; intros x Hx; right; exact Hx|]. eapply ext_trans; [exact X2|]. eapply ext_trans; eauto.
Qed.

Lemma settle_ok open s R P c y s' : inv (P :: open) s R -> ~ In P open -> cands s P = Some c -> length (c_args c) = length (preds f (c_bb c)) -> base <= P ->
  settle f P s = Some (y, s') ->
  exists R', inv open s' R' /\ coarser R R' /\ ext open s s' /\ y <> 0 /\ R' y = R' P /\ known s' (c_var c) y.
Proof using All.
  intros I No Hc Len Bp. destruct (i_open _ _ _ I P (or_introl eq_refl)) as (Nq & Ng & c0 & Hc0 & Z). assert (c0 = c) by congruence. subst c0.
  pose proof (first_pos _ _ _ _ _ I Hc) as Np. unfold settle. rewrite Hc. destruct (existsb (N.eqb 0) (c_args c)) eqn:E0.
  - intros H. injection H as <- <-. exists R. split; [|split; [intros a b E; exact E|split; [|split; [exact Np|split; [reflexivity|right; exists c; auto]]]]].
    + constructor; simpl; try apply I.
      * intros y Hy. destruct (i_open _ _ _ I y (or_intror Hy)) as (A & B & D). split; [|auto]. intros H. apply in_app_or in H. destruct H as [H|[<-|[]]]; auto.
      * split; [apply nodup_snoc; [exact Nq|apply I]|]. intros y Hy. apply in_app_or in Hy. destruct Hy as [Hy|[<-|[]]]; [apply (proj2 (i_queue _ _ _ I) y Hy)|]. split; [exact Ng|]. exists c. auto.
      * intros y d H. destruct (i_all _ _ _ I y d H) as [[<-|A]|[A|A]]; auto; right; left; apply in_or_app; simpl; auto.
    + destruct (ext_refl open s) as [A B D E]. split; assumption.
  - assert (Nz : ~ In 0 (c_args c)). { intros H. assert (existsb (N.eqb 0) (c_args c) = true) by (apply existsb_exists; exists 0; auto). congruence. }
    assert (Hh : holds s R P (c_var c) (c_users c)).
    { intros u Hu Lu. destruct (i_user _ _ _ I P c u Hc Hu Lu) as [A [B|[B _]]]; [auto|lia]. }
    destruct (try_remove f P s) as [[x s1]|] eqn:Et; [|discriminate].
    destruct (try_remove_ok open s R P c x s1 I No Hc Len Nz Hh Et) as [[-> ->]|(Nx & Nx0 & R' & I' & Co & X & Er & Kn & _)].
    + rewrite N.eqb_refl. intros H. injection H as <- <-. exists R.
      assert (I1 : inv (P :: open) (mark_done s P) R).
      { unfold mark_done, edit. rewrite Hc. eapply inv_edit; eauto; simpl; try tauto.
        - split; reflexivity.
        - intros. eapply (i_arg _ _ _ I); eauto.
        - intros. eapply (i_avar _ _ _ I); eauto. }
      set (cd := mkcand (c_var c) (c_bb c) (c_args c) (c_copy c) true (c_users c)).
      assert (H1 : cands (mark_done s P) P = Some cd) by (unfold mark_done, edit; rewrite Hc; simpl; apply upd_eq).
      assert (Gq : queue (mark_done s P) = queue s /\ gen (mark_done s P) = gen s) by (unfold mark_done, edit; rewrite Hc; auto). destruct Gq as [Gq Gg].
      split; [|split; [intros a b E; exact E|split; [|split; [exact Np|split; [reflexivity|right; exists cd; auto]]]]].
      * constructor; simpl; try apply I1.
        -- intros y Hy. destruct (i_open _ _ _ I1 y (or_intror Hy)) as (A & B & D). split; [exact A|split; [|exact D]]. intros H. apply in_app_or in H. destruct H as [H|[<-|[]]]; auto.
        -- split; [apply I1|]. intros y Hy. destruct (proj2 (i_queue _ _ _ I1) y Hy) as (A & D). split; [|exact D]. intros H. apply in_app_or in H. destruct H as [H|[<-|[]]]; auto. rewrite Gq in Hy. auto.
        -- split; [apply nodup_snoc; [rewrite Gg; exact Ng|apply I1]|]. intros y Hy. apply in_app_or in Hy. destruct Hy as [Hy|[<-|[]]]; [apply (proj2 (i_gen _ _ _ I1) y Hy)|]. exists cd. auto.
        -- intros y d H. destruct (i_all _ _ _ I1 y d H) as [[<-|A]|[A|[A|A]]]; auto; right; right; left; apply in_or_app; simpl; auto.
      * assert (X : ext open s (mark_done s P)).
        { unfold mark_done, edit. rewrite Hc. eapply ext_edit; eauto; simpl; try tauto; [split; reflexivity|intros u Hu; exact Hu]. }
        destruct X as [A B D E]. split; assumption.
    + apply N.eqb_neq in Nx. rewrite Nx. intros H. injection H as <- <-. exists R'. auto 10.
Qed.

Lemma inv_generate open s R P c : inv (P :: open) s R -> ~ In P open -> cands s P = Some c -> c_done c = true -> length (c_args c) = length (preds f (c_bb c)) -> ~ In 0 (c_args c) ->
  inv open (generate s P) R.
Proof using All.
  intros I No Hc Dn Len Nz. destruct (i_open _ _ _ I P (or_introl eq_refl)) as (Nq & Ng & c0 & Hc0 & Z). assert (c0 = c) by congruence. subst c0.
  constructor; simpl; try apply I.
  - intros y Hy. destruct (i_open _ _ _ I y (or_intror Hy)) as (A & B & D). split; [exact A|split; [|exact D]]. intros H. apply in_app_or in H. destruct H as [H|[<-|[]]]; auto.
  - split; [apply I|]. intros y Hy. destruct (proj2 (i_queue _ _ _ I) y Hy) as (A & D). split; [|exact D]. intros H. apply in_app_or in H. destruct H as [H|[<-|[]]]; auto.
  - split; [apply nodup_snoc; [exact Ng|apply I]|]. intros y Hy. apply in_app_or in Hy. destruct Hy as [Hy|[<-|[]]]; [apply (proj2 (i_gen _ _ _ I) y Hy)|]. exists c. auto.
  - intros y d H. destruct (i_all _ _ _ I y d H) as [[<-|A]|[A|[A|A]]]; auto; right; right; left; apply in_or_app; simpl; auto.
Qed.
Lemma set_nth_ok l : forall i (x : N) j, nth_error (set_nth l i x) j = if (j =? i)%nat then match nth_error l j with Some _ => Some x | None => None end else nth_error l j.
Proof. clear. induction l as [|a l IH]; intros [|i] x [|j]; simpl; auto. destruct (j =? i)%nat; reflexivity. Qed.
Lemma set_nth_length l : forall i (x : N), length (set_nth l i x) = length l.
Proof. clear. induction l as [|a l IH]; intros [|i] x; simpl; auto. Qed.
Lemma inv_set open s R p c k a : inv open s R -> In p open -> cands s p = Some c -> known s (c_var c) a -> a <> 0 ->
  (forall q, nth_error (preds f (c_bb c)) k = Some q -> (In q sl /\ exists d, at_end f undef (C s) q (c_var c) d /\ R a = R d) \/ (fin = true /\ ~ In q sl)) ->
  inv open (set_arg s p k a) R.
Proof using All.
  intros I Ho Hp Kn Na Hd. destruct (i_open _ _ _ I p Ho) as (Nq & Ng & c' & Hc' & Z). assert (c' = c) by congruence. subst c'.
  unfold set_arg, edit. rewrite Hp. eapply inv_edit; eauto; simpl; try tauto.
  - split; reflexivity.
  - intros i x q Hi Nx Q. rewrite set_nth_ok in Hi. destruct (Nat.eqb_spec i k) as [->|_].
    + destruct (nth_error (c_args c) k); [|discriminate]. injection Hi as <-. apply Hd, Q.
    + eapply (i_arg _ _ _ I); eauto.
  - intros x Hx. apply In_nth_error in Hx. destruct Hx as [n Hn]. rewrite set_nth_ok in Hn. destruct (n =? k)%nat.
    + destruct (nth_error (c_args c) n); [|discriminate]. injection Hn as <-. exact Kn.
    + eapply (i_avar _ _ _ I); eauto. eapply nth_error_In; eauto.
Qed.

Lemma reaching_ok fuel : forall v b s s' x open R i, inv open s R -> part b i -> reaching f undef fuel v b s = Some (x, s') -> good open s R v b x s'.
Proof using All.
  induction fuel as [|n IH]; intros v b s s' x open R i I Hb H; [discriminate|]. simpl in H. destruct (N.eqb_spec (defs s b v) 0) as [D0|Dn]; simpl in H.
  2:{ injection H as <- <-. exists R. split; [exact I|]. split; [intros a c E; exact E|]. split; [apply ext_refl|]. split; [exact Dn|]. split; [apply (i_dvar _ _ _ I)|]. apply (i_def _ _ _ I b v Dn). }
  assert (Ls : last_store v i = None).
  { destruct (last_store v i) eqn:E; [|reflexivity]. exfalso. apply (i_store _ _ _ I b v i Hb); [congruence|exact D0]. }
  assert (Last : forall R1 s1 y d, inv open s1 R1 -> coarser R R1 -> ext open s s1 -> y <> 0 -> known s1 v y -> at_start f undef (C s1) b v d -> R1 y = R1 d -> good open s R v b y (write s1 v b y)).
  { intros R1 s1 y d I1 Co X Ny Kn St Er. assert (Nw : now s1 b v d) by (exists i; split; [exact Hb|rewrite Ls; exact St]).
    exists R1. split; [eapply inv_write; eauto|]. split; [exact Co|]. split; [eapply ext_trans; [exact X|apply ext_write]|]. split; [exact Ny|].
    split; [eapply known_ext; [apply (ext_write open)|exact Kn]|]. exists d. split; [|exact Er]. eapply now_mono; [|exact Nw]. apply (ext_C open), ext_write. }
  destruct (preds f b) as [|p0 [|p1 ps]] eqn:Ep.
  - rewrite N.eqb_refl in H. injection H as <- <-. destruct (proj2 FR v) as [U _]. eapply Last; eauto.
    + intros a c E; exact E.
    + apply ext_refl.
    + lia.
    + left. lia.
    + apply S_none, Ep.
  - destruct (reaching f undef n v p0 s) as [[y s1]|] eqn:Er; [|discriminate]. pose proof (ORD b i p0 Hb Ep) as Sp. destruct (PS p0 Sp) as (bb & _ & Pp).
    destruct (IH v p0 s s1 y open R (body bb) I Pp Er) as (R1 & I1 & Co & X & Ny & Kn & d & Nw & E). destruct (N.eqb_spec y 0) as [|_]; [congruence|]. injection H as <- <-.
    eapply Last; eauto. eapply start_from_pred; eauto.
  - set (P := next s) in *. change (p0 :: p1 :: ps) with ([] ++ (p0 :: p1 :: ps)) in Ep. simpl app in Ep.
    destruct (inv_create open s R v b i I Hb D0) as (I1 & X1 & C1 & c1 & Hc1 & Eb1 & Ev1 & Ea1); [rewrite Ep; simpl; lia|]. fold P in I1, X1, C1, Hc1. set (s1 := write (create v b s) v b P) in *.
    destruct (operands (reaching f undef n v) P (p0 :: p1 :: ps) s1) as [s2|] eqn:Eo; [|simpl in Eo; unfold operands in H; fold operands in H; rewrite Eo in H; discriminate].
    assert (H' : match settle f P s2 with Some (x1, s3) => let y := if x1 =? 0 then undef v else x1 in Some (y, write s3 v b y) | None => None end = Some (x, s')).
    { simpl in Eo. simpl in H. rewrite Eo in H. exact H. } clear H.
    assert (No : ~ In P open). { intros Ho. destruct (i_open _ _ _ I P Ho) as (_ & _ & c & Hc & _). apply (i_next _ _ _ I) in Hc. unfold P in Hc. lia. }
    destruct (operands_ok (reaching f undef n v) open P v b No) with (ps := p0 :: p1 :: ps) (pre := @nil N) (s := s1) (R := R) (s' := s2) (c := c1) as (R2 & c2 & I2 & Co2 & X2 & Hc2 & Eb2 & Ev2 & L2); auto.
    { intros q s0 R0 y s0' Hq I0 El. destruct (PS q Hq) as (bb & _ & Pq). eapply IH; eauto. }
    { rewrite Ea1. reflexivity. }
    destruct (settle f P s2) as [[y s3]|] eqn:Es; [|discriminate].
    destruct (settle_ok open s2 R2 P c2 y s3 I2 No Hc2) as (R3 & I3 & Co3 & X3 & Ny & Er & Kn); auto; [congruence|apply (i_base _ _ _ I)|].
    destruct (N.eqb_spec y 0) as [|_]; [congruence|]. cbv zeta in H'. injection H' as <- <-. rewrite Ev2 in Kn. eapply Last; eauto.
    + eapply coarser_trans; eauto.
    + eapply ext_trans; [exact X1|]. eapply ext_trans; eauto.
    + apply S_phi; [rewrite Ep; simpl; lia|]. eapply ext_C; [exact X3|]. exists c2. auto.
Qed.
End Inv.
