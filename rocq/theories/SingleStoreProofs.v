(** Proofs about the elimination of loads of variables stored to once: what the checks establish. *)
From Verif Require Import Base GraphSpec LocalElim LocalElimSpec LocalElimProofs LocalElimProofs2 LocalElimProofs3 SingleStore.
Local Open Scope N_scope.

Lemma in_numbered {A} (l : list A) : forall n j x, In (j, x) (numbered n l) <-> (n <= j)%nat /\ nth_error l (j - n) = Some x.
Proof.
  induction l as [|a l IH]; intros n j x; simpl.
  - split; [tauto|]. intros [_ H]. destruct (j - n)%nat; discriminate.
  - rewrite (IH (S n)). split.
    + intros [E|[L H]].
      * injection E as <- <-. rewrite Nat.sub_diag. auto.
      * split; [lia|]. replace (j - n)%nat with (S (j - S n)) by lia. exact H.
    + intros [L H]. destruct (j - n)%nat as [|k] eqn:E; simpl in H.
      * left. injection H as ->. f_equal. lia.
      * right. split; [lia|]. replace (j - S n)%nat with k by lia. exact H.
Qed.
Lemma in_placed f b j i : In ((b, j), i) (placed f) <-> exists c, nth_error (blocks f) b = Some c /\ nth_error (body c) j = Some i.
Proof.
  unfold placed. rewrite in_flat_map. split.
  - intros ([b' c] & Hb & H). apply in_map_iff in H. destruct H as ([j' i'] & E & Hj). simpl in E. injection E as -> -> ->.
    apply in_numbered in Hb, Hj. rewrite Nat.sub_0_r in *. exists c. tauto.
  - intros (c & Hb & Hj). exists (b, c). split; [apply in_numbered; rewrite Nat.sub_0_r; split; [lia|exact Hb]|].
    apply in_map_iff. exists (j, i). split; [reflexivity|]. apply in_numbered. rewrite Nat.sub_0_r. split; [lia|exact Hj].
Qed.
Definition at_pos (f : func) (q : pos) (i : inst) : Prop := In (q, i) (placed f).
Lemma at_pos_inst f q i : at_pos f q i -> In i (all_insts f).
Proof. destruct q as [b j]. intros H. apply in_placed in H. destruct H as (c & Hb & Hj). eapply place_inst; eauto using nth_error_In. Qed.
Lemma inst_at_pos f i : In i (all_insts f) -> exists q, at_pos f q i.
Proof. intros H. destruct (inst_place f i H) as (c & j & Hc & Hj). apply In_nth_error in Hc. destruct Hc as [b Hb]. exists (b, j). apply in_placed. eauto. Qed.
Lemma at_pos_fun f q i i' : at_pos f q i -> at_pos f q i' -> i = i'.
Proof. destruct q as [b j]. intros H H'. apply in_placed in H, H'. destruct H as (c & Hb & Hj), H' as (c' & Hb' & Hj'). congruence. Qed.

(** [p] is all of the variable [v]: the variable or a copy *)
Inductive whole (f : func) (v : N) : N -> Prop :=
| W_var x : In x (vars f) -> v_id x = v -> whole f v v
| W_copy r a : In (ICopy r a) (all_insts f) -> whole f v a -> whole f v r.
Lemma whole_derived f v p : whole f v p -> derived f v p.
Proof. induction 1; [eapply D_var|eapply D_copy]; eauto. Qed.

(** the uses of [v]: one store, to all of it *)
Record eligible (f : func) (v : N) (st : pos) (a0 : N) : Prop := {
  el_var : exists x, In x (vars f) /\ v_id x = v /\ v_target x = true;
  el_store : exists p vol, at_pos f st (IStore p a0 vol) /\ whole f v p;
  el_use : forall p q i, derived f v p -> at_pos f q i -> In p (reads i) ->
    match i with ILoad _ _ _ | IChain _ _ _ | ICopy _ _ => True | IStore _ _ _ => q = st | _ => False end;
  el_phi : forall p b x l, derived f v p -> In b (blocks f) -> In x (phis b) -> ~ In (p, l) (p_args x);
  el_term : forall p b, derived f v p -> In b (blocks f) -> ~ In p (t_args b) }.

(** what is maintained: only loads that are gone are renamed, to ids that were stored *)
Record sound (f : func) (s : progress) : Prop := {
  so_renamed : forall y, ren s y <> y -> exists q p vol, at_pos f q (ILoad y p vol) /\ In q (gone s);
  so_stored : forall y, ren s y = y \/ exists p a vol, In (IStore p a vol) (all_insts f) /\ ren s y = a;
  so_gone : forall q, In q (gone s) -> exists r p vol, at_pos f q (ILoad r p vol) }.

Section Uses.
Variable f : func.
Hypothesis WF : well_formed f.
Hypothesis PNS : pointers_not_stored f.
Variable s : progress.
Hypothesis So : sound f s.
Variables (v : N) (vx : var).
Hypothesis Hv : In vx (vars f) /\ v_id vx = v /\ v_target vx = true.

Lemma ren_derived p : derived f v p -> ren s p = p.
Proof using All.
  intros Dv. destruct (N.eq_dec (ren s p) p) as [|Ne]; [assumption|exfalso]. destruct (so_renamed f s So p Ne) as (q & p0 & vol & Hq & _). apply at_pos_inst in Hq.
  destruct Dv as [x Hx E|r b0 idx Hi Dv|r a Hi Dv].
  - subst v. apply (var_not_result f WF x _ Hx Hq). reflexivity.
  - discriminate (result_inj f WF _ _ r Hq Hi eq_refl eq_refl).
  - discriminate (result_inj f WF _ _ r Hq Hi eq_refl eq_refl).
Qed.
Lemma ren_to_derived y p : derived f v p -> ren s y = p -> y = p.
Proof using All.
  intros Dv E. destruct (so_stored f s So y) as [E'|(p0 & a & vol & Hi & E')]; [congruence|exfalso]. destruct Hv as (Hx & Ev & T).
  rewrite E in E'. subst a v. exact (PNS p0 p vol vx Hi Hx T Dv).
Qed.
Lemma reads_rename (g : N -> N) i : reads (rename g i) = map g (reads i).
Proof using All. destruct i; reflexivity. Qed.
Lemma reads_derived p i : derived f v p -> In p (reads (rename (ren s) i)) <-> In p (reads i).
Proof using All.
  intros Dv. rewrite reads_rename, in_map_iff. split.
  - intros (y & E & Hy). rewrite (ren_to_derived y p Dv E) in Hy. exact Hy.
  - intros H. exists p. split; [apply ren_derived, Dv|exact H].
Qed.
(** the users that are found are those of the function as it was, but for the loads that are gone *)
Lemma user_inst p q i : derived f v p -> (In (UInst q i) (users_of f s p) <-> exists i0, i = rename (ren s) i0 /\ at_pos f q i0 /\ ~ In q (gone s) /\ In p (reads i0)).
Proof using All.
  intros Dv. unfold users_of. rewrite in_app_iff, in_map_iff. split.
  - intros [((q' & i') & E & H)|H].
    + simpl in E. injection E as -> ->. apply filter_In in H. destruct H as [H Hr]. apply in_map_iff in H. destruct H as ((q' & i0) & E & H). simpl in E. injection E as -> <-.
      apply filter_In in H. destruct H as [H Hg]. simpl in Hg, Hr. apply negb_true_iff, pos_not_in in Hg. apply mem_id_in in Hr. exists i0.
      split; [reflexivity|]. split; [exact H|]. split; [exact Hg|]. apply (reads_derived p i0 Dv), Hr.
    + destruct (existsb _ (blocks f)); [destruct H as [H|[]]; discriminate|destruct H].
  - intros (i0 & -> & H & Hg & Hr). left. exists (q, rename (ren s) i0). split; [reflexivity|]. apply filter_In. split.
    + apply in_map_iff. exists (q, i0). split; [reflexivity|]. apply filter_In. split; [exact H|]. apply negb_true_iff, pos_not_in, Hg.
    + simpl. apply mem_id_in, (reads_derived p i0 Dv), Hr.
Qed.
Lemma user_edge p : derived f v p -> ~ In UEdge (users_of f s p) -> (forall b x l, In b (blocks f) -> In x (phis b) -> ~ In (p, l) (p_args x)) /\ (forall b, In b (blocks f) -> ~ In p (t_args b)).
Proof using All.
  intros Dv N. unfold users_of in N. rewrite in_app_iff in N.
  destruct (existsb (fun b => existsb (fun x => mem_id p (map (ren s) (map fst (p_args x)))) (phis b) || mem_id p (map (ren s) (t_args b))) (blocks f)) eqn:E; [exfalso; apply N; right; left; reflexivity|].
  assert (F : forall b, In b (blocks f) -> existsb (fun x => mem_id p (map (ren s) (map fst (p_args x)))) (phis b) || mem_id p (map (ren s) (t_args b)) = false).
  { intros b Hb. destruct (existsb _ (phis b) || _) eqn:E2; [|reflexivity]. rewrite <- E. symmetry. apply existsb_exists. eauto. }
  split.
  - intros b x l Hb Hx Hp. specialize (F b Hb). apply orb_false_iff in F. destruct F as [F _]. assert (T : existsb (fun x => mem_id p (map (ren s) (map fst (p_args x)))) (phis b) = true); [|congruence].
    apply existsb_exists. exists x. split; [exact Hx|]. apply mem_id_in, in_map_iff. exists p. split; [apply ren_derived, Dv|]. apply in_map_iff. exists (p, l). auto.
  - intros b Hb Hp. specialize (F b Hb). apply orb_false_iff in F. destruct F as [_ F]. assert (T : mem_id p (map (ren s) (t_args b)) = true); [|congruence].
    apply mem_id_in, in_map_iff. exists p. split; [apply ren_derived, Dv|exact Hp].
Qed.

Lemma gather_in rec l us : gather rec l = Some us -> (forall u, In u l -> In u us) /\
  (forall q r a, In (UInst q (ICopy r a)) l -> exists us', rec r = Some us' /\ forall u, In u us' -> In u us) /\
  (forall u, In u us -> In u l \/ exists q r a us', In (UInst q (ICopy r a)) l /\ rec r = Some us' /\ In u us').
Proof using All.
  revert us. induction l as [|x l IH]; simpl; intros us H; [injection H as <-; split; [tauto|]; split; [tauto|intros u []]|].
  destruct (match x with UInst _ (ICopy r _) => rec r | _ => Some [] end) as [u1|] eqn:E; [|discriminate]. destruct (gather rec l) as [u2|] eqn:G; [|discriminate]. injection H as <-.
  destruct (IH u2 eq_refl) as (A & B & C). split; [|split].
  - intros u [<-|Hu]; [left; reflexivity|]. right. apply in_or_app. right. apply A, Hu.
  - intros q r a [->|Hu].
    + exists u1. split; [exact E|]. intros u Hu. right. apply in_or_app. auto.
    + destruct (B q r a Hu) as (us' & E' & S'). exists us'. split; [exact E'|]. intros u Hu'. right. apply in_or_app. auto.
  - intros u [<-|Hu]; [auto|]. apply in_app_or in Hu. destruct Hu as [Hu|Hu].
    + right. destruct x as [q [| | |r a| |]|]; simpl in E; try (injection E as <-; destruct Hu). exists q, r, a, u1. auto.
    + destruct (C u Hu) as [H|(q & r & a & us' & H1 & H2)]; [auto|]. right. exists q, r, a, us'. auto.
Qed.
(** all users of the variable and its copies are found, and no others *)
Lemma find_uses_all p : whole f v p -> forall n us, find_uses n f s v = Some us -> exists n' us', find_uses n' f s p = Some us' /\ forall u, In u us' -> In u us.
Proof using All.
  induction 1 as [x Hx E|r a Hi Wh IH]; intros n us H; [exists n, us; auto|]. destruct (IH n us H) as (n' & us' & F & Sub). destruct n' as [|n']; simpl in F; [discriminate|].
  destruct (gather_in _ _ _ F) as (A & B & _). destruct (inst_at_pos f _ Hi) as [q Hq].
  assert (Ng : ~ In q (gone s)). { intros G. destruct (so_gone f s So q G) as (r0 & p0 & vol & Hq'). discriminate (at_pos_fun f q _ _ Hq Hq'). }
  assert (U : In (UInst q (rename (ren s) (ICopy r a))) (users_of f s a)) by (apply user_inst; [apply whole_derived, Wh|]; exists (ICopy r a); simpl; auto).
  simpl in U. destruct (B _ _ _ U) as (u2 & E2 & S2). exists n', u2. split; [exact E2|]. intros u Hu. apply Sub, S2, Hu.
Qed.
Lemma find_uses_only n : forall p us u, whole f v p -> find_uses n f s p = Some us -> In u us -> exists p', whole f v p' /\ In u (users_of f s p').
Proof using All.
  induction n as [|n IH]; simpl; intros p us u Wh H Hu; [discriminate|]. destruct (gather_in _ _ _ H) as (_ & _ & C). destruct (C u Hu) as [Hu'|(q & r & a & us' & H1 & H2 & H3)]; [eauto|].
  eapply (IH r us'); eauto. apply user_inst in H1; [|apply whole_derived, Wh]. destruct H1 as (i0 & E & Hq & _ & Hr). destruct i0; try discriminate. simpl in E. injection E as -> ->.
  simpl in Hr. destruct Hr as [->|[]]. eapply W_copy; [apply at_pos_inst in Hq; exact Hq|exact Wh].
Qed.

Lemma any_user_none q l : any_user q l = Some false -> forall u, In u l -> q u = Some false.
Proof using All. induction l as [|x l IH]; simpl; [tauto|]. intros H u [<-|Hu]; destruct (q x) as [[]|]; try discriminate; auto. Qed.
(** no store through a pointer that does not feed one, nor through those made from it *)
Inductive made_from (p : N) : N -> Prop :=
| M_self : made_from p p
| M_chain r b idx : In (IChain r b idx) (all_insts f) -> made_from p b -> made_from p r
| M_copy r a : In (ICopy r a) (all_insts f) -> made_from p a -> made_from p r.
Lemma made_derived p r : derived f v p -> made_from p r -> derived f v r.
Proof using All. intros Dv. induction 1; [exact Dv|eapply D_chain|eapply D_copy]; eauto. Qed.
Lemma feeds_made n p r : derived f v p -> feeds_a_store n f s p = Some false -> made_from p r -> exists n', feeds_a_store n' f s r = Some false.
Proof using All.
  intros Dv H M. induction M as [|r b idx Hi M IH|r a Hi M IH]; [eauto| |]; destruct IH as [n' IH]; (destruct n' as [|n']; simpl in IH; [discriminate|]);
    destruct (inst_at_pos f _ Hi) as [q Hq];
    (assert (Ng : ~ In q (gone s)) by (intros G; destruct (so_gone f s So q G) as (r0 & p0 & vol & Hq'); discriminate (at_pos_fun f q _ _ Hq Hq'))); exists n'.
  - assert (U : In (UInst q (rename (ren s) (IChain r b idx))) (users_of f s b)) by (apply user_inst; [eapply made_derived; eauto|]; exists (IChain r b idx); simpl; auto).
    exact (any_user_none _ _ IH _ U).
  - assert (U : In (UInst q (rename (ren s) (ICopy r a))) (users_of f s a)) by (apply user_inst; [eapply made_derived; eauto|]; exists (ICopy r a); simpl; auto).
    exact (any_user_none _ _ IH _ U).
Qed.
Lemma feeds_use n p : derived f v p -> feeds_a_store n f s p = Some false ->
  (forall q i, at_pos f q i -> In p (reads i) -> match i with ILoad _ _ _ | IChain _ _ _ | ICopy _ _ => True | _ => False end) /\ ~ In UEdge (users_of f s p).
Proof using All.
  intros Dv H. destruct n as [|n]; simpl in H; [discriminate|]. pose proof (any_user_none _ _ H) as A. split.
  - intros q i Hq Hr. destruct (existsb (pos_eqb q) (gone s)) eqn:G.
    + apply pos_in in G. destruct (so_gone f s So q G) as (r0 & p0 & vol & Hq'). rewrite (at_pos_fun f q _ _ Hq Hq'). exact I.
    + apply pos_not_in in G. assert (U : In (UInst q (rename (ren s) i)) (users_of f s p)) by (apply user_inst; [exact Dv|]; exists i; auto).
      apply A in U. destruct i; simpl in U; try exact I; discriminate.
  - intros U. apply A in U. discriminate.
Qed.

Lemma single_store_in n l : forall found q x, single_store n f s l found = Some (Some (q, x)) ->
  (forall u, In u l -> match u with
     | UInst q' (IStore _ a _) => (q', a) = (q, x) /\ found = None
     | UInst _ (IChain r _ _) => feeds_a_store n f s r = Some false
     | UInst _ (ILoad _ _ _) | UInst _ (ICopy _ _) => True
     | _ => False end) /\
  (found = Some (q, x) \/ exists p vol, In (UInst q (IStore p x vol)) l).
Proof using All.
  induction l as [|u l IH]; simpl; intros found q x H.
  - split; [tauto|]. left. congruence.
  - destruct u as [q' [r p vol|p a vol|r b idx|r a|r fn args|r op args]|]; try discriminate.
    + destruct (IH _ _ _ H) as [A B]. split; [intros u [<-|Hu]; [exact I|apply A, Hu]|]. destruct B as [B|(p' & vol' & B)]; eauto.
    + destruct found as [?|]; [discriminate|]. destruct (IH _ _ _ H) as [A B]. split.
      * intros u [<-|Hu].
        -- split; [|reflexivity]. destruct B as [B|(p' & vol' & B)]; [congruence|]. destruct (A _ B) as [_ K]. discriminate.
        -- specialize (A u Hu). destruct u as [? [| | | | |]|]; auto. destruct A as [_ K]. discriminate.
      * right. destruct B as [B|(p' & vol' & B)]; [|eauto]. injection B as -> ->. eauto.
    + destruct (feeds_a_store n f s r) as [[]|] eqn:F; try discriminate. destruct (IH _ _ _ H) as [A B].
      split; [intros u [<-|Hu]; [exact F|apply A, Hu]|]. destruct B as [B|(p' & vol' & B)]; eauto.
    + destruct (IH _ _ _ H) as [A B]. split; [intros u [<-|Hu]; [exact I|apply A, Hu]|]. destruct B as [B|(p' & vol' & B)]; eauto.
Qed.

(** every pointer to the variable is all of it, or was made from a part that does not feed a store *)
Lemma derived_cases n us : find_uses n f s v = Some us -> (forall q r b idx, In (UInst q (IChain r b idx)) us -> exists n', feeds_a_store n' f s r = Some false) ->
  forall p, derived f v p -> whole f v p \/ exists n', feeds_a_store n' f s p = Some false.
Proof using All.
  intros F Ch p Dv. induction Dv as [x Hx E|r b idx Hi Dv IH|r a Hi Dv IH].
  - left. eapply W_var; eauto.
  - right. destruct IH as [Wh|[n' Fd]].
    + destruct (find_uses_all b Wh n us F) as (n1 & us' & F' & Sub). destruct n1 as [|n1]; simpl in F'; [discriminate|]. destruct (gather_in _ _ _ F') as (A & _).
      destruct (inst_at_pos f _ Hi) as [q Hq].
      assert (Ng : ~ In q (gone s)) by (intros G; destruct (so_gone f s So q G) as (r0 & p0 & vol & Hq'); discriminate (at_pos_fun f q _ _ Hq Hq')).
      apply (Ch q r (ren s b) (map (ren s) idx)). apply Sub, A. apply user_inst; [exact Dv|]. exists (IChain r b idx). simpl. auto.
    + eapply feeds_made; [exact Dv|exact Fd|]. eapply M_chain; [exact Hi|apply M_self].
  - destruct IH as [Wh|[n' Fd]]; [left; eapply W_copy; eauto|]. right. eapply feeds_made; [exact Dv|exact Fd|]. eapply M_copy; [exact Hi|apply M_self].
Qed.
Lemma checked n n' us q x : find_uses n f s v = Some us -> single_store n' f s us None = Some (Some (q, x)) ->
  exists a0, x = ren s a0 /\ eligible f v q a0.
Proof using All.
  intros F H. destruct (single_store_in _ _ _ _ _ H) as [A B]. destruct B as [B|(p' & vol & B)]; [discriminate|].
  destruct Hv as (Hx & Ev & T). assert (Wv : whole f v v) by (eapply W_var; eauto).
  destruct (find_uses_only n v us _ Wv F B) as (p & Wp & Up). pose proof (whole_derived f v p Wp) as Dp. apply user_inst in Up; [|exact Dp].
  destruct Up as (i0 & E & Hq & _ & Hr). destruct i0 as [|p0 a0 vol0| | | |]; try discriminate. simpl in E. injection E as -> -> ->.
  assert (p0 = p). { simpl in Hr. destruct Hr as [->|[->|[]]]; [reflexivity|]. exfalso. subst v. eapply PNS; eauto. apply at_pos_inst in Hq. exact Hq. }
  subst p0. exists a0. split; [reflexivity|].
  assert (Cs : forall p, derived f v p -> whole f v p \/ exists n', feeds_a_store n' f s p = Some false).
  { eapply derived_cases; [exact F|]. intros q1 r b idx Hu. exists n'. exact (A _ Hu). }
  assert (Ed : forall p1, derived f v p1 -> ~ In UEdge (users_of f s p1)).
  { intros p1 D1 U. destruct (Cs p1 D1) as [W1|[n1 F1]].
    - destruct (find_uses_all p1 W1 n us F) as (n2 & us' & F' & Sub). destruct n2 as [|n2]; simpl in F'; [discriminate|]. destruct (gather_in _ _ _ F') as (A' & _).
      exact (A _ (Sub _ (A' _ U))).
    - exact (proj2 (feeds_use n1 p1 D1 F1) U). }
  constructor.
  - exists vx. auto.
  - exists p, vol0. auto.
  - intros p1 q1 i1 D1 Hq1 Hr1. destruct (Cs p1 D1) as [W1|[n1 F1]].
    + destruct (existsb (pos_eqb q1) (gone s)) eqn:G.
      * apply pos_in in G. destruct (so_gone f s So q1 G) as (r0 & p2 & vol2 & Hq'). rewrite (at_pos_fun f q1 _ _ Hq1 Hq'). exact I.
      * apply pos_not_in in G. destruct (find_uses_all p1 W1 n us F) as (n2 & us' & F' & Sub). destruct n2 as [|n2]; simpl in F'; [discriminate|]. destruct (gather_in _ _ _ F') as (A' & _).
        assert (U : In (UInst q1 (rename (ren s) i1)) us). { apply Sub, A'. apply user_inst; [exact D1|]. exists i1. auto. }
        apply A in U. destruct i1; simpl in U; try exact I; try contradiction. destruct U as [U _]. congruence.
    + pose proof (proj1 (feeds_use n1 p1 D1 F1) q1 i1 Hq1 Hr1) as K. destruct i1; try exact I; contradiction.
  - intros p1 b x1 l D1. apply (proj1 (user_edge p1 D1 (Ed p1 D1))).
  - intros p1 b D1. apply (proj2 (user_edge p1 D1 (Ed p1 D1))).
Qed.
(** the loads among the users *)
Lemma load_user n us q r p vol : find_uses n f s v = Some us -> In (UInst q (ILoad r p vol)) us -> whole f v p /\ at_pos f q (ILoad r p vol) /\ ~ In q (gone s).
Proof using All.
  intros F U. destruct Hv as (Hx & Ev & T). assert (Wv : whole f v v) by (eapply W_var; eauto). destruct (find_uses_only n v us _ Wv F U) as (p1 & W1 & U1).
  pose proof (whole_derived f v p1 W1) as D1. apply user_inst in U1; [|exact D1]. destruct U1 as (i0 & E & Hq & G & Hr). destruct i0; try discriminate. simpl in E, Hr. injection E as -> -> ->.
  destruct Hr as [->|[]]. rewrite (ren_derived _ D1). auto.
Qed.
End Uses.
