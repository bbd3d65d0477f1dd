(** Resolving conflicting bindings: which variables an entry point needs, and how the numbers settle. *)
From Coq Require Import Sorting.Sorted.
From Verif Require Import Base NamedIds NamedIdsProofs LocalElimProofs ResolveBindings ResolveBindingsSpec ResolveBindingsProofs.
Local Open Scope N_scope.

Section Used.
Variables (m : module) (b : bindings).
Hypothesis Nd : NoDup (map v_id (m_vars m)).
Notation SS := (StronglySorted (fun x y => less b x y = true)).
(** sorted, and holds exactly the variables of the set with the property *)
Definition exactly (l : list var) (set : N) (Q : var -> Prop) : Prop := SS l /\ forall v, In v l <-> In v (m_vars m) /\ v_set v = set /\ Q v.
Lemma own_exact f set : exactly (own_vars b m f set) set (fun v => m_uses m f (v_id v) = true).
Proof using Nd.
  unfold own_vars. split.
  - apply (sort_ss b (m_vars m) Nd); [intros v Hv; apply filter_In in Hv; tauto|]. apply NoDup_filter. exact (NoDup_map_inv _ _ Nd).
  - intros v. rewrite sort_in, filter_In, andb_true_iff, N.eqb_eq. tauto.
Qed.
Lemma exactly_incl l set Q : exactly l set Q -> incl l (m_vars m).
Proof using. intros [_ H] v Hv. apply H, Hv. Qed.
Lemma exactly_iff l set Q Q' : (forall v, Q v <-> Q' v) -> exactly l set Q -> exactly l set Q'.
Proof using. intros E [S H]. split; [exact S|]. intros v. rewrite (H v), (E v). tauto. Qed.
Lemma merged_exact l1 l2 set Q1 Q2 : exactly l1 set Q1 -> exactly l2 set Q2 -> exactly (match l1 with [] => l2 | src => unique (merge b src l2) end) set (fun v => Q2 v \/ Q1 v).
Proof using Nd.
  intros E1 E2. pose proof (exactly_incl _ _ _ E1) as I1. pose proof (exactly_incl _ _ _ E2) as I2. destruct E1 as [S1 H1], E2 as [S2 H2]. destruct l1 as [|x l1].
  - split; [exact S2|]. intros v. rewrite H2. specialize (H1 v). cbn [In] in H1. tauto.
  - assert (Im : incl (merge b (x :: l1) l2) (m_vars m)) by (intros v Hv; apply merge_in in Hv; destruct Hv as [Hv|Hv]; [exact (I1 v Hv)|exact (I2 v Hv)]). split.
    + apply (unique_ss b (m_vars m) Nd _ Im). exact (merge_ws b (m_vars m) Nd _ _ I1 I2 S1 S2).
    + intros v. rewrite (unique_in (m_vars m) Nd _ v Im), merge_in, H1, H2. tauto.
Qed.
Lemma callees_exact f : forall cs u (R : N -> N -> var -> Prop) (Q : N -> var -> Prop), ~ In f cs -> (forall g set, In g cs -> exactly (u g set) set (R g set)) -> (forall set, exactly (u f set) set (Q set)) ->
  (forall set, exactly (fold_left (add_callee b f) cs u f set) set (fun v => Q set v \/ exists g, In g cs /\ R g set v)) /\ forall h, h <> f -> fold_left (add_callee b f) cs u h = u h.
Proof using Nd.
  induction cs as [|g cs IH]; intros u R Q Nf Hg Hf; cbn [fold_left].
  - split; [|reflexivity]. intros set. eapply exactly_iff; [|apply Hf]. intros v. split; [auto|]. intros [H|(g & [] & _)]. exact H.
  - assert (Ng : g <> f) by (intros ->; apply Nf; left; reflexivity).
    assert (Keep : forall h, h <> f -> add_callee b f u g h = u h) by (intros h Nh; unfold add_callee; destruct (N.eqb_spec h f); [contradiction|reflexivity]).
    destruct (IH (add_callee b f u g) R (fun set v => Q set v \/ R g set v)) as [A B].
    + intros K. apply Nf. right. exact K.
    + intros h set Hh. rewrite Keep by (intros ->; apply Nf; right; exact Hh). apply Hg. right. exact Hh.
    + intros set. unfold add_callee. rewrite N.eqb_refl. pose proof (merged_exact (u g set) (u f set) set (R g set) (Q set) (Hg g set (or_introl eq_refl)) (Hf set)) as K. destruct (u g set); exact K.
    + split; [|intros h Nh; rewrite (B h Nh); apply Keep, Nh]. intros set. eapply exactly_iff; [|apply A]. intros v. cbn [In]. split.
      * intros [[H|H]|(h & Hh & H)]; [auto|right; exists g; auto|right; exists h; auto].
      * intros [H|(h & [<-|Hh] & H)]; [auto|auto|right; exists h; auto].
Qed.
Definition wanted (f : N) (v : var) : Prop := exists g, reaches (m_calls m) f g /\ m_uses m g (v_id v) = true.
Lemma wanted_step f v : wanted f v <-> m_uses m f (v_id v) = true \/ exists g, In g (m_calls m f) /\ wanted g v.
Proof using.
  split.
  - intros (g & R & U). destruct R as [|g h Hg R]; [auto|]. right. exists g. split; [exact Hg|]. exists h. auto.
  - intros [U|(g & Hg & h & R & U)]; [exists f; split; [constructor|exact U]|]. exists h. split; [exact (R_call _ _ _ _ Hg R)|exact U].
Qed.
Lemma propagate : forall l P u, first (m_calls m) (P ++ l) -> NoDup (P ++ l) -> (forall f set, In f P -> exactly (u f set) set (wanted f)) -> (forall f, ~ In f P -> u f = own_vars b m f) ->
  forall f set, In f (P ++ l) -> exactly (fold_left (add_callees b m) l u f set) set (wanted f).
Proof using Nd.
  induction l as [|f l IH]; intros P u Fi D HP HO; cbn [fold_left]; [rewrite app_nil_r; intros f set Hf; apply HP, Hf|].
  pose proof (Fi P f l eq_refl) as Ic. assert (Nf : ~ In f P) by (intros K; apply NoDup_remove_2 in D; apply D, in_or_app; auto).
  destruct (callees_exact f (m_calls m f) u (fun g _ => wanted g) (fun _ v => m_uses m f (v_id v) = true)) as [A B].
  - intros K. exact (Nf (Ic f K)).
  - intros g set Hg. apply HP, Ic, Hg.
  - intros set. rewrite (HO f Nf). apply own_exact.
  - replace (P ++ f :: l) with ((P ++ [f]) ++ l) in * by (rewrite <- app_assoc; reflexivity). apply IH; auto.
    + intros h set Hh. apply in_app_or in Hh. destruct Hh as [Hh|[<-|[]]].
      * unfold add_callees. rewrite B by (intros ->; exact (Nf Hh)). apply HP, Hh.
      * eapply exactly_iff; [|apply A]. intros v. rewrite wanted_step. tauto.
    + intros h Nh. unfold add_callees. rewrite B; [apply HO; intros K; apply Nh, in_or_app; auto|]. intros ->. apply Nh, in_or_app. right. left. reflexivity.
Qed.
End Used.
Lemma filtered_le {A} (p : A -> bool) l : (length (filter p l) <= length l)%nat.
Proof. induction l as [|x l IH]; cbn [filter length]; [lia|]. destruct (p x); cbn [length]; lia. Qed.
Lemma all_used_ok m b : valid m -> exists u, all_used b m = Some u /\ forall e set, In e (m_entries m) -> exactly m b (u e set) set (wanted m e).
Proof.
  intros [Vi Ve Vc (depth & Vd)]. unfold all_used, callees_first.
  destruct (visit_all_ends (m_calls m) depth Vd (m_functions m) Vc (length (m_functions m)) (m_entries m) [] []) as [[V O] E]; [exact Ve|apply filtered_le|]. rewrite E. eexists. split; [reflexivity|].
  destruct (visit_all_ok (m_calls m) depth Vd _ _ _ _ _ _ E) as (S & _ & I & _); [constructor; [intros [|? ?] ? ? K; discriminate|constructor|apply incl_refl]|apply incl_refl|].
  intros e set He. apply (propagate m b Vi O [] (own_vars b m)); [exact (st_first _ _ _ S)|exact (st_nodup _ _ _ S)|intros f s []|reflexivity|exact (I e He)].
Qed.

(** ** The loop *)
Section Settle.
Variables (vars : list var) (b0 : bindings) (lists : list (list var)).
Hypothesis Nd : NoDup (map v_id vars).
Hypothesis Ro : forall v, In v vars -> b0 (v_id v) + N.of_nat (length vars) <= 4294967296.
Hypothesis Sorted : forall l, In l lists -> StronglySorted (fun x y => less b0 x y = true) l /\ incl l vars.
Definition rank (v : var) : nat := length (filter (fun w => less b0 w v) vars).
Lemma rank_lt v w : In v vars -> less b0 v w = true -> (rank v < rank w)%nat.
Proof using.
  intros Hv L. apply (filter_lt _ _ _ v Hv); [apply less_irrefl|exact L|]. intros x _ H. exact (less_trans _ _ _ _ H L).
Qed.
Lemma rank_bound v : In v vars -> (rank v < length vars)%nat.
Proof using.
  intros Hv. unfold rank. replace (length vars) with (length (filter (fun _ : var => true) vars)) by (f_equal; clear; induction vars as [|x l IH]; cbn [filter]; [reflexivity|rewrite IH; reflexivity]).
  apply (filter_lt _ _ _ v Hv); [apply less_irrefl|reflexivity|auto].
Qed.
Definition cap (v : var) : N := 4294967296 - N.of_nat (length vars) + N.of_nat (rank v).
Definition inv (b : bindings) : Prop := forall v, In v vars -> b0 (v_id v) <= b (v_id v) <= cap v.
Lemma inv_start : inv b0.
Proof using Ro Sorted. intros v Hv. pose proof (Ro v Hv). unfold cap. lia. Qed.
Definition increasing (b : bindings) : list var -> Prop := StronglySorted (fun x y => b (v_id x) < b (v_id y)).
Record turned (b b' : bindings) (ch : bool) (Ls : list (list var)) : Prop := {
  t_inv : inv b';
  t_mono : forall v, In v vars -> b (v_id v) <= b' (v_id v);
  t_same : ch = false -> b' = b /\ forall l, In l Ls -> increasing b l;
  t_strict : ch = true -> exists v, In v vars /\ b (v_id v) < b' (v_id v);
  t_least : forall c, (forall l, In l Ls -> increasing c l) -> (forall v, In v vars -> b (v_id v) <= c (v_id v)) -> forall v, In v vars -> b' (v_id v) <= c (v_id v);
  t_out : forall y, ~ In y (map v_id vars) -> b' y = b y }.
Lemma resolve_after_ok : forall l b prev, inv b -> incl (prev :: l) vars -> StronglySorted (fun x y => less b0 x y = true) (prev :: l) ->
  turned b (fst (resolve_after b prev l)) (snd (resolve_after b prev l)) [prev :: l].
Proof using Nd Ro Sorted.
  induction l as [|v l IH]; intros b prev In_ I S; cbn [resolve_after].
  - cbn [fst snd]. constructor; auto; try discriminate; [intros; apply N.le_refl|]. intros _. split; [reflexivity|]. intros k [<-|[]]. constructor; constructor.
  - assert (Hp : In prev vars) by (apply I; left; reflexivity). assert (Hv : In v vars) by (apply I; right; left; reflexivity). assert (I' : incl (v :: l) vars) by (intros z Hz; apply I; right; exact Hz).
    apply StronglySorted_inv in S. destruct S as [S F]. rewrite Forall_forall in F. pose proof (rank_lt prev v Hp (F v (or_introl eq_refl))) as Rk. pose proof (rank_bound v Hv) as Rb. pose proof (In_ prev Hp) as [_ Up]. pose proof (In_ v Hv) as [Lv _].
    pose proof (Ro v Hv) as Rv. destruct (N.leb_spec (b (v_id v)) (b (v_id prev))) as [L|L].
    + cbn [fst snd]. assert (Em : (b (v_id prev) + 1) mod 4294967296 = b (v_id prev) + 1) by (apply N.mod_small; unfold cap in Up; lia). rewrite Em. set (b1 := upd b (v_id v) (b (v_id prev) + 1)).
      assert (B1 : b1 (v_id v) = b (v_id prev) + 1) by (unfold b1, upd; rewrite N.eqb_refl; reflexivity).
      assert (B2 : forall y, y <> v_id v -> b1 y = b y) by (intros y Ny; unfold b1, upd; destruct (N.eqb_spec y (v_id v)); [contradiction|reflexivity]).
      assert (Mo : forall w, In w vars -> b (v_id w) <= b1 (v_id w)) by (intros w Hw; destruct (N.eq_dec (v_id w) (v_id v)) as [E|E]; [rewrite E, B1; lia|rewrite B2 by exact E; lia]).
      assert (In1 : inv b1). { intros w Hw. destruct (N.eq_dec (v_id w) (v_id v)) as [E|E]; [|rewrite B2 by exact E; exact (In_ w Hw)]. assert (w = v) as -> by exact (same_var vars Nd w v Hw Hv E). rewrite B1. unfold cap in Up |- *. lia. }
      destruct (IH b1 v In1 I' S) as [T1 T2 T3 T4 T5 T6]. constructor.
      * exact T1.
      * intros w Hw. pose proof (Mo w Hw). pose proof (T2 w Hw). lia.
      * discriminate.
      * intros _. exists v. split; [exact Hv|]. pose proof (T2 v Hv). lia.
      * intros c Hc Hb. assert (C : increasing c (prev :: v :: l)) by (apply Hc; left; reflexivity). apply StronglySorted_inv in C. destruct C as [C1 C2]. rewrite Forall_forall in C2. specialize (C2 v (or_introl eq_refl)).
        apply T5; [intros k [<-|[]]; exact C1|]. intros w Hw. destruct (N.eq_dec (v_id w) (v_id v)) as [E|E]; [rewrite E, B1; pose proof (Hb prev Hp); lia|rewrite B2 by exact E; exact (Hb w Hw)].
      * intros y Ny. rewrite T6 by exact Ny. apply B2. intros ->. apply Ny, in_map, Hv.
    + destruct (IH b v In_ I' S) as [T1 T2 T3 T4 T5 T6]. constructor; auto.
      * intros E. destruct (T3 E) as [E1 E2]. split; [exact E1|]. intros k [<-|[]]. specialize (E2 (v :: l) (or_introl eq_refl)). constructor; [exact E2|]. apply StronglySorted_inv in E2. destruct E2 as [_ E2]. rewrite Forall_forall in E2.
        apply Forall_forall. intros z [<-|Hz]; [exact L|]. specialize (E2 z Hz). lia.
      * intros c Hc Hb. apply T5; [|exact Hb]. intros k [<-|[]]. assert (C : increasing c (prev :: v :: l)) by (apply Hc; left; reflexivity). apply StronglySorted_inv in C. exact (proj1 C).
Qed.
Lemma resolve_ok b l : inv b -> In l lists -> turned b (fst (resolve b l)) (snd (resolve b l)) [l].
Proof using Nd Ro Sorted.
  intros In_ Hl. destruct (Sorted l Hl) as [S I]. destruct l as [|v l]; [|apply resolve_after_ok; auto]. cbn [resolve fst snd]. constructor; auto; try discriminate; [intros; apply N.le_refl|].
  intros _. split; [reflexivity|]. intros k [<-|[]]. constructor.
Qed.
Lemma turned_trans b b1 b2 c1 c2 L1 L2 : turned b b1 c1 L1 -> turned b1 b2 c2 L2 -> turned b b2 (c1 || c2) (L1 ++ L2).
Proof using Nd Ro Sorted.
  intros [A1 A2 A3 A4 A5 A6] [B1 B2 B3 B4 B5 B6]. constructor; auto.
  - intros v Hv. pose proof (A2 v Hv). pose proof (B2 v Hv). lia.
  - intros E. apply orb_false_iff in E. destruct E as [E1 E2]. destruct (A3 E1) as [-> H1], (B3 E2) as [-> H2]. split; [reflexivity|]. intros l Hl. apply in_app_or in Hl. destruct Hl; auto.
  - intros E. apply orb_prop in E. destruct E as [E|E]; [destruct (A4 E) as (v & Hv & L); exists v; split; [exact Hv|]; pose proof (B2 v Hv); lia|destruct (B4 E) as (v & Hv & L); exists v; split; [exact Hv|]; pose proof (A2 v Hv); lia].
  - intros c Hc Hb. apply B5; [intros l Hl; apply Hc, in_or_app; auto|]. apply A5; [intros l Hl; apply Hc, in_or_app; auto|exact Hb].
  - intros y Ny. rewrite B6, A6 by exact Ny. reflexivity.
Qed.
Lemma fold_ok : forall Ls b b1 c1 L1, incl Ls lists -> turned b b1 c1 L1 ->
  let r := fold_left (fun s l => let '(b', c) := resolve (fst s) l in (b', snd s || c)) Ls (b1, c1) in turned b (fst r) (snd r) (L1 ++ Ls).
Proof using Nd Ro Sorted.
  induction Ls as [|l Ls IH]; intros b b1 c1 L1 I T; cbn [fold_left]; [rewrite app_nil_r; exact T|]. pose proof (resolve_ok b1 l (t_inv _ _ _ _ T) (I l (or_introl eq_refl))) as R. cbn [fst snd]. destruct (resolve b1 l) as [b2 c2]. cbn [fst snd] in R.
  replace (L1 ++ l :: Ls) with ((L1 ++ [l]) ++ Ls) by (rewrite <- app_assoc; reflexivity). apply IH; [intros z Hz; apply I; right; exact Hz|]. exact (turned_trans _ _ _ _ _ _ _ T R).
Qed.
Lemma resolve_all_ok b : inv b -> turned b (fst (resolve_all b lists)) (snd (resolve_all b lists)) lists.
Proof using Nd Ro Sorted.
  intros In_. apply (fold_ok lists b b false []); [apply incl_refl|]. constructor; auto; try discriminate; [intros; apply N.le_refl|]. intros _. split; [reflexivity|]. intros l [].
Qed.
(** how far the numbers can still go *)
Definition left_ (b : bindings) (l : list var) : nat := fold_right (fun v n => (N.to_nat (cap v - b (v_id v)) + n)%nat) O l.
Lemma left_le b b' l : incl l vars -> inv b' -> (forall v, In v vars -> b (v_id v) <= b' (v_id v)) -> (left_ b' l <= left_ b l)%nat.
Proof using Nd Ro Sorted. induction l as [|v l IH]; intros I In_ M; cbn [left_ fold_right]; [lia|]. specialize (IH (fun z Hz => I z (or_intror Hz)) In_ M). unfold left_ in IH. pose proof (M v (I v (or_introl eq_refl))). lia. Qed.
Lemma left_lt b b' v l : incl l vars -> inv b' -> (forall v, In v vars -> b (v_id v) <= b' (v_id v)) -> In v l -> b (v_id v) < b' (v_id v) -> (left_ b' l < left_ b l)%nat.
Proof using Nd Ro Sorted.
  induction l as [|w l IH]; intros I In_ M Hv L; [destruct Hv|]. cbn [left_ fold_right]. assert (I' : incl l vars) by (intros z Hz; apply I; right; exact Hz). destruct Hv as [->|Hv].
  - pose proof (left_le b b' l I' In_ M) as K. unfold left_ in K. pose proof (In_ v (I v (or_introl eq_refl))). lia.
  - specialize (IH I' In_ M Hv L). unfold left_ in IH. pose proof (M w (I w (or_introl eq_refl))). lia.
Qed.
Lemma settle_ends : forall n b, inv b -> (left_ b vars < n)%nat -> exists b', settle n b lists = Some b'.
Proof using Nd Ro Sorted.
  induction n as [|n IH]; intros b In_ L; [lia|]. cbn [settle]. pose proof (resolve_all_ok b In_) as T. destruct (resolve_all b lists) as [b1 ch]. cbn [fst snd] in T. destruct ch; [|eauto]. apply IH; [exact (t_inv _ _ _ _ T)|].
  destruct (t_strict _ _ _ _ T eq_refl) as (v & Hv & Lt). pose proof (left_lt b b1 v vars (incl_refl _) (t_inv _ _ _ _ T) (t_mono _ _ _ _ T) Hv Lt). lia.
Qed.
Lemma settle_ok : forall n b b', inv b -> settle n b lists = Some b' -> inv b' /\ (forall l, In l lists -> increasing b' l) /\
  (forall c, (forall l, In l lists -> increasing c l) -> (forall v, In v vars -> b (v_id v) <= c (v_id v)) -> forall v, In v vars -> b' (v_id v) <= c (v_id v)) /\ forall y, ~ In y (map v_id vars) -> b' y = b y.
Proof using Nd Ro Sorted.
  induction n as [|n IH]; intros b b' In_ H; [discriminate|]. cbn [settle] in H. pose proof (resolve_all_ok b In_) as [T1 T2 T3 T4 T5 T6]. destruct (resolve_all b lists) as [b1 ch]. cbn [fst snd] in *. destruct ch.
  - destruct (IH b1 b' T1 H) as (A & B & C & D). split; [exact A|]. split; [exact B|]. split; [|intros y Ny; rewrite D, T6 by exact Ny; reflexivity]. intros c Hc Hb. apply C; [exact Hc|]. apply T5; assumption.
  - injection H as <-. destruct (T3 eq_refl) as [-> Inc]. auto.
Qed.
End Settle.
Lemma settle_more : forall n k b ls b', settle n b ls = Some b' -> settle (n + k) b ls = Some b'.
Proof. induction n as [|n IH]; intros k b ls b' H; [discriminate|]. cbn [settle Nat.add] in *. destruct (resolve_all b ls) as [b1 ch]. destruct ch; [apply IH, H|exact H]. Qed.
