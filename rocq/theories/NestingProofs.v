(** Call positions in a well-bracketed run. *)
From Verif Require Import Base NamedIds NamedIdsProofs Cfa DfsSpec DominatorTree CfaProofs.

Lemma event_eqb_eq a b : event_eqb a b = true <-> a = b.
Proof.
  destruct a, b; simpl; split; intros H; try discriminate; try congruence;
    rewrite ?andb_true_iff, ?N.eqb_eq in *; try congruence; try (injection H; auto); intuition congruence.
Qed.

Lemma number_absent calls i e d : ~ In e calls -> number_of calls i e d = d.
Proof.
  revert i d. induction calls as [|c calls IH]; intros i d H; auto. cbn [number_of].
  destruct (event_eqb c e) eqn:Q; [apply event_eqb_eq in Q; subst; destruct H; left; auto|].
  apply IH. intro; apply H; right; auto.
Qed.

Lemma number_at l e r i d : ~ In e r -> number_of (l ++ e :: r) i e d = (i + Z.of_nat (length l) + 1)%Z.
Proof.
  intros H. revert i d. induction l as [|c l IH]; intros i d; cbn [app number_of length].
  - assert (event_eqb e e = true) as -> by (apply event_eqb_eq; auto).
    rewrite number_absent; auto. lia.
  - destruct (event_eqb c e); rewrite IH; lia.
Qed.

Lemma in_pre_event b tr : In b (pre_blocks tr) <-> In (Pre b) tr.
Proof.
  unfold pre_blocks. rewrite in_flat_map. split.
  - intros [e [H1 H2]]. destruct e; simpl in H2; try contradiction. destruct H2 as [<-|[]]. auto.
  - intros H. exists (Pre b). split; auto. left; auto.
Qed.
Lemma in_post_event b tr : In b (post_blocks tr) <-> In (Post b) tr.
Proof.
  unfold post_blocks. rewrite in_flat_map. split.
  - intros [e [H1 H2]]. destruct e; simpl in H2; try contradiction. destruct H2 as [<-|[]]. auto.
  - intros H. exists (Post b). split; auto. left; auto.
Qed.

Lemma pre_once l b r : NoDup (pre_blocks (l ++ Pre b :: r)) -> ~ In (Pre b) l /\ ~ In (Pre b) r.
Proof.
  rewrite pre_app. simpl. intros H. apply NoDup_remove_2 in H. rewrite in_app_iff, !in_pre_event in H. tauto.
Qed.
Lemma post_once l b r : NoDup (post_blocks (l ++ Post b :: r)) -> ~ In (Post b) l /\ ~ In (Post b) r.
Proof.
  rewrite post_app. simpl. intros H. apply NoDup_remove_2 in H. rewrite in_app_iff, !in_post_event in H. tauto.
Qed.

(** Position of the unique call. *)
Lemma pos_pre l b r : NoDup (pre_blocks (l ++ Pre b :: r)) ->
  dfs_num_pre (l ++ Pre b :: r) b = (Z.of_nat (length l) + 1)%Z.
Proof. intros H. unfold dfs_num_pre. rewrite number_at; [lia|]. apply (pre_once l b r H). Qed.
Lemma pos_post l b r : NoDup (post_blocks (l ++ Post b :: r)) ->
  dfs_num_post (l ++ Post b :: r) b = (Z.of_nat (length l) + 1)%Z.
Proof. intros H. unfold dfs_num_post. rewrite number_at; [lia|]. apply (post_once l b r H). Qed.

(** The open blocks. *)
Lemma stack_open : forall l stk s, stack_after stk l = Some s ->
  NoDup (pre_blocks l) -> (forall x, In x stk -> ~ In x (pre_blocks l)) -> NoDup stk ->
  NoDup s /\ forall a, In a s <-> (In a stk \/ In (Pre a) l) /\ ~ In (Post a) l.
Proof.
  induction l as [|e l IH]; intros stk s S ND D NS.
  - injection S as <-. split; auto. intros a; simpl. tauto.
  - destruct e as [b|b|x y]; simpl in S.
    + simpl in ND. inversion ND; subst.
      destruct (IH (b :: stk) s S) as [N1 N2]; auto.
      * intros x [<-|Hx]; auto. intro H. apply (D x Hx). simpl. auto.
      * constructor; auto. intro H. apply (D b H). simpl. auto.
      * split; auto. intros a. rewrite N2. simpl. split.
        -- intros [X Y]. split; [destruct X as [[->|]|]; auto|]. intros [X'|X']; [discriminate|auto].
        -- intros [X Y]. split; [destruct X as [|[[= ->]|]]; auto|]. intros X'. apply Y; auto.
    + destruct stk as [|t stk]; [discriminate|]. destruct (N.eqb t b) eqn:Q; [|discriminate].
      apply N.eqb_eq in Q. subst t. inversion NS; subst.
      destruct (IH stk s S) as [N1 N2]; auto.
      * intros x Hx. apply (D x); right; auto.
      * split; auto. intros a. rewrite N2. simpl. split.
        -- intros [X Y]. split; [destruct X; auto|]. intros [[= ->]|X']; [|auto]. destruct X as [X|X]; [contradiction|].
           apply (D a); [left; auto|]. simpl. apply in_pre_event. auto.
        -- intros [X Y]. split; [|intros X'; apply Y; auto].
           destruct X as [[->|X]|[X|X]]; auto; [|discriminate]. exfalso. apply Y. auto.
    + destruct (IH stk s S) as [N1 N2]; auto. split; auto. intros a. rewrite N2. simpl. split.
      * intros [X Y]. split; [destruct X; auto|]. intros [X'|X']; [discriminate|auto].
      * intros [X Y]. split; [destruct X as [|[X|]]; [auto|discriminate|auto]|]. intros X'. apply Y; auto.
Qed.

(** While [b] is open the stack below it stays. *)
Lemma stack_keeps b s : forall r1 t s', stack_after (t ++ b :: s) r1 = Some s' -> ~ In (Post b) r1 ->
  exists t', s' = t' ++ b :: s.
Proof.
  induction r1 as [|e r1 IH]; intros t s' S N; simpl in S.
  - injection S as <-. eauto.
  - assert (N' : ~ In (Post b) r1) by (intro; apply N; right; auto).
    destruct e as [x|x|x y].
    + apply (IH (x :: t) s'); auto.
    + destruct t as [|t0 t]; simpl in S.
      * destruct (N.eqb b x) eqn:Q; [|discriminate]. apply N.eqb_eq in Q. subst x. destruct N; left; auto.
      * destruct (N.eqb t0 x); [|discriminate]. apply (IH t s'); auto.
    + apply (IH t s'); auto.
Qed.

(** Nesting of call positions is membership of the stack. *)
Lemma nesting tr a b l r s :
  stack_after [] tr = Some [] -> NoDup (pre_blocks tr) -> NoDup (post_blocks tr) ->
  (forall x, In x (pre_blocks tr) -> In x (post_blocks tr)) ->
  In a (pre_blocks tr) -> tr = l ++ Pre b :: r -> stack_after [] l = Some s -> a <> b ->
  (In a s <-> (dfs_num_pre tr a < dfs_num_pre tr b)%Z /\ (dfs_num_post tr b < dfs_num_post tr a)%Z).
Proof.
  intros S NP NQ PQ Ha E Sl ne.
  assert (ND1 : NoDup (pre_blocks l)).
  { rewrite E, pre_app in NP. clear -NP. induction (pre_blocks l) as [|x p IH]; constructor; inversion NP; subst; auto.
    intro; apply H1, in_or_app; auto. }
  destruct (stack_open l [] s Sl ND1) as [NS OPEN]; [intros x []|constructor|].
  assert (Hb : In b (pre_blocks tr)) by (rewrite E; apply in_pre_event, in_or_app; right; left; auto).
  destruct (in_split _ _ (proj1 (in_pre_event _ _) Ha)) as [la [ra Ea]].
  destruct (in_split _ _ (proj1 (in_post_event _ _) (PQ a Ha))) as [lpa [rpa Epa]].
  destruct (in_split _ _ (proj1 (in_post_event _ _) (PQ b Hb))) as [lpb [rpb Epb]].
  assert (P1 : dfs_num_pre tr a = (Z.of_nat (length la) + 1)%Z) by (rewrite Ea in *; apply pos_pre; auto).
  assert (P2 : dfs_num_pre tr b = (Z.of_nat (length l) + 1)%Z) by (rewrite E in *; apply pos_pre; auto).
  assert (P3 : dfs_num_post tr a = (Z.of_nat (length lpa) + 1)%Z) by (rewrite Epa in *; apply pos_post; auto).
  assert (P4 : dfs_num_post tr b = (Z.of_nat (length lpb) + 1)%Z) by (rewrite Epb in *; apply pos_post; auto).
  rewrite P1, P2, P3, P4.
  assert (NTH : forall (x : list event) e y, nth_error (x ++ e :: y) (length x) = Some e).
  { intros x e y. rewrite nth_error_app2; auto. rewrite Nat.sub_diag. auto. }
  assert (IN : forall e x y, tr = x ++ e :: y -> forall l0 r0, tr = l0 ++ r0 -> length x < length l0 -> In e l0).
  { intros e x y Ex l0 r0 E0 L. apply nth_error_In with (length x).
    rewrite <- (nth_error_app1 l0 r0); auto. rewrite <- E0, Ex. apply NTH. }
  (* b is closed after it is opened *)
  assert (Lb : length l < length lpb).
  { destruct (Nat.lt_trichotomy (length l) (length lpb)) as [|[Eq|Lt]]; auto; exfalso.
    - assert (H1 := NTH l (Pre b) r). assert (H2 := NTH lpb (Post b) rpb). rewrite <- E in H1. rewrite <- Epb in H2. 
      rewrite Eq in H1. congruence.
    - (* Post b inside l, before Pre b: but then b opened before *)
      assert (Hpb : In (Post b) l) by (eapply IN; eauto).
      apply in_split in Hpb. destruct Hpb as [l1 [l2 El]].
      assert (S1 : stack_after [] l1 <> None).
      { intro H. rewrite El, stack_app, H in Sl. discriminate. }
      destruct (stack_after [] l1) as [s1|] eqn:Q; [|congruence].
      rewrite El, stack_app, Q in Sl. simpl in Sl. destruct s1 as [|t s1]; [discriminate|].
      destruct (N.eqb t b) eqn:Qb; [|discriminate]. apply N.eqb_eq in Qb. subst t.
      assert (ND2 : NoDup (pre_blocks l1)).
      { rewrite El, pre_app in ND1. clear -ND1. induction (pre_blocks l1) as [|x p IH]; constructor; inversion ND1; subst; auto.
        intro; apply H1, in_or_app; auto. }
      destruct (stack_open l1 [] _ Q ND2) as [_ O2]; [intros x []|constructor|].
      destruct (proj1 (O2 b) (or_introl eq_refl)) as [[[]|H1] _].
      rewrite E in NP. destruct (pre_once l b r NP) as [H2 _]. apply H2. rewrite El. apply in_or_app; auto. }
  rewrite OPEN. simpl. split.
  - intros [[[]|H1] H2].
    assert (La : length la < length l).
    { destruct (Nat.lt_ge_cases (length la) (length l)); auto. exfalso.
      apply in_split in H1. destruct H1 as [l1 [l2 El]].
      rewrite Ea in NP. destruct (pre_once la a ra NP) as [H3 _]. apply H3.
      rewrite <- Ea in NP.
      assert (L1 : length l1 < length la).
      { rewrite El, app_length in H. simpl in H. lia. }
      eapply (IN (Pre a) l1 (l2 ++ Pre b :: r)); [|exact Ea|auto].
      rewrite E, El, <- app_assoc. auto. }
    split; [lia|].
    assert (Lq : length l < length lpa).
    { destruct (Nat.lt_trichotomy (length l) (length lpa)) as [|[Eq|Lt]]; auto; exfalso.
      - assert (H3 := NTH l (Pre b) r). assert (H4 := NTH lpa (Post a) rpa). rewrite <- E in H3. rewrite <- Epa in H4.
        rewrite Eq in H3. congruence.
      - apply H2. eapply IN; eauto. }
    destruct (Nat.lt_trichotomy (length lpb) (length lpa)) as [|[Eq|Lt]]; [lia| |]; exfalso.
    + assert (H3 := NTH lpb (Post b) rpb). assert (H4 := NTH lpa (Post a) rpa). rewrite <- Epb in H3. rewrite <- Epa in H4.
      rewrite Eq in H3. congruence.
    + (* a closed while b is open *)
      assert (EL : exists r1, lpa = l ++ Pre b :: r1 /\ ~ In (Post b) r1).
      { assert (Q : l ++ Pre b :: r = lpa ++ Post a :: rpa) by congruence.
        destruct (app_split _ _ _ _ _ Q) as [[r' [X1 X2]]|[l' [X1 X2]]].
        - exfalso. rewrite X1, app_length in Lq. simpl in Lq. lia.
        - destruct l' as [|e' l']; [rewrite X1, app_nil_r in Lq; lia|]. injection X2 as <- X2.
          exists l'. split; auto. intros Hp. 
          apply in_split in Hp. destruct Hp as [m1 [m2 Em]].
          assert (Eb : tr = (l ++ Pre b :: m1) ++ Post b :: (m2 ++ Post a :: rpa)).
          { rewrite Epa, X1, Em. rewrite <- !app_assoc. simpl. rewrite <- app_assoc. auto. }
          assert (LL : length (l ++ Pre b :: m1) < length lpb).
          { rewrite X1, Em, !app_length in Lt. simpl in Lt. rewrite !app_length in Lt. simpl in Lt.
            rewrite app_length. simpl. lia. }
          assert (Hin : In (Post b) lpb) by (eapply IN; eauto).
          rewrite Epb in NQ. destruct (post_once lpb b rpb NQ). auto. }
      destruct EL as [r1 [EL NB]].
      rewrite Epa, EL, <- app_assoc in S. rewrite stack_app, Sl in S. simpl in S.
      rewrite stack_app in S. destruct (stack_after (b :: s) r1) as [s'|] eqn:Q; [|discriminate].
      destruct (stack_keeps b s r1 [] s' Q NB) as [t' Et]. simpl in S.
      destruct s' as [|t0 s']; [discriminate|]. destruct (N.eqb t0 a) eqn:Qa; [|discriminate].
      apply N.eqb_eq in Qa. subst t0.
      assert (As : In a s) by (apply OPEN; auto).
      (* the whole stack has no duplicates *)
      assert (SS : stack_after [] lpa = Some (a :: s')).
      { rewrite EL, stack_app, Sl. simpl. auto. }
      assert (ND3 : NoDup (pre_blocks lpa)).
      { rewrite Epa, pre_app in NP. clear -NP. induction (pre_blocks lpa) as [|x p IH]; constructor; inversion NP; subst; auto.
        intro; apply H1, in_or_app; auto. }
      destruct (stack_open lpa [] _ SS ND3) as [NDs _]; [intros x []|constructor|].
      rewrite Et in NDs. destruct t' as [|t0 t'].
      * injection Et as -> _. congruence.
      * injection Et as <- _. simpl in NDs. apply NoDup_cons_iff in NDs. apply (proj1 NDs). apply in_or_app. right. right. auto.
  - intros [H1 H2]. split.
    + right. eapply IN; eauto. lia.
    + intros Hp. apply in_split in Hp. destruct Hp as [m1 [m2 Em]].
      assert (Eb : tr = m1 ++ Post a :: (m2 ++ Pre b :: r)) by (rewrite E, Em, <- app_assoc; auto).
      assert (LL : length m1 < length lpa).
      { rewrite Em, app_length in Lb. simpl in Lb. lia. }
      assert (Hin : In (Post a) lpa) by (eapply IN; eauto).
      rewrite Epa in NQ. destruct (post_once lpa a rpa NQ). auto.
Qed.
