(** Proofs about the elimination of loads and stores: what the walk knows at each place. *)
From Verif Require Import Base GraphSpec LocalElim LocalElimSpec LocalElimProofs.
Local Open Scope N_scope.

(** ids that have been renamed are results of loads that the walk has passed *)
Definition renamed_passed (f : func) (s : state) (b i : nat) : Prop :=
  forall y, st_ren s y <> y -> exists b' c j p vol, nth_error (blocks f) b' = Some c /\ nth_error (body c) j = Some (ILoad y p vol) /\
    ((b' < b)%nat \/ (b' = b /\ (j < i)%nat)) /\ In (b', j) (st_kill s).
Definition good (f : func) (v : N) : Prop := is_target f v = true /\ has_only_supported_refs f v = Some true.
Definition idem (s : state) : Prop := forall y, st_ren s (st_ren s y) = st_ren s y.
(** what an id is renamed to has its value before it *)
Definition renamed_before (f : func) (s : state) : Prop :=
  forall y b k, defined_at f y b k -> reach f b -> st_ren s y = y \/ available f b k (st_ren s y).
Record inv (f : func) (b : nat) (c : block) (i : nat) (s : state) : Prop := {
  i_passed : renamed_passed f s b i;
  i_before : renamed_before f s;
  i_load : forall v x, st_load s v = Some x -> st_ren s x = x /\ exists j, (j < i)%nat /\ defined_at f x c (S j);
  i_store : reach f c -> forall v q a, st_store s v = Some (q, a) -> exists a0, st_ren s a0 = a /\ available f c (S i) a0;
  i_one : forall v q x, st_store s v = Some q -> st_load s v = Some x -> False;
  i_open : forall v q a, st_store s v = Some (q, a) -> ~ In q (st_kill s) /\ exists j, q = (b, j) /\ (j < i)%nat;
  i_kill : forall q, In q (st_kill s) -> (fst q < b)%nat \/ (fst q = b /\ (snd q < i)%nat);
  i_idem : idem s;
  i_fix : forall v q a, st_store s v = Some (q, a) -> st_ren s a = a;
  i_good_store : forall v q, st_store s v = Some q -> good f v;
  i_good_load : forall v x, st_load s v = Some x -> good f v;
  i_distinct : forall v v' q a a', st_store s v = Some (q, a) -> st_store s v' = Some (q, a') -> v = v' }.

Lemma in_nth {A} (l : list A) i x : nth_error l i = Some x -> In x l.
Proof. apply nth_error_In. Qed.

Section Walk.
Variable f : func.
Hypothesis WF : well_formed f.

Lemma unrenamed s b i y : renamed_passed f s b i -> (forall c k, ~ defined_at f y c k) -> st_ren s y = y.
Proof using Type.
  intros P N. destruct (N.eq_dec (st_ren s y) y) as [|Ne]; [assumption|]. destruct (P y Ne) as (b' & c & j & p & vol & Hb & Hj & _ & _).
  destruct (N c (S j)). split; [apply in_nth in Hb; exact Hb|]. exists (ILoad y p vol). auto.
Qed.
Lemma ren_avail s b i c k y : renamed_passed f s b i -> renamed_before f s -> In c (blocks f) -> reach f c -> available f c k y -> available f c k (st_ren s y).
Proof using WF.
  intros P B Hc R A. destruct A as [N|A].
  - rewrite (unrenamed s b i y P N). left. exact N.
  - pose proof A as A'. destruct A as (b' & j & Hd & _). assert (Av : available f c k y) by (right; exact A').
    destruct (B y b' j Hd) as [E|E].
    + eapply avail_reach; eauto.
    + rewrite E. exact Av.
    + eapply avail_trans; eauto.
Qed.
(** a load at hand has not been renamed *)
Lemma fresh_load s b c i r ptr vol : nth_error (blocks f) b = Some c -> nth_error (body c) i = Some (ILoad r ptr vol) ->
  renamed_passed f s b i -> st_ren s r = r.
Proof using WF.
  intros Hb Hi P. destruct (N.eq_dec (st_ren s r) r) as [|Ne]; [assumption|exfalso].
  destruct (P r Ne) as (b' & c' & j & p & vol' & Hb' & Hj & L & _).
  assert (D1 : defined_at f r c (S i)) by (split; [apply in_nth in Hb; exact Hb|]; exists (ILoad r ptr vol); auto).
  assert (D2 : defined_at f r c' (S j)) by (split; [apply in_nth in Hb'; exact Hb'|]; exists (ILoad r p vol'); auto).
  destruct (wf_once f WF _ _ _ _ _ D1 D2) as [<- E]. injection E as <-. rewrite (same_index f WF _ _ _ Hb Hb') in *. lia.
Qed.

Lemma passed_later s b i i' : renamed_passed f s b i -> (i <= i')%nat -> renamed_passed f s b i'.
Proof using Type.
  intros P L y Ne. destruct (P y Ne) as (b' & c & j & p & vol & Hb & Hj & D & K). exists b', c, j, p, vol. split; [exact Hb|]. split; [exact Hj|]. split; [lia|exact K].
Qed.
Lemma passed_more s s' b i : renamed_passed f s b i -> st_ren s' = st_ren s -> (forall q, In q (st_kill s) -> In q (st_kill s')) -> renamed_passed f s' b i.
Proof using Type.
  intros P E K y. rewrite E. intros Ne. destruct (P y Ne) as (b' & c & j & p & vol & Hb & Hj & D & H). exists b', c, j, p, vol. auto.
Qed.
Lemma subject_good s p v w : subject f s p = Some (Some (v, w)) -> good f v.
Proof using Type.
  unfold subject, good. destruct (get_ptr f s p) as [[[v'|] w']|]; try discriminate. destruct (is_target f v') eqn:T; [|discriminate].
  destruct (has_only_supported_refs f v') as [[]|] eqn:O; try discriminate. intros H. injection H as -> ->. auto.
Qed.
(** moving on without change *)
Lemma inv_next b c i s : inv f b c i s -> inv f b c (S i) s.
Proof using Type.
  intros I. constructor.
  - eapply passed_later; [apply (i_passed _ _ _ _ _ I)|lia].
  - apply (i_before _ _ _ _ _ I).
  - intros v x H. destruct (i_load _ _ _ _ _ I v x H) as [E (j & L & D)]. split; [exact E|]. exists j. split; [lia|exact D].
  - intros R v q a H. destruct (i_store _ _ _ _ _ I R v q a H) as (a0 & E & A). exists a0. split; [exact E|]. eapply avail_later; [exact A|lia].
  - apply (i_one _ _ _ _ _ I).
  - intros v q a H. destruct (i_open _ _ _ _ _ I v q a H) as [N (j & E & L)]. split; [exact N|]. exists j. split; [exact E|lia].
  - intros q H. destruct (i_kill _ _ _ _ _ I q H) as [L|[E L]]; [left; exact L|right; split; [exact E|lia]].
  - apply (i_idem _ _ _ _ _ I).
  - apply (i_fix _ _ _ _ _ I).
  - apply (i_good_store _ _ _ _ _ I).
  - apply (i_good_load _ _ _ _ _ I).
  - apply (i_distinct _ _ _ _ _ I).
Qed.

Lemma inv_replace b c i s r ptr vol v x : nth_error (blocks f) b = Some c -> nth_error (body c) i = Some (ILoad r ptr vol) ->
  inv f b c i s -> (exists q, st_store s v = Some (q, x)) \/ st_load s v = Some x ->
  inv f b c (S i) (replace_load (b, i) r x s).
Proof using WF.
  intros Hb Hi I Src. pose proof (i_passed _ _ _ _ _ I) as P. pose proof (i_before _ _ _ _ _ I) as B.
  pose proof (in_nth _ _ _ Hb) as Hc.
  assert (Dr : defined_at f r c (S i)) by (split; [exact Hc|]; exists (ILoad r ptr vol); auto).
  pose proof (fresh_load s b c i r ptr vol Hb Hi P) as Fr.
  assert (Ax : reach f c -> available f c (S i) x).
  { intros R. destruct Src as [[q Src]|Src].
    - destruct (i_store _ _ _ _ _ I R v q x Src) as (a0 & <- & A). eapply ren_avail; eauto.
    - destruct (i_load _ _ _ _ _ I v x Src) as [_ (j & L & D)]. eapply avail_def; [exact D|lia]. }
  assert (Fx : st_ren s x = x).
  { destruct Src as [[q Src]|Src]; [eapply (i_fix _ _ _ _ _ I); eauto|]. apply (i_load _ _ _ _ _ I v x Src). }
  constructor; simpl.
  - intros y Ne. simpl in Ne. destruct (N.eq_dec (st_ren s y) y) as [E|Ny].
    + rewrite E in Ne. destruct (N.eq_dec y r) as [->|Nr].
      * exists b, c, i, ptr, vol. split; [exact Hb|]. split; [exact Hi|]. split; [right; split; [reflexivity|lia]|left; reflexivity].
      * rewrite replace1_ne in Ne by exact Nr. congruence.
    + destruct (passed_later _ _ _ (S i) P ltac:(lia) y Ny) as (b' & c' & j & p & vol' & H1 & H2 & H3 & H4). exists b', c', j, p, vol'. simpl. auto.
  - intros y d k D R. simpl. destruct (N.eq_dec (st_ren s y) r) as [E|Ne].
    + rewrite E, replace1_eq. right. destruct (B y d k D R) as [E'|A].
      * rewrite E' in E. subst y. destruct (wf_once f WF _ _ _ _ _ D Dr) as [-> ->]. apply Ax, R.
      * rewrite E in A. eapply avail_trans; [exact WF|apply D|exact R|exact A|exact Dr|]. apply Ax. eapply avail_reach; eauto.
    + rewrite replace1_ne by exact Ne. apply B; assumption.
  - intros v' x' H. destruct (i_load _ _ _ _ _ I v' x' H) as [E (j & L & D)]. rewrite E. split.
    + apply replace1_ne. intros ->. destruct (wf_once f WF _ _ _ _ _ D Dr) as [_ E2]. injection E2 as E2. lia.
    + exists j. split; [lia|exact D].
  - intros R v' q a H. destruct (st_store s v') as [[q' a']|] eqn:Es; [|discriminate]. injection H as <- <-.
    destruct (i_store _ _ _ _ _ I R v' q' a' Es) as (a0 & <- & A). exists a0. split; [reflexivity|]. eapply avail_later; [exact A|lia].
  - intros v' q x' H. destruct (st_store s v') as [[q' a']|] eqn:Es; [|discriminate]. apply (i_one _ _ _ _ _ I v' _ x' Es).
  - intros v' q a H. destruct (st_store s v') as [[q' a']|] eqn:Es; [|discriminate]. injection H as <- <-.
    destruct (i_open _ _ _ _ _ I v' q' a' Es) as [N (j & -> & L)]. split; [|exists j; split; [reflexivity|lia]].
    intros [E|E]; [injection E as E; lia|auto].
  - intros q [<-|H]; [right; simpl; split; [reflexivity|lia]|]. destruct (i_kill _ _ _ _ _ I q H) as [L|[E L]]; [left; exact L|right; split; [exact E|lia]].
  - intros y. simpl. destruct (N.eq_dec (st_ren s y) r) as [E|Ne].
    + rewrite E, replace1_eq, Fx. unfold replace1. destruct (x =? r); reflexivity.
    + rewrite (replace1_ne _ _ _ Ne), (i_idem _ _ _ _ _ I), (replace1_ne _ _ _ Ne). reflexivity.
  - intros v' q a H. destruct (st_store s v') as [[q' a']|] eqn:Es; [|discriminate]. injection H as <- <-.
    destruct (N.eq_dec a' r) as [->|Ne].
    + rewrite replace1_eq, Fx. unfold replace1. destruct (x =? r); reflexivity.
    + rewrite (replace1_ne _ _ _ Ne), (i_fix _ _ _ _ _ I _ _ _ Es), (replace1_ne _ _ _ Ne). reflexivity.
  - intros v' q H. destruct (st_store s v') as [[q' a']|] eqn:Es; [|discriminate]. eapply (i_good_store _ _ _ _ _ I); eauto.
  - apply (i_good_load _ _ _ _ _ I).
  - intros v1 v2 q a a' H1 H2. destruct (st_store s v1) as [[q1 a1]|] eqn:E1; [|discriminate]. destruct (st_store s v2) as [[q2 a2]|] eqn:E2; [|discriminate].
    injection H1 as -> _. injection H2 as -> _. eapply (i_distinct _ _ _ _ _ I); eauto.
Qed.

Lemma inv_step b c i x s s' : nth_error (blocks f) b = Some c -> nth_error (body c) i = Some x -> inv f b c i s ->
  did f (b, i) x s s' -> inv f b c (S i) s'.
Proof using WF.
  intros Hb Hi I Did. pose proof (in_nth _ _ _ Hb) as Hc.
  pose proof (inv_next _ _ _ _ I) as I'.
  destruct Did as [ptr a vol -> Sub|r ptr vol -> Sub|ptr a vol v -> Sub|ptr a vol v -> Sub|r ptr vol v -> Sub|r ptr vol v -> Sub|r fn args ->|Sub];
    try exact I'.
  - (* a store to the whole *)
    unfold store_whole. set (k1 := match st_store s v with Some _ => _ | None => _ end).
    assert (K1 : forall q, In q k1 -> In q (st_kill s) \/ exists a, st_store s v = Some (q, a)).
    { unfold k1. intros q H. destruct (st_store s v) as [[prev a']|]; [|auto]. destruct (negb _ && negb _); [|auto]. destruct H as [->|H]; eauto. }
    assert (K3 : forall q, In q (st_kill s) -> In q k1).
    { unfold k1. intros q H. destruct (st_store s v) as [[prev a']|]; [|exact H]. destruct (negb _ && negb _); [right|]; exact H. }
    assert (K2 : forall q, In q k1 -> (fst q < b)%nat \/ (fst q = b /\ (snd q < i)%nat)).
    { intros q H. destruct (K1 q H) as [H'|[a' H']]; [apply (i_kill _ _ _ _ _ I q H')|].
      destruct (i_open _ _ _ _ _ I v q a' H') as [_ (j & -> & L)]. right. simpl. auto. }
    destruct (match st_load s v with Some r => st_ren s a =? r | None => false end) eqn:Ek.
    + destruct (st_load s v) as [r|] eqn:El; [|discriminate].
      assert (Es : st_store s v = None). { destruct (st_store s v) as [q|] eqn:Es; [|reflexivity]. destruct (i_one _ _ _ _ _ I v q r Es El). }
      constructor; simpl.
      * eapply passed_more; [apply (i_passed _ _ _ _ _ I')|reflexivity|intros q H; right; apply K3, H].
      * apply (i_before _ _ _ _ _ I').
      * apply (i_load _ _ _ _ _ I').
      * apply (i_store _ _ _ _ _ I').
      * apply (i_one _ _ _ _ _ I').
      * intros v' q a' H. destruct (i_open _ _ _ _ _ I v' q a' H) as [N (j & E & L)]. split; [|exists j; split; [exact E|lia]].
        intros [E'|E']; [subst q; injection E' as E'; lia|]. destruct (K1 q E') as [K|[a2 K]]; [auto|congruence].
      * intros q [<-|H]; [right; simpl; split; [reflexivity|lia]|]. destruct (K2 q H) as [L|[E L]]; [left; exact L|right; split; [exact E|lia]].
      * apply (i_idem _ _ _ _ _ I).
      * apply (i_fix _ _ _ _ _ I).
      * apply (i_good_store _ _ _ _ _ I).
      * apply (i_good_load _ _ _ _ _ I).
      * apply (i_distinct _ _ _ _ _ I).
    + constructor; simpl.
      * eapply passed_more; [apply (i_passed _ _ _ _ _ I')|reflexivity|exact K3].
      * apply (i_before _ _ _ _ _ I').
      * intros v' x H. destruct (N.eq_dec v' v) as [->|Nv]; [rewrite set_eq in H; discriminate|]. rewrite set_ne in H by exact Nv.
        apply (i_load _ _ _ _ _ I' v' x H).
      * intros R v' q a' H. destruct (N.eq_dec v' v) as [->|Nv].
        -- rewrite set_eq in H. injection H as <- <-. exists a. split; [reflexivity|]. eapply avail_later with (k := S i); [|lia].
           eapply (wf_uses f WF); eauto. simpl; auto.
        -- rewrite set_ne in H by exact Nv. apply (i_store _ _ _ _ _ I' R v' q a' H).
      * intros v' q x H1 H2. destruct (N.eq_dec v' v) as [->|Nv]; [rewrite set_eq in H2; discriminate|]. rewrite set_ne in H1 by exact Nv. rewrite set_ne in H2 by exact Nv.
        apply (i_one _ _ _ _ _ I v' q x H1 H2).
      * intros v' q a' H. destruct (N.eq_dec v' v) as [->|Nv].
        -- rewrite set_eq in H. injection H as <- <-. split; [|exists i; split; [reflexivity|lia]]. intros H. destruct (K2 _ H) as [L|[_ L]]; simpl in L; lia.
        -- rewrite set_ne in H by exact Nv. destruct (i_open _ _ _ _ _ I' v' q a' H) as [N E]. split; [|exact E]. intros H'.
           destruct (K1 q H') as [K|[a2 K]]; [auto|]. apply Nv. eapply (i_distinct _ _ _ _ _ I); eauto.
      * intros q H. destruct (K2 q H) as [L|[E L]]; [left; exact L|right; split; [exact E|lia]].
      * apply (i_idem _ _ _ _ _ I).
      * intros v' q a' H. destruct (N.eq_dec v' v) as [->|Nv].
        -- rewrite set_eq in H. injection H as <- <-. apply (i_idem _ _ _ _ _ I).
        -- rewrite set_ne in H by exact Nv. apply (i_fix _ _ _ _ _ I v' q a' H).
      * intros v' q H. destruct (N.eq_dec v' v) as [->|Nv]; [exact (subject_good _ _ _ _ Sub)|]. rewrite set_ne in H by exact Nv.
        apply (i_good_store _ _ _ _ _ I v' q H).
      * intros v' x H. destruct (N.eq_dec v' v) as [->|Nv]; [exact (subject_good _ _ _ _ Sub)|]. rewrite set_ne in H by exact Nv.
        apply (i_good_load _ _ _ _ _ I v' x H).
      * intros v1 v2 q a1 a2 H1 H2. destruct (N.eq_dec v1 v) as [->|N1], (N.eq_dec v2 v) as [->|N2]; auto.
        -- rewrite set_eq in H1. rewrite set_ne in H2 by exact N2. injection H1 as <- _. destruct (i_open _ _ _ _ _ I v2 _ _ H2) as [_ (j & E & L)].
           injection E as E. lia.
        -- rewrite set_eq in H2. rewrite set_ne in H1 by exact N1. injection H2 as <- _. destruct (i_open _ _ _ _ _ I v1 _ _ H1) as [_ (j & E & L)].
           injection E as E. lia.
        -- rewrite set_ne in H1 by exact N1. rewrite set_ne in H2 by exact N2. eapply (i_distinct _ _ _ _ _ I); eauto.
  - (* a store to a part *)
    constructor; simpl; try apply I'.
    + intros v' x H. destruct (N.eq_dec v' v) as [->|Nv]; [rewrite set_eq in H; discriminate|]. rewrite set_ne in H by exact Nv. apply (i_load _ _ _ _ _ I' v' x H).
    + intros R v' q a' H. destruct (N.eq_dec v' v) as [->|Nv]; [rewrite set_eq in H; discriminate|]. rewrite set_ne in H by exact Nv. apply (i_store _ _ _ _ _ I' R v' q a' H).
    + intros v' q x H1 H2. destruct (N.eq_dec v' v) as [->|Nv]; [rewrite set_eq in H2; discriminate|]. rewrite set_ne in H1 by exact Nv. rewrite set_ne in H2 by exact Nv.
      apply (i_one _ _ _ _ _ I v' q x H1 H2).
    + intros v' q a' H. destruct (N.eq_dec v' v) as [->|Nv]; [rewrite set_eq in H; discriminate|]. rewrite set_ne in H by exact Nv. apply (i_open _ _ _ _ _ I' v' q a' H).
    + intros v' q a' H. destruct (N.eq_dec v' v) as [->|Nv]; [rewrite set_eq in H; discriminate|]. rewrite set_ne in H by exact Nv. apply (i_fix _ _ _ _ _ I v' q a' H).
    + intros v' q H. destruct (N.eq_dec v' v) as [->|Nv]; [exact (subject_good _ _ _ _ Sub)|]. rewrite set_ne in H by exact Nv. apply (i_good_store _ _ _ _ _ I v' q H).
    + intros v' x H. destruct (N.eq_dec v' v) as [->|Nv]; [exact (subject_good _ _ _ _ Sub)|]. rewrite set_ne in H by exact Nv. apply (i_good_load _ _ _ _ _ I v' x H).
    + intros v1 v2 q a1 a2 H1 H2. destruct (N.eq_dec v1 v) as [->|N1]; [rewrite set_eq in H1; discriminate|]. destruct (N.eq_dec v2 v) as [->|N2]; [rewrite set_eq in H2; discriminate|].
      rewrite set_ne in H1 by exact N1. rewrite set_ne in H2 by exact N2. eapply (i_distinct _ _ _ _ _ I); eauto.
  - (* a load of the whole *)
    unfold load_whole. destruct (st_store s v) as [[q a]|] eqn:Es; [|destruct (st_load s v) as [r'|] eqn:El].
    + eapply inv_replace; eauto.
    + eapply inv_replace; eauto.
    + constructor; simpl; try apply I'.
      * intros v' x H. destruct (N.eq_dec v' v) as [->|Nv].
        -- rewrite set_eq in H. injection H as <-. split; [eapply fresh_load; eauto; apply I|]. exists i. split; [lia|]. split; [exact Hc|]. exists (ILoad r ptr vol). auto.
        -- rewrite set_ne in H by exact Nv. apply (i_load _ _ _ _ _ I' v' x H).
      * intros v' q x H1 H2. destruct (N.eq_dec v' v) as [->|Nv]; [congruence|]. rewrite set_ne in H2 by exact Nv. apply (i_one _ _ _ _ _ I v' q x H1 H2).
      * intros v' x H. destruct (N.eq_dec v' v) as [->|Nv]; [exact (subject_good _ _ _ _ Sub)|]. rewrite set_ne in H by exact Nv. apply (i_good_load _ _ _ _ _ I v' x H).
  - (* a load of a part *)
    unfold load_part. destruct (st_store s v) as [[q a]|] eqn:Es; [|exact I']. constructor; simpl; apply I'.
  - (* a call *)
    constructor; simpl; try apply I'; try discriminate.
Qed.

Lemma inv_body b c : nth_error (blocks f) b = Some c -> forall l i pre s s', body c = pre ++ l -> length pre = i -> inv f b c i s ->
  visit_body f b i l s = Some s' -> inv f b c (length (body c)) s'.
Proof using WF.
  intros Hb. induction l as [|x l IH]; simpl; intros i pre s s' E L I H.
  - injection H as <-. rewrite E, app_nil_r, L. exact I.
  - destruct (visit f (b, i) x s) as [s1|] eqn:V; [|discriminate]. apply visit_did in V.
    apply (IH (S i) (pre ++ [x]) s1 s').
    + rewrite <- app_assoc. exact E.
    + rewrite app_length; simpl; lia.
    + eapply inv_step; eauto. rewrite E, nth_error_app2 by lia. replace (i - length pre)%nat with O by lia. reflexivity.
    + exact H.
Qed.
(** between blocks *)
Definition inv_at (b : nat) (s : state) : Prop := renamed_passed f s b 0 /\ renamed_before f s /\ idem s /\ forall q, In q (st_kill s) -> (fst q < b)%nat.
Lemma inv_enter b c s : inv_at b s -> inv f b c 0 (forget s).
Proof using Type.
  intros (P & B & ID & K). constructor; simpl; auto; try discriminate.
Qed.
Lemma inv_leave b c i s : inv f b c i s -> inv_at (S b) s.
Proof using Type.
  intros I. split; [|split; [|split]].
  - intros y Ne. destruct (i_passed _ _ _ _ _ I y Ne) as (b' & c' & j & p & vol & H1 & H2 & H3 & H4). exists b', c', j, p, vol. split; [exact H1|]. split; [exact H2|]. split; [lia|exact H4].
  - apply (i_before _ _ _ _ _ I).
  - apply (i_idem _ _ _ _ _ I).
  - intros q H. destruct (i_kill _ _ _ _ _ I q H) as [L|[L _]]; lia.
Qed.
Lemma inv_start : inv_at 0 start.
Proof using Type.
  split; [|split; [|split]].
  - intros y Ne. simpl in Ne. congruence.
  - intros y b k _ _. left. reflexivity.
  - intros y. reflexivity.
  - intros q [].
Qed.
Lemma inv_blocks l : forall b pre s s', blocks f = pre ++ l -> length pre = b -> inv_at b s -> visit_blocks f b l s = Some s' ->
  inv_at (length (blocks f)) s'.
Proof using WF.
  induction l as [|x l IH]; simpl; intros b pre s s' E L I H.
  - injection H as <-. rewrite E, app_nil_r, L. exact I.
  - destruct (visit_body f b 0 (body x) (forget s)) as [s1|] eqn:V; [|discriminate].
    assert (Hb : nth_error (blocks f) b = Some x) by (rewrite E, nth_error_app2 by lia; replace (b - length pre)%nat with O by lia; reflexivity).
    apply (IH (S b) (pre ++ [x]) s1 s').
    + rewrite <- app_assoc. exact E.
    + rewrite app_length; simpl; lia.
    + eapply inv_leave. eapply (inv_body b x Hb (body x) 0%nat [] (forget s)); eauto. apply inv_enter, I.
    + exact H.
Qed.
(** the walk, seen from one block: the state it enters the block with, and the state at the end *)
Lemma walk_at_block l : forall b0 pre s0 sf, blocks f = pre ++ l -> length pre = b0 -> inv_at b0 s0 -> visit_blocks f b0 l s0 = Some sf ->
  forall b c, (b0 <= b)%nat -> nth_error (blocks f) b = Some c ->
  exists s s' rest, inv_at b s /\ visit_body f b 0 (body c) (forget s) = Some s' /\ visit_blocks f (S b) rest s' = Some sf.
Proof using WF.
  induction l as [|x l IH]; simpl; intros b0 pre s0 sf E L I H b c Lb Hb.
  - exfalso. assert (b < length (blocks f))%nat by (apply nth_error_Some; congruence). rewrite E, app_nil_r in H0. lia.
  - destruct (visit_body f b0 0 (body x) (forget s0)) as [s1|] eqn:V; [|discriminate].
    assert (Hx : nth_error (blocks f) b0 = Some x) by (rewrite E, nth_error_app2 by lia; replace (b0 - length pre)%nat with O by lia; reflexivity).
    destruct (Nat.eq_dec b b0) as [->|Ne].
    + rewrite Hx in Hb. injection Hb as <-. exists s0, s1, l. auto.
    + apply (IH (S b0) (pre ++ [x]) s1 sf); auto; try lia.
      * rewrite <- app_assoc. exact E.
      * rewrite app_length; simpl; lia.
      * eapply inv_leave. eapply (inv_body b0 x Hx (body x) 0%nat [] (forget s0)); eauto. apply inv_enter, I.
Qed.
End Walk.
