From Verif Require Import Base NamedIds NamedIdsProofs EquivRel EquivSpec.
Local Open Scope nat_scope.

Inductive climbs (par : N -> N) : nat -> N -> N -> Prop :=
| cl_root v : par v = v -> climbs par 0 v v
| cl_up k v x : par v <> v -> climbs par k (par v) x -> climbs par (S k) v x.

Lemma climbs_det par k v x : climbs par k v x -> forall j y, climbs par j v y -> k = j /\ x = y.
Proof.
  induction 1 as [v H|k v x H C IH]; intros j y D; inversion D; subst; try congruence; auto.
  destruct (IH _ _ H1). auto.
Qed.
Lemma climbs_root par k v x : climbs par k v x -> par x = x.
Proof. induction 1; auto. Qed.

Record inv (r : relation) : Prop := {
  inv_nodup : NoDup (owned r);
  inv_closed : forall v, In v (owned r) -> In (parent r v) (owned r);
  inv_rooted : forall v, In v (owned r) -> exists k x, climbs (parent r) k v x;
  inv_kids : forall p c, In p (owned r) -> (In c (children r p) <-> In c (owned r) /\ parent r c = p /\ c <> p);
  inv_kids_nodup : forall p, In p (owned r) -> NoDup (children r p) }.

Lemma climbs_in r k v x : inv r -> climbs (parent r) k v x -> In v (owned r) -> In x (owned r).
Proof. intros I C. induction C; auto. intros. apply IHC. apply inv_closed; auto. Qed.

(** The values on the way to the root are different, so the way is short. *)
Lemma climbs_short r k v x : inv r -> climbs (parent r) k v x -> In v (owned r) -> k < length (owned r).
Proof.
  intros I C Hv.
  assert (G : exists l, length l = S k /\ NoDup l /\ incl l (owned r) /\
    forall y, In y l -> exists j, j <= k /\ climbs (parent r) j y x).
  { induction C as [v H|k v x H C IH].
    - exists [v]. split; auto. split; [constructor; [intros []|constructor]|]. split; [intros y [<-|[]]; auto|].
      intros y [<-|[]]. exists 0. split; auto. constructor; auto.
    - destruct IH as [l [L1 [L2 [L3 L4]]]]; [apply inv_closed; auto|].
      exists (v :: l). split; [simpl; auto|]. split.
      + constructor; auto. intros Hin. destruct (L4 _ Hin) as [j [Hj Cj]].
        destruct (climbs_det _ _ _ _ (cl_up _ _ _ _ H C) _ _ Cj). lia.
      + split; [intros y [<-|Hy]; auto|]. intros y [<-|Hy].
        * exists (S k). split; auto. apply cl_up; auto.
        * destruct (L4 _ Hy) as [j [Hj Cj]]. exists j. split; auto. }
  destruct G as [l [L1 [L2 [L3 _]]]]. rewrite <- Nat.le_succ_l, <- L1. apply NoDup_incl_length; auto.
Qed.

Lemma chase_ok par k v x : climbs par k v x -> forall fuel, k < fuel -> chase fuel par v = Some x.
Proof.
  induction 1 as [v H|k v x H C IH]; intros [|fuel] L; try lia; cbn [chase].
  - rewrite H, N.eqb_refl. auto.
  - apply N.eqb_neq in H. rewrite H. apply IH. lia.
Qed.

Lemma erase_ok x l : NoDup l -> In x l ->
  exists l', erase_first x l = Some l' /\ NoDup l' /\ forall y, In y l' <-> In y l /\ y <> x.
Proof.
  induction l as [|z l IH]; intros ND Hin; [contradiction|]. inversion ND as [|? ? N1 N2]; subst. simpl.
  destruct (N.eqb z x) eqn:Q.
  - apply N.eqb_eq in Q. subst z. exists l. split; auto. split; auto. intros y. split.
    + intros Hy. split; auto. intros ->. contradiction.
    + intros [[->|]]; congruence.
  - apply N.eqb_neq in Q. destruct Hin as [->|Hin]; [congruence|].
    destruct (IH N2 Hin) as [l' [E [N3 S]]]. rewrite E. simpl. exists (z :: l'). split; auto. split.
    + constructor; auto. rewrite S. tauto.
    + intros y. simpl. rewrite S. split; [intros [<-|[]]; auto|]. intros [[->|] ?]; auto.
Qed.

Lemma upd_same {B} (f : N -> B) k v : upd f k v k = v.
Proof. unfold upd. rewrite N.eqb_refl. auto. Qed.
Lemma upd_other {B} (f : N -> B) k v x : x <> k -> upd f k v x = f x.
Proof. unfold upd. intros H. apply N.eqb_neq in H. rewrite H. auto. Qed.

(** [keeps r r']: same values, same roots. *)
Definition keeps (r r' : relation) : Prop :=
  owned r' = owned r /\ inv r' /\
  forall v x, In v (owned r) -> ((exists k, climbs (parent r') k v x) <-> (exists k, climbs (parent r) k v x)).

Lemma keeps_refl r : inv r -> keeps r r.
Proof. intros I. split; auto. split; auto. tauto. Qed.
Lemma keeps_trans a b c : keeps a b -> keeps b c -> keeps a c.
Proof.
  intros [O1 [I1 K1]] [O2 [I2 K2]]. split; [congruence|]. split; auto. intros v x Hv.
  rewrite K2 by (rewrite O1; auto). apply K1; auto.
Qed.

Lemma compress_ok : forall fuel r result current k, inv r -> In current (owned r) ->
  climbs (parent r) k current result -> k < fuel ->
  exists r', compress fuel r result current = Some r' /\ keeps r r'.
Proof.
  induction fuel as [|fuel IH]; intros r result current k I Hc C L; [lia|].
  cbn [compress]. destruct (N.eqb (parent r current) result) eqn:Q.
  { exists r. split; auto. apply keeps_refl; auto. }
  apply N.eqb_neq in Q.
  inversion C as [v H|k' v x H C']; subst; [congruence|].
  remember (parent r current) as next eqn:Hnx.
  assert (Hroot := climbs_root _ _ _ _ C).
  assert (Hres : In result (owned r)) by (exact (climbs_in r _ _ _ I C Hc)).
  assert (Hnext : In next (owned r)) by (rewrite Hnx; apply inv_closed; auto).
  assert (ne : result <> current) by (intros E; rewrite E in Hroot; apply H; congruence).
  rewrite (upd_other _ _ _ next Q).
  destruct (erase_ok current (children r next)) as [l [El [NDl Sl]]].
  { apply inv_kids_nodup; auto. }
  { apply (inv_kids r I); auto. }
  rewrite El.
  set (r1 := {| owned := owned r; parent := _; children := _ |}).
  assert (FWD : forall j v x, climbs (parent r) j v x -> exists j', j' <= j /\ climbs (parent r1) j' v x).
  { intros j v x D. induction D as [v Hv|j v x Hv D IHD].
    - exists 0. split; auto. constructor. simpl. rewrite upd_other; auto. intros ->. congruence.
    - destruct (N.eq_dec v current) as [->|nv].
      + destruct (climbs_det _ _ _ _ C _ _ (cl_up _ _ _ _ Hv D)) as [_ <-].
        exists 1. split; [lia|]. apply cl_up; simpl; rewrite upd_same; auto. constructor. rewrite upd_other; auto.
      + destruct IHD as [j' [Lj Cj]]. exists (S j'). split; [lia|].
        apply cl_up; simpl; rewrite upd_other; auto. }
  assert (I1 : inv r1).
  { split.
    - apply I.
    - intros v Hv. simpl in *. destruct (N.eq_dec v current) as [->|nv]; [rewrite upd_same|rewrite upd_other]; auto.
      apply inv_closed; auto.
    - intros v Hv. destruct (inv_rooted _ I v Hv) as [j [x D]]. destruct (FWD _ _ _ D) as [j' [_ D']]. eauto.
    - intros p c Hp. simpl in *. destruct (N.eq_dec p next) as [->|np].
      + rewrite upd_same, Sl, (inv_kids r I) by auto.
        destruct (N.eq_dec c current) as [->|nc]; [rewrite upd_same|rewrite upd_other]; auto; intuition congruence.
      + rewrite upd_other by auto. destruct (N.eq_dec p result) as [->|nr].
        * rewrite upd_same, in_app_iff, (inv_kids r I) by auto. simpl.
          destruct (N.eq_dec c current) as [->|nc]; [rewrite upd_same|rewrite upd_other]; auto; intuition congruence.
        * rewrite upd_other, (inv_kids r I) by auto.
          destruct (N.eq_dec c current) as [->|nc]; [rewrite upd_same|rewrite upd_other]; auto; intuition congruence.
    - intros p Hp. simpl in *. destruct (N.eq_dec p next) as [->|np].
      + rewrite upd_same. auto.
      + rewrite upd_other by auto. destruct (N.eq_dec p result) as [->|nr].
        * rewrite upd_same. apply NoDup_snoc; [apply inv_kids_nodup; auto|].
          intros X. apply (inv_kids r I) in X; auto. destruct X as [_ [X _]]. congruence.
        * rewrite upd_other by auto. apply inv_kids_nodup; auto. }
  assert (K1 : keeps r r1).
  { split; auto. split; auto. intros v x Hv. split; intros [j D].
    - destruct (inv_rooted _ I v Hv) as [j0 [x0 D0]]. destruct (FWD _ _ _ D0) as [j' [_ D']].
      destruct (climbs_det _ _ _ _ D _ _ D') as [_ ->]. eauto.
    - destruct (FWD _ _ _ D) as [j' [_ D']]. eauto. }
  destruct (FWD _ _ _ C') as [j [Lj Cj]].
  destruct (IH r1 result next j I1 Hnext Cj ltac:(lia)) as [r' [E K]].
  exists r'. split; auto. eapply keeps_trans; eauto.
Qed.

Lemma find_ok r v : inv r -> In v (owned r) ->
  exists r' x k, find r v = Some (r', x) /\ keeps r r' /\ climbs (parent r) k v x.
Proof.
  intros I Hv. unfold find, exists_value. assert (mem v (owned r) = true) as -> by (apply mem_In; auto).
  destruct (inv_rooted _ I v Hv) as [k [x C]]. assert (Sh := climbs_short _ _ _ _ I C Hv).
  rewrite (chase_ok _ _ _ _ C) by lia.
  destruct (compress_ok (S (length (owned r))) r x v k I Hv C ltac:(lia)) as [r' [E K]].
  rewrite E. exists r', x, k. auto.
Qed.

Definition same (r : relation) (a b : N) : Prop :=
  exists x j k, climbs (parent r) j a x /\ climbs (parent r) k b x.

Lemma keeps_same r r' a b : keeps r r' -> In a (owned r) -> In b (owned r) -> (same r' a b <-> same r a b).
Proof.
  intros [_ [_ K]] Ha Hb. unfold same. split; intros [x [j [k [C1 C2]]]].
  - destruct (proj1 (K a x Ha) (ex_intro _ j C1)) as [j' D1]. destruct (proj1 (K b x Hb) (ex_intro _ k C2)) as [k' D2].
    exists x, j', k'; auto.
  - destruct (proj2 (K a x Ha) (ex_intro _ j C1)) as [j' D1]. destruct (proj2 (K b x Hb) (ex_intro _ k C2)) as [k' D2].
    exists x, j', k'; auto.
Qed.

Lemma is_equivalent_ok r a b : inv r -> In a (owned r) -> In b (owned r) ->
  exists r' q, is_equivalent r a b = Some (r', q) /\ keeps r r' /\ (q = true <-> same r a b).
Proof.
  intros I Ha Hb. unfold is_equivalent.
  destruct (find_ok r a I Ha) as [r1 [x [k [E1 [K1 C1]]]]]. rewrite E1.
  destruct K1 as [O1 [I1 K1]].
  destruct (find_ok r1 b I1) as [r2 [y [j [E2 [K2 C2]]]]]; [rewrite O1; auto|]. rewrite E2.
  exists r2, (N.eqb x y). split; auto. split; [eapply keeps_trans; eauto; split; auto|].
  destruct (proj1 (K1 b y Hb) (ex_intro _ j C2)) as [j' C2'].
  rewrite N.eqb_eq. split.
  - intros <-. exists x, k, j'. auto.
  - intros [z [i1 [i2 [D1 D2]]]]. destruct (climbs_det _ _ _ _ C1 _ _ D1). destruct (climbs_det _ _ _ _ C2' _ _ D2). congruence.
Qed.

(** Merging. *)
Lemma merge_ok r a b : inv r -> In a (owned r) -> In b (owned r) ->
  exists r', make_equivalent r a b = Some r' /\ owned r' = owned r /\ inv r' /\
    forall u v, In u (owned r) -> In v (owned r) ->
      (same r' u v <-> same r u v \/ (same r u a /\ same r v b) \/ (same r u b /\ same r v a)).
Proof.
  intros I Ha Hb. unfold make_equivalent, exists_value.
  assert (mem a (owned r) = true) as -> by (apply mem_In; auto).
  assert (mem b (owned r) = true) as -> by (apply mem_In; auto). cbn [andb].
  assert (SS : forall u v, same r u v -> same r v u).
  { intros u v [x [j [k [C1 C2]]]]. exists x, k, j; auto. }
  assert (ST : forall u v w, same r u v -> same r v w -> same r u w).
  { intros u v w [x [j [k [C1 C2]]]] [y [j' [k' [C3 C4]]]]. destruct (climbs_det _ _ _ _ C2 _ _ C3) as [_ <-].
    exists x, j, k'; auto. }
  destruct (N.eqb a b) eqn:Q.
  { apply N.eqb_eq in Q. subst b. exists r. split; auto. split; auto. split; auto.
    intros u v _ _. split; auto. intros [|[[H1 H2]|[H1 H2]]]; auto; eapply ST; eauto. }
  destruct (find_ok r a I Ha) as [r1 [x [k [E1 [K1 C1]]]]]. rewrite E1.
  assert (O1 : owned r1 = owned r) by apply K1. assert (I1 : inv r1) by apply K1.
  destruct (find_ok r1 b I1) as [r2 [y [j [E2 [K2 C2]]]]]; [rewrite O1; auto|]. rewrite E2.
  assert (K : keeps r r2) by (eapply keeps_trans; eauto).
  assert (O2 : owned r2 = owned r) by apply K. assert (I2 : inv r2) by apply K.
  (* roots in r2 *)
  destruct (proj2 (proj2 (proj2 K) a x Ha) (ex_intro _ k C1)) as [ka Da].
  destruct (proj2 (proj2 (proj2 K2) b y ltac:(rewrite O1; auto)) (ex_intro _ j C2)) as [kb Db].
  destruct (N.eqb x y) eqn:Qxy.
  { apply N.eqb_eq in Qxy. subst y. exists r2. split; auto. split; auto. split; auto.
    assert (AB : same r a b) by (apply (keeps_same r r2 a b K Ha Hb); exists x, ka, kb; auto).
    intros u v Hu Hv. rewrite (keeps_same r r2); auto. split; auto. intros [|[[H1 H2]|[H1 H2]]]; auto.
    - eapply ST; eauto.
    - eapply ST; eauto. }
  apply N.eqb_neq in Qxy. eexists. split; [reflexivity|]. set (r3 := {| owned := _; parent := _; children := _ |}).
  split; auto.
  assert (Rx := climbs_root _ _ _ _ Da). assert (Ry := climbs_root _ _ _ _ Db).
  assert (Hx : In x (owned r2)) by (eapply climbs_in; eauto; rewrite O2; auto).
  assert (Hy : In y (owned r2)) by (eapply climbs_in; eauto; rewrite O2; auto).
  assert (FWD : forall i v z, climbs (parent r2) i v z -> exists i', climbs (parent r3) i' v (if N.eqb z x then y else z)).
  { intros i v z D. induction D as [v Hv|i v z Hv D IHD].
    - destruct (N.eqb v x) eqn:E.
      + apply N.eqb_eq in E. subst v. exists 1. apply cl_up; simpl; rewrite upd_same; auto.
        constructor. rewrite upd_other; auto.
      + apply N.eqb_neq in E. exists 0. constructor. simpl. rewrite upd_other; auto.
    - destruct IHD as [i' D']. exists (S i'). assert (v <> x) by congruence.
      apply cl_up; simpl; rewrite upd_other; auto. }
  assert (I3 : inv r3).
  { split.
    - simpl. apply I2.
    - intros v Hv. simpl in *. destruct (N.eq_dec v x) as [->|]; [rewrite upd_same|rewrite upd_other]; auto. apply inv_closed; auto.
    - intros v Hv. destruct (inv_rooted _ I2 v Hv) as [i [z D]]. destruct (FWD _ _ _ D); eauto.
    - intros p c Hp. simpl in *. destruct (N.eq_dec p y) as [->|np].
      + rewrite upd_same, in_app_iff, (inv_kids r2 I2) by auto. simpl.
        destruct (N.eq_dec c x) as [->|nc]; [rewrite upd_same|rewrite upd_other]; auto; intuition congruence.
      + rewrite upd_other, (inv_kids r2 I2) by auto.
        destruct (N.eq_dec c x) as [->|nc]; [rewrite upd_same|rewrite upd_other]; auto; intuition congruence.
    - intros p Hp. simpl in *. destruct (N.eq_dec p y) as [->|np].
      + rewrite upd_same. apply NoDup_snoc; [apply inv_kids_nodup; auto|].
        intros X. apply (inv_kids r2 I2) in X; auto. destruct X as [_ [X _]]. congruence.
      + rewrite upd_other by auto. apply inv_kids_nodup; auto. }
  split; auto.
  intros u v Hu Hv. rewrite <- (keeps_same r r2 u v), <- (keeps_same r r2 u a), <- (keeps_same r r2 v b),
    <- (keeps_same r r2 u b), <- (keeps_same r r2 v a) by auto.
  rewrite <- O2 in Hu, Hv.
  destruct (inv_rooted _ I2 u Hu) as [iu [zu Du]]. destruct (inv_rooted _ I2 v Hv) as [iv [zv Dv]].
  destruct (FWD _ _ _ Du) as [iu' Du']. destruct (FWD _ _ _ Dv) as [iv' Dv'].
  assert (S1 : forall p q zp zq ip iq, climbs (parent r2) ip p zp -> climbs (parent r2) iq q zq -> (same r2 p q <-> zp = zq)).
  { intros p q zp zq ip iq D1 D2. split.
    - intros [z [i1 [i2 [X1 X2]]]]. destruct (climbs_det _ _ _ _ D1 _ _ X1). destruct (climbs_det _ _ _ _ D2 _ _ X2). congruence.
    - intros <-. exists zp, ip, iq; auto. }
  rewrite (S1 u v _ _ _ _ Du Dv), (S1 u a _ _ _ _ Du Da), (S1 v b _ _ _ _ Dv Db), (S1 u b _ _ _ _ Du Db), (S1 v a _ _ _ _ Dv Da).
  assert (S3 : same r3 u v <-> (if N.eqb zu x then y else zu) = (if N.eqb zv x then y else zv)).
  { split.
    - intros [z [i1 [i2 [X1 X2]]]]. destruct (climbs_det _ _ _ _ Du' _ _ X1). destruct (climbs_det _ _ _ _ Dv' _ _ X2). congruence.
    - intros E. exists (if N.eqb zu x then y else zu), iu', iv'. split; auto. rewrite E. auto. }
  rewrite S3. destruct (N.eqb_spec zu x), (N.eqb_spec zv x); intuition congruence.
Qed.

Lemma register_ok r v : inv r -> ~ In v (owned r) ->
  exists r', register r v = Some r' /\ owned r' = owned r ++ [v] /\ inv r' /\
    forall a b, In a (owned r ++ [v]) -> In b (owned r ++ [v]) ->
      (same r' a b <-> a = b \/ (In a (owned r) /\ In b (owned r) /\ same r a b)).
Proof.
  intros I Nv. unfold register, exists_value. assert (mem v (owned r) = false) as -> by (apply mem_false; auto).
  eexists. split; [reflexivity|]. set (r1 := {| owned := _; parent := _; children := _ |}). split; auto.
  assert (NE : forall x, In x (owned r) -> x <> v) by (intros x Hx ->; auto).
  assert (FWD : forall k u x, climbs (parent r) k u x -> In u (owned r) -> climbs (parent r1) k u x).
  { intros k u x C. induction C as [u H|k u x H C IH]; intros Hu.
    - constructor. simpl. rewrite upd_other; auto.
    - apply cl_up; simpl; rewrite upd_other; auto. apply IH. apply inv_closed; auto. }
  assert (NEW : climbs (parent r1) 0 v v) by (constructor; simpl; apply upd_same).
  assert (I1 : inv r1).
  { split.
    - simpl. apply NoDup_snoc; auto. apply I.
    - intros u Hu. simpl in *. apply in_app_or in Hu. apply in_or_app. destruct Hu as [Hu|[<-|[]]].
      + left. rewrite upd_other; auto. apply inv_closed; auto.
      + right. rewrite upd_same. left; auto.
    - intros u Hu. simpl in Hu. apply in_app_or in Hu. destruct Hu as [Hu|[<-|[]]]; eauto.
      destruct (inv_rooted _ I u Hu) as [k [x C]]; eauto.
    - intros p c Hp. simpl in *. apply in_app_or in Hp. destruct Hp as [Hp|[<-|[]]].
      + rewrite upd_other, (inv_kids r I), in_app_iff by auto. simpl. split.
        * intros [H1 [H2 H3]]. rewrite upd_other; auto.
        * intros [[H1|[<-|[]]] [H2 H3]].
          -- rewrite upd_other in H2; auto.
          -- rewrite upd_same in H2. congruence.
      + rewrite upd_same. split; [intros []|]. intros [H1 [H2 H3]]. rewrite upd_other in H2 by auto.
        apply in_app_or in H1. destruct H1 as [H1|[H1|[]]]; [|congruence].
        apply Nv. rewrite <- H2. apply inv_closed; auto.
    - intros p Hp. simpl in *. apply in_app_or in Hp. destruct Hp as [Hp|[<-|[]]].
      + rewrite upd_other by auto. apply inv_kids_nodup; auto.
      + rewrite upd_same. constructor. }
  split; auto.
  intros a b Ha Hb. apply in_app_or in Ha, Hb. split.
  - intros [x [j [k [C1 C2]]]].
    destruct Ha as [Ha|[<-|[]]]; destruct Hb as [Hb|[<-|[]]]; auto.
    + right. split; auto. split; auto. destruct (inv_rooted _ I a Ha) as [ja [xa Da]]. destruct (inv_rooted _ I b Hb) as [jb [xb Db]].
      destruct (climbs_det _ _ _ _ C1 _ _ (FWD _ _ _ Da Ha)). destruct (climbs_det _ _ _ _ C2 _ _ (FWD _ _ _ Db Hb)).
      subst. exists xb, ja, jb. auto.
    + exfalso. destruct (inv_rooted _ I a Ha) as [ja [xa Da]]. destruct (climbs_det _ _ _ _ C1 _ _ (FWD _ _ _ Da Ha)).
      destruct (climbs_det _ _ _ _ C2 _ _ NEW). apply Nv. assert (xa = v) as Exa by congruence. rewrite <- Exa. eapply climbs_in; eauto.
    + exfalso. destruct (inv_rooted _ I b Hb) as [jb [xb Db]]. destruct (climbs_det _ _ _ _ C2 _ _ (FWD _ _ _ Db Hb)).
      destruct (climbs_det _ _ _ _ C1 _ _ NEW). apply Nv. assert (xb = v) as E by congruence. rewrite <- E. eapply climbs_in; eauto.
  - intros [<-|[H1 [H2 [x [j [k [C1 C2]]]]]]].
    + destruct Ha as [Ha|[<-|[]]].
      * destruct (inv_rooted _ I a Ha) as [ja [xa Da]]. exists xa, ja, ja. auto.
      * exists v, 0, 0. auto.
    + exists x, j, k. auto.
Qed.

(** The traversal of a class. *)
Lemma class_ok r x : inv r -> In x (owned r) -> parent r x = x ->
  exists l, class_loop (S (length (owned r))) (children r) [x] [] = Some l /\ NoDup l /\
    forall v, In v l <-> In v (owned r) /\ exists k, climbs (parent r) k v x.
Proof.
  intros I Hx Rx.
  assert (G : forall fuel stack result, length (owned r) < fuel + length result ->
    NoDup (result ++ stack) -> incl (result ++ stack) (owned r) -> In x (result ++ stack) ->
    (forall v, In v (result ++ stack) -> v <> x -> In (parent r v) result) ->
    (forall v c, In v result -> In c (children r v) -> In c (result ++ stack)) ->
    (forall v, In v (result ++ stack) -> exists k, climbs (parent r) k v x) ->
    exists l, class_loop fuel (children r) stack result = Some l /\ NoDup l /\ incl l (owned r) /\ In x l /\
      (forall v c, In v l -> In c (children r v) -> In c l) /\
      (forall v, In v l -> exists k, climbs (parent r) k v x)).
  { induction fuel as [|fuel IH]; intros stack result Lf ND SUB Hxin PAR KID CL.
    - exfalso. assert (length (result ++ stack) <= length (owned r)) by (apply NoDup_incl_length; auto).
      rewrite app_length in H. lia.
    - cbn [class_loop]. destruct stack as [|item rest].
      + rewrite app_nil_r in *. exists result. split; auto.
      + assert (Hitem : In item (owned r)) by (apply SUB, in_or_app; right; left; auto).
        assert (EQ : forall v, In v (result ++ item :: rest) <-> In v ((result ++ [item]) ++ rest)).
        { intros v. rewrite !in_app_iff. simpl. tauto. }
        assert (Hnew : forall c, In c (children r item) -> ~ In c (result ++ item :: rest)).
        { intros c Hc Hin. apply (inv_kids r I) in Hc; auto. destruct Hc as [H1 [H2 H3]].
          destruct (N.eq_dec c x) as [->|nc]; [congruence|].
          specialize (PAR c Hin nc). rewrite H2 in PAR. apply NoDup_remove_2 in ND. apply ND, in_or_app. auto. }
        apply IH.
        * rewrite app_length. simpl. lia.
        * assert (ND' : NoDup ((result ++ [item]) ++ rest)) by (rewrite <- app_assoc; auto).
          clear -ND' Hnew I Hitem EQ.
          assert (NK : NoDup (rev (children r item))) by (apply NoDup_rev, inv_kids_nodup; auto).
          assert (DIS : forall c, In c (rev (children r item)) -> ~ In c ((result ++ [item]) ++ rest)).
          { intros c Hc. rewrite <- EQ. apply Hnew. apply in_rev; auto. }
          generalize dependent (rev (children r item)). intros ks NK DIS. clear Hnew EQ.
          induction ks as [|c ks IHk]; [auto|].
          inversion NK; subst. apply NoDup_Add with (a := c) (l := (result ++ [item]) ++ ks ++ rest).
          -- apply Add_app.
          -- split; [apply IHk; auto; intros; apply DIS; right; auto|].
             rewrite !in_app_iff in *. specialize (DIS c (or_introl eq_refl)). rewrite !in_app_iff in DIS. tauto.
        * intros v Hv. apply in_app_or in Hv. destruct Hv as [Hv|Hv]; [apply SUB, EQ, in_or_app; auto|].
          apply in_app_or in Hv. destruct Hv as [Hv|Hv]; [|apply SUB, EQ, in_or_app; auto].
          apply in_rev in Hv. apply (inv_kids r I) in Hv; tauto.
        * apply EQ in Hxin. rewrite !in_app_iff in *. tauto.
        * intros v Hv nv. apply in_app_or in Hv. destruct Hv as [Hv|Hv].
          { apply in_or_app. left. apply PAR; auto. apply EQ, in_or_app; auto. }
          apply in_app_or in Hv. destruct Hv as [Hv|Hv].
          { apply in_rev in Hv. apply (inv_kids r I) in Hv; auto. destruct Hv as [_ [-> _]]. apply in_or_app. right; left; auto. }
          { apply in_or_app. left. apply PAR; auto. apply EQ, in_or_app; auto. }
        * intros v c Hv Hc. apply in_app_or in Hv. destruct Hv as [Hv|[<-|[]]].
          { specialize (KID v c Hv Hc). apply EQ in KID. rewrite !in_app_iff in *. tauto. }
          { rewrite !in_app_iff, <- in_rev. tauto. }
        * intros v Hv. rewrite !in_app_iff, <- in_rev in Hv. simpl in Hv.
          destruct (in_dec N.eq_dec v (children r item)) as [Hc|Hc].
          { apply (inv_kids r I) in Hc; auto. destruct Hc as [H1 [H2 H3]].
            destruct (CL item) as [k C]; [apply in_or_app; right; left; auto|].
            exists (S k). apply cl_up; rewrite H2; auto. }
          { apply CL. rewrite in_app_iff. simpl. tauto. } }
  destruct (G (S (length (owned r))) [x] []) as [l [E [ND [SUB [Hxl [KID CL]]]]]]; simpl.
  - lia.
  - constructor; [intros []|constructor].
  - intros v [<-|[]]; auto.
  - auto.
  - intros v [<-|[]]; congruence.
  - intros ? ? [].
  - intros v [<-|[]]. exists 0. constructor; auto.
  - exists l. split; auto. split; auto. intros v. split.
    + intros Hv. split; auto.
    + intros [Hv [k C]]. clear -I Hv C KID Hxl. induction C as [v H|k v x H C IH]; auto.
      apply (KID (parent r v)); [apply IH; auto; apply inv_closed; auto|].
      apply (inv_kids r I); [apply inv_closed; auto|]. auto.
Qed.

Lemma equivalence_class_ok r v : inv r -> In v (owned r) ->
  exists r' l, equivalence_class r v = Some (r', l) /\ keeps r r' /\ NoDup l /\
    forall u, In u l <-> In u (owned r) /\ same r v u.
Proof.
  intros I Hv. unfold equivalence_class.
  destruct (find_ok r v I Hv) as [r1 [x [k [E1 [K1 C1]]]]]. rewrite E1.
  assert (O1 : owned r1 = owned r) by apply K1. assert (I1 : inv r1) by apply K1.
  destruct (proj2 (proj2 (proj2 K1) v x Hv) (ex_intro _ k C1)) as [k1 D1].
  assert (Hx : In x (owned r1)) by (eapply climbs_in; eauto; rewrite O1; auto).
  destruct (class_ok r1 x I1 Hx (climbs_root _ _ _ _ D1)) as [l [E2 [ND S]]]. rewrite E2.
  exists r1, l. split; auto. split; auto. split; auto.
  intros u. rewrite S, O1. split.
  - intros [Hu [j D]]. split; auto. destruct (proj1 (proj2 (proj2 K1) u x Hu) (ex_intro _ j D)) as [j' D'].
    exists x, k, j'. auto.
  - intros [Hu [z [i [j [C2 C3]]]]]. split; auto. destruct (climbs_det _ _ _ _ C1 _ _ C2) as [_ <-].
    apply (proj2 (proj2 K1) u x Hu). eauto.
Qed.

(** Histories. *)
Lemma run_app r cs c : run r (cs ++ [c]) = match run r cs with Some r' => do_call r' c | None => None end.
Proof.
  revert r. induction cs as [|d cs IH]; intros r; simpl.
  - destruct (do_call r c); auto.
  - destruct (do_call r d); auto.
Qed.
Lemma registered_app a b : registered (a ++ b) = registered a ++ registered b.
Proof. apply flat_map_app. Qed.
Lemma equivalent_mono cs c a b : equivalent cs a b -> equivalent (cs ++ [c]) a b.
Proof. induction 1; [apply eq_merged, in_or_app; auto|apply eq_refl_|apply eq_sym_; auto|eapply eq_trans_; eauto]. Qed.
Lemma equivalent_other cs c a b : (forall x y, c <> MakeEquivalent x y) -> equivalent (cs ++ [c]) a b -> equivalent cs a b.
Proof.
  intros H E. induction E as [a b Hin| | |]; [|apply eq_refl_|apply eq_sym_; auto|eapply eq_trans_; eauto].
  apply in_app_or in Hin. destruct Hin as [Hin|[->|[]]]; [apply eq_merged; auto|]. exfalso. eapply H; eauto.
Qed.
(** Values that were not registered are related only to themselves. *)
Lemma equivalent_registered cs a b : legal cs -> equivalent cs a b -> a = b \/ (In a (registered cs) /\ In b (registered cs)).
Proof.
  intros Lg. assert (M : forall x y, In (MakeEquivalent x y) cs -> In x (registered cs) /\ In y (registered cs)).
  { induction Lg; intros x y Hin; [contradiction|..]; rewrite registered_app, !in_app_iff; apply in_app_or in Hin;
      (destruct Hin as [Hin|[Hin|[]]]; [destruct (IHLg _ _ Hin); auto|inversion Hin; subst; auto]). }
  induction 1 as [a b Hin| |a b E IH|a b c E1 IH1 E2 IH2]; auto.
  - destruct IH as [->|[]]; auto.
  - destruct IH1 as [->|[]]; auto. destruct IH2 as [->|[]]; auto.
Qed.

Lemma inv_empty : inv empty_relation.
Proof. split; simpl; try tauto. constructor. Qed.

Theorem history_ok cs : legal cs -> exists r, run empty_relation cs = Some r /\ inv r /\ owned r = registered cs /\
  forall a b, In a (registered cs) -> In b (registered cs) -> (same r a b <-> equivalent cs a b).
Proof.
  intros Lg. induction Lg as [|cs v Lg IH Nv|cs a b Lg IH Ha Hb|cs a b Lg IH Ha Hb|cs a Lg IH Ha].
  - exists empty_relation. split; auto. split; [exact inv_empty|]. split; auto. intros a b [].
  - destruct IH as [r [E [I [O S]]]]. rewrite <- O in Nv.
    destruct (register_ok r v I Nv) as [r' [E' [O' [I' S']]]].
    exists r'. rewrite run_app, E. split; auto. split; auto. rewrite registered_app. simpl.
    split; [rewrite O', O; auto|]. intros a b Ha Hb. rewrite <- O in Ha, Hb. rewrite (S' a b Ha Hb). split.
    + intros [->|[H1 [H2 H3]]]; [apply eq_refl_|]. apply equivalent_mono. apply S; auto; rewrite <- O; auto.
    + intros H. apply equivalent_other in H; [|discriminate].
      destruct (equivalent_registered _ _ _ Lg H) as [|[H1 H2]]; auto. right.
      rewrite O. split; auto. split; auto. apply S; auto.
  - destruct IH as [r [E [I [O S]]]].
    destruct (merge_ok r a b I) as [r' [E' [O' [I' S']]]]; [rewrite O; auto|rewrite O; auto|].
    exists r'. rewrite run_app, E. split; auto. split; auto. rewrite registered_app. simpl. rewrite app_nil_r.
    split; [congruence|]. intros u v Hu Hv. rewrite S' by (rewrite O; auto). rewrite !S by auto.
    set (cs' := cs ++ [MakeEquivalent a b]).
    assert (AB : equivalent cs' a b) by (apply eq_merged, in_or_app; right; left; auto).
    split.
    + intros [H|[[H1 H2]|[H1 H2]]].
      * apply equivalent_mono; auto.
      * apply (equivalent_mono _ (MakeEquivalent a b)) in H1, H2.
        eapply eq_trans_; eauto. eapply eq_trans_; eauto. apply eq_sym_; auto.
      * apply (equivalent_mono _ (MakeEquivalent a b)) in H1, H2.
        eapply eq_trans_; eauto. apply eq_sym_. eapply eq_trans_; eauto.
    + intros H. clear Hu Hv. induction H as [u v Hin|u|u v H IH|u v w H1 IH1 H2 IH2].
      * apply in_app_or in Hin. destruct Hin as [Hin|[Hin|[]]].
        -- left. apply eq_merged; auto.
        -- injection Hin as <- <-. right; left. split; apply eq_refl_.
      * left. apply eq_refl_.
      * destruct IH as [H0|[[H1 H2]|[H1 H2]]]; auto. left. apply eq_sym_; auto.
      * assert (Sy : forall x y, equivalent cs x y -> equivalent cs y x) by (intros; apply eq_sym_; auto).
        assert (Tr : forall x y z, equivalent cs x y -> equivalent cs y z -> equivalent cs x z) by (intros; eapply eq_trans_; eauto).
        destruct IH1 as [A|[[A1 A2]|[A1 A2]]]; destruct IH2 as [B|[[B1 B2]|[B1 B2]]]; eauto 6.
  - destruct IH as [r [E [I [O S]]]].
    destruct (is_equivalent_ok r a b I) as [r' [q [E' [K' _]]]]; [rewrite O; auto|rewrite O; auto|].
    exists r'. rewrite run_app, E. simpl. rewrite E'. split; auto. split; [apply K'|]. rewrite registered_app. simpl. rewrite app_nil_r.
    split; [rewrite <- O; apply K'|]. intros u v Hu Hv. rewrite (keeps_same r r') by (auto; rewrite O; auto).
    rewrite S by auto. split; [apply equivalent_mono|apply equivalent_other; discriminate].
  - destruct IH as [r [E [I [O S]]]].
    destruct (equivalence_class_ok r a I) as [r' [q [E' [K' _]]]]; [rewrite O; auto|].
    exists r'. rewrite run_app, E. simpl. rewrite E'. split; auto. split; [apply K'|]. rewrite registered_app. simpl. rewrite app_nil_r.
    split; [rewrite <- O; apply K'|]. intros u v Hu Hv. rewrite (keeps_same r r') by (auto; rewrite O; auto).
    rewrite S by auto. split; [apply equivalent_mono|apply equivalent_other; discriminate].
Qed.

Theorem representatives_ok r : inv r ->
  NoDup (representatives r) /\ incl (representatives r) (owned r) /\
  forall v, In v (owned r) -> exists x, (In x (representatives r) /\ same r v x) /\
    forall y, In y (representatives r) -> same r v y -> y = x.
Proof.
  intros I. unfold representatives. split; [apply NoDup_filter, I|]. split; [intros x Hx; apply filter_In in Hx; tauto|].
  intros v Hv. destruct (inv_rooted _ I v Hv) as [k [x C]]. assert (R := climbs_root _ _ _ _ C). exists x. split.
  - split.
    + apply filter_In. split; [eapply climbs_in; eauto|]. apply N.eqb_eq; auto.
    + exists x, k, 0. split; auto. constructor; auto.
  - intros y Hy [z [i [j [C1 C2]]]]. apply filter_In in Hy. destruct Hy as [_ Hy]. apply N.eqb_eq in Hy.
    destruct (climbs_det _ _ _ _ C1 _ _ C) as [_ ->]. inversion C2; subst; congruence.
Qed.
