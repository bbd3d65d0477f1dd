(** Proofs about the EnumSet model. *)
From Verif Require Import Base EnumSet.
From Coq Require Import Sorted FinFun.
Local Open Scope N_scope.

Lemma land_bit d o : N.eqb (N.land d (N.shiftl 1 o)) 0 = negb (N.testbit d o).
Proof.
  destruct (N.testbit d o) eqn:E; simpl.
  - apply N.eqb_neq; intro H.
    assert (T : N.testbit (N.land d (N.shiftl 1 o)) o = false) by (rewrite H; apply N.bits_0).
    rewrite N.land_spec, N.shiftl_spec_high', E in T by lia.
    rewrite N.sub_diag in T; discriminate.
  - apply N.eqb_eq, N.bits_inj; intro k. rewrite N.land_spec, N.bits_0.
    destruct (N.eq_dec k o) as [->|ne]; [rewrite E; auto|].
    rewrite N.shiftl_1_l, N.pow2_bits_false by congruence. apply andb_false_r.
Qed.

Definition offsets : list N := map N.of_nat (seq 0 64).
Lemma in_offsets o : In o offsets <-> o < 64.
Proof.
  unfold offsets; rewrite in_map_iff; split.
  - intros (k & <- & H); apply in_seq in H; lia.
  - intros H; exists (N.to_nat o); split; [lia|apply in_seq; lia].
Qed.
Lemma offsets_nodup : NoDup offsets.
Proof.
  unfold offsets; apply FinFun.Injective_map_NoDup; [|apply seq_NoDup].
  intros x y; lia.
Qed.
Global Opaque offsets.

Definition bits (d : N) : list N := filter (N.testbit d) offsets.
Definition belems (b : bucket) : list N := map (fun o => bstart b + o) (bits (bdata b)).
Definition elems (bs : list bucket) : list N := flat_map belems bs.

Definition okb (b : bucket) : Prop :=
  bstart b mod 64 = 0 /\ bdata b <> 0 /\ bdata b < 2 ^ 64.
Definition lt_b (a b : bucket) : Prop := bstart a < bstart b.

Record Inv (s : eset) : Prop := {
  inv_sorted : StronglySorted lt_b (buckets s);
  inv_ok : Forall okb (buckets s);
  inv_size : esize s = N.of_nat (length (elems (buckets s))) }.

Lemma inv_empty : Inv empty_set.
Proof. split; simpl; constructor. Qed.

Lemma start_value v : bucket_start v + bucket_offset v = v.
Proof. unfold bucket_start, bucket_offset, largest_index, kBucketSize; lia. Qed.
Lemma start_aligned v : bucket_start v mod 64 = 0.
Proof. unfold bucket_start, largest_index, kBucketSize; lia. Qed.
Lemma offset_lt v : bucket_offset v < 64.
Proof. unfold bucket_offset, kBucketSize; lia. Qed.

Lemma value_unique st o v : st mod 64 = 0 -> o < 64 -> st + o = v -> st = bucket_start v /\ o = bucket_offset v.
Proof. unfold bucket_start, bucket_offset, largest_index, kBucketSize; lia. Qed.

Lemma in_bits d o : In o (bits d) <-> o < 64 /\ N.testbit d o = true.
Proof. unfold bits; rewrite filter_In, in_offsets; tauto. Qed.

Lemma in_belems b v : bstart b mod 64 = 0 ->
  (In v (belems b) <-> bstart b = bucket_start v /\ N.testbit (bdata b) (bucket_offset v) = true).
Proof.
  intros A; unfold belems; rewrite in_map_iff; split.
  - intros (o & E & H). apply in_bits in H as [Ho T].
    destruct (value_unique _ _ _ A Ho E) as [-> ->]; auto.
  - intros [E T]. exists (bucket_offset v); split; [rewrite E; apply start_value|].
    apply in_bits; split; auto. apply offset_lt.
Qed.

Lemma in_elems bs v : Forall okb bs ->
  (In v (elems bs) <->
   exists b, In b bs /\ bstart b = bucket_start v /\ N.testbit (bdata b) (bucket_offset v) = true).
Proof.
  intros F; unfold elems; rewrite in_flat_map; split; intros (b & Hb & H); exists b;
    (split; [auto|]); rewrite Forall_forall in F; destruct (F b Hb) as [A _];
    apply (in_belems b v A); auto.
Qed.

(** *** FindBucketForValue *)
Lemma sorted_app_inv {A} (R : A -> A -> Prop) l1 l2 :
  StronglySorted R (l1 ++ l2) ->
  StronglySorted R l1 /\ StronglySorted R l2 /\ (forall x y, In x l1 -> In y l2 -> R x y).
Proof.
  induction l1; simpl; intros H.
  - repeat split; auto. constructor. intros ? ? [].
  - inversion H; subst. destruct (IHl1 H2) as (S1 & S2 & C).
    rewrite Forall_app in H3. destruct H3 as [F1 F2]. rewrite Forall_forall in F2.
    repeat split; auto. constructor; auto. intros x y [->|Hx] Hy; auto.
Qed.
Lemma sorted_app {A} (R : A -> A -> Prop) l1 l2 :
  StronglySorted R l1 -> StronglySorted R l2 -> (forall x y, In x l1 -> In y l2 -> R x y) ->
  StronglySorted R (l1 ++ l2).
Proof.
  induction l1; simpl; intros S1 S2 C; auto. inversion S1; subst.
  constructor; [apply IHl1; auto|]. rewrite Forall_app; split; auto. apply Forall_forall; auto.
Qed.

Lemma nth_start_lower bs i b k :
  StronglySorted lt_b bs -> Forall okb bs -> (forall c, In c bs -> k <= bstart c) -> k mod 64 = 0 ->
  nth_error bs i = Some b -> k + 64 * N.of_nat i <= bstart b.
Proof.
  revert i k; induction bs; intros i k S F K A H; [destruct i; discriminate|].
  apply StronglySorted_inv in S as [H2 H3].
  pose proof (Forall_inv F) as [Aa _]. apply Forall_inv_tail in F as H8. destruct i; simpl in H.
  - injection H as <-. specialize (K a (or_introl eq_refl)); lia.
  - assert (Ka : k <= bstart a) by (apply K; left; auto).
    specialize (IHbs i (bstart a + 64) H2 H8). rewrite Forall_forall in H3.
    assert (Hb : In b bs) by (eapply nth_error_In; eauto).
    assert (X : bstart a + 64 + 64 * N.of_nat i <= bstart b).
    { apply IHbs; auto.
      - intros c Hc. specialize (H3 c Hc). unfold lt_b in H3.
        rewrite Forall_forall in H8. destruct (H8 c Hc) as [Ac _]. lia.
      - lia. }
    lia.
Qed.

Lemma scan_down_spec bs w i :
  StronglySorted lt_b bs -> (i < length bs)%nat ->
  (forall j b, (i < j)%nat -> nth_error bs j = Some b -> w <= bstart b) ->
  exists L R, bs = L ++ R /\ scan_down bs w i = Some (length L) /\
    (forall b, In b L -> bstart b < w) /\ (forall b, In b R -> w <= bstart b).
Proof.
  intros S; revert bs S; induction i as [|i IH]; intros bs S Hi Hhi.
  - destruct bs as [|b bs]; [simpl in Hi; lia|]. simpl.
    inversion S; subst. rewrite Forall_forall in H2.
    destruct (w <=? bstart b) eqn:E.
    + exists [], (b :: bs); simpl; repeat split; auto. intros ? [].
      intros c [<-|Hc]; [lia|]. specialize (H2 c Hc); unfold lt_b in H2; lia.
    + exists [b], bs; simpl; repeat split; auto.
      * intros c [<-|[]]; lia.
      * intros c Hc. apply In_nth_error in Hc as [j Hj]. apply (Hhi (Datatypes.S j) c); [lia|auto].
  - destruct (nth_error bs (Datatypes.S i)) as [b|] eqn:E; [|apply nth_error_None in E; lia].
    cbn [scan_down]. rewrite E. destruct (w <=? bstart b) eqn:W.
    + apply IH; auto; [lia|]. intros j c Hj Hc. destruct (Nat.eq_dec j (Datatypes.S i)) as [->|].
      * rewrite E in Hc; injection Hc as <-; lia.
      * apply (Hhi j); auto; lia.
    + exists (firstn (Datatypes.S (Datatypes.S i)) bs), (skipn (Datatypes.S (Datatypes.S i)) bs).
      split; [symmetry; apply firstn_skipn|]. split; [rewrite firstn_length_le by lia; auto|].
      pose proof (nth_error_split_eq _ _ _ E) as SP.
      rewrite <- (firstn_skipn (Datatypes.S (Datatypes.S i)) bs) in S.
      apply sorted_app_inv in S as (S1 & S2 & C).
      assert (FN : firstn (Datatypes.S (Datatypes.S i)) bs = firstn (Datatypes.S i) bs ++ [b]).
      { pose proof SP as SP'. rewrite SP' at 1. rewrite firstn_app, firstn_length_le by lia.
        replace (Datatypes.S (Datatypes.S i) - Datatypes.S i)%nat with 1%nat by lia.
        rewrite firstn_all2 by (rewrite firstn_length_le; lia). reflexivity. }
      split.
      * intros c Hc. rewrite FN in Hc, S1. apply sorted_app_inv in S1 as (_ & _ & C1).
        apply in_app_iff in Hc as [Hc|[<-|[]]]; [|lia].
        specialize (C1 c b Hc (or_introl eq_refl)). unfold lt_b in C1; lia.
      * intros c Hc. apply In_nth_error in Hc as [j Hj].
        apply (Hhi (Datatypes.S (Datatypes.S i) + j)%nat c); [lia|].
        rewrite <- Hj. clear. revert bs; generalize (Datatypes.S (Datatypes.S i)).
        induction n; simpl; auto. destruct bs; auto. destruct j; auto.
Qed.

Lemma find_bucket_spec s v : Inv s ->
  exists L R, buckets s = L ++ R /\ find_bucket s v = Some (length L) /\
    (forall b, In b L -> bstart b < bucket_start v) /\
    (forall b, In b R -> bucket_start v <= bstart b).
Proof.
  intros [S F _]. unfold find_bucket. destruct (buckets s) as [|b0 bs0] eqn:E.
  - exists [], []; simpl; repeat split; auto; intros ? [].
  - set (bs := b0 :: bs0) in *.
    apply scan_down_spec; auto.
    + assert (length bs <> 0)%nat by (subst bs; simpl; lia). lia.
    + intros j b Hj Hb.
      assert (j < length bs)%nat by (apply nth_error_Some; congruence).
      assert (X : 0 + 64 * N.of_nat j <= bstart b).
      { apply (nth_start_lower bs j b 0); auto. intros; lia. }
      unfold bucket_start, kBucketSize, largest_index in *. lia.
Qed.

(** The bucket at the found index, if it is the right one. *)
Lemma find_split s v : Inv s ->
  exists L R, buckets s = L ++ R /\ find_bucket s v = Some (length L) /\
    (forall b, In b L -> bstart b < bucket_start v) /\
    ((nth_error (buckets s) (length L) = None /\ R = []) \/
     (exists b R', R = b :: R' /\ nth_error (buckets s) (length L) = Some b /\
        bstart b = bucket_start v /\ forall c, In c R' -> bucket_start v < bstart c) \/
     (exists b R', R = b :: R' /\ nth_error (buckets s) (length L) = Some b /\
        bstart b <> bucket_start v /\ forall c, In c R -> bucket_start v < bstart c)).
Proof.
  intros I. destruct (find_bucket_spec s v I) as (L & R & E & Fd & HL & HR).
  exists L, R; repeat split; auto.
  destruct I as [S _ _]. rewrite E in *. apply sorted_app_inv in S as (_ & S & _).
  destruct R as [|b R'].
  - left; split; auto. rewrite app_nil_r. apply nth_error_None; lia.
  - assert (NE : nth_error (L ++ b :: R') (length L) = Some b)
      by (rewrite nth_error_app2, Nat.sub_diag by lia; auto).
    inversion S; subst. rewrite Forall_forall in H2. unfold lt_b in H2.
    specialize (HR b (or_introl eq_refl)) as Hb.
    destruct (N.eq_dec (bstart b) (bucket_start v)) as [e|ne].
    + right; left; exists b, R'; repeat split; auto. intros c Hc; specialize (H2 c Hc); lia.
    + right; right; exists b, R'; repeat split; auto.
      intros c [<-|Hc]; [lia|]. specialize (H2 c Hc); lia.
Qed.

Lemma contains_spec s v : Inv s ->
  exists c, contains s v = Some c /\ (c = true <-> In v (elems (buckets s))).
Proof.
  intros I. pose proof (inv_ok _ I) as F. unfold contains.
  destruct (find_split s v I) as (L & R & E & -> & HL & [[N0 ->]|[(b & R' & -> & N0 & Eb & HR)|(b & R' & -> & N0 & Nb & HR)]]); rewrite N0.
  - exists false; split; auto. split; [discriminate|]. rewrite in_elems by auto.
    intros (b & Hb & e & _). rewrite E, app_nil_r in Hb. specialize (HL b Hb); lia.
  - rewrite (proj2 (N.eqb_eq _ _) Eb). unfold mask_for. rewrite land_bit, negb_involutive.
    exists (N.testbit (bdata b) (bucket_offset v)); split; auto.
    rewrite in_elems by auto. split.
    + intros T; exists b; repeat split; auto. rewrite E; apply in_elt.
    + intros (c & Hc & e & T). rewrite E in Hc. apply in_app_iff in Hc as [Hc|[<-|Hc]]; auto.
      specialize (HL c Hc); lia. specialize (HR c Hc); lia.
  - rewrite (proj2 (N.eqb_neq _ _) Nb). exists false; split; auto. split; [discriminate|].
    rewrite in_elems by auto. intros (c & Hc & e & _). rewrite E in Hc.
    apply in_app_iff in Hc as [Hc|Hc]. specialize (HL c Hc); lia. specialize (HR c Hc); lia.
Qed.

(** *** elements are strictly increasing *)
Lemma bits_sorted d : StronglySorted N.lt (bits d).
Proof.
  assert (H : StronglySorted N.lt offsets).
  { Transparent offsets. unfold offsets. Opaque offsets.
    generalize 0%nat at 1. generalize 64%nat. induction n; intros a; simpl; constructor; auto.
    apply Forall_forall. intros x Hx. apply in_map_iff in Hx as (y & <- & Hy). apply in_seq in Hy. lia. }
  unfold bits. revert H; generalize offsets. induction l; simpl; intros H; [constructor|].
  inversion H; subst. destruct (N.testbit d a); auto. constructor; auto.
  rewrite Forall_forall in *. intros x Hx. apply filter_In in Hx as [Hx _]; auto.
Qed.
Lemma belems_sorted b : StronglySorted N.lt (belems b).
Proof.
  unfold belems. generalize (bits_sorted (bdata b)). generalize (bits (bdata b)).
  induction l; simpl; intros H; constructor; inversion H; subst; auto.
  rewrite Forall_map. rewrite Forall_forall in *. intros x Hx. specialize (H3 x Hx). lia.
Qed.
Lemma elems_sorted bs : StronglySorted lt_b bs -> Forall okb bs -> StronglySorted N.lt (elems bs).
Proof.
  induction bs as [|b bs IH]; simpl; intros S F; [constructor|].
  inversion S; inversion F; subst. apply sorted_app; auto. apply belems_sorted.
  intros x y Hx Hy. apply in_belems in Hx as [Ex _]; [|destruct H5; tauto].
  apply in_elems in Hy as (c & Hc & Ey & _); auto.
  rewrite Forall_forall in H2. specialize (H2 c Hc). unfold lt_b in H2.
  rewrite Ex, Ey in H2. unfold bucket_start, largest_index, kBucketSize in H2. lia.
Qed.
Lemma sorted_nodup (l : list N) : StronglySorted N.lt l -> NoDup l.
Proof.
  induction 1; constructor; auto. intro Hin. rewrite Forall_forall in H0. specialize (H0 a Hin). lia.
Qed.
Lemma sorted_ext (l l' : list N) : StronglySorted N.lt l -> StronglySorted N.lt l' ->
  (forall x, In x l <-> In x l') -> l = l'.
Proof.
  intros S; revert l'; induction S; intros l' S' E.
  - destruct l'; auto. exfalso; apply (E n); left; auto.
  - destruct S' as [|a' l' S' F']; [exfalso; apply (E a); left; auto|].
    rewrite Forall_forall in H, F'.
    assert (a = a').
    { assert (In a (a' :: l')) as [|] by (apply E; left; auto); auto.
      assert (In a' (a :: l)) as [|] by (apply E; left; auto); auto.
      specialize (H a' H1); specialize (F' a H0); lia. }
    subst a'. f_equal. apply IHS; auto. intros x; split; intros Hx.
    + assert (In x (a :: l')) as [<-|] by (apply E; right; auto); auto. specialize (H a Hx); lia.
    + assert (In x (a :: l)) as [<-|] by (apply E; right; auto); auto. specialize (F' a Hx); lia.
Qed.

(** *** sizes *)
Lemma filter_flip (l : list N) (p q : N -> bool) o :
  NoDup l -> In o l -> p o = false -> q o = true -> (forall x, x <> o -> p x = q x) ->
  length (filter q l) = S (length (filter p l)).
Proof.
  induction l; simpl; intros ND Hin Hp Hq E; [tauto|]. inversion ND; subst.
  destruct Hin as [->|Hin].
  - rewrite Hp, Hq. simpl. f_equal. f_equal. apply filter_ext_in. intros x Hx. symmetry; apply E. congruence.
  - rewrite (E a) by congruence. destruct (q a); simpl; rewrite IHl; auto.
Qed.

Lemma elems_app l1 l2 : elems (l1 ++ l2) = elems l1 ++ elems l2.
Proof. apply flat_map_app. Qed.
Lemma elems_cons b l : elems (b :: l) = belems b ++ elems l.
Proof. reflexivity. Qed.
Lemma belems_length b : length (belems b) = length (bits (bdata b)).
Proof. apply map_length. Qed.

Lemma testbit_lor_mask d o k : N.testbit (N.lor d (N.shiftl 1 o)) k = (N.testbit d k || (k =? o)).
Proof. rewrite N.lor_spec, N.shiftl_1_l, N.pow2_bits_eqb, N.eqb_sym. auto. Qed.
Lemma testbit_ldiff_mask d o k : N.testbit (N.ldiff d (N.shiftl 1 o)) k = (N.testbit d k && negb (k =? o)).
Proof. rewrite N.ldiff_spec, N.shiftl_1_l, N.pow2_bits_eqb, N.eqb_sym. auto. Qed.

Lemma bits_lor_length d o : o < 64 -> N.testbit d o = false ->
  length (bits (N.lor d (N.shiftl 1 o))) = S (length (bits d)).
Proof.
  intros Ho T. unfold bits. apply filter_flip with (o := o); auto using offsets_nodup.
  - apply in_offsets; auto.
  - rewrite testbit_lor_mask, N.eqb_refl, orb_true_r; auto.
  - intros x Hx. rewrite testbit_lor_mask, (proj2 (N.eqb_neq _ _) Hx), orb_false_r; auto.
Qed.
Lemma bits_ldiff_length d o : o < 64 -> N.testbit d o = true ->
  length (bits d) = S (length (bits (N.ldiff d (N.shiftl 1 o)))).
Proof.
  intros Ho T. unfold bits. apply filter_flip with (o := o); auto using offsets_nodup.
  - apply in_offsets; auto.
  - rewrite testbit_ldiff_mask, N.eqb_refl, andb_false_r; auto.
  - intros x Hx. rewrite testbit_ldiff_mask, (proj2 (N.eqb_neq _ _) Hx), andb_true_r; auto.
Qed.
Lemma bits_zero_nil d : bits d = [] -> d < 2 ^ 64 -> d = 0.
Proof.
  intros B L. apply N.bits_inj_0. intro n. destruct (N.ltb_spec n 64).
  - destruct (N.testbit d n) eqn:T; auto.
    assert (In n (bits d)) by (apply in_bits; auto). rewrite B in H0; destruct H0.
  - destruct (N.eq_dec d 0) as [->|]; [apply N.bits_0|]. apply N.bits_above_log2.
    apply N.lt_le_trans with 64; auto. apply N.log2_lt_pow2; lia.
Qed.
Lemma lor_mask_lt d o : d < 2 ^ 64 -> o < 64 -> N.lor d (N.shiftl 1 o) < 2 ^ 64.
Proof.
  intros. assert (X : N.lor d (N.shiftl 1 o) <> 0).
  { intro E. apply N.lor_eq_0_iff in E as [_ E]. rewrite N.shiftl_1_l in E.
    apply N.pow_nonzero in E; auto. lia. }
  apply N.log2_lt_pow2; [lia|]. rewrite N.log2_lor. apply N.max_lub_lt.
  - destruct (N.eq_dec d 0) as [->|]; [simpl; lia|]. apply N.log2_lt_pow2; lia.
  - rewrite N.shiftl_1_l, N.log2_pow2; lia.
Qed.
Lemma ldiff_lt d m : d < 2 ^ 64 -> N.ldiff d m < 2 ^ 64.
Proof.
  intros H. rewrite N_lt_pow2_bits in *. intros k Hk. rewrite N.ldiff_spec, H; auto.
Qed.

(** *** insert *)
Lemma insert_spec s v : Inv s ->
  exists s' it b, insert s v = Some (s', (it, b)) /\ Inv s' /\
    (b = true <-> ~ In v (elems (buckets s))) /\
    (forall x, In x (elems (buckets s')) <-> x = v \/ In x (elems (buckets s))) /\
    esize s' = (if b then esize s + 1 else esize s) /\
    iter_deref s' it = Some v.
Proof.
  intros I. pose proof I as [S F Z].
  destruct (contains_spec s v I) as (c & Hc & Hcin).
  unfold contains in Hc. unfold insert.
  destruct (find_split s v I) as (L & R & E & Fd & HL & C). rewrite Fd in *.
  pose proof (start_aligned v) as AL. pose proof (offset_lt v) as OL.
  assert (NEW : R = [] \/ (forall c, In c R -> bucket_start v < bstart c) ->
    ~ In v (elems (buckets s)) ->
    exists s' it b,
      match insert_bucket (buckets s) (length L) v with
      | Some bs => Some (mkSet bs (esize s + 1), ((length L, bucket_offset v), true))
      | None => None
      end = Some (s', (it, b)) /\ Inv s' /\
      (b = true <-> ~ In v (elems (buckets s))) /\
      (forall x, In x (elems (buckets s')) <-> x = v \/ In x (elems (buckets s))) /\
      esize s' = (if b then esize s + 1 else esize s) /\ iter_deref s' it = Some v).
  { intros HR0 Hv.
    assert (HR : forall c, In c R -> bucket_start v < bstart c).
    { destruct HR0 as [->|]; auto. intros ? []. }
    clear HR0. unfold insert_bucket.
    assert (LL : (length L <= length (buckets s))%nat) by (rewrite E, app_length; lia).
    rewrite (proj2 (Nat.leb_le _ _) LL). rewrite E.
    rewrite firstn_app, firstn_all, Nat.sub_diag, skipn_app, skipn_all, Nat.sub_diag.
    simpl firstn; simpl skipn; rewrite app_nil_r. simpl app.
    set (nb := mkBucket (N.shiftl 1 (bucket_offset v)) (bucket_start v)).
    assert (OKn : okb nb).
    { repeat split; simpl; auto.
      - rewrite N.shiftl_1_l. apply N.pow_nonzero; lia.
      - rewrite N.shiftl_1_l. apply N.pow_lt_mono_r; lia. }
    rewrite E in F. apply Forall_app in F as [FL FR].
    assert (BN : bits (bdata nb) = [bucket_offset v]).
    { apply sorted_ext. apply bits_sorted. repeat constructor.
      intros x. rewrite in_bits. simpl. rewrite N.shiftl_1_l, N.pow2_bits_eqb.
      rewrite N.eqb_eq. split; [intros [_ ->]; auto|intros [<-|[]]; auto]. }
    assert (EN : elems (L ++ nb :: R) = elems L ++ v :: elems R).
    { rewrite elems_app, elems_cons. unfold belems. rewrite BN. simpl. rewrite start_value. auto. }
    eexists _, _, _; split; [reflexivity|]. split; [|split; [|split; [|split]]]; simpl.
    - split; simpl.
      + rewrite E in S. apply sorted_app_inv in S as (S1 & S2 & CC).
        apply sorted_app; auto.
        * constructor; auto. apply Forall_forall. intros c0 H0. unfold lt_b; simpl; auto.
        * intros x y Hx [<-|Hy]; auto. unfold lt_b; simpl; auto.
      + apply Forall_app; split; auto.
      + rewrite Z, E, EN, elems_app, !app_length; simpl. lia.
    - rewrite <- E. tauto.
    - intros x. rewrite EN, elems_app, !in_app_iff. simpl. intuition.
    - reflexivity.
    - unfold iter_deref, has_enum_at; simpl.
      rewrite nth_error_app2, Nat.sub_diag by lia. cbn [nth_error bdata].
      rewrite land_bit. simpl bdata. rewrite N.shiftl_1_l, N.pow2_bits_true. simpl.
      unfold value_from_bucket; simpl. rewrite start_value; auto. }
  destruct C as [[N0 HR]|[(b & R' & -> & N0 & Eb & HR)|(b & R' & -> & N0 & Nb & HR)]]; rewrite N0 in *.
  - apply NEW; [left; auto|]. intro X; apply Hcin in X. congruence.
  - rewrite (proj2 (N.eqb_eq _ _) Eb) in *. unfold mask_for in *. rewrite land_bit in *.
    rewrite negb_involutive in Hc. injection Hc as Hc.
    assert (NEb : nth_error (L ++ b :: R') (length L) = Some b) by (rewrite nth_error_app2, Nat.sub_diag by lia; auto).
    destruct (N.testbit (bdata b) (bucket_offset v)) eqn:T; simpl; subst c.
    + eexists _, _, _; split; [reflexivity|]. split; [auto|]. split; [|split; [|split]]; auto.
      * split; [discriminate|]. intros X; exfalso; apply X, Hcin; auto.
      * intros x; split; auto. intros [->|]; auto. apply Hcin; auto.
      * unfold iter_deref, has_enum_at; simpl. rewrite E, NEb, land_bit, T; simpl.
        unfold value_from_bucket. rewrite Eb, start_value; auto.
    + set (nb := mkBucket (N.lor (bdata b) (N.shiftl 1 (bucket_offset v))) (bstart b)).
      assert (UP : update_nth (buckets s) (length L) nb = L ++ nb :: R').
      { rewrite E, update_nth_split by (rewrite app_length; simpl; lia).
        rewrite firstn_app, firstn_all, Nat.sub_diag. simpl firstn. rewrite app_nil_r. f_equal. f_equal.
        change (Datatypes.S (length L)) with (1 + length L)%nat.
        rewrite skipn_app, skipn_all2 by lia. replace (1 + length L - length L)%nat with 1%nat by lia. auto. }
      rewrite UP.
      pose proof F as F0. rewrite E in F. apply Forall_app in F as [FL FR]. inversion FR as [|? ? Ob FR']; subst.
      assert (OKn : okb nb).
      { destruct Ob as (O1 & O2 & O3). repeat split; simpl; auto.
        - intro X. apply N.lor_eq_0_iff in X as [X _]; auto.
        - apply lor_mask_lt; auto. }
      assert (FN : Forall okb (L ++ nb :: R')) by (apply Forall_app; split; auto).
      eexists _, _, _; split; [reflexivity|]. split; [|split; [|split; [|split]]]; simpl.
      * split; simpl; auto.
        -- rewrite E in S. apply sorted_app_inv in S as (S1 & S2 & CC). inversion S2; subst.
           apply sorted_app; auto.
           constructor; auto. intros x y Hx [<-|Hy]; [|apply CC; [auto|right; auto]].
           specialize (CC x b Hx (or_introl eq_refl)). unfold lt_b in *; simpl; auto.
        -- rewrite Z, E, !elems_app, !elems_cons, !app_length, !belems_length.
           unfold nb; simpl bdata. rewrite bits_lor_length by auto. lia.
      * split; auto. intros _ X. apply Hcin in X. discriminate.
      * intros x. rewrite (in_elems _ _ FN). rewrite (in_elems _ _ F0). rewrite E. split.
        -- intros (c & Hc & e & Tc). apply in_app_iff in Hc as [Hc|[<-|Hc]].
           ++ right; exists c; repeat split; auto. apply in_app_iff; auto.
           ++ simpl in Tc. rewrite testbit_lor_mask in Tc. apply orb_true_iff in Tc as [Tc|Tc].
              ** right; exists b; repeat split; auto. apply in_elt.
              ** left. apply N.eqb_eq in Tc. rewrite <- (start_value x), <- (start_value v).
                 simpl in e. rewrite <- e, Eb, Tc; auto.
           ++ right; exists c; repeat split; auto. apply in_app_iff; simpl; auto.
        -- intros [->|(c & Hc & e & Tc)].
           ++ exists nb; simpl; split; [apply in_elt|split; auto]. rewrite testbit_lor_mask, N.eqb_refl, orb_true_r; auto.
           ++ apply in_app_iff in Hc as [Hc|[<-|Hc]].
              ** exists c; repeat split; auto. apply in_app_iff; auto.
              ** exists nb; simpl; repeat split; auto. apply in_elt. rewrite testbit_lor_mask, Tc; auto.
              ** exists c; repeat split; auto. apply in_app_iff; simpl; auto.
      * reflexivity.
      * unfold iter_deref, has_enum_at; simpl.
        rewrite nth_error_app2, Nat.sub_diag by lia. cbn [nth_error].
        unfold nb; simpl bdata. rewrite land_bit, testbit_lor_mask, N.eqb_refl, orb_true_r. simpl.
        unfold value_from_bucket; simpl. rewrite Eb, start_value; auto.
  - rewrite (proj2 (N.eqb_neq _ _) Nb) in *.
    apply NEW; [right; auto|]. intro X; apply Hcin in X. congruence.
Qed.

(** *** erase *)
Lemma erase_spec s v : Inv s ->
  exists s' n, erase s v = Some (s', n) /\ Inv s' /\
    (n = 1 /\ In v (elems (buckets s)) /\ esize s' = esize s - 1 \/
     n = 0 /\ ~ In v (elems (buckets s)) /\ s' = s) /\
    (forall x, In x (elems (buckets s')) <-> x <> v /\ In x (elems (buckets s))).
Proof.
  intros I. pose proof I as [S F Z].
  destruct (contains_spec s v I) as (c & Hc & Hcin).
  unfold contains in Hc. unfold erase.
  destruct (find_split s v I) as (L & R & E & Fd & HL & C). rewrite Fd in *.
  pose proof (offset_lt v) as OL.
  assert (NO : ~ In v (elems (buckets s)) -> exists s' n, Some (s, 0) = Some (s', n) /\ Inv s' /\
    (n = 1 /\ In v (elems (buckets s)) /\ esize s' = esize s - 1 \/
     n = 0 /\ ~ In v (elems (buckets s)) /\ s' = s) /\
    (forall x, In x (elems (buckets s')) <-> x <> v /\ In x (elems (buckets s)))).
  { intros X. exists s, 0; split; auto. split; auto. split; auto.
    intros x; split; [|tauto]. intros Hx; split; auto. intros ->; auto. }
  destruct C as [[N0 HR]|[(b & R' & -> & N0 & Eb & HR)|(b & R' & -> & N0 & Nb & HR)]]; rewrite N0 in *.
  - apply NO. intro X; apply Hcin in X; congruence.
  - rewrite (proj2 (N.eqb_eq _ _) Eb) in *. unfold mask_for in *. rewrite land_bit in *.
    rewrite negb_involutive in Hc. injection Hc as Hc.
    destruct (N.testbit (bdata b) (bucket_offset v)) eqn:T; simpl; subst c;
      [|apply NO; intro X; apply Hcin in X; congruence].
    set (d := N.ldiff (bdata b) (N.shiftl 1 (bucket_offset v))).
    set (nb := mkBucket d (bstart b)).
    assert (Hin : In v (elems (buckets s))) by (apply Hcin; auto).
    pose proof F as F0. rewrite E in F. apply Forall_app in F as [FL FR]. inversion FR as [|? ? Ob FR']; subst.
    rewrite E in S. apply sorted_app_inv in S as (S1 & S2 & CC). inversion S2 as [|? ? S2' F2]; subst.
    assert (BL : length (bits (bdata b)) = Datatypes.S (length (bits d))) by (apply bits_ldiff_length; auto).
    assert (DB : In v (belems b)).
    { apply in_belems; [destruct Ob; tauto|]. rewrite Eb; auto. }
    assert (ND : NoDup (elems (buckets s))).
    { apply sorted_nodup, elems_sorted; auto. apply (inv_sorted _ I). }
    assert (Hd : forall x, bstart b = bucket_start x ->
       (N.testbit d (bucket_offset x) = true <-> x <> v /\ N.testbit (bdata b) (bucket_offset x) = true)).
    { intros x Ex. unfold d. rewrite testbit_ldiff_mask, andb_true_iff, negb_true_iff, N.eqb_neq.
      split; [intros [A B]|intros [A B]]; split; auto.
      - intros ->; apply B; auto.
      - intro X. apply A. rewrite <- (start_value x), <- (start_value v), X, <- Ex, <- Eb; auto. }
    destruct (d =? 0) eqn:D.
    + apply N.eqb_eq in D.
      assert (RM : remove_nth (buckets s) (length L) = L ++ R').
      { unfold remove_nth. rewrite E, firstn_app, firstn_all, Nat.sub_diag. simpl firstn. rewrite app_nil_r. f_equal.
        change (Datatypes.S (length L)) with (1 + length L)%nat.
        rewrite skipn_app, skipn_all2 by lia. replace (1 + length L - length L)%nat with 1%nat by lia. auto. }
      rewrite RM.
      assert (FN : Forall okb (L ++ R')) by (apply Forall_app; auto).
      assert (B0 : bits d = []).
      { apply length_zero_iff_nil. unfold bits. rewrite D.
        clear. induction offsets; simpl; auto. }
      eexists _, _; split; [reflexivity|]. split; [|split].
      * split; simpl; auto.
        -- apply sorted_app; auto. intros x y Hx Hy; apply CC; simpl; auto.
        -- rewrite Z, E, !elems_app, elems_cons, !app_length, belems_length, BL, B0. simpl length. lia.
      * left; repeat split; auto.
      * intros x; simpl. rewrite (in_elems _ _ FN), (in_elems _ _ F0), E. split.
        -- intros (c & Hc & e & Tc). assert (bstart c <> bstart b).
           { apply in_app_iff in Hc as [Hc|Hc]; [specialize (HL c Hc)|specialize (HR c Hc)]; lia. }
           split; [intros ->; congruence|]. exists c; repeat split; auto.
           apply in_app_iff in Hc as [Hc|Hc]; apply in_app_iff; simpl; auto.
        -- intros (nv & c & Hc & e & Tc). apply in_app_iff in Hc as [Hc|[<-|Hc]].
           ++ exists c; repeat split; auto. apply in_app_iff; auto.
           ++ exfalso. assert (Y : N.testbit d (bucket_offset x) = true) by (apply Hd; auto).
              rewrite D, N.bits_0 in Y; discriminate.
           ++ exists c; repeat split; auto. apply in_app_iff; auto.
    + apply N.eqb_neq in D.
      assert (UP : update_nth (buckets s) (length L) nb = L ++ nb :: R').
      { rewrite E, update_nth_split by (rewrite app_length; simpl; lia).
        rewrite firstn_app, firstn_all, Nat.sub_diag. simpl firstn. rewrite app_nil_r. f_equal. f_equal.
        change (Datatypes.S (length L)) with (1 + length L)%nat.
        rewrite skipn_app, skipn_all2 by lia. replace (1 + length L - length L)%nat with 1%nat by lia. auto. }
      fold nb. rewrite UP.
      assert (OKn : okb nb).
      { destruct Ob as (O1 & O2 & O3). repeat split; simpl; auto. apply ldiff_lt; auto. }
      assert (FN : Forall okb (L ++ nb :: R')) by (apply Forall_app; auto).
      eexists _, _; split; [reflexivity|]. split; [|split].
      * split; simpl; auto.
        -- apply sorted_app; auto.
           constructor; auto. intros x y Hx [<-|Hy]; [|apply CC; simpl; auto].
           specialize (CC x b Hx (or_introl eq_refl)). unfold lt_b in *; simpl; auto.
        -- rewrite Z, E, !elems_app, !elems_cons, !app_length, !belems_length. simpl bdata. rewrite BL. lia.
      * left; repeat split; auto.
      * intros x; simpl. rewrite (in_elems _ _ FN), (in_elems _ _ F0), E. split.
        -- intros (c & Hc & e & Tc). apply in_app_iff in Hc as [Hc|[<-|Hc]].
           ++ split; [intros ->; specialize (HL c Hc); lia|]. exists c; repeat split; auto. apply in_app_iff; auto.
           ++ simpl in e, Tc. apply Hd in Tc as [nv Tc]; auto. split; auto.
              exists b; repeat split; auto. apply in_elt.
           ++ split; [intros ->; specialize (HR c Hc); lia|]. exists c; repeat split; auto. apply in_app_iff; simpl; auto.
        -- intros (nv & c & Hc & e & Tc). apply in_app_iff in Hc as [Hc|[<-|Hc]].
           ++ exists c; repeat split; auto. apply in_app_iff; auto.
           ++ exists nb; simpl; repeat split; auto. apply in_elt. apply Hd; auto.
           ++ exists c; repeat split; auto. apply in_app_iff; simpl; auto.
  - rewrite (proj2 (N.eqb_neq _ _) Nb) in *. apply NO. intro X; apply Hcin in X; congruence.
Qed.

(** *** iteration *)
Definition cell (b : bucket) (o : N) : N * bool := (bstart b + o, N.testbit (bdata b) o).
Definition cells (bs : list bucket) : list (N * bool) := flat_map (fun b => map (cell b) offsets) bs.
Definition live (l : list (N * bool)) : list N := map fst (filter snd l).

Lemma live_app a b : live (a ++ b) = live a ++ live b.
Proof. unfold live; rewrite filter_app, map_app; auto. Qed.
Lemma live_cells bs : live (cells bs) = elems bs.
Proof.
  induction bs; simpl; auto. rewrite live_app, IHbs. f_equal.
  unfold live, belems, bits. generalize offsets. induction l; simpl; auto.
  destruct (N.testbit (bdata a) a0); simpl; congruence.
Qed.
Lemma offsets_length : length offsets = 64%nat.
Proof. reflexivity. Qed.
Lemma offsets_nth o : o < 64 -> nth_error offsets (N.to_nat o) = Some o.
Proof.
  intros H. Transparent offsets. unfold offsets. Opaque offsets.
  rewrite nth_error_map. rewrite (nth_error_nth' (seq 0 64) 0%nat) by (rewrite seq_length; lia).
  rewrite seq_nth by lia. unfold option_map. f_equal. lia.
Qed.
Lemma cells_length bs : length (cells bs) = (64 * length bs)%nat.
Proof. induction bs; simpl; auto. rewrite app_length, map_length, offsets_length, IHbs. lia. Qed.
Lemma cells_nth bs bi o b : nth_error bs bi = Some b -> o < 64 ->
  nth_error (cells bs) (64 * bi + N.to_nat o) = Some (cell b o).
Proof.
  revert bi; induction bs; intros bi H Ho; [destruct bi; discriminate|]. destruct bi.
  - injection H as ->. simpl. rewrite nth_error_app1 by (rewrite map_length, offsets_length; lia).
    rewrite nth_error_map, offsets_nth; auto.
  - simpl cells. rewrite nth_error_app2 by (rewrite map_length, offsets_length; lia).
    rewrite map_length, offsets_length.
    replace (64 * Datatypes.S bi + N.to_nat o - 64)%nat with (64 * bi + N.to_nat o)%nat by lia. auto.
Qed.
Lemma skipn_nth {A} (l : list A) n x : nth_error l n = Some x -> skipn n l = x :: skipn (S n) l.
Proof. revert n; induction l; destruct n; simpl; intros H; try discriminate; auto.
  - congruence.
  - rewrite (IHl _ H). reflexivity.
Qed.

(** remaining elements strictly after / from a position *)
Definition pos (it : iter) : nat := (64 * fst it + N.to_nat (snd it))%nat.
Definition wf_it (s : eset) (it : iter) : Prop := (fst it < length (buckets s))%nat /\ snd it < 64.

Lemma has_enum_at_cell s bi bo : (bi < length (buckets s))%nat ->
  exists b, nth_error (buckets s) bi = Some b /\ has_enum_at s bi bo = Some (N.testbit (bdata b) bo).
Proof.
  intros H. destruct (nth_error (buckets s) bi) as [b|] eqn:E.
  - exists b; split; auto. unfold has_enum_at. rewrite E, land_bit, negb_involutive; auto.
  - apply nth_error_None in E; lia.
Qed.

Lemma iter_next_spec fuel s it : wf_it s it ->
  (64 * length (buckets s) - pos it <= fuel)%nat ->
  exists it', iter_next fuel s it = Some it' /\
    (it' = iter_end s \/ wf_it s it' /\ has_enum_at s (fst it') (snd it') = Some true) /\
    (pos it < pos it')%nat /\
    live (skipn (S (pos it)) (cells (buckets s))) = live (skipn (pos it') (cells (buckets s))).
Proof.
  revert it; induction fuel as [|f IH]; intros [bi bo] [W1 W2] Hf; simpl in W1, W2.
  { unfold pos in Hf; simpl in Hf. lia. }
  simpl iter_next. rewrite (proj2 (Nat.leb_gt _ _) W1).
  set (it' := if bo + 1 =? kBucketSize then (Datatypes.S bi, 0) else (bi, bo + 1)).
  assert (P : pos it' = S (pos (bi, bo))).
  { subst it'. unfold kBucketSize, pos. destruct (bo + 1 =? 64) eqn:E; simpl; lia. }
  assert (O : snd it' < 64) by (subst it'; unfold kBucketSize; destruct (bo + 1 =? 64) eqn:E; simpl; lia).
  destruct (fst it' <? length (buckets s))%nat eqn:E.
  - apply Nat.ltb_lt in E. destruct (has_enum_at_cell s (fst it') (snd it') E) as (b & Nb & ->).
    destruct (N.testbit (bdata b) (snd it')) eqn:T.
    + exists it'; split; auto. split; [right; split; [split; auto|]|].
      * unfold has_enum_at. rewrite Nb, land_bit, T; auto.
      * rewrite P; split; auto.
    + destruct (IH it') as (it'' & E1 & E2 & E3 & E4).
      * split; auto.
      * rewrite P. lia.
      * exists it''; split; auto. split; auto. split; [lia|].
        rewrite <- E4, <- P. unfold pos. rewrite (skipn_nth _ _ _ (cells_nth _ _ _ _ Nb O)).
        unfold live; simpl. rewrite T. auto.
  - apply Nat.ltb_ge in E. exists it'; split; auto.
    assert (it' = iter_end s).
    { subst it'. unfold iter_end. destruct (bo + 1 =? kBucketSize); simpl in *; [|lia].
      f_equal. lia. }
    split; auto. rewrite P. split; auto.
Qed.

Lemma collect_spec fuel s it : (64 * length (buckets s) - pos it <= fuel)%nat ->
  (it = iter_end s \/ wf_it s it /\ has_enum_at s (fst it) (snd it) = Some true) ->
  collect fuel s it = Some (live (skipn (pos it) (cells (buckets s)))).
Proof.
  revert it; induction fuel as [|f IH]; intros it Hf [->|[W H]].
  - simpl. unfold iter_eqb, iter_end; simpl. rewrite Nat.eqb_refl. simpl. unfold pos; simpl.
    rewrite skipn_all2; auto. rewrite cells_length; lia.
  - exfalso. destruct W as [W1 W2]. unfold pos in Hf. lia.
  - simpl. unfold iter_eqb, iter_end; simpl. rewrite Nat.eqb_refl. simpl. unfold pos; simpl.
    rewrite skipn_all2; auto. rewrite cells_length; lia.
  - destruct it as [bi bo]. pose proof W as [W1 W2]; simpl in W1, W2.
    cbn [collect]. assert (iter_eqb (bi, bo) (iter_end s) = false).
    { unfold iter_eqb, iter_end; simpl. rewrite (proj2 (Nat.eqb_neq _ _)) by lia; auto. }
    rewrite H0. unfold iter_deref. simpl fst in *; simpl snd in *. rewrite H.
    destruct (has_enum_at_cell s bi bo W1) as (b & Nb & Hb). rewrite Nb.
    assert (T : N.testbit (bdata b) bo = true) by congruence.
    destruct (iter_next_spec (iter_fuel s) s (bi, bo) W) as (it' & E1 & E2 & E3 & E4).
    { unfold iter_fuel; lia. }
    rewrite E1. rewrite IH; auto; [|lia]. cbn [option_map]. f_equal.
    rewrite <- E4. pose proof (skipn_nth _ _ _ (cells_nth _ _ _ _ Nb W2)) as SK.
    change (64 * bi + N.to_nat bo)%nat with (pos (bi, bo)) in SK. rewrite SK.
    unfold live at 2; cbn [filter cell snd fst map]. rewrite T. reflexivity.
Qed.

Lemma to_list_spec s : to_list s = Some (elems (buckets s)).
Proof.
  unfold to_list, iter_begin. rewrite <- live_cells.
  destruct (buckets s) as [|b0 bs] eqn:E.
  - simpl. unfold iter_eqb, iter_end. rewrite E. reflexivity.
  - rewrite <- E. assert (W1 : (0 < length (buckets s))%nat) by (rewrite E; simpl; lia).
    destruct (has_enum_at_cell s 0 0 W1) as (b & Nb & Hb). rewrite Hb.
    destruct (N.testbit (bdata b) 0) eqn:T.
    + rewrite collect_spec; auto. unfold pos; lia. right; split; [split; simpl; auto; lia|]. simpl; rewrite Hb; auto.
    + destruct (iter_next_spec (iter_fuel s) s (0%nat, 0)) as (it' & E1 & E2 & E3 & E4).
      { split; simpl; auto; lia. }
      { unfold iter_fuel; lia. }
      rewrite E1, collect_spec; auto; [|lia]. rewrite <- E4. f_equal.
      change (pos (0%nat, 0)) with 0%nat.
      assert (O : 0 < 64) by lia.
      pose proof (skipn_nth _ _ _ (cells_nth _ _ _ _ Nb O)) as SK. simpl N.to_nat in SK.
      rewrite Nat.mul_0_r, Nat.add_0_r in SK. rewrite skipn_O in SK. rewrite SK at 2. unfold live; simpl. rewrite T; auto.
Qed.

(** *** HasAnyOf *)
Lemma land_nonzero_bit a b : a < 2 ^ 64 -> (N.land a b <> 0 <-> exists o, o < 64 /\ N.testbit a o = true /\ N.testbit b o = true).
Proof.
  intros L; split.
  - intros NZ. exists (N.log2 (N.land a b)).
    pose proof (N.bit_log2 _ NZ) as B. rewrite N.land_spec in B. apply andb_true_iff in B as [Ba Bb].
    repeat split; auto. destruct (N.ltb_spec (N.log2 (N.land a b)) 64); auto.
    rewrite N.bits_above_log2 in Ba; [discriminate|].
    assert (a <> 0) by (intros ->; rewrite N.land_0_l in NZ; auto).
    apply N.lt_le_trans with 64; auto. apply N.log2_lt_pow2; lia.
  - intros (o & _ & A & B) E. assert (N.testbit (N.land a b) o = false) by (rewrite E; apply N.bits_0).
    rewrite N.land_spec, A, B in H. discriminate.
Qed.

Lemma has_any_loop_spec l r :
  StronglySorted lt_b l -> StronglySorted lt_b r -> Forall okb l -> Forall okb r ->
  (has_any_loop l r = true <-> exists v, In v (elems l) /\ In v (elems r)).
Proof.
  revert r; induction l as [|a l IHl].
  - intros r _ _ _ _. destruct r; simpl; split; try discriminate; intros (v & [] & _).
  - induction r as [|b r IHr]; intros Sl Sr Fl Fr.
    + simpl; split; try discriminate. intros (v & _ & []).
    + apply StronglySorted_inv in Sl as [H1 H2]. apply StronglySorted_inv in Sr as [H5 H6].
    pose proof (Forall_inv Fl) as H11. pose proof (Forall_inv_tail Fl) as H12.
    pose proof (Forall_inv Fr) as H15. pose proof (Forall_inv_tail Fr) as H16.
      rewrite Forall_forall in H2, H6. unfold lt_b in H2, H6.
      assert (Ra : forall v, In v (belems a) -> bucket_start v = bstart a) by
        (intros v Hv; apply in_belems in Hv as [e _]; [congruence|destruct H11; tauto]).
      assert (Rb : forall v, In v (belems b) -> bucket_start v = bstart b) by
        (intros v Hv; apply in_belems in Hv as [e _]; [congruence|destruct H15; tauto]).
      assert (Rl : forall v, In v (elems l) -> bstart a < bucket_start v).
      { intros v Hv. apply in_elems in Hv as (c & Hc & e & _); auto. rewrite <- e; auto. }
      assert (Rr : forall v, In v (elems r) -> bstart b < bucket_start v).
      { intros v Hv. apply in_elems in Hv as (c & Hc & e & _); auto. rewrite <- e; auto. }
      cbn [has_any_loop]. destruct (bstart a =? bstart b) eqn:E.
      * apply N.eqb_eq in E. destruct (N.eqb (N.land (bdata a) (bdata b)) 0) eqn:Z; cbn [negb].
        -- apply N.eqb_eq in Z. rewrite IHl by (auto; constructor; auto; apply Forall_forall; auto). split.
           ++ intros (v & A & B). exists v; simpl; rewrite !in_app_iff; auto.
           ++ intros (v & A & B). simpl in A, B. rewrite in_app_iff in A, B.
              destruct A as [A|A], B as [B|B].
              ** exfalso. apply in_belems in A as [_ TA]; [|destruct H11; tauto].
                 apply in_belems in B as [_ TB]; [|destruct H15; tauto].
                 assert (X : N.testbit (N.land (bdata a) (bdata b)) (bucket_offset v) = false) by (rewrite Z; apply N.bits_0).
                 rewrite N.land_spec, TA, TB in X; discriminate.
              ** apply Ra in A; apply Rr in B; lia.
              ** apply Rb in B; apply Rl in A; lia.
              ** eauto.
        -- apply N.eqb_neq in Z. split; auto. intros _.
           apply land_nonzero_bit in Z as (o & Ho & TA & TB); [|destruct H11; tauto].
           exists (bstart a + o); simpl. rewrite !in_app_iff. split; left; unfold belems; apply in_map_iff.
           ++ exists o; split; auto. apply in_bits; auto.
           ++ exists o; split; [congruence|]. apply in_bits; auto.
      * apply N.eqb_neq in E. destruct (bstart a <? bstart b) eqn:LT.
        -- apply N.ltb_lt in LT. rewrite IHl by (auto; constructor; auto; apply Forall_forall; auto). split; intros (v & A & B).
           ++ exists v; split; auto. simpl; apply in_app_iff; auto.
           ++ exists v; split; auto. simpl in A; apply in_app_iff in A as [A|A]; auto.
              apply Ra in A. simpl in B; apply in_app_iff in B as [B|B]; [apply Rb in B|apply Rr in B]; lia.
        -- apply N.ltb_ge in LT. rewrite IHr by (auto; constructor; auto; apply Forall_forall; auto). split; intros (v & A & B).
           ++ exists v; split; auto. simpl; apply in_app_iff; auto.
           ++ exists v; split; auto. simpl in B; apply in_app_iff in B as [B|B]; auto.
              apply Rb in B. simpl in A; apply in_app_iff in A as [A|A]; [apply Ra in A|apply Rl in A]; lia.
Qed.

Lemma is_empty_spec s : Inv s -> (is_empty s = true <-> elems (buckets s) = []).
Proof.
  intros I. unfold is_empty. rewrite (inv_size _ I), N.eqb_eq.
  destruct (elems (buckets s)); simpl; split; intros; try discriminate; auto; lia.
Qed.

Lemma has_any_of_spec s t : Inv s -> Inv t ->
  (has_any_of s t = true <-> elems (buckets t) = [] \/ exists v, In v (elems (buckets s)) /\ In v (elems (buckets t))).
Proof.
  intros I J. unfold has_any_of. destruct (is_empty t) eqn:E.
  - apply is_empty_spec in E; auto. rewrite E; tauto.
  - rewrite has_any_loop_spec by (apply I || apply J). split; auto. intros [X|X]; auto.
    apply is_empty_spec in X; congruence.
Qed.

(** *** equality *)
Lemma buckets_eqb_eq l r : buckets_eqb l r = true <-> l = r.
Proof.
  revert r; induction l; destruct r; simpl; split; intros; try discriminate; auto.
  - apply andb_true_iff in H as [A B]. unfold bucket_eqb in A. apply andb_true_iff in A as [A1 A2].
    apply N.eqb_eq in A1, A2. apply IHl in B. destruct a, b; simpl in *; congruence.
  - injection H as <- <-. unfold bucket_eqb. rewrite !N.eqb_refl; simpl. apply IHl; auto.
Qed.

Lemma bits_inj d e : d < 2 ^ 64 -> e < 2 ^ 64 -> (forall o, o < 64 -> N.testbit d o = N.testbit e o) -> d = e.
Proof.
  intros Ld Le H. apply N.bits_inj; intro o. destruct (N.ltb_spec o 64); auto.
  assert (X : forall d, d < 2 ^ 64 -> N.testbit d o = false).
  { intros x Lx. destruct (N.eq_dec x 0) as [->|]; [apply N.bits_0|]. apply N.bits_above_log2.
    apply N.lt_le_trans with 64; auto. apply N.log2_lt_pow2; lia. }
  rewrite !X; auto.
Qed.

Lemma exists_bit d : d <> 0 -> d < 2 ^ 64 -> exists o, o < 64 /\ N.testbit d o = true.
Proof.
  intros NZ L. exists (N.log2 d); split; [apply N.log2_lt_pow2; lia|apply N.bit_log2; auto].
Qed.

Lemma elems_inj l r :
  StronglySorted lt_b l -> StronglySorted lt_b r -> Forall okb l -> Forall okb r ->
  (forall v, In v (elems l) <-> In v (elems r)) -> l = r.
Proof.
  revert r; induction l as [|a l IH]; intros r Sl Sr Fl Fr E.
  - destruct r as [|b r]; auto. exfalso. inversion Fr; subst. destruct H1 as (A & B & C).
    destruct (exists_bit _ B C) as (o & Ho & T).
    apply (proj2 (E (bstart b + o))). simpl. apply in_app_iff; left.
    apply in_map_iff; exists o; split; auto. apply in_bits; auto.
  - destruct r as [|b r].
    { exfalso. inversion Fl; subst. destruct H1 as (A & B & C).
      destruct (exists_bit _ B C) as (o & Ho & T).
      apply (proj1 (E (bstart a + o))). simpl. apply in_app_iff; left.
      apply in_map_iff; exists o; split; auto. apply in_bits; auto. }
    apply StronglySorted_inv in Sl as [H1 H2]. apply StronglySorted_inv in Sr as [H5 H6].
    pose proof (Forall_inv Fl) as H11. pose proof (Forall_inv_tail Fl) as H12.
    pose proof (Forall_inv Fr) as H15. pose proof (Forall_inv_tail Fr) as H16.
    rewrite Forall_forall in H2, H6. unfold lt_b in H2, H6.
    pose proof H11 as (A1 & A2 & A3). pose proof H15 as (B1 & B2 & B3).
    assert (Ra : forall v, In v (belems a) -> bucket_start v = bstart a) by
      (intros v Hv; apply in_belems in Hv as [e _]; auto).
    assert (Rb : forall v, In v (belems b) -> bucket_start v = bstart b) by
      (intros v Hv; apply in_belems in Hv as [e _]; auto).
    assert (Rl : forall v, In v (elems l) -> bstart a < bucket_start v).
    { intros v Hv. apply in_elems in Hv as (c & Hc & e & _); auto. rewrite <- e; auto. }
    assert (Rr : forall v, In v (elems r) -> bstart b < bucket_start v).
    { intros v Hv. apply in_elems in Hv as (c & Hc & e & _); auto. rewrite <- e; auto. }
    assert (ES : bstart a = bstart b).
    { destruct (exists_bit _ A2 A3) as (o & Ho & T).
      assert (Ia : In (bstart a + o) (belems a)) by (apply in_map_iff; exists o; split; auto; apply in_bits; auto).
      destruct (exists_bit _ B2 B3) as (o' & Ho' & T').
      assert (Ib : In (bstart b + o') (belems b)) by (apply in_map_iff; exists o'; split; auto; apply in_bits; auto).
      assert (X : In (bstart a + o) (elems (b :: r))) by (apply E; simpl; apply in_app_iff; auto).
      assert (Y : In (bstart b + o') (elems (a :: l))) by (apply E; simpl; apply in_app_iff; auto).
      simpl in X, Y. rewrite in_app_iff in X, Y.
      pose proof (Ra _ Ia). pose proof (Rb _ Ib).
      destruct X as [X|X]; [pose proof (Rb _ X); congruence|].
      destruct Y as [Y|Y]; [pose proof (Ra _ Y); congruence|].
      pose proof (Rr _ X). pose proof (Rl _ Y). lia. }
    assert (EB : forall v, In v (belems a) <-> In v (belems b)).
    { intros v; split; intros Hv.
      - assert (X : In v (elems (b :: r))) by (apply E; simpl; apply in_app_iff; auto).
        simpl in X; apply in_app_iff in X as [X|X]; auto. pose proof (Ra _ Hv); pose proof (Rr _ X); lia.
      - assert (X : In v (elems (a :: l))) by (apply E; simpl; apply in_app_iff; auto).
        simpl in X; apply in_app_iff in X as [X|X]; auto. pose proof (Rb _ Hv); pose proof (Rl _ X); lia. }
    assert (a = b).
    { destruct a as [da sa], b as [db sb]; simpl in *. subst sb. f_equal. apply bits_inj; auto.
      intros o Ho. specialize (EB (sa + o)).
      rewrite !in_belems in EB by auto. simpl in EB.
      destruct (value_unique sa o (sa + o) A1 Ho eq_refl) as [e1 e2].
      rewrite <- e2 in EB. apply Bool.eq_iff_eq_true. tauto. }
    subst b. f_equal. apply IH; auto. intros v; split; intros Hv.
    + assert (X : In v (elems (a :: r))) by (apply E; simpl; apply in_app_iff; auto).
      simpl in X; apply in_app_iff in X as [X|X]; auto. pose proof (Ra _ X); pose proof (Rl _ Hv); lia.
    + assert (X : In v (elems (a :: l))) by (apply E; simpl; apply in_app_iff; auto).
      simpl in X; apply in_app_iff in X as [X|X]; auto. pose proof (Ra _ X); pose proof (Rr _ Hv); lia.
Qed.

Lemma set_eqb_spec s t : Inv s -> Inv t ->
  (set_eqb s t = true <-> forall v, In v (elems (buckets s)) <-> In v (elems (buckets t))).
Proof.
  intros I J. unfold set_eqb. split.
  - destruct (negb (esize s =? esize t)); [discriminate|].
    destruct (negb (length (buckets s) =? length (buckets t))%nat); [discriminate|].
    intros H; apply buckets_eqb_eq in H. rewrite H; tauto.
  - intros E. apply elems_inj in E; try apply I; try apply J.
    rewrite (inv_size _ I), (inv_size _ J), E, N.eqb_refl, Nat.eqb_refl. simpl. apply buckets_eqb_eq; auto.
Qed.

(** *** histories *)
From Verif Require Import SetSpec.
Definition Rep (s : eset) (A : aset) : Prop := forall v, In v (elems (buckets s)) <-> A v = true.

Lemma step_rep s A o : Inv s -> Rep s A ->
  exists s' b, step s o = Some (s', b) /\ Inv s' /\
    Rep s' (a_after A [o]) /\ [b] = a_returns A [o].
Proof.
  intros I H. destruct o as [v|v]; simpl.
  - destruct (insert_spec s v I) as (s' & it & b & -> & I' & B & M & _).
    exists s', b. split; [auto|split; [auto|split]].
    + intros v0. rewrite (M v0). unfold a_insert. rewrite (H v0). rewrite orb_true_iff, N.eqb_eq; tauto.
    + f_equal. rewrite (H v) in B. apply eq_true_iff_eq. rewrite negb_true_iff, B.
      split; [apply not_true_is_false|intros ->; discriminate].
  - destruct (erase_spec s v I) as (s' & n & -> & I' & B & M).
    exists s', (n =? 1). split; [auto|split; [auto|split]].
    + intros v0. rewrite (M v0). unfold a_erase. rewrite (H v0). rewrite andb_true_iff, negb_true_iff, N.eqb_neq; tauto.
    + f_equal. rewrite (H v) in B. destruct B as [(-> & X & _)|(-> & X & _)]; simpl.
      * rewrite X; auto.
      * symmetry; apply not_true_is_false; auto.
Qed.

Lemma run_rep h : forall s A, Inv s -> Rep s A ->
  exists s', run s h = Some (s', a_returns A h) /\ Inv s' /\ Rep s' (a_after A h).
Proof.
  induction h as [|o h IH]; intros s A I H; [exists s; auto|].
  destruct (step_rep s A o I H) as (s1 & b & E & I1 & R1 & B).
  destruct (IH s1 _ I1 R1) as (s2 & E2 & I2 & R2).
  exists s2. simpl run. rewrite E, E2. destruct o; simpl in *; injection B as ->; auto.
Qed.

Lemma run_empty h : exists s, run empty_set h = Some (s, a_returns a_empty h) /\ Inv s /\ Rep s (a_after a_empty h).
Proof. apply run_rep. apply inv_empty. intros v; simpl; split; [intros []|discriminate]. Qed.

Lemma enum_set_queries h :
  exists s l, run empty_set h = Some (s, a_returns a_empty h) /\
    (forall v, contains s v = Some (a_after a_empty h v)) /\
    (forall v, count s v = Some (if a_after a_empty h v then 1 else 0)) /\
    to_list s = Some l /\ StronglySorted N.lt l /\
    (forall v, In v l <-> a_after a_empty h v = true) /\
    size s = N.of_nat (length l) /\
    (is_empty s = true <-> forall v, a_after a_empty h v = false).
Proof.
  destruct (run_empty h) as (s & E & I & R). exists s, (elems (buckets s)).
  assert (C : forall v, contains s v = Some (a_after a_empty h v)).
  { intros v. destruct (contains_spec s v I) as (c & -> & Hc). f_equal. apply eq_true_iff_eq.
    rewrite Hc. apply R. }
  split; auto. split; auto. split; [intros v; unfold count; rewrite C; auto|].
  split; [apply to_list_spec|]. split; [apply elems_sorted; apply I|]. split; [apply R|].
  split; [apply (inv_size _ I)|]. rewrite is_empty_spec by auto. split.
  - intros X v. apply not_true_is_false. intro T; apply R in T. rewrite X in T; destruct T.
  - intros X. destruct (elems (buckets s)) as [|x l] eqn:El; auto.
    assert (T : a_after a_empty h x = true) by (apply R; rewrite El; left; auto). rewrite X in T; discriminate.
Qed.

Lemma enum_set_insert_iter h v s rs :
  run empty_set h = Some (s, rs) ->
  exists s' it b, insert s v = Some (s', (it, b)) /\ iter_deref s' it = Some v.
Proof.
  destruct (run_empty h) as (s0 & E & I & R). rewrite E; intros X; injection X as <- _.
  destruct (insert_spec s0 v I) as (s' & it & b & E' & _ & _ & _ & _ & D); eauto 6.
Qed.

Lemma enum_set_eq h1 h2 s1 s2 r1 r2 :
  run empty_set h1 = Some (s1, r1) -> run empty_set h2 = Some (s2, r2) ->
  (set_eqb s1 s2 = true <-> forall v, a_after a_empty h1 v = a_after a_empty h2 v).
Proof.
  destruct (run_empty h1) as (s & -> & I & R), (run_empty h2) as (t & -> & J & Q).
  intros X Y; injection X as <- _; injection Y as <- _.
  rewrite set_eqb_spec by auto. split; intros H v; specialize (H v).
  - apply eq_true_iff_eq. rewrite <- (R v), <- (Q v); auto.
  - rewrite (R v), (Q v), H; tauto.
Qed.

Lemma enum_set_any h1 h2 s1 s2 r1 r2 :
  run empty_set h1 = Some (s1, r1) -> run empty_set h2 = Some (s2, r2) ->
  (has_any_of s1 s2 = true <->
   (forall v, a_after a_empty h2 v = false) \/
   (exists v, a_after a_empty h1 v = true /\ a_after a_empty h2 v = true)).
Proof.
  destruct (run_empty h1) as (s & -> & I & R), (run_empty h2) as (t & -> & J & Q).
  intros X Y; injection X as <- _; injection Y as <- _.
  rewrite has_any_of_spec by auto. split; (intros [X|(v & A & B)]; [left|right; exists v]).
  - intros v. apply not_true_is_false. intro T; apply Q in T. rewrite X in T; destruct T.
  - rewrite <- (R v), <- (Q v); auto.
  - destruct (elems (buckets t)) as [|x l] eqn:El; auto.
    assert (T : a_after a_empty h2 x = true) by (apply Q; rewrite El; left; auto). rewrite X in T; discriminate.
  - rewrite (R v), (Q v); auto.
Qed.
