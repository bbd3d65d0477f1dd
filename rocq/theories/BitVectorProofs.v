From Verif Require Import Base BitVector BitVectorSpec EnumSetProofs.
From Coq Require Import Sorted.
Local Open Scope N_scope.

Definition word (v : bv) (k : nat) : N := nth k v 0.
Definition bitof (v : bv) (x : N) : bool := N.testbit (word v (N.to_nat (x / 64))) (x mod 64).
Definition wf (v : bv) : Prop := Forall (fun w => w < 2 ^ 64) v.

Lemma nth_repeat0 n k : nth k (repeat 0 n) 0 = 0.
Proof. revert k; induction n; destruct k; simpl; auto. Qed.
Lemma word_grow v n k : word (grow v n) k = word v k.
Proof.
  unfold word, grow. destruct (Nat.ltb_spec k (length v)).
  - apply app_nth1; auto.
  - rewrite app_nth2 by auto. rewrite nth_repeat0. symmetry; apply nth_overflow; auto.
Qed.
Lemma wf_grow v n : wf v -> wf (grow v n).
Proof.
  intros H; apply Forall_app; split; auto. apply Forall_forall. intros x Hx. apply repeat_spec in Hx. subst; lia.
Qed.
Lemma word_update v k w j : (k < length v)%nat -> word (update_nth v k w) j = if Nat.eqb j k then w else word v j.
Proof.
  unfold word; revert v j; induction k; destruct v, j; simpl; intros H; auto; try lia. apply IHk; lia.
Qed.
Lemma wf_word v k : wf v -> word v k < 2 ^ 64.
Proof.
  intros H. unfold word. destruct (nth_in_or_default k v 0) as [I| ->]; [|lia].
  unfold wf in H; rewrite Forall_forall in H; auto.
Qed.
Lemma wf_update v k w : wf v -> w < 2 ^ 64 -> wf (update_nth v k w).
Proof. revert k; induction v; destruct k; simpl; intros H Hw; auto; inversion H; subst; constructor; auto. apply IHv; auto. Qed.
Lemma idx_eq x i : x / 64 = i / 64 -> x mod 64 = i mod 64 -> x = i.
Proof. lia. Qed.
Lemma nth_error_word v k : (k < length v)%nat -> nth_error v k = Some (word v k).
Proof. intros; apply nth_error_nth'; auto. Qed.

Lemma bget_spec v i : bget v i = Some (bitof v i).
Proof.
  unfold bget, bitof, kBitContainerSize. destruct (Nat.leb_spec (length v) (N.to_nat (i / 64))).
  - unfold word. rewrite nth_overflow by auto. rewrite N.bits_0; auto.
  - rewrite nth_error_word by auto. rewrite land_bit, negb_involutive; auto.
Qed.

Lemma bset_spec v i : wf v -> exists v', bset v i = Some (v', bitof v i) /\ wf v' /\
  forall x, bitof v' x = (x =? i) || bitof v x.
Proof.
  intros W. unfold bset, kBitContainerSize. set (k := N.to_nat (i / 64)).
  set (v1 := if (length v <=? k)%nat then grow v (S k) else v).
  assert (B1 : forall x, bitof v1 x = bitof v x).
  { intros x; subst v1; destruct (length v <=? k)%nat; auto. unfold bitof. rewrite word_grow; auto. }
  assert (L1 : (k < length v1)%nat).
  { subst v1. destruct (Nat.leb_spec (length v) k); auto. unfold grow. rewrite app_length, repeat_length; lia. }
  assert (W1 : wf v1) by (subst v1; destruct (length v <=? k)%nat; auto using wf_grow).
  rewrite nth_error_word by auto. rewrite land_bit, negb_involutive.
  change (N.testbit (word v1 k) (i mod 64)) with (bitof v1 i). rewrite B1.
  destruct (bitof v i) eqn:E.
  - exists v1; repeat split; auto. intros x. rewrite B1. destruct (N.eqb_spec x i); subst; auto.
  - eexists; split; [reflexivity|]. split.
    + apply wf_update; auto. apply lor_mask_lt; [apply wf_word; auto|lia].
    + intros x. unfold bitof at 1. rewrite word_update by auto.
      destruct (Nat.eqb_spec (N.to_nat (x / 64)) k) as [e|ne].
      * rewrite testbit_lor_mask. rewrite orb_comm. f_equal.
        -- apply eq_true_iff_eq. rewrite !N.eqb_eq. split; [|intros ->; auto].
           intros. apply idx_eq; auto. lia.
        -- rewrite <- B1. unfold bitof. rewrite e; auto.
      * change (bitof v1 x = (x =? i) || bitof v x). rewrite B1.
        destruct (N.eqb_spec x i); auto. subst; lia.
Qed.

Lemma bclear_spec v i : wf v -> exists v', bclear v i = Some (v', bitof v i) /\ wf v' /\
  forall x, bitof v' x = negb (x =? i) && bitof v x.
Proof.
  intros W. unfold bclear, kBitContainerSize. set (k := N.to_nat (i / 64)).
  destruct (Nat.leb_spec (length v) k).
  - assert (F : bitof v i = false).
    { unfold bitof, word. rewrite nth_overflow by auto. apply N.bits_0. }
    exists v; rewrite F; repeat split; auto. intros x. destruct (N.eqb_spec x i); subst; auto.
  - rewrite nth_error_word by auto. rewrite land_bit.
    change (N.testbit (word v k) (i mod 64)) with (bitof v i).
    destruct (bitof v i) eqn:E; simpl.
    + eexists; split; [reflexivity|]. split.
      * apply wf_update; auto. apply ldiff_lt, wf_word; auto.
      * intros x. unfold bitof at 1. rewrite word_update by auto.
        destruct (Nat.eqb_spec (N.to_nat (x / 64)) k) as [e|ne].
        -- rewrite testbit_ldiff_mask, andb_comm. f_equal.
           ++ f_equal. apply eq_true_iff_eq. rewrite !N.eqb_eq. split; [|intros ->; auto].
              intros. apply idx_eq; auto. lia.
           ++ unfold bitof. rewrite e; auto.
        -- change (bitof v x = negb (x =? i) && bitof v x). destruct (N.eqb_spec x i); auto. subst; lia.
    + exists v; repeat split; auto. intros x. destruct (N.eqb_spec x i); subst; auto.
Qed.

Lemma bor_word v w k : word (fst (bor v w)) k = N.lor (word v k) (word w k).
Proof.
  revert w k; induction v as [|a v IH]; intros [|b w] k; simpl.
  - destruct k; reflexivity.
  - unfold word; simpl. destruct k; auto.
  - unfold word; simpl. destruct k; simpl; rewrite N.lor_0_r; auto.
  - specialize (IH w). destruct (bor v w) as [r m]. simpl in IH.
    destruct (N.eqb_spec (N.lor a b) a); unfold word in *; simpl; destruct k; simpl; auto.
Qed.
Lemma lor_lt a b n : a < 2 ^ n -> b < 2 ^ n -> N.lor a b < 2 ^ n.
Proof.
  rewrite !N_lt_pow2_bits. intros A B k Hk. rewrite N.lor_spec, A, B; auto.
Qed.
Lemma bor_wf v w : wf v -> wf w -> wf (fst (bor v w)).
Proof.
  revert w; induction v as [|a v IH]; intros [|b w] Wv Ww; simpl; auto.
  inversion Wv; inversion Ww; subst. specialize (IH w H2 H6). destruct (bor v w) as [r m]; simpl in *.
  destruct (negb _); constructor; auto. apply lor_lt; auto.
Qed.
Lemma bor_spec v w x : bitof (fst (bor v w)) x = bitof v x || bitof w x.
Proof. unfold bitof. rewrite bor_word, N.lor_spec; auto. Qed.

(** exact meaning of the returned flag *)
Lemma bor_flag v w : snd (bor v w) = true <->
  (exists k, (k < length v)%nat /\ N.lor (word v k) (word w k) <> word v k) \/ (length v < length w)%nat.
Proof.
  revert w; induction v as [|a v IH]; intros [|b w]; simpl.
  - split; [discriminate|]. intros [(k & L & _)|L]; lia.
  - split; auto. intros _; right; lia.
  - split; [discriminate|]. intros [(k & L & X)|L]; [|lia]. exfalso; apply X. unfold word; destruct k; simpl; rewrite N.lor_0_r; auto.
  - specialize (IH w). destruct (bor v w) as [r m]; simpl in *.
    destruct (N.eqb_spec (N.lor a b) a); simpl.
    + rewrite IH. split.
      * intros [(k & L & X)|L]; [left; exists (S k); split; [lia|auto]|right; lia].
      * intros [(k & L & X)|L]; [|right; lia]. destruct k; [exfalso; apply X; auto|].
        left; exists k; split; [lia|auto].
    + split; auto. intros _; left; exists 0%nat; split; [lia|auto].
Qed.

Lemma wf_create r : wf (create r).
Proof. apply Forall_forall. intros x Hx. apply repeat_spec in Hx. subst; lia. Qed.
Lemma bitof_create r x : bitof (create r) x = false.
Proof. unfold bitof, word, create. rewrite nth_repeat0. apply N.bits_0. Qed.

Lemma build_spec h : exists v, build h = Some v /\ wf v /\ forall x, bitof v x = members h x.
Proof.
  induction h as [r|h IH i|h IH i|h IH o IHo]; simpl.
  - exists (create r); repeat split; auto using wf_create, bitof_create.
  - destruct IH as (v & -> & W & B). destruct (bset_spec v i W) as (v' & -> & W' & B').
    exists v'; repeat split; auto. intros x; rewrite B', B; auto.
  - destruct IH as (v & -> & W & B). destruct (bclear_spec v i W) as (v' & -> & W' & B').
    exists v'; repeat split; auto. intros x; rewrite B', B; auto.
  - destruct IH as (v & -> & W & B), IHo as (w & -> & Ww & Bw).
    exists (fst (bor v w)); repeat split; auto using bor_wf. intros x; rewrite bor_spec, B, Bw; auto.
Qed.

(** words are determined by bits *)
Lemma word_ext v w k : wf v -> wf w -> (forall x, bitof v x = bitof w x) -> word v k = word w k.
Proof.
  intros Wv Ww E. apply bits_inj; auto using wf_word. intros o Ho.
  specialize (E (64 * N.of_nat k + o)). unfold bitof in E.
  replace ((64 * N.of_nat k + o) / 64) with (N.of_nat k) in E by lia.
  replace ((64 * N.of_nat k + o) mod 64) with o in E by lia. rewrite Nat2N.id in E. auto.
Qed.
Lemma bitof_word_ext v w x : (forall k, word v k = word w k) -> bitof v x = bitof w x.
Proof. intros H; unfold bitof; rewrite H; auto. Qed.

Lemma beqb_loop_spec n i v w : beqb_loop n i v w = true <-> forall k, (i <= k < i + n)%nat -> word v k = word w k.
Proof.
  revert i; induction n; intros i; simpl.
  - split; auto. intros _ k; lia.
  - unfold word in *. destruct (N.eqb_spec (nth i v 0) (nth i w 0)); simpl.
    + rewrite IHn. split; intros H k Hk; [|apply H; lia].
      destruct (Nat.eq_dec k i) as [->|]; auto. apply H; lia.
    + split; [discriminate|]. intros H; exfalso; apply n0, H; lia.
Qed.
Lemma beqb_spec v w : wf v -> wf w -> (beqb v w = true <-> forall x, bitof v x = bitof w x).
Proof.
  intros Wv Ww. unfold beqb. rewrite beqb_loop_spec. split; intros H.
  - intros x; apply bitof_word_ext. intros k.
    destruct (Nat.ltb_spec k (Nat.max (length v) (length w))); [apply H; lia|].
    unfold word. rewrite !nth_overflow by lia; auto.
  - intros k _. apply word_ext; auto.
Qed.

Lemma bempty_spec v : wf v -> (bempty v = true <-> forall x, bitof v x = false).
Proof.
  intros W. assert (bempty v = true <-> forall k, word v k = 0).
  { unfold word; clear W; induction v as [|a v IH]; simpl.
    - split; auto. intros _ k; destruct k; auto.
    - destruct (N.eqb_spec a 0); simpl.
      + rewrite IH. split; intros H k; [destruct k; auto|apply (H (S k))].
      + split; [discriminate|]. intros H; exfalso; apply n, (H 0%nat). }
  rewrite H. split; intros E.
  - intros x; unfold bitof; rewrite E; apply N.bits_0.
  - intros k. assert (X : word v k = word [] k).
    { apply word_ext; auto. constructor. intros x; rewrite E. unfold bitof, word. destruct (N.to_nat (x/64)); simpl; rewrite N.bits_0; auto. }
    rewrite X. unfold word; destruct k; auto.
Qed.

(** *** printing *)
Lemma word_bits_spec f base j b : b < 2 ^ N.of_nat f ->
  exists l, word_bits f base j b = Some l /\ StronglySorted N.lt l /\
    forall x, In x l <-> exists o, x = base + j + o /\ N.testbit b o = true.
Proof.
  revert j b; induction f as [|f IH]; intros j b Hb.
  - simpl in Hb. change (2 ^ 0) with 1 in Hb. assert (b = 0) by lia; subst. simpl.
    exists []; repeat split; [constructor|intros []|]. intros (o & _ & T). rewrite N.bits_0 in T; discriminate.
  - cbn [word_bits]. destruct (N.eqb_spec b 0) as [->|NZ].
    + exists []; repeat split; [constructor|intros []|]. intros (o & _ & T). rewrite N.bits_0 in T; discriminate.
    + destruct (IH (j + 1) (N.shiftr b 1)) as (l & -> & S & M).
      { rewrite N.shiftr_div_pow2. change (2 ^ 1) with 2. rewrite Nat2N.inj_succ, N.pow_succ_r' in Hb.
        apply N.div_lt_upper_bound; lia. }
      assert (TB : forall o, N.testbit (N.shiftr b 1) o = N.testbit b (o + 1)).
      { intros; rewrite N.shiftr_spec'; auto. }
      assert (T0 : N.testbit b 0 = N.odd b) by apply N.bit0_odd.
      simpl option_map. destruct (N.odd b) eqn:O.
      * eexists; split; [reflexivity|]. split.
        -- constructor; auto. apply Forall_forall. intros x Hx. apply M in Hx as (o & -> & _). lia.
        -- intros x; simpl. rewrite M. split.
           ++ intros [<-|(o & -> & T)].
              ** exists 0; split; [lia|auto].
              ** exists (o + 1); rewrite <- TB; split; [lia|auto].
           ++ intros (o & -> & T). destruct (N.eq_dec o 0) as [->|]; [left; lia|].
              right; exists (o - 1); rewrite TB. replace (o - 1 + 1) with o by lia. split; [lia|auto].
      * eexists; split; [reflexivity|]. split; auto. intros x. rewrite M. split.
        -- intros (o & -> & T). exists (o + 1); rewrite <- TB; split; [lia|auto].
        -- intros (o & -> & T). destruct (N.eq_dec o 0) as [->|]; [congruence|].
           exists (o - 1); rewrite TB. replace (o - 1 + 1) with o by lia. split; [lia|auto].
Qed.

Lemma print_loop_spec v i : wf v -> exists l, print_loop i v = Some l /\ StronglySorted N.lt l /\
  forall x, In x l <-> 64 * i <= x /\ bitof v (x - 64 * i) = true.
Proof.
  revert i; induction v as [|a v IH]; intros i W; cbn [print_loop].
  - exists []; split; [auto|split; [constructor|]]. intros x; split; [intros []|]. intros [_ T]. unfold bitof, word in T.
    destruct (N.to_nat _); simpl in T; rewrite N.bits_0 in T; discriminate.
  - inversion W; subst. destruct (IH (i + 1) H2) as (l & -> & S & M).
    destruct (word_bits_spec 64 (i * kBitContainerSize) 0 a) as (l0 & -> & S0 & M0); auto.
    exists (l0 ++ l); split; auto.
    assert (H0 : forall x, In x l0 <-> 64 * i <= x < 64 * i + 64 /\ bitof (a :: v) (x - 64 * i) = true).
    { intros x; rewrite M0. unfold kBitContainerSize. split.
      - intros (o & -> & T). assert (o < 64).
        { destruct (N.lt_ge_cases o 64); auto. rewrite (proj1 (N_lt_pow2_bits a 64) H1 o H) in T; discriminate. }
        split; [lia|]. replace (i * 64 + 0 + o - 64 * i) with o by lia. unfold bitof.
        rewrite N.div_small, N.mod_small by auto. auto.
      - intros [R T]. exists (x - 64 * i); split; [lia|]. unfold bitof in T.
        rewrite N.div_small, N.mod_small in T by lia. auto. }
    assert (H3 : forall x, In x l <-> 64 * i + 64 <= x /\ bitof (a :: v) (x - 64 * i) = true).
    { intros x; rewrite M. replace (64 * (i + 1)) with (64 * i + 64) by lia.
      assert (E : 64 * i + 64 <= x -> bitof v (x - (64 * i + 64)) = bitof (a :: v) (x - 64 * i)).
      { intros L. unfold bitof. replace (N.to_nat ((x - 64 * i) / 64)) with (Datatypes.S (N.to_nat ((x - (64 * i + 64)) / 64))) by lia.
        replace ((x - 64 * i) mod 64) with ((x - (64 * i + 64)) mod 64) by lia. auto. }
      split; intros [A B]; split; auto; [rewrite <- E|rewrite E]; auto. }
    split.
    + apply sorted_app; auto. intros x y Hx Hy. apply H0 in Hx as [Hx _]. apply H3 in Hy as [Hy _]. lia.
    + intros x. rewrite in_app_iff, H0, H3. split.
      * intros [[A B]|[A B]]; split; auto; lia.
      * intros [A B]. destruct (N.ltb_spec x (64 * i + 64)); [left|right]; split; auto; lia.
Qed.

(** the flag returned by Or is wrong on these two vectors *)
Lemma bor_flag_wrong : snd (bor (create 64) (create 128)) = true /\
  forall x, bitof (fst (bor (create 64) (create 128))) x = bitof (create 64) x.
Proof. split; [reflexivity|]. intros x. rewrite bor_spec, !bitof_create; auto. Qed.

Lemma bor_flag_complete v w : wf v -> wf w ->
  (exists x, bitof (fst (bor v w)) x <> bitof v x) -> snd (bor v w) = true.
Proof.
  intros Wv Ww (x & Hx). apply bor_flag. rewrite bor_spec in Hx.
  set (k := N.to_nat (x / 64)) in *.
  destruct (Nat.ltb_spec k (length v)).
  - left; exists k; split; auto. intro E. apply Hx. unfold bitof; fold k.
    rewrite <- N.lor_spec, E; auto.
  - right. destruct (Nat.ltb_spec k (length w)); [lia|]. exfalso; apply Hx.
    unfold bitof, word; fold k. rewrite !nth_overflow by lia. rewrite N.bits_0; auto.
Qed.

Lemma bor_flag_sound v w : wf v -> wf w -> (length w <= length v)%nat ->
  snd (bor v w) = true -> exists x, bitof (fst (bor v w)) x <> bitof v x.
Proof.
  intros Wv Ww L H. apply bor_flag in H as [(k & Lk & X)|]; [|lia].
  assert (exists o, o < 64 /\ N.testbit (word v k) o = false /\ N.testbit (word w k) o = true) as (o & Ho & T1 & T2).
  { assert (NZ : N.ldiff (word w k) (word v k) <> 0).
    { intro Z. apply X. apply N.bits_inj; intro o. rewrite N.lor_spec.
      assert (Y : N.testbit (N.ldiff (word w k) (word v k)) o = false) by (rewrite Z; apply N.bits_0).
      rewrite N.ldiff_spec in Y. destruct (N.testbit (word w k) o), (N.testbit (word v k) o); simpl in *; auto; discriminate. }
    exists (N.log2 (N.ldiff (word w k) (word v k))).
    pose proof (N.bit_log2 _ NZ) as B. rewrite N.ldiff_spec, andb_true_iff, negb_true_iff in B. destruct B as [B1 B2].
    split; auto. assert (HL : N.ldiff (word w k) (word v k) < 2 ^ 64) by (apply ldiff_lt, wf_word; auto).
    apply N.log2_lt_pow2; lia. }
  exists (64 * N.of_nat k + o). rewrite bor_spec. unfold bitof.
  replace ((64 * N.of_nat k + o) / 64) with (N.of_nat k) by lia.
  replace ((64 * N.of_nat k + o) mod 64) with o by lia. rewrite Nat2N.id, T1, T2. discriminate.
Qed.
