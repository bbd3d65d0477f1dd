From Verif Require Import Base Words WordsProofs.
Local Open Scope N_scope.

Lemma trunc_bit w x k : N.testbit (trunc w x) k = (k <? w) && N.testbit x k.
Proof.
  unfold trunc. destruct (N.ltb_spec k w); simpl.
  - apply N.mod_pow2_bits_low; auto.
  - apply N.mod_pow2_bits_high; auto.
Qed.
Lemma all_ones_bit w k : N.testbit (all_ones w) k = (k <? w).
Proof.
  unfold all_ones. replace (2 ^ w - 1) with (N.ones w) by (rewrite N.ones_equiv, N.sub_1_r; auto).
  destruct (N.ltb_spec k w).
  - apply N.ones_spec_low; auto.
  - apply N.ones_spec_high; auto.
Qed.
Lemma shiftl_bit x n k : N.testbit (N.shiftl x n) k = (n <=? k) && N.testbit x (k - n).
Proof.
  destruct (N.leb_spec n k); simpl.
  - apply N.shiftl_spec_high'; auto.
  - apply N.shiftl_spec_low; auto.
Qed.
Lemma ltb_true a b : a < b -> (a <? b) = true. Proof. apply N.ltb_lt. Qed.

Lemma mutate_bits_spec w word first num value :
  word < 2 ^ w -> first < w -> first + num <= w ->
  exists r, mutate_bits w word first num value = Some r /\ r < 2 ^ w /\
    forall k, N.testbit r k = if (first <=? k) && (k <? first + num) then value else N.testbit word k.
Proof.
  intros Hw Hf Hn. unfold mutate_bits.
  rewrite (ltb_true _ _ Hf). cbn [negb]. rewrite (proj2 (N.leb_le _ _) Hn). cbn [negb].
  destruct (N.eqb_spec num 0) as [->|NZ].
  - exists word; split; auto. split; auto. intros k.
    destruct (N.leb_spec first k), (N.ltb_spec k (first + 0)); simpl; auto; lia.
  - set (mask := N.land _ _).
    assert (M : forall k, N.testbit mask k = (first <=? k) && (k <? first + num)).
    { intros k. subst mask. rewrite N.land_spec, !trunc_bit, !shiftl_bit, !trunc_bit, !N.shiftr_spec', all_ones_bit.
      rewrite trunc_bit, shiftl_bit, all_ones_bit.
      destruct (N.leb_spec first k), (N.ltb_spec k (first + num)), (N.ltb_spec k w); simpl; lia. }
    eexists; split; [reflexivity|]. split.
    + apply N_lt_pow2_bits. intros k Hk.
      assert (F : N.testbit word k = false) by (apply (proj1 (N_lt_pow2_bits word w) Hw); auto).
      destruct value; [rewrite N.lor_spec, M|rewrite N.land_spec]; rewrite F; auto.
      rewrite (proj2 (N.ltb_ge _ _)) by lia. rewrite andb_false_r; auto.
    + intros k. destruct value.
      * rewrite N.lor_spec, M. destruct ((first <=? k) && (k <? first + num)); [apply orb_true_r|apply orb_false_r].
      * rewrite N.land_spec, trunc_bit, N.lxor_spec, M, all_ones_bit.
        destruct (N.ltb_spec k w).
        -- destruct ((first <=? k) && (k <? first + num)); simpl; [apply andb_false_r|apply andb_true_r].
        -- rewrite (proj1 (N_lt_pow2_bits word w) Hw) by auto. simpl. destruct ((first <=? k) && _); auto.
Qed.

Lemma high_bits_spec w word num (value : bool) :
  0 < w -> word < 2 ^ w -> num <= w ->
  exists r, (if value then set_high_bits w word num else clear_high_bits w word num) = Some r /\ r < 2 ^ w /\
    forall k, N.testbit r k = if (w - num <=? k) && (k <? w) then value else N.testbit word k.
Proof.
  intros W Hw Hn.
  assert (E : (if value then set_high_bits w word num else clear_high_bits w word num) =
    if num =? 0 then Some word else mutate_bits w word (w - num) num value).
  { destruct value; [unfold set_high_bits|unfold clear_high_bits]; destruct (N.eqb_spec num 0); auto; rewrite (proj2 (N.leb_le _ _) Hn); auto. }
  rewrite E. destruct (N.eqb_spec num 0) as [->|NZ].
  - exists word; split; auto; split; auto. intros k.
    destruct (N.leb_spec (w - 0) k), (N.ltb_spec k w); simpl; auto; lia.
  - destruct (mutate_bits_spec w word (w - num) num value) as (r & Er & Lr & B); auto; try lia.
    exists r; split; auto; split; auto. intros k. rewrite B. replace (w - num + num) with w by lia. auto.
Qed.

(** Values: clearing the high bits is [mod 2^n]; setting them adds [2^w - 2^n]. *)
Lemma bits_low_eq w n r v : n <= w -> r < 2 ^ w ->
  (forall k, N.testbit r k = if (n <=? k) && (k <? w) then false else N.testbit v k) -> v < 2 ^ w -> r = v mod 2 ^ n.
Proof.
  intros Hn Hr B Hv. apply N.bits_inj; intro k. rewrite B.
  destruct (N.ltb_spec k n).
  - rewrite N.mod_pow2_bits_low by auto. rewrite (proj2 (N.leb_gt _ _)) by auto. auto.
  - rewrite N.mod_pow2_bits_high by auto. rewrite (proj2 (N.leb_le _ _)) by auto. simpl.
    destruct (N.ltb_spec k w); auto. apply (proj1 (N_lt_pow2_bits v w) Hv); auto.
Qed.
Lemma bits_high_eq w n r v : n <= w -> r < 2 ^ w -> v < 2 ^ w ->
  (forall k, N.testbit r k = if (n <=? k) && (k <? w) then true else N.testbit v k) -> r = v mod 2 ^ n + (2 ^ w - 2 ^ n).
Proof.
  intros Hn Hr Hv B.
  assert (L : v mod 2 ^ n < 2 ^ n) by (apply N.mod_lt, N.pow_nonzero; lia).
  assert (P : 2 ^ w = 2 ^ (w - n) * 2 ^ n) by (rewrite <- N.pow_add_r; f_equal; lia).
  assert (Q : 2 ^ w - 2 ^ n = N.ones (w - n) * 2 ^ n).
  { rewrite N.ones_equiv, N.pred_sub, N.mul_sub_distr_r, <- P. lia. }
  rewrite Q, <- lor_shift_add by auto.
  apply N.bits_inj; intro k. rewrite B, N.lor_spec, shiftl_bit.
  destruct (N.ltb_spec k n).
  - rewrite N.mod_pow2_bits_low by auto. rewrite (proj2 (N.leb_gt _ _)) by auto. simpl. rewrite orb_false_r. auto.
  - rewrite N.mod_pow2_bits_high by auto. rewrite (proj2 (N.leb_le _ _)) by auto. simpl.
    destruct (N.ltb_spec k w).
    + rewrite N.ones_spec_low by lia; auto.
    + rewrite N.ones_spec_high by lia. apply (proj1 (N_lt_pow2_bits v w) Hv); auto.
Qed.

Lemma is_bit_spec w word pos : word < 2 ^ w -> pos < w -> is_bit_at_position_set w word pos = Some (N.testbit word pos).
Proof.
  intros Hw Hp. unfold is_bit_at_position_set. rewrite ltb_true by auto. f_equal.
  replace (trunc w (N.shiftl 1 pos)) with (N.shiftl 1 pos).
  - destruct (N.testbit word pos) eqn:E.
    + apply negb_true_iff, N.eqb_neq. intro Z.
      assert (T : N.testbit (N.land word (N.shiftl 1 pos)) pos = false) by (rewrite Z; apply N.bits_0).
      rewrite N.land_spec, E, N.shiftl_1_l, N.pow2_bits_true in T; discriminate.
    + apply negb_false_iff, N.eqb_eq. apply N.bits_inj_0; intro k. rewrite N.land_spec, N.shiftl_1_l, N.pow2_bits_eqb.
      destruct (N.eqb_spec pos k); [subst; rewrite E; auto|apply andb_false_r].
  - unfold trunc. symmetry. apply N.mod_small. rewrite N.shiftl_1_l. apply N.pow_lt_mono_r; lia.
Qed.

(** The two's complement value of the low [n] bits of [v]. *)
Definition signed_low (v n : N) : Z :=
  let low := Z.of_N (v mod 2 ^ n) in
  if N.testbit v (n - 1) then (low - 2 ^ Z.of_N n)%Z else low.

Lemma zero_extend_spec w v n : 0 < w -> w <= 64 -> v < 2 ^ w -> 1 <= n <= w ->
  zero_extend_value w v n = Some (v mod 2 ^ n).
Proof.
  intros W W64 Hv Hn. unfold zero_extend_value. destruct (N.eqb_spec n w) as [->|ne].
  - rewrite N.mod_small by auto; auto.
  - replace ((w + 2 ^ 32 - n) mod 2 ^ 32) with (w - n) by (change (2 ^ 32) with 4294967296; lia).
    destruct (high_bits_spec w v (w - n) false) as (r & E & L & B); auto; try lia.
    rewrite E. f_equal. apply (bits_low_eq w n); auto; try lia. intros k. rewrite B.
    replace (w - (w - n)) with n by lia. auto.
Qed.

Lemma sign_extend_spec w v n : 0 < w -> w <= 64 -> v < 2 ^ w -> 1 <= n <= w ->
  exists r, sign_extend_value w v n = Some r /\ r < 2 ^ w /\
    Z.of_N r = (signed_low v n mod 2 ^ Z.of_N w)%Z.
Proof.
  intros W W64 Hv Hn.
  assert (PW : 2 ^ n <= 2 ^ w) by (apply N.pow_le_mono_r; lia).
  assert (ML : v mod 2 ^ n < 2 ^ n) by (apply N.mod_lt, N.pow_nonzero; lia).
  assert (ZP : forall a, (2 ^ Z.of_N a)%Z = Z.of_N (2 ^ a)) by (intros; rewrite N2Z.inj_pow; auto).
  assert (NEG : forall r, r = v mod 2 ^ n + (2 ^ w - 2 ^ n) -> r < 2 ^ w ->
      Z.of_N r = ((Z.of_N (v mod 2 ^ n) - 2 ^ Z.of_N n) mod 2 ^ Z.of_N w)%Z).
  { intros r Er Lr. rewrite !ZP. apply Z.mod_unique with (-1)%Z; [left; lia|].
    subst r. rewrite N2Z.inj_add, N2Z.inj_sub by auto. lia. }
  unfold sign_extend_value. destruct (N.eqb_spec n w) as [->|ne].
  - exists v; split; auto; split; auto. unfold signed_low. rewrite N.mod_small by auto.
    destruct (N.testbit v (w - 1)).
    + rewrite <- (N.mod_small v (2 ^ w)) at 2 by auto. apply NEG; auto. rewrite N.mod_small by auto. lia.
    + rewrite ZP, Z.mod_small; auto. lia.
  - replace ((n + 2 ^ 32 - 1) mod 2 ^ 32) with (n - 1) by (change (2 ^ 32) with 4294967296; lia).
    replace ((w + 2 ^ 32 - n) mod 2 ^ 32) with (w - n) by (change (2 ^ 32) with 4294967296; lia).
    rewrite is_bit_spec by (auto; lia). unfold signed_low. destruct (N.testbit v (n - 1)).
    + destruct (high_bits_spec w v (w - n) true) as (r & E & L & B); auto; try lia.
      rewrite E. exists r; split; auto; split; auto. apply NEG; auto.
      apply bits_high_eq; auto; try lia. intros k. rewrite B. replace (w - (w - n)) with n by lia. auto.
    + destruct (high_bits_spec w v (w - n) false) as (r & E & L & B); auto; try lia.
      rewrite E. exists r; split; auto; split; auto.
      replace r with (v mod 2 ^ n).
      * rewrite ZP, Z.mod_small; auto. lia.
      * symmetry. apply (bits_low_eq w n); auto; try lia. intros k. rewrite B.
        replace (w - (w - n)) with n by lia. auto.
Qed.

(** *** population count *)
Definition popcount (w : nat) (v : N) : N :=
  N.of_nat (length (filter (fun k => N.testbit v (N.of_nat k)) (seq 0 w))).

(** x = 2^j + hi with the low j bits zero: x & (x-1) clears bit j only. *)
Lemma trailing x : x <> 0 -> exists j m, x = 2 ^ j + m * 2 ^ (j + 1).
Proof.
  intros H. induction x using N.binary_ind; try congruence.
  - destruct (N.eq_dec x 0) as [->|ne]; [exfalso; apply H; reflexivity|].
    destruct (IHx ne) as (j & m & E). exists (j + 1), m. rewrite N.double_spec, E at 1.
    rewrite !N.pow_add_r. change (2 ^ 1) with 2. lia.
  - exists 0, x. rewrite N.succ_double_spec. change (2 ^ 0) with 1. change (2 ^ (0 + 1)) with 2. lia.
Qed.
Lemma land_pred j m : let x := 2 ^ j + m * 2 ^ (j + 1) in N.land x (x - 1) = m * 2 ^ (j + 1).
Proof.
  intros x. assert (P : 0 < 2 ^ j) by (apply N.neq_0_lt_0, N.pow_nonzero; lia).
  assert (L : 2 ^ j < 2 ^ (j + 1)) by (apply N.pow_lt_mono_r; lia).
  assert (E1 : x = N.lor (2 ^ j) (N.shiftl m (j + 1))) by (symmetry; apply lor_shift_add; auto).
  assert (E2 : x - 1 = N.lor (2 ^ j - 1) (N.shiftl m (j + 1))).
  { rewrite lor_shift_add by lia. subst x; lia. }
  rewrite E2, E1, <- N.shiftl_mul_pow2. apply N.bits_inj; intro k.
  rewrite N.land_spec, !N.lor_spec.
  assert (Z : N.testbit (2 ^ j) k && N.testbit (2 ^ j - 1) k = false).
  { rewrite N.pow2_bits_eqb. destruct (N.eqb_spec j k); auto; subst.
    change (2 ^ k - 1) with (all_ones k). rewrite all_ones_bit, N.ltb_irrefl; auto. }
  destruct (N.testbit (2 ^ j) k), (N.testbit (2 ^ j - 1) k), (N.testbit (N.shiftl m (j + 1)) k); simpl in *; auto; discriminate.
Qed.
Lemma land_pred_bits x k : x <> 0 -> exists j, N.testbit x j = true /\ (forall i, i < j -> N.testbit x i = false) /\
  N.testbit (N.land x (x - 1)) k = N.testbit x k && negb (k =? j).
Proof.
  intros H. destruct (trailing x H) as (j & m & E). exists j.
  assert (P : 0 < 2 ^ j) by (apply N.neq_0_lt_0, N.pow_nonzero; lia).
  assert (L : 2 ^ j < 2 ^ (j + 1)) by (apply N.pow_lt_mono_r; lia).
  assert (T : forall i, N.testbit x i = (j =? i) || N.testbit (N.shiftl m (j + 1)) i).
  { intros i. rewrite E, <- lor_shift_add, N.lor_spec, N.pow2_bits_eqb by auto. auto. }
  split; [rewrite T, N.eqb_refl; auto|]. split.
  - intros i Hi. rewrite T. rewrite N.shiftl_spec_low by lia. destruct (N.eqb_spec j i); auto; lia.
  - pose proof (land_pred j m) as LP. cbv zeta in LP. rewrite <- E in LP. rewrite LP, T, <- N.shiftl_mul_pow2, N.eqb_sym.
    destruct (N.eqb_spec k j); simpl; [subst|rewrite andb_true_r; auto].
    rewrite N.shiftl_spec_low by lia. auto.
Qed.

Lemma filter_remove (l : list nat) p q j : NoDup l -> In j l -> p j = true ->
  (forall k, q k = p k && negb (Nat.eqb k j)) -> length (filter p l) = S (length (filter q l)).
Proof.
  induction l; simpl; intros ND I P Q; [tauto|]. inversion ND; subst. destruct I as [->|I].
  - rewrite Q, P, Nat.eqb_refl; simpl. f_equal. f_equal. apply filter_ext_in. intros x Hx. rewrite Q.
    destruct (Nat.eqb_spec x j); [subst; tauto|rewrite andb_true_r; auto].
  - rewrite Q. destruct (Nat.eqb_spec a j); [subst; tauto|]. rewrite andb_true_r.
    destruct (p a); simpl; rewrite (IHl H2 I P Q); auto.
Qed.

Lemma popcount_step w x : x < 2 ^ N.of_nat w -> x <> 0 -> popcount w x = popcount w (N.land x (x - 1)) + 1.
Proof.
  intros Hx NZ. unfold popcount.
  destruct (trailing x NZ) as (j & m & E).
  destruct (land_pred_bits x 0 NZ) as (j' & T & LOW & _).
  assert (Hj : j' < N.of_nat w).
  { destruct (N.lt_ge_cases j' (N.of_nat w)); auto. rewrite (proj1 (N_lt_pow2_bits x _) Hx) in T by auto. discriminate. }
  rewrite (filter_remove (seq 0 w) _ (fun k => N.testbit (N.land x (x - 1)) (N.of_nat k)) (N.to_nat j')).
  - lia.
  - apply seq_NoDup.
  - apply in_seq; lia.
  - rewrite N2Nat.id; auto.
  - intros k. destruct (land_pred_bits x (N.of_nat k) NZ) as (j2 & T2 & LOW2 & ->). f_equal. f_equal.
    assert (j2 = j').
    { destruct (N.lt_trichotomy j2 j') as [X|[X|X]]; auto; [rewrite (LOW _ X) in T2|rewrite (LOW2 _ X) in T]; discriminate. }
    subst. destruct (N.eqb_spec (N.of_nat k) j'), (Nat.eqb_spec k (N.to_nat j')); auto; lia.
Qed.
Lemma popcount_0 w : popcount w 0 = 0.
Proof.
  unfold popcount. generalize 0%nat. induction w; intros s; cbn [seq filter]; auto. rewrite N.bits_0. apply IHw.
Qed.
Lemma land_pred_lt x n : x < 2 ^ n -> N.land x (x - 1) < 2 ^ n.
Proof. rewrite !N_lt_pow2_bits. intros H k Hk. rewrite N.land_spec, H; auto. Qed.
Lemma popcount_le w x : popcount w x <= N.of_nat w.
Proof.
  unfold popcount. rewrite <- (seq_length w 0) at 2.
  assert (X : forall (l : list nat) p, (length (filter p l) <= length l)%nat).
  { induction l; simpl; intros; auto. destruct (p a); simpl; specialize (IHl p); lia. }
  specialize (X (seq 0 w) (fun k => N.testbit x (N.of_nat k))). lia.
Qed.

Lemma count_loop_spec wn fuel x c : x < 2 ^ N.of_nat wn -> popcount wn x <= N.of_nat fuel ->
  count_loop fuel x c = Some (c + popcount wn x).
Proof.
  revert x c; induction fuel; intros x c Hx P; simpl.
  - destruct (N.eqb_spec x 0) as [->|ne].
    + rewrite popcount_0. f_equal; lia.
    + rewrite (popcount_step wn x Hx ne) in P. lia.
  - destruct (N.eqb_spec x 0) as [->|ne].
    + rewrite popcount_0. f_equal; lia.
    + rewrite (popcount_step wn x Hx ne) in *. rewrite IHfuel.
      * f_equal; lia.
      * apply land_pred_lt; auto.
      * lia.
Qed.

(** *** LSB *)
Lemma lxor_ones_sub w v : v < 2 ^ w -> N.lxor v (all_ones w) = 2 ^ w - 1 - v.
Proof.
  intros H. assert (S : N.lxor v (all_ones w) + v = 2 ^ w - 1).
  { rewrite N.add_nocarry_lxor.
    - rewrite N.lxor_comm, <- N.lxor_assoc, N.lxor_nilpotent, N.lxor_0_l. reflexivity.
    - apply N.bits_inj_0; intro k. rewrite N.land_spec, N.lxor_spec, all_ones_bit.
      destruct (N.ltb_spec k w); [destruct (N.testbit v k); auto|].
      rewrite (proj1 (N_lt_pow2_bits v w) H) by auto. auto. }
  lia.
Qed.
Lemma lsb_spec w v : v < 2 ^ w -> v <> 0 ->
  exists j, lsb w v = 2 ^ j /\ N.testbit v j = true /\ forall i, i < j -> N.testbit v i = false.
Proof.
  intros H NZ. destruct (trailing v NZ) as (j & m & E).
  assert (P : 0 < 2 ^ j) by (apply N.neq_0_lt_0, N.pow_nonzero; lia).
  assert (L : 2 ^ j < 2 ^ (j + 1)) by (apply N.pow_lt_mono_r; lia).
  assert (T : forall i, N.testbit v i = (j =? i) || N.testbit (N.shiftl m (j + 1)) i).
  { intros i. rewrite E, <- lor_shift_add, N.lor_spec, N.pow2_bits_eqb by auto. auto. }
  exists j; split; [|split; [rewrite T, N.eqb_refl; auto|]].
  - unfold lsb. rewrite lxor_ones_sub by auto. unfold trunc.
    rewrite (N.mod_small (2 ^ w - 1 - v)) by lia.
    replace (2 ^ w - 1 - v + 1) with (2 ^ w - v) by lia. rewrite N.mod_small by lia.
    (* 2^w - v = 2^j + (complement of m) * 2^(j+1) *)
    assert (JW : j < w).
    { destruct (N.lt_ge_cases j w); auto. assert (2 ^ w <= 2 ^ j) by (apply N.pow_le_mono_r; lia). lia. }
    assert (PW : 2 ^ w = 2 ^ (w - (j + 1)) * 2 ^ (j + 1)) by (rewrite <- N.pow_add_r; f_equal; lia).
    set (Q := 2 ^ (w - (j + 1))) in *.
    assert (D : 2 ^ (j + 1) = 2 * 2 ^ j) by (rewrite N.pow_add_r; change (2 ^ 1) with 2; lia).
    assert (MQ : m < Q) by nia.
    assert (E2 : 2 ^ w - v = 2 ^ j + (Q - 1 - m) * 2 ^ (j + 1)) by nia.
    rewrite E2, E. rewrite <- !lor_shift_add by auto.
    assert (MC : Q - 1 - m = N.lxor m (all_ones (w - (j + 1)))) by (rewrite lxor_ones_sub; auto).
    apply N.bits_inj; intro k. rewrite N.land_spec, !N.lor_spec, !shiftl_bit, MC, N.lxor_spec, all_ones_bit.
    rewrite !N.pow2_bits_eqb. destruct (N.eqb_spec j k); simpl; auto.
    destruct (N.leb_spec (j + 1) k); simpl; auto.
    destruct (N.ltb_spec (k - (j + 1)) (w - (j + 1))).
    + destruct (N.testbit m (k - (j + 1))); auto.
    + replace (N.testbit m (k - (j + 1))) with false; auto. symmetry.
      apply (proj1 (N_lt_pow2_bits m (w - (j + 1))) MQ); auto.
  - intros i Hi. rewrite T. rewrite N.shiftl_spec_low by lia. destruct (N.eqb_spec j i); auto; lia.
Qed.

Lemma set_bits_spec num first k : N.testbit (set_bits first num) k = (first <=? k) && (k <? first + N.of_nat num).
Proof.
  revert first; induction num; intros first; simpl.
  - rewrite N.bits_0. destruct (N.leb_spec first k), (N.ltb_spec k (first + 0)); simpl; auto; lia.
  - rewrite N.lor_spec, IHnum, N.shiftl_1_l, N.pow2_bits_eqb.
    destruct (N.eqb_spec first k), (N.leb_spec (first + 1) k), (N.leb_spec first k), (N.ltb_spec k (first + 1 + N.of_nat num)),
      (N.ltb_spec k (first + N.pos (Pos.of_succ_nat num))); simpl; auto; lia.
Qed.
