(** Proofs about integer literals (ParseNumber.v) against NumberSpec.v. *)
From Verif Require Import Base TextLex ParseNumber NumberSpec.
Local Open Scope N_scope.

Lemma digit_value_spec c d : digit_value c = Some d <-> digit c d.
Proof.
  unfold digit_value. split.
  - destruct ((48 <=? c) && (c <=? 57)) eqn:E1.
    + intros H; inversion H; subst. replace c with (48 + (c - 48)) at 1 by lia. constructor. lia.
    + destruct ((97 <=? c) && (c <=? 102)) eqn:E2.
      * intros H; inversion H; subst. replace c with (97 + (c - 97)) at 1 by lia.
        replace (c - 87) with (10 + (c - 97)) by lia. constructor. lia.
      * destruct ((65 <=? c) && (c <=? 70)) eqn:E3; [|discriminate].
        intros H; inversion H; subst. replace c with (65 + (c - 65)) at 1 by lia.
        replace (c - 55) with (10 + (c - 65)) by lia. constructor. lia.
  - destruct 1 as [d H|d H|d H].
    + replace ((48 <=? 48 + d) && (48 + d <=? 57)) with true by lia. f_equal; lia.
    + replace ((48 <=? 97 + d) && (97 + d <=? 57)) with false by lia.
      replace ((97 <=? 97 + d) && (97 + d <=? 102)) with true by lia. f_equal; lia.
    + replace ((48 <=? 65 + d) && (65 + d <=? 57)) with false by lia.
      replace ((97 <=? 65 + d) && (65 + d <=? 102)) with false by lia.
      replace ((65 <=? 65 + d) && (65 + d <=? 70)) with true by lia. f_equal; lia.
Qed.
Lemma is_base_digit_spec base c d : is_base_digit base c = Some d <-> digit c d /\ d < base.
Proof.
  unfold is_base_digit. rewrite <- digit_value_spec.
  destruct (digit_value c) as [x|]; [|split; [discriminate|intros [H _]; discriminate]].
  destruct (x <? base) eqn:E; split.
  - intros H; inversion H; subst. split; auto. now apply N.ltb_lt.
  - intros [H _]; exact H.
  - discriminate.
  - intros [H1 H2]. inversion H1; subst. apply N.ltb_ge in E. lia.
Qed.

Definition digits_of (base : N) (s : list N) (ds : list N) : Prop :=
  Forall2 (fun c d => digit c d /\ d < base) s ds.
Definition value_of (base : N) (ds : list N) (acc : N) : N :=
  fold_left (fun a d => base * a + d) ds acc.

Lemma numeral_spec base s v :
  numeral base s v <-> s <> [] /\ exists ds, digits_of base s ds /\ v = value_of base ds 0.
Proof.
  split.
  - induction 1 as [c d D L|s v c d N0 IH D L].
    + split; [discriminate|]. exists [d]. split; [constructor; auto; constructor|]. unfold value_of; simpl. lia.
    + destruct IH as (NE & ds & F & ->). split; [destruct s; discriminate|].
      exists (ds ++ [d]). split; [apply Forall2_app; auto; constructor; auto|].
      unfold value_of. rewrite fold_left_app. reflexivity.
  - intros (NE & ds & F & ->). revert ds F.
    induction s as [|c s IH] using rev_ind; intros ds F; [congruence|].
    apply Forall2_app_inv_l in F. destruct F as (d1 & d2 & F1 & F2 & ->).
    inversion F2 as [|? d ? ? [D L] F3]; subst. inversion F3; subst.
    unfold value_of. rewrite fold_left_app. simpl.
    destruct s as [|c0 s].
    + inversion F1; subst. simpl. replace (base * 0 + d) with d by lia. constructor; auto.
    + constructor; auto. apply IH; auto. discriminate.
Qed.

Lemma read_digits_all base l n acc ds : digits_of base l ds ->
  read_digits base l n acc = ((n + length l)%nat, value_of base ds acc, []).
Proof.
  intros F. revert n acc. induction F as [|c d s ds [D L] F IH]; intros n acc; simpl.
  - f_equal. f_equal. lia.
  - replace (is_base_digit base c) with (Some d) by (symmetry; apply is_base_digit_spec; auto).
    rewrite IH. f_equal. f_equal. lia.
Qed.
Lemma read_digits_nil base l n acc n' v : read_digits base l n acc = (n', v, []) ->
  exists ds, digits_of base l ds /\ v = value_of base ds acc /\ n' = (n + length l)%nat.
Proof.
  revert n acc. induction l as [|c l IH]; intros n acc H; simpl in H.
  - inversion H; subst. exists []. repeat split; [constructor|simpl; lia].
  - destruct (is_base_digit base c) as [d|] eqn:E; [|discriminate].
    apply is_base_digit_spec in E. apply IH in H. destruct H as (ds & F & -> & ->).
    exists (d :: ds). repeat split; [constructor; auto|simpl; lia].
Qed.

Lemma numeral_head base s v c t : s = c :: t -> numeral base s v -> exists d, digit c d /\ d < base.
Proof.
  intros -> H. apply numeral_spec in H. destruct H as (_ & ds & F & _).
  inversion F as [|? d ? ? D]; subst. eauto.
Qed.
Lemma digit_range c d : digit c d -> 48 <= c <= 57 \/ 97 <= c <= 102 \/ 65 <= c <= 70.
Proof. destruct 1; lia. Qed.
Lemma digit10 c d : digit c d -> d < 10 -> 48 <= c <= 57 /\ c = 48 + d.
Proof. destruct 1; lia. Qed.

(** What the part after the sign yields. *)
Definition stream_mag (neg : bool) (l : list N) : option (bool * N * list N) :=
  match l with
  | c0 :: t =>
      if c0 =? 48 then
        let hex := match t with x :: _ => (x =? 120) || (x =? 88) | [] => false end in
        if hex then
          let '(n, v, r) := read_digits 16 (tl t) 0 0 in
          match n with O => None | _ => Some (neg, v, r) end
        else
          let '(n, v, r) := read_digits 8 t 0 0 in Some (neg, v, r)
      else
        let '(n, v, r) := read_digits 10 l 0 0 in
        match n with O => None | _ => Some (neg, v, r) end
  | [] => None
  end.
Lemma stream_mag_spec neg l m :
  stream_mag neg l = Some (neg, m, []) <-> exists hex, unsigned_text l hex m.
Proof.
  split.
  - unfold stream_mag. destruct l as [|c t]; [discriminate|].
    destruct (N.eqb_spec c 48) as [->|C].
    + set (hex := match t with x :: _ => (x =? 120) || (x =? 88) | [] => false end).
      cbn zeta. destruct hex eqn:HX; subst hex.
      * destruct t as [|x t]; [discriminate|]. cbn [tl].
        destruct (read_digits 16 t 0 0) as [[n v] r] eqn:R. destruct n; [discriminate|].
        intros H; inversion H; subst. apply read_digits_nil in R. destruct R as (ds & F & -> & L).
        exists true. apply ut_hex; [lia|]. apply numeral_spec. split; [|eauto].
        destruct t; [simpl in L; lia|discriminate].
      * destruct (read_digits 8 t 0 0) as [[n v] r] eqn:R.
        intros H; inversion H; subst. apply read_digits_nil in R. destruct R as (ds & F & -> & L).
        exists false. apply ut_oct. apply numeral_spec. split; [discriminate|].
        exists (0 :: ds). split; [constructor; auto; split; [|lia]|].
        -- change 48 with (48 + 0). constructor. lia.
        -- unfold value_of. simpl. f_equal.
    + destruct (read_digits 10 (c :: t) 0 0) as [[n v] r] eqn:R. destruct n; [discriminate|].
      intros H; inversion H; subst. apply read_digits_nil in R. destruct R as (ds & F & -> & L).
      exists false. apply ut_dec; auto. apply numeral_spec. split; [discriminate|eauto].
  - intros [hex U]. destruct U as [c s v C H|s v H|x s v X H].
    + unfold stream_mag. replace (c =? 48) with false by (symmetry; now apply N.eqb_neq).
      apply numeral_spec in H. destruct H as (_ & ds & F & ->).
      rewrite (read_digits_all _ _ _ _ _ F). reflexivity.
    + apply numeral_spec in H. destruct H as (_ & ds & F & ->).
      inversion F as [|? d ? ds' [D L] F']; subst. apply digit10 in D; [|lia].
      assert (d = 0) by lia. subst d.
      unfold stream_mag. change (48 =? 48) with true. cbn iota zeta.
      replace (match s with x :: _ => (x =? 120) || (x =? 88) | [] => false end) with false.
      * rewrite (read_digits_all _ _ _ _ _ F'). reflexivity.
      * destruct F' as [|x d s ds' [D' L'] F']; auto. apply digit10 in D'; lia.
    + apply numeral_spec in H. destruct H as (NE & ds & F & ->).
      unfold stream_mag. change (48 =? 48) with true. cbn iota zeta.
      replace ((x =? 120) || (x =? 88)) with true by lia. cbn [tl].
      rewrite (read_digits_all _ _ _ _ _ F). destruct s; [congruence|]. reflexivity.
Qed.
Lemma stream_mag_neg neg l n m r : stream_mag neg l = Some (n, m, r) -> n = neg.
Proof.
  unfold stream_mag. destruct l as [|c t]; [discriminate|].
  destruct (c =? 48).
  - cbn zeta. destruct (match t with x :: _ => _ | [] => false end).
    + destruct (read_digits 16 (tl t) 0 0) as [[k v] r']. destruct k; [discriminate|].
      intros H; inversion H; auto.
    + destruct (read_digits 8 t 0 0) as [[k v] r']. intros H; inversion H; auto.
  - destruct (read_digits 10 (c :: t) 0 0) as [[k v] r']. destruct k; [discriminate|].
    intros H; inversion H; auto.
Qed.

Definition no_leading_space (text : list N) : Prop :=
  match text with c :: _ => is_space c = false | [] => True end.

Lemma stream_int_mag text : no_leading_space text ->
  stream_int text = match text with
                    | c :: t => if c =? 45 then stream_mag true t
                                else if c =? 43 then stream_mag false t
                                else stream_mag false text
                    | [] => None
                    end.
Proof.
  intros H. unfold stream_int. replace (skip_ws text) with text.
  - destruct text as [|c t]; auto. destruct (c =? 45); auto. destruct (c =? 43); auto.
  - destruct text as [|c t]; auto. simpl in *. now rewrite H.
Qed.

Lemma unsigned_text_head l hex m : unsigned_text l hex m -> exists c t, l = c :: t /\ 48 <= c <= 57.
Proof.
  destruct 1 as [c s v C H|s v H|x s v X H]; [|exists 48; eexists; split; [reflexivity|lia]..].
  apply (numeral_head _ _ _ c s eq_refl) in H. destruct H as (d & D & L).
  apply digit10 in D; auto. exists c, s. split; auto; lia.
Qed.

Definition hex_prefix (text : list N) : bool :=
  match text with
  | c0 :: c1 :: _ => (c0 =? 48) && ((c1 =? 120) || (c1 =? 88))
  | _ => false
  end.
Lemma unsigned_text_hex l hex m : unsigned_text l hex m -> hex_prefix l = hex.
Proof.
  destruct 1 as [c s v C H|s v H|x s v X H]; simpl.
  - destruct s; auto. lia.
  - destruct s as [|x s]; auto. apply numeral_spec in H. destruct H as (_ & ds & F & _).
    inversion F as [|? d ? ds' [D L] F']; subst. inversion F' as [|? d' ? ds'' [D' L'] F'']; subst.
    apply digit10 in D'; lia.
  - lia.
Qed.

(** ** The range check in arithmetic *)
Lemma pow2_split w : w <= 64 -> 2 ^ 64 = 2 ^ w * 2 ^ (64 - w).
Proof. intros. rewrite <- N.pow_add_r. f_equal. lia. Qed.
Lemma pow2_pos w : 0 < 2 ^ w.
Proof. apply N.neq_0_lt_0, N.pow_nonzero. lia. Qed.
Lemma mag_mask w : (if w =? 64 then 2 ^ 64 - 1 else 2 ^ w - 1) = N.ones w.
Proof. rewrite N.ones_equiv, N.pred_sub. destruct (N.eqb_spec w 64); subst; auto. Qed.
Lemma overflow_bits w k : w <= 64 ->
  N.testbit (N.lxor (2 ^ 64 - 1) (N.ones w)) k = (w <=? k) && (k <? 64).
Proof.
  intros W. rewrite N.lxor_spec. change (2 ^ 64 - 1) with (N.ones 64).
  destruct (N.ltb_spec k 64).
  - rewrite N.ones_spec_low by auto. destruct (N.leb_spec w k).
    + now rewrite N.ones_spec_high by auto.
    + now rewrite N.ones_spec_low by auto.
  - rewrite N.ones_spec_high by auto. rewrite N.ones_spec_high by lia. now rewrite andb_false_r.
Qed.
Lemma bits_below b n k : b < 2 ^ n -> n <= k -> N.testbit b k = false.
Proof. intros H. revert k. now apply N_lt_pow2_bits. Qed.

Lemma land_overflow b w : w <= 64 -> b < 2 ^ 64 ->
  N.land b (N.lxor (2 ^ 64 - 1) (N.ones w)) = b / 2 ^ w * 2 ^ w.
Proof.
  intros W B. apply N.bits_inj. intros k. rewrite N.land_spec, overflow_bits by auto.
  destruct (N.leb_spec w k) as [H|H].
  - rewrite N.mul_pow2_bits_high by auto. rewrite N.div_pow2_bits. rewrite N.sub_add by auto.
    destruct (N.ltb_spec k 64); simpl; [apply andb_true_r|].
    rewrite andb_false_r. symmetry. eapply bits_below; eauto.
  - rewrite N.mul_pow2_bits_low by auto. simpl. apply andb_false_r.
Qed.
Lemma overflow_value w : w <= 64 -> N.lxor (2 ^ 64 - 1) (N.ones w) = 2 ^ 64 - 2 ^ w.
Proof.
  intros W. assert (E := land_overflow (2 ^ 64 - 1) w W).
  assert (D : N.land (2 ^ 64 - 1) (N.lxor (2 ^ 64 - 1) (N.ones w)) = N.lxor (2 ^ 64 - 1) (N.ones w)).
  { apply N.bits_inj. intros k. rewrite N.land_spec, overflow_bits by auto.
    change (2 ^ 64 - 1) with (N.ones 64). destruct (N.ltb_spec k 64).
    - now rewrite N.ones_spec_low by auto.
    - now rewrite !andb_false_r. }
  rewrite D in E. rewrite E by (vm_compute; reflexivity).
  pose proof (pow2_split w W) as P. pose proof (pow2_pos w). pose proof (pow2_pos (64 - w)).
  assert (Q : (2 ^ 64 - 1) / 2 ^ w = 2 ^ (64 - w) - 1).
  { symmetry. apply N.div_unique with (2 ^ w - 1); [lia|]. rewrite P.
    set (a := 2 ^ w) in *. set (b := 2 ^ (64 - w)) in *. nia. }
  rewrite Q, P. set (a := 2 ^ w) in *. set (b := 2 ^ (64 - w)) in *. nia.
Qed.
Lemma lor_overflow b w : w <= 64 -> b < 2 ^ w ->
  N.lor b (N.lxor (2 ^ 64 - 1) (N.ones w)) = b + (2 ^ 64 - 2 ^ w).
Proof.
  intros W B. rewrite <- (overflow_value w W). symmetry. rewrite <- N.lxor_lor.
  - apply N.add_nocarry_lxor. apply N.bits_inj_0. intros k. rewrite N.land_spec, overflow_bits by auto.
    destruct (N.leb_spec w k); simpl; [|apply andb_false_r]. now rewrite (bits_below b w k).
  - apply N.bits_inj_0. intros k. rewrite N.land_spec, overflow_bits by auto.
    destruct (N.leb_spec w k); simpl; [|apply andb_false_r]. now rewrite (bits_below b w k).
Qed.
Lemma shiftr_ones w : 1 <= w -> N.shiftr (N.ones w) 1 = N.ones (w - 1).
Proof.
  intros W. apply N.bits_inj. intros k. rewrite N.shiftr_spec by lia.
  destruct (N.ltb_spec k (w - 1)).
  - rewrite !N.ones_spec_low by lia. auto.
  - rewrite !N.ones_spec_high by lia. auto.
Qed.
Lemma ones_succ w : N.ones w + 1 = 2 ^ w.
Proof. rewrite N.ones_equiv. pose proof (pow2_pos w). lia. Qed.
Lemma sign_mask_value w : 1 <= w <= 64 -> mask64 (N.shiftr (N.ones w) 1 + 1) = 2 ^ (w - 1).
Proof.
  intros W. rewrite shiftr_ones, ones_succ by lia. unfold mask64. apply N.mod_small.
  apply N.pow_lt_mono_r; lia.
Qed.
Lemma land_pow2_zero b k : (N.land b (2 ^ k) =? 0) = negb (N.testbit b k).
Proof.
  destruct (N.testbit b k) eqn:T; simpl.
  - apply N.eqb_neq. intros E. assert (H : N.testbit (N.land b (2 ^ k)) k = false) by (rewrite E; apply N.bits_0).
    rewrite N.land_spec, T, N.pow2_bits_true in H. discriminate.
  - apply N.eqb_eq, N.bits_inj_0. intros j. rewrite N.land_spec.
    destruct (N.eq_dec j k) as [->|E]; [now rewrite T|].
    rewrite N.pow2_bits_false by auto. apply andb_false_r.
Qed.
Lemma land_pow2_eq b k : (N.land b (2 ^ k) =? 2 ^ k) = N.testbit b k.
Proof.
  destruct (N.testbit b k) eqn:T.
  - apply N.eqb_eq, N.bits_inj. intros j. rewrite N.land_spec.
    destruct (N.eq_dec j k) as [->|E]; [now rewrite T|].
    rewrite N.pow2_bits_false by auto. apply andb_false_r.
  - apply N.eqb_neq. intros E. assert (H : N.testbit (N.land b (2 ^ k)) k = true) by (rewrite E; apply N.pow2_bits_true).
    rewrite N.land_spec, T in H. discriminate.
Qed.
Lemma testbit_top b k : b < 2 ^ (k + 1) -> N.testbit b k = (2 ^ k <=? b).
Proof.
  intros B. destruct (N.leb_spec (2 ^ k) b) as [H|H].
  - rewrite N.testbit_eqb. apply N.eqb_eq.
    assert (b / 2 ^ k = 1). { symmetry. apply N.div_unique with (b - 2 ^ k); [|lia].
      rewrite N.pow_add_r in B. change (2 ^ 1) with 2 in B. lia. }
    rewrite H0. reflexivity.
  - eapply bits_below; [exact H|lia].
Qed.
Lemma div_pow2_ge b w : (b / 2 ^ w * 2 ^ w =? 0) = (b <? 2 ^ w).
Proof.
  pose proof (pow2_pos w). destruct (N.ltb_spec b (2 ^ w)).
  - rewrite N.div_small by auto. reflexivity.
  - apply N.eqb_neq. assert (1 <= b / 2 ^ w) by (apply N.div_le_lower_bound; lia). nia.
Qed.
Lemma land_ones_eq b n : (N.land b (N.ones n) =? b) = (b <? 2 ^ n).
Proof.
  rewrite N.land_ones. pose proof (pow2_pos n). destruct (N.ltb_spec b (2 ^ n)).
  - rewrite N.mod_small by auto. apply N.eqb_refl.
  - apply N.eqb_neq. pose proof (N.mod_lt b (2 ^ n)). lia.
Qed.

Lemma check_range_dec b w s : 1 <= w <= 64 -> b < 2 ^ 64 ->
  check_range false b w s false = if b <? (if s then 2 ^ (w - 1) else 2 ^ w) then Some b else None.
Proof.
  intros W B. unfold check_range. cbn zeta. rewrite mag_mask. cbn [orb].
  destruct s.
  - rewrite shiftr_ones by lia. rewrite land_ones_eq. destruct (b <? 2 ^ (w - 1)); reflexivity.
  - rewrite land_ones_eq. destruct (b <? 2 ^ w); reflexivity.
Qed.
Lemma check_range_hex b w s : 1 <= w <= 64 -> b < 2 ^ 64 ->
  check_range false b w s true =
  if b <? 2 ^ w then Some (if s && (2 ^ (w - 1) <=? b) then b + (2 ^ 64 - 2 ^ w) else b) else None.
Proof.
  intros W B. unfold check_range. cbn zeta. rewrite mag_mask. cbn [orb].
  destruct s.
  - rewrite sign_mask_value by lia. rewrite land_overflow, div_pow2_ge by lia.
    destruct (N.ltb_spec b (2 ^ w)) as [H|H]; [|reflexivity]. cbn [negb].
    rewrite land_pow2_zero, testbit_top by (replace (w - 1 + 1) with w by lia; auto).
    cbn [andb]. rewrite negb_involutive. destruct (2 ^ (w - 1) <=? b); auto.
    rewrite lor_overflow by lia. auto.
  - rewrite land_overflow, div_pow2_ge by lia.
    destruct (N.ltb_spec b (2 ^ w)) as [H|H]; [|reflexivity]. cbn [negb].
    rewrite N.land_0_r. reflexivity.
Qed.
Lemma split_a T h q m : T = 2 * h * q -> 1 <= q -> m <= 2 * h -> T - m = 2 * h * (q - 1) + (2 * h - m).
Proof. intros -> Q M. rewrite N.mul_sub_distr_l. assert (2 * h * 1 <= 2 * h * q) by (apply N.mul_le_mono_l; auto). lia. Qed.
Lemma split_b T h q m : T = 2 * h * q -> 1 <= q -> m <= h -> T - m = h * (2 * q - 1) + (h - m).
Proof.
  intros -> Q M. rewrite N.mul_sub_distr_l. replace (h * (2 * q)) with (2 * h * q) by lia.
  assert (2 * h * 1 <= 2 * h * q) by (apply N.mul_le_mono_l; auto). lia.
Qed.
Lemma split_c T h q m : T = 2 * h * q -> 1 <= q -> m <= 2 * h -> T - m = h * (2 * (q - 1)) + (2 * h - m).
Proof. intros E Q M. rewrite (split_a T h q m) by auto. lia. Qed.
Lemma check_range_neg z w : 1 <= w <= 64 -> (- 2 ^ 63 <= z < 0)%Z ->
  check_range true (bits_of_int64 z) w true false =
  if (- 2 ^ (Z.of_N w - 1) <=? z)%Z then Some (bits_of_int64 z) else None.
Proof.
  intros W Z0. unfold check_range. cbn zeta. rewrite mag_mask. cbn [orb].
  rewrite sign_mask_value by lia.
  assert (B : bits_of_int64 z = 2 ^ 64 - Z.to_N (- z)).
  { unfold bits_of_int64. rewrite <- (Z_mod_plus_full z 1). rewrite Z.mod_small; lia. }
  assert (BL : bits_of_int64 z < 2 ^ 64) by (rewrite B; lia).
  rewrite land_overflow by lia. rewrite overflow_value by lia. rewrite land_pow2_eq.
  set (m := Z.to_N (- z)) in *. assert (M : 1 <= m <= 2 ^ 63) by lia.
  assert (PW : (2 ^ (Z.of_N w - 1) = Z.of_N (2 ^ (w - 1)))%Z).
  { rewrite N2Z.inj_pow. f_equal. lia. }
  assert (CMP : (- 2 ^ (Z.of_N w - 1) <=? z)%Z = (m <=? 2 ^ (w - 1))) by (rewrite PW; lia).
  rewrite CMP. clear CMP PW.
  pose proof (pow2_split w ltac:(lia)) as P. pose proof (pow2_pos (64 - w)) as P1.
  assert (P2 : 2 ^ w = 2 * 2 ^ (w - 1)). { rewrite <- N.pow_succ_r'. f_equal. lia. }
  pose proof (pow2_pos (w - 1)) as P3.
  rewrite B. clear BL B.
  assert (TB : N.testbit (2 ^ 64 - m) (w - 1) = true <-> (2 ^ 64 - m) / 2 ^ (w - 1) mod 2 = 1).
  { rewrite N.testbit_eqb. apply N.eqb_eq. }
  set (h := 2 ^ (w - 1)) in *. set (q := 2 ^ (64 - w)) in *.
  destruct (N.leb_spec m h) as [H|H].
  - (* in range *)
    assert (D1 : (2 ^ 64 - m) / 2 ^ w = q - 1).
    { symmetry. apply N.div_unique with (2 * h - m); [lia|]. rewrite P2. apply split_a; lia. }
    assert (D2 : (2 ^ 64 - m) / h = 2 * q - 1).
    { symmetry. apply N.div_unique with (h - m); [lia|]. apply split_b; lia. }
    rewrite D1. replace ((q - 1) * 2 ^ w =? 2 ^ 64 - 2 ^ w) with true by (symmetry; apply N.eqb_eq; rewrite P, N.mul_sub_distr_r, N.mul_1_l, (N.mul_comm q); reflexivity).
    replace (N.testbit (2 ^ 64 - m) (w - 1)) with true; auto. symmetry. apply TB. rewrite D2.
    replace (2 * q - 1) with (1 + (q - 1) * 2) by lia. rewrite N.mod_add by lia. reflexivity.
  - destruct (N.leb_spec m (2 * h)) as [H2|H2].
    + (* overflow bits fine, sign bit clear *)
      assert (F : N.testbit (2 ^ 64 - m) (w - 1) = false).
      { destruct (N.testbit (2 ^ 64 - m) (w - 1)); auto. exfalso. destruct TB as [TB _].
        specialize (TB eq_refl).
        assert (D2 : (2 ^ 64 - m) / h = 2 * (q - 1)).
        { symmetry. apply N.div_unique with (2 * h - m); [lia|]. apply split_c; lia. }
        rewrite D2, N.mul_comm, N.mod_mul in TB by lia. discriminate. }
      rewrite F. rewrite orb_true_r. reflexivity.
    + replace ((2 ^ 64 - m) / 2 ^ w * 2 ^ w =? 2 ^ 64 - 2 ^ w) with false; auto.
      symmetry. apply N.eqb_neq. intros E.
      assert ((2 ^ 64 - m) / 2 ^ w * 2 ^ w <= 2 ^ 64 - m).
      { rewrite N.mul_comm. apply N.mul_div_le. lia. }
      rewrite E in H0. lia.
Qed.

(** ** Acceptance *)
Lemma bits_of_int64_lt z : bits_of_int64 z < 2 ^ 64.
Proof. unfold bits_of_int64. pose proof (Z.mod_pos_bound z (2 ^ 64) ltac:(lia)). lia. Qed.

Definition words_of_bits (w b : N) : list N :=
  if 32 <? w
  then [N.land (2 ^ 32 - 1) b; N.shiftr (N.land (2 ^ 64 - 2 ^ 32) b) 32]
  else [b mod 2 ^ 32].
Lemma words_of_bits_encoding w v : words_of_bits w (bits_of_int64 v) = encoding w v.
Proof.
  unfold words_of_bits, encoding. pose proof (bits_of_int64_lt v) as B.
  assert (L : bits_of_int64 v mod 2 ^ 32 = Z.to_N (v mod 2 ^ 32)).
  { unfold bits_of_int64. change (2 ^ 64)%Z with 18446744073709551616%Z in *. change (2 ^ 32)%Z with 4294967296%Z.
    change (2 ^ 32) with 4294967296. lia. }
  assert (H : bits_of_int64 v / 2 ^ 32 = Z.to_N (v / 2 ^ 32 mod 2 ^ 32)).
  { unfold bits_of_int64. change (2 ^ 64)%Z with 18446744073709551616%Z in *. change (2 ^ 32)%Z with 4294967296%Z.
    change (2 ^ 32) with 4294967296. lia. }
  destruct (N.ltb_spec 32 w) as [W|W].
  - replace (w <=? 32) with false by lia. f_equal; [|f_equal].
    + rewrite <- L. rewrite N.land_comm. change (2 ^ 32 - 1) with (N.ones 32). apply N.land_ones.
    + rewrite <- H. rewrite N.shiftr_land. change (N.shiftr (2 ^ 64 - 2 ^ 32) 32) with (N.ones 32).
      rewrite N.land_comm, N.land_ones, N.shiftr_div_pow2. apply N.mod_small. apply N.div_lt_upper_bound; lia.
  - replace (w <=? 32) with true by lia. now rewrite L.
Qed.
Lemma bits_of_int64_N m : m < 2 ^ 64 -> bits_of_int64 (Z.of_N m) = m.
Proof. intros. unfold bits_of_int64. rewrite Z.mod_small; lia. Qed.

Definition is_negative (text : list N) : bool := match text with c :: _ => c =? 45 | [] => false end.
Definition decoded (text : list N) (width : N) (signed : bool) : option N :=
  if is_negative text then
    match parse_number_signed 64 text with
    | None => None
    | Some z => check_range (z <? 0)%Z (bits_of_int64 z) width signed (hex_prefix text)
    end
  else
    match parse_number_unsigned 64 text with
    | None => None
    | Some b => check_range false b width signed (hex_prefix text)
    end.
Lemma encode_integer_decoded text w s : w <= 64 ->
  encode_integer text w s =
  if is_negative text && negb s then Enc_invalid_usage
  else match decoded text w s with None => Enc_invalid_text | Some b => Enc_success (words_of_bits w b) end.
Proof.
  intros W. unfold encode_integer. replace (64 <? w) with false by lia.
  fold (is_negative text). fold (hex_prefix text). fold (decoded text w s). cbn zeta.
  destruct (is_negative text && negb s); auto.
  unfold words_of_bits. destruct (decoded text w s); auto. now destruct (32 <? w).
Qed.

Lemma parse_unsigned_plain l hex m : unsigned_text l hex m ->
  parse_number_unsigned 64 l = if m <? 2 ^ 64 then Some m else None.
Proof.
  intros U. destruct (unsigned_text_head _ _ _ U) as (c & t & E & C).
  assert (NS : no_leading_space l) by (subst l; simpl; unfold is_space; lia).
  unfold parse_number_unsigned. rewrite stream_int_mag by auto.
  assert (S : stream_mag false l = Some (false, m, [])) by (apply stream_mag_spec; eauto).
  subst l. replace (c =? 45) with false by lia. replace (c =? 43) with false by lia. rewrite S.
  destruct (m <? 2 ^ 64); auto.
Qed.
Lemma parse_unsigned_plus l hex m : unsigned_text l hex m ->
  parse_number_unsigned 64 (43 :: l) = if m <? 2 ^ 64 then Some m else None.
Proof.
  intros U. unfold parse_number_unsigned. rewrite stream_int_mag by reflexivity.
  change (43 =? 45) with false. change (43 =? 43) with true.
  assert (S : stream_mag false l = Some (false, m, [])) by (apply stream_mag_spec; eauto).
  rewrite S. destruct (m <? 2 ^ 64); auto.
Qed.
Lemma parse_signed_neg l hex m : unsigned_text l hex m ->
  parse_number_signed 64 (45 :: l) = if m <=? 2 ^ 63 then Some (- Z.of_N m)%Z else None.
Proof.
  intros U. unfold parse_number_signed. rewrite stream_int_mag by reflexivity.
  change (45 =? 45) with true.
  assert (S : stream_mag true l = Some (true, m, [])) by (apply stream_mag_spec; eauto).
  rewrite S. reflexivity.
Qed.
Lemma unsigned_no_text text : no_leading_space text -> is_negative text = false ->
  parse_number_unsigned 64 text <> None ->
  (exists l hex m, text = 43 :: l /\ unsigned_text l hex m) \/ (exists hex m, unsigned_text text hex m).
Proof.
  intros NS NEG P. unfold parse_number_unsigned in P. rewrite stream_int_mag in P by auto.
  destruct text as [|c t]; [congruence|]. simpl in NEG. rewrite NEG in P.
  destruct (N.eqb_spec c 43) as [->|C].
  - destruct (stream_mag false t) as [[[n m] r]|] eqn:S; [|congruence].
    destruct r; [|congruence]. pose proof (stream_mag_neg _ _ _ _ _ S); subst n.
    apply stream_mag_spec in S. destruct S as [hex U]. left; eauto 6.
  - destruct (stream_mag false (c :: t)) as [[[n m] r]|] eqn:S; [|congruence].
    destruct r; [|congruence]. pose proof (stream_mag_neg _ _ _ _ _ S); subst n.
    apply stream_mag_spec in S. destruct S as [hex U]. right; eauto.
Qed.
Lemma signed_no_text l : parse_number_signed 64 (45 :: l) <> None -> exists hex m, unsigned_text l hex m.
Proof.
  unfold parse_number_signed. rewrite stream_int_mag by reflexivity. change (45 =? 45) with true. cbn iota.
  destruct (stream_mag true l) as [[[n m] r]|] eqn:S; [|congruence].
  destruct r; [|congruence]. pose proof (stream_mag_neg _ _ _ _ _ S); subst n.
  apply stream_mag_spec in S. destruct S as [hex U]. eauto.
Qed.

Lemma pow_half w : 1 <= w -> 2 ^ w = 2 * 2 ^ (w - 1).
Proof. intros. rewrite <- N.pow_succ_r'. f_equal. lia. Qed.
Lemma zpow_N w : (2 ^ Z.of_N w = Z.of_N (2 ^ w))%Z.
Proof. now rewrite N2Z.inj_pow. Qed.
Lemma zpow_N1 w : 1 <= w -> (2 ^ (Z.of_N w - 1) = Z.of_N (2 ^ (w - 1)))%Z.
Proof. intros. rewrite N2Z.inj_pow. f_equal. lia. Qed.
Lemma pow_le64 w : w <= 64 -> 2 ^ w <= 2 ^ 64.
Proof. intros. apply N.pow_le_mono_r; lia. Qed.

Lemma decoded_neg l hex m w : 1 <= w <= 64 -> unsigned_text l hex m ->
  decoded (45 :: l) w true = if m <=? 2 ^ (w - 1) then Some (bits_of_int64 (- Z.of_N m)) else None.
Proof.
  intros W U. unfold decoded. change (is_negative (45 :: l)) with true.
  replace (hex_prefix (45 :: l)) with false by (destruct l; auto). cbn iota.
  rewrite (parse_signed_neg _ _ _ U).
  pose proof (pow_half w ltac:(lia)) as PH. pose proof (pow_le64 w ltac:(lia)) as PL.
  assert (P63 : 2 ^ 64 = 2 * 2 ^ 63) by reflexivity. pose proof (pow2_pos (w - 1)).
  destruct (N.leb_spec m (2 ^ 63)) as [L|L].
  - destruct (Z.ltb_spec (- Z.of_N m) 0) as [N0|N0].
    + rewrite check_range_neg by lia. rewrite zpow_N1 by lia.
      replace (- Z.of_N (2 ^ (w - 1)) <=? - Z.of_N m)%Z with (m <=? 2 ^ (w - 1)) by lia. auto.
    + assert (m = 0) by lia. subst m. rewrite check_range_dec by (try lia; apply bits_of_int64_lt).
      change (bits_of_int64 (- Z.of_N 0)) with 0.
      replace (0 <? 2 ^ (w - 1)) with true by lia. replace (0 <=? 2 ^ (w - 1)) with true by lia. auto.
  - replace (m <=? 2 ^ (w - 1)) with false by lia. auto.
Qed.
Lemma decoded_plus l hex m w s : 1 <= w <= 64 -> unsigned_text l hex m ->
  decoded (43 :: l) w s = if m <? (if s then 2 ^ (w - 1) else 2 ^ w) then Some m else None.
Proof.
  intros W U. unfold decoded. change (is_negative (43 :: l)) with false.
  replace (hex_prefix (43 :: l)) with false by (destruct l; auto). cbn iota.
  rewrite (parse_unsigned_plus _ _ _ U).
  pose proof (pow_half w ltac:(lia)) as PH. pose proof (pow_le64 w ltac:(lia)) as PL.
  destruct (N.ltb_spec m (2 ^ 64)) as [L|L].
  - now rewrite check_range_dec by lia.
  - replace (m <? (if s then 2 ^ (w - 1) else 2 ^ w)) with false by (destruct s; lia). auto.
Qed.
Lemma decoded_plain l m w s : 1 <= w <= 64 -> unsigned_text l false m ->
  decoded l w s = if m <? (if s then 2 ^ (w - 1) else 2 ^ w) then Some m else None.
Proof.
  intros W U. unfold decoded. destruct (unsigned_text_head _ _ _ U) as (c & t & E & C).
  replace (is_negative l) with false by (subst l; simpl; lia).
  rewrite (unsigned_text_hex _ _ _ U). rewrite (parse_unsigned_plain _ _ _ U).
  pose proof (pow_half w ltac:(lia)) as PH. pose proof (pow_le64 w ltac:(lia)) as PL.
  destruct (N.ltb_spec m (2 ^ 64)) as [L|L].
  - now rewrite check_range_dec by lia.
  - replace (m <? (if s then 2 ^ (w - 1) else 2 ^ w)) with false by (destruct s; lia). auto.
Qed.
Lemma decoded_hex l m w s : 1 <= w <= 64 -> unsigned_text l true m ->
  decoded l w s = if m <? 2 ^ w
                  then Some (if s && (2 ^ (w - 1) <=? m) then m + (2 ^ 64 - 2 ^ w) else m) else None.
Proof.
  intros W U. unfold decoded. destruct (unsigned_text_head _ _ _ U) as (c & t & E & C).
  replace (is_negative l) with false by (subst l; simpl; lia).
  rewrite (unsigned_text_hex _ _ _ U). rewrite (parse_unsigned_plain _ _ _ U).
  pose proof (pow_half w ltac:(lia)) as PH. pose proof (pow_le64 w ltac:(lia)) as PL.
  destruct (N.ltb_spec m (2 ^ 64)) as [L|L].
  - now rewrite check_range_hex by lia.
  - replace (m <? 2 ^ w) with false by lia. auto.
Qed.

Lemma decoded_iff text w s b : 1 <= w <= 64 -> no_leading_space text ->
  is_negative text && negb s = false ->
  decoded text w s = Some b <->
  exists v, literal_value w s text v /\ representable w s v /\ b = bits_of_int64 v.
Proof.
  intros W NS NEG.
  pose proof (pow_half w ltac:(lia)) as PH. pose proof (pow_le64 w ltac:(lia)) as PL.
  pose proof (zpow_N w) as ZW. pose proof (zpow_N1 w ltac:(lia)) as ZH. pose proof (pow2_pos (w - 1)) as PP.
  split.
  - intros D. destruct (is_negative text) eqn:I.
    + destruct s; [|discriminate]. destruct text as [|c l]; [discriminate|].
      apply N.eqb_eq in I. subst c.
      assert (X : exists hex m, unsigned_text l hex m).
      { apply signed_no_text. intros E. unfold decoded in D. change (is_negative (45 :: l)) with true in D.
        cbn iota in D. rewrite E in D. discriminate. }
      destruct X as (hex & m & U). rewrite (decoded_neg _ _ _ _ W U) in D.
      destruct (N.leb_spec m (2 ^ (w - 1))); [|discriminate]. inversion D; subst b.
      exists (- Z.of_N m)%Z. split; [econstructor; eauto|]. split; auto.
      unfold representable. lia.
    + assert (X : parse_number_unsigned 64 text <> None).
      { intros E. unfold decoded in D. rewrite I in D. rewrite E in D. discriminate. }
      apply unsigned_no_text in X; auto. destruct X as [(l & hex & m & -> & U)|(hex & m & U)].
      * rewrite (decoded_plus _ _ _ _ _ W U) in D.
        destruct (N.ltb_spec m (if s then 2 ^ (w - 1) else 2 ^ w)); [|discriminate]. inversion D; subst b.
        exists (Z.of_N m). split; [econstructor; eauto|]. split; [unfold representable; destruct s; lia|].
        rewrite bits_of_int64_N; auto. destruct s; lia.
      * destruct hex.
        -- rewrite (decoded_hex _ _ _ _ W U) in D. destruct (N.ltb_spec m (2 ^ w)); [|discriminate].
           destruct s; cbn [andb] in D.
           ++ destruct (N.leb_spec (2 ^ (w - 1)) m); inversion D; subst b.
              ** exists (Z.of_N m - 2 ^ Z.of_N w)%Z. split; [apply lv_hex_wrap; auto|].
                 split; [unfold representable; lia|].
                 unfold bits_of_int64. rewrite <- (Z_mod_plus_full _ 1). rewrite Z.mod_small; lia.
              ** exists (Z.of_N m). split; [apply lv_hex_pos; auto|].
                 split; [unfold representable; lia|]. rewrite bits_of_int64_N; auto. lia.
           ++ inversion D; subst b. exists (Z.of_N m). split; [apply lv_hex_pos; auto; discriminate|].
              split; [unfold representable; lia|]. rewrite bits_of_int64_N; auto. lia.
        -- rewrite (decoded_plain _ _ _ _ W U) in D.
           destruct (N.ltb_spec m (if s then 2 ^ (w - 1) else 2 ^ w)); [|discriminate]. inversion D; subst b.
           exists (Z.of_N m). split; [apply lv_plain; eauto|]. split; [unfold representable; destruct s; lia|].
           rewrite bits_of_int64_N; auto. destruct s; lia.
  - intros (v & L & R & ->). unfold representable in R. destruct L as [l hex m -> U|l hex m U|l m U|l m U C|l m U -> C1 C2].
    + rewrite (decoded_neg _ _ _ _ W U). replace (m <=? 2 ^ (w - 1)) with true by lia. auto.
    + rewrite (decoded_plus _ _ _ _ _ W U).
      replace (m <? (if s then 2 ^ (w - 1) else 2 ^ w)) with true by (destruct s; lia).
      rewrite bits_of_int64_N; auto. destruct s; lia.
    + rewrite (decoded_plain _ _ _ _ W U).
      replace (m <? (if s then 2 ^ (w - 1) else 2 ^ w)) with true by (destruct s; lia).
      rewrite bits_of_int64_N; auto. destruct s; lia.
    + rewrite (decoded_hex _ _ _ _ W U). replace (m <? 2 ^ w) with true by (destruct s; lia).
      replace (s && (2 ^ (w - 1) <=? m)) with false by (destruct s; auto; specialize (C eq_refl); lia).
      rewrite bits_of_int64_N; auto. destruct s; lia.
    + rewrite (decoded_hex _ _ _ _ W U). replace (m <? 2 ^ w) with true by lia.
      replace (true && (2 ^ (w - 1) <=? m)) with true by lia.
      f_equal. unfold bits_of_int64. rewrite <- (Z_mod_plus_full _ 1). rewrite Z.mod_small; lia.
Qed.

Theorem encode_integer_iff text w s ws : 1 <= w <= 64 -> no_leading_space text ->
  encode_integer text w s = Enc_success ws <->
  exists v, literal_value w s text v /\ representable w s v /\ ws = encoding w v.
Proof.
  intros W NS. rewrite encode_integer_decoded by lia.
  destruct (is_negative text && negb s) eqn:E.
  - split; [discriminate|]. intros (v & L & _). exfalso.
    apply andb_true_iff in E. destruct E as [E1 E2]. destruct s; [discriminate|].
    destruct L as [l hex m H U|l hex m U|l m U|l m U C|l m U H C1 C2]; try discriminate.
    + destruct (unsigned_text_head _ _ _ U) as (c & t & -> & C). simpl in E1. lia.
    + destruct (unsigned_text_head _ _ _ U) as (c & t & -> & C'). simpl in E1. lia.
  - pose proof (fun b => decoded_iff text w s b W NS E) as D. split.
    + destruct (decoded text w s) as [b|]; [|discriminate]. intros H; inversion H; subst ws.
      destruct (proj1 (D b) eq_refl) as (v & L & R & ->). exists v. repeat split; auto.
      apply words_of_bits_encoding.
    + intros (v & L & R & ->). rewrite (proj2 (D (bits_of_int64 v))) by eauto.
      now rewrite words_of_bits_encoding.
Qed.

(** ** Printing *)
Lemma dec_digits_spec fuel n acc : n < 2 ^ N.of_nat fuel -> (1 <= fuel)%nat ->
  exists c s, dec_digits fuel n acc = c :: s ++ acc /\ numeral 10 (c :: s) n /\ (c = 48 -> s = [] /\ n = 0).
Proof.
  revert n acc. induction fuel as [|fuel IH]; intros n acc L F; [lia|].
  cbn [dec_digits]. cbn zeta. destruct (N.eqb_spec (n / 10) 0) as [E|E].
  - exists (48 + n mod 10), []. split; auto. assert (n < 10) by lia.
    rewrite N.mod_small by auto. split; [|intros; split; [auto|lia]].
    constructor; auto. constructor; auto.
  - assert (n / 10 < 2 ^ N.of_nat fuel).
    { replace (N.of_nat (S fuel)) with (N.of_nat fuel + 1) in L by lia.
      rewrite N.pow_add_r in L. change (2 ^ 1) with 2 in L. lia. }
    assert (1 <= fuel)%nat.
    { destruct fuel; [|lia]. change (2 ^ N.of_nat 0) with 1 in H. lia. }
    destruct (IH (n / 10) ((48 + n mod 10) :: acc) H H0) as (c & s & -> & N0 & Z).
    exists c, (s ++ [48 + n mod 10]). split; [now rewrite <- app_assoc|]. split.
    + rewrite app_comm_cons. rewrite (N.div_mod n 10) at 2 by lia. constructor; auto.
      * constructor. lia.
      * lia.
    + intros C. destruct (Z C). lia.
Qed.
Lemma pos_size_nat p : N.pos (Pos.size p) = N.of_nat (Pos.size_nat p).
Proof.
  induction p as [p IHp|p IHp|]; cbn [Pos.size Pos.size_nat]; auto; rewrite Nat2N.inj_succ, <- IHp; reflexivity.
Qed.
Lemma size_nat_bound n : n < 2 ^ N.of_nat (S (N.size_nat n)).
Proof.
  assert (n < 2 ^ N.size n \/ n = 0).
  { destruct n; auto. left. apply N.size_gt. }
  rewrite Nat2N.inj_succ, N.pow_succ_r'.
  replace (N.of_nat (N.size_nat n)) with (N.size n).
  - destruct H as [H| ->]; [lia|]. apply N.neq_0_lt_0. simpl. discriminate.
  - destruct n; auto. apply pos_size_nat.
Qed.
Lemma print_nat_text n : unsigned_text (print_nat n) false n.
Proof.
  unfold print_nat. destruct (dec_digits_spec (S (N.size_nat n)) n [] (size_nat_bound n) ltac:(lia))
    as (c & s & -> & N0 & Z). rewrite app_nil_r.
  destruct (N.eq_dec c 48) as [->|C]; [|now apply ut_dec].
  destruct (Z eq_refl) as [-> ->]. apply ut_oct. constructor; [|lia]. change 48 with (48 + 0). constructor. lia.
Qed.
Lemma print_int_text w s z : (z < 0 -> s = true)%Z -> literal_value w s (print_int z) z.
Proof.
  intros H. unfold print_int. destruct (Z.ltb_spec z 0) as [L|L].
  - replace z with (- Z.of_N (Z.to_N (- z)))%Z at 2 by lia. econstructor; auto. apply print_nat_text.
  - replace z with (Z.of_N (Z.to_N z)) at 2 by lia. apply lv_plain. apply print_nat_text.
Qed.
Lemma print_nat_value w s n : literal_value w s (print_nat n) (Z.of_N n).
Proof. apply lv_plain, print_nat_text. Qed.

Lemma unsigned_text_space l hex m : unsigned_text l hex m -> no_leading_space l.
Proof. intros U. destruct (unsigned_text_head _ _ _ U) as (c & t & -> & C). simpl. unfold is_space. lia. Qed.
Lemma print_int_space z : no_leading_space (print_int z).
Proof.
  unfold print_int. destruct (z <? 0)%Z; [reflexivity|]. eapply unsigned_text_space, print_nat_text.
Qed.

Lemma emit_encoding w s v : 1 <= w <= 64 -> representable w s v ->
  emit_integer (encoding w v) s = print_int v.
Proof.
  intros W R. unfold representable in R.
  pose proof (pow_half w ltac:(lia)) as PH. pose proof (pow_le64 w ltac:(lia)) as PL.
  pose proof (zpow_N w) as ZW. pose proof (zpow_N1 w ltac:(lia)) as ZH. pose proof (pow2_pos (w - 1)) as PP.
  unfold encoding. destruct (N.leb_spec w 32) as [L|L]; cbn [emit_integer].
  - assert (PL32 : 2 ^ w <= 2 ^ 32) by (apply N.pow_le_mono_r; lia).
    assert (E32 : 2 ^ 32 = 4294967296) by reflexivity.
    destruct s.
    + f_equal. unfold to_signed. change (2 ^ (32 - 1)) with 2147483648. change (2 ^ Z.of_N 32)%Z with 4294967296%Z.
      change (2 ^ 32)%Z with 4294967296%Z.
      destruct (Z.ltb_spec v 0).
      * assert (E : (v mod 4294967296 = v + 4294967296)%Z) by lia. rewrite E.
        replace (Z.to_N (v + 4294967296) <? 2147483648) with false by lia. lia.
      * rewrite Z.mod_small by lia. replace (Z.to_N v <? 2147483648) with true by lia. lia.
    + unfold print_int. replace (v <? 0)%Z with false by lia. f_equal. f_equal. apply Z.mod_small. lia.
  - assert (E : N.lor (Z.to_N (v mod 2 ^ 32)) (N.shiftl (Z.to_N (v / 2 ^ 32 mod 2 ^ 32)) 32) = Z.to_N (v mod 2 ^ 64)).
    { rewrite N.shiftl_mul_pow2. rewrite N.lor_comm.
      assert (D : N.lor (Z.to_N (v / 2 ^ 32 mod 2 ^ 32) * 2 ^ 32) (Z.to_N (v mod 2 ^ 32)) =
                  Z.to_N (v / 2 ^ 32 mod 2 ^ 32) * 2 ^ 32 + Z.to_N (v mod 2 ^ 32)).
      { assert (X : N.land (Z.to_N (v / 2 ^ 32 mod 2 ^ 32) * 2 ^ 32) (Z.to_N (v mod 2 ^ 32)) = 0).
        { apply N.bits_inj_0. intros k. rewrite N.land_spec. destruct (N.ltb_spec k 32).
          - now rewrite N.mul_pow2_bits_low by auto.
          - rewrite (bits_below (Z.to_N (v mod 2 ^ 32)) 32 k); [apply andb_false_r| |auto].
            change (2 ^ 32)%Z with 4294967296%Z. change (2 ^ 32) with 4294967296. lia. }
        rewrite <- N.lxor_lor by auto. symmetry. now apply N.add_nocarry_lxor. }
      rewrite D. change (2 ^ 64)%Z with 18446744073709551616%Z. change (2 ^ 32)%Z with 4294967296%Z.
      change (2 ^ 32) with 4294967296. lia. }
    rewrite E. destruct s.
    + f_equal. unfold to_signed. change (2 ^ (64 - 1)) with 9223372036854775808.
      change (2 ^ Z.of_N 64)%Z with 18446744073709551616%Z. change (2 ^ 64)%Z with 18446744073709551616%Z.
      change (2 ^ 64) with 18446744073709551616 in PL.
      destruct (Z.ltb_spec v 0).
      * assert (E' : (v mod 18446744073709551616 = v + 18446744073709551616)%Z) by lia. rewrite E'.
        replace (Z.to_N (v + 18446744073709551616) <? 9223372036854775808) with false by lia. lia.
      * rewrite Z.mod_small by lia. replace (Z.to_N v <? 9223372036854775808) with true by lia. lia.
    + unfold print_int. replace (v <? 0)%Z with false by lia. f_equal. f_equal. apply Z.mod_small.
      change (2 ^ 64)%Z with (Z.of_N (2 ^ 64)). lia.
Qed.

Theorem emit_encode_roundtrip w s v : 1 <= w <= 64 -> representable w s v ->
  encode_integer (emit_integer (encoding w v) s) w s = Enc_success (encoding w v).
Proof.
  intros W R. rewrite emit_encoding by auto. apply encode_integer_iff; auto; [apply print_int_space|].
  exists v. repeat split; auto. apply print_int_text. intros L. unfold representable in R. destruct s; auto. lia.
Qed.
