(** Printing and reading back: HexFloat.v against HexFloatSpec.v. *)
From Verif Require Import Base TextLex ParseNumber NumberSpec NumberProofs WordsProofs HexFloat HexFloatSpec HexFloatProofs HexFloatProofs2 HexFloatProofs3 HexFloatProofs4 HexFloatProofs5.
Local Open Scope N_scope.

(** ** The fields of a pattern *)
Lemma land_pow2 x i : N.land x (2 ^ i) = if N.testbit x i then 2 ^ i else 0.
Proof.
  apply N.bits_inj. intros j. rewrite N.land_spec. rewrite N.pow2_bits_eqb.
  destruct (N.eqb_spec i j) as [<-|NE].
  - rewrite andb_true_r. destruct (N.testbit x i) eqn:T; [now rewrite N.pow2_bits_true|now rewrite N.bits_0].
  - rewrite andb_false_r. destruct (N.testbit x i); [rewrite N.pow2_bits_false; auto|now rewrite N.bits_0].
Qed.
Lemma magnitude_lt eb fb b : magnitude eb fb b < 2 ^ (eb + fb).
Proof. apply N.mod_lt. pose proof (pow2_pos (eb + fb)). lia. Qed.
Lemma land_mid x a n : N.shiftr (N.land x (set_bits a n)) a = (x mod 2 ^ (n + a)) / 2 ^ a.
Proof.
  unfold set_bits. rewrite N.shiftr_land, N.shiftr_shiftl_l, N.sub_diag, N.shiftl_0_r by lia. rewrite N.land_ones, N.shiftr_div_pow2.
  rewrite pow2_add. pose proof (pow2_pos a). pose proof (pow2_pos n).
  rewrite (N.mul_comm (2 ^ n)), N.mod_mul_r by lia.
  rewrite N.add_comm, (N.mul_comm (2 ^ a)), N.div_add_l by lia.
  rewrite (N.div_small (x mod 2 ^ a)) by (apply N.mod_lt; lia). lia.
Qed.
Lemma field_exponent f eb fb b : fmt_ok f eb fb ->
  N.shiftr (N.land b (exponent_mask f)) (fbits f) = magnitude eb fb b / 2 ^ fb.
Proof. intros O. unfold exponent_mask. rewrite (ok_f _ _ _ O), (ok_e _ _ _ O). apply land_mid. Qed.
Lemma field_fraction f eb fb b : fmt_ok f eb fb ->
  N.land b (fraction_encode_mask f) = magnitude eb fb b mod 2 ^ fb.
Proof.
  intros O. unfold fraction_encode_mask. rewrite land_set0, (ok_f _ _ _ O). unfold magnitude.
  rewrite pow2_add, (N.mul_comm (2 ^ eb)). pose proof (pow2_pos fb). pose proof (pow2_pos eb).
  rewrite N.mod_mul_r by lia. rewrite (N.mul_comm (2 ^ fb)), N.mod_add by lia. symmetry. apply N.mod_mod. lia.
Qed.
Lemma field_sign f eb fb b : fmt_ok f eb fb -> (N.land b (sign_mask f) =? 0) = negb (sign_of eb fb b).
Proof.
  intros O. unfold sign_mask, top_bit_left_shift, sign_of. rewrite (ok_sign _ _ _ O), (ok_used _ _ _ O), (ok_u _ _ _ O), N.shiftl_1_l.
  replace (1 + eb + fb - 1) with (eb + fb) by lia. rewrite land_pow2. pose proof (pow2_pos (eb + fb)).
  destruct (N.testbit b (eb + fb)); cbn [negb]; [apply N.eqb_neq; lia|reflexivity].
Qed.
Lemma make_fields eb fb b : b < 2 ^ (1 + eb + fb) -> make eb fb (sign_of eb fb b) (magnitude eb fb b) = b.
Proof.
  intros L. unfold make, sign_of, magnitude. rewrite N.testbit_eqb. replace (1 + eb + fb) with (1 + (eb + fb)) in L by lia.
  rewrite (pow2_add 1) in L. change (2 ^ 1) with 2 in L. pose proof (pow2_pos (eb + fb)).
  assert (D : b / 2 ^ (eb + fb) < 2) by (apply N.div_lt_upper_bound; lia).
  pose proof (N.div_mod b (2 ^ (eb + fb)) ltac:(lia)) as E.
  destruct (N.eq_dec (b / 2 ^ (eb + fb)) 0) as [Z|Z].
  - rewrite Z in *. change (0 mod 2 =? 1) with false. cbn match. rewrite N.mul_0_r in E. symmetry. exact E.
  - assert (Z1 : b / 2 ^ (eb + fb) = 1) by (clear - D Z; generalize dependent (b / 2 ^ (eb + fb)); intros; lia). rewrite Z1 in *. change (1 mod 2 =? 1) with true. cbn match.
    rewrite N.mul_1_r in E. symmetry. exact E.
Qed.

Lemma deq_refl_of a b : a = b -> deq a b.
Proof. intros ->. reflexivity. Qed.
Lemma deq_trans a b c : deq a b -> deq b c -> deq a c.
Proof.
  intros A B. set (k := Z.min (snd a) (Z.min (snd b) (snd c))).
  rewrite (deq_at _ _ k) in A by (unfold k; lia). rewrite (deq_at _ _ k) in B by (unfold k; lia).
  rewrite (deq_at a c k) by (unfold k; lia). congruence.
Qed.
Lemma deq_shift m x j : deq (m * 2 ^ j, x) (m, (x + Z.of_N j)%Z).
Proof.
  rewrite (deq_at _ _ x) by (cbn [snd]; lia). unfold scaled. cbn [fst snd].
  rewrite Z.sub_diag. change (2 ^ 0)%Z with 1%Z. replace (x + Z.of_N j - x)%Z with (Z.of_N j) by lia.
  rewrite <- of_N_pow, <- N2Z.inj_mul. lia.
Qed.

Lemma swrap_small u z : 0 < u -> (- 2 ^ (Z.of_N u - 1) <= z < 2 ^ (Z.of_N u - 1))%Z -> swrap u z = z.
Proof.
  intros U L. unfold swrap.
  assert (E : (2 ^ Z.of_N u = 2 * 2 ^ (Z.of_N u - 1))%Z).
  { replace (Z.of_N u) with (1 + (Z.of_N u - 1))%Z at 1 by lia. rewrite zpow_add by lia. reflexivity. }
  rewrite E. set (h := (2 ^ (Z.of_N u - 1))%Z) in *. assert (0 < h)%Z by (apply zpow_pos; lia).
  destruct (Z.le_gt_cases 0 z) as [P|P].
  - rewrite Z.mod_small by lia. destruct (Z.ltb_spec z h); lia.
  - assert (M : (z mod (2 * h) = z + 2 * h)%Z) by (symmetry; apply Z.mod_unique with (-1)%Z; lia).
    rewrite M. destruct (Z.ltb_spec (z + 2 * h) h); lia.
Qed.

(** what the bounds of the formats give *)
Definition fmt_small (f : fmt) : Prop :=
  (fbits f + 4 <= 63 /\ bias f < 2 ^ 60)%N /\
  (2 * Z.of_N (bias f) + 12 * Z.of_N (fraction_nibbles f) + 40 <= written_overflow f)%Z.

Lemma print_hex_spec f eb fb b : fmt_ok f eb fb -> fmt_small f ->
  exists text v n w, print_hex f b = Some text /\ hex_float text (sign_of eb fb b) v n w /\
    deq v (value eb fb (magnitude eb fb b)) /\
    (n <= S (N.to_nat (fraction_nibbles f)))%nat /\
    (Z.of_N w <= Z.of_N (bias f) + 4 * Z.of_N (fraction_nibbles f) + 1)%Z.
Proof.
  intros O [[SM SB] _]. unfold print_hex.
  rewrite (field_sign _ _ _ _ O), (field_exponent _ _ _ _ O), (field_fraction _ _ _ _ O), (ok_zero _ _ _ O).
  pose proof (magnitude_lt eb fb b) as PL. set (p := magnitude eb fb b) in *.
  set (sg := if negb (sign_of eb fb b) then [] else [45]).
  assert (SG : (sg, sign_of eb fb b) = ([], false) \/ (sg, sign_of eb fb b) = ([43], false) \/ (sg, sign_of eb fb b) = ([45], true)).
  { unfold sg. destruct (sign_of eb fb b); auto. }
  pose proof (pow2_pos fb) as PF. pose proof (pow2_pos eb) as PE.
  set (m := p mod 2 ^ fb). set (e := p / 2 ^ fb). set (ov := num_overflow_bits f). set (nb := fraction_nibbles f).
  assert (ML : m < 2 ^ fb) by (apply N.mod_lt; lia).
  assert (EL : e < 2 ^ eb).
  { apply N.div_lt_upper_bound; [lia|]. rewrite N.mul_comm, <- pow2_add. exact PL. }
  assert (PEQ : p = e * 2 ^ fb + m) by (rewrite N.mul_comm; apply N.div_mod'; lia).
  assert (NB : 4 * nb = fb + ov /\ ov <= 3).
  { unfold ov, num_overflow_bits. fold nb. unfold nb, fraction_nibbles. rewrite (ok_f _ _ _ O). lia. }
  destruct NB as [NB OV].
  pose proof (ok_bias _ _ _ O) as OB. pose proof (ok_fb _ _ _ O) as OF. rewrite (ok_f _ _ _ O) in *.
  assert (E16 : 16 ^ nb = 2 ^ fb * 2 ^ ov).
  { change 16 with (2 ^ 4). rewrite <- N.pow_mul_r, NB, pow2_add. reflexivity. }
  assert (FW : wrap 64 (N.shiftl m ov) = m * 2 ^ ov).
  { rewrite N.shiftl_mul_pow2. apply wrap_small. apply N.lt_trans with (2 ^ (fb + ov)).
    - rewrite pow2_add. apply N.mul_lt_mono_pos_r; auto. apply pow2_pos.
    - apply pow2_lt. lia. }
  rewrite FW. pose proof (pow2_pos ov) as PO.
  assert (FL : m * 2 ^ ov < 16 ^ N.of_nat (N.to_nat nb)).
  { rewrite N2Nat.id, E16. apply N.mul_lt_mono_pos_r; auto. }
  assert (FZ : (m * 2 ^ ov =? 0) = (m =? 0)).
  { destruct (N.eqb_spec m 0) as [->|]; [now rewrite N.mul_0_l|]. apply N.eqb_neq. nia. }
  rewrite FZ. cbn [andb].
  assert (EB : (Z.of_N e <= 2 * Z.of_N (bias f) + 1)%Z).
  { rewrite OB. unfold zbias. pose proof (of_N_pow eb). pose proof (ok_eb _ _ _ O).
    assert (2 ^ Z.of_N eb = 2 * 2 ^ (Z.of_N eb - 1))%Z.
    { replace (Z.of_N eb) with (1 + (Z.of_N eb - 1))%Z at 1 by lia. rewrite zpow_add by lia. reflexivity. }
    lia. }
  assert (B60 : (Z.of_N (bias f) < 2 ^ 60)%Z) by (change (2 ^ 60)%Z with (Z.of_N (2 ^ 60)); lia).
  destruct (N.eqb_spec e 0) as [E0|E0]; cbn [andb].
  - destruct (N.eqb_spec m 0) as [M0|M0]; cbn [negb andb].
    + (* zero *)
      assert (P0 : p = 0) by lia.
      rewrite andb_false_r. cbn match. rewrite M0, N.mul_0_l.
      destruct (text_of sg (sign_of eb fb b) 0 0 (N.to_nat nb) 0 SG ltac:(lia)) as (text & v & k & w & T & HF & W & K & D).
      { pose proof (pow2_pos (4 * N.of_nat (N.to_nat nb))) as PP. rewrite N.pow_mul_r in PP. exact PP. }
      exists text, v, k, w. split; [|split; [exact HF|split; [|split; auto]]].
      * rewrite <- T. destruct (print_strip (N.to_nat nb) 0) as [F' n']. reflexivity.
      * eapply deq_trans; [exact D|]. rewrite P0. rewrite value_subnormal by auto. rewrite N.mul_0_l, N.add_0_r.
        unfold deq, scaled. cbn [fst]. reflexivity.
      * lia.
    + (* subnormal *)
      assert (C : (0 <? fb) = true) by lia. rewrite C. cbn match.
      rewrite (swrap_small 64) by (rewrite ?E0; change (Z.of_N 64 - 1)%Z with 63%Z; change (2 ^ 63)%Z with (8 * 2 ^ 60)%Z; lia).
      assert (K : fb + ov = 4 * nb) by lia. rewrite K.
      assert (P4 : 2 ^ (4 * nb) = 16 ^ nb) by (rewrite N.pow_mul_r; reflexivity).
      destruct (normalise_spec 64 (4 * nb) (m * 2 ^ ov) (Z.of_N e - Z.of_N (bias f))) as (j & -> & [JB JL] & JK);
        [lia|lia|rewrite P4; rewrite N2Nat.id in FL; split; [nia|exact FL]|lia|lia|].
      set (G := m * 2 ^ ov * 2 ^ j) in *.
      assert (HALF : 2 ^ (4 * nb) = 2 * 2 ^ (4 * nb - 1)).
      { replace (4 * nb) with (1 + (4 * nb - 1)) at 1 by lia. apply (pow2_add 1). }
      assert (RM : N.land (wrap 64 (N.shiftl G 1)) (fraction_represent_mask f) = 2 * G - 2 ^ (4 * nb)).
      { unfold fraction_represent_mask. rewrite (ok_f _ _ _ O). fold ov. rewrite K, land_set0.
        rewrite N.shiftl_mul_pow2. change (2 ^ 1) with 2. rewrite wrap_small.
        - symmetry. apply N.mod_unique with 1; lia.
        - apply N.lt_le_trans with (2 * 2 ^ (4 * nb)); [lia|]. rewrite <- (pow2_add 1). apply pow2_le. lia. }
      rewrite RM. cbn [andb].
      destruct (text_of sg (sign_of eb fb b) 1 (2 * G - 2 ^ (4 * nb)) (N.to_nat nb) (Z.of_N e - Z.of_N (bias f) - Z.of_N j)
        SG ltac:(lia)) as (text & v & k & w & T & HF & W & KK & D).
      { rewrite N2Nat.id, <- P4. lia. }
      exists text, v, k, w. split; [|split; [exact HF|split; [|split; auto]]].
      * rewrite <- T. destruct (print_strip (N.to_nat nb) _) as [F' n']. reflexivity.
      * eapply deq_trans; [exact D|]. rewrite PEQ, E0, N.mul_0_l, N.add_0_l. rewrite value_subnormal by auto.
        rewrite N2Nat.id, <- P4. replace (1 * 2 ^ (4 * nb) + (2 * G - 2 ^ (4 * nb))) with (2 * G) by lia.
        replace (2 * G) with (m * 2 ^ (1 + ov + j)) by (unfold G; rewrite !pow2_add; change (2 ^ 1) with 2; lia).
        eapply deq_trans; [apply deq_shift|]. apply deq_refl_of. f_equal. lia.
      * rewrite W. lia.
  - (* normal *)
    rewrite andb_false_r. cbn match.
    rewrite (swrap_small 64) by (change (Z.of_N 64 - 1)%Z with 63%Z; change (2 ^ 63)%Z with (8 * 2 ^ 60)%Z; lia).
    destruct (text_of sg (sign_of eb fb b) 1 (m * 2 ^ ov) (N.to_nat nb) (Z.of_N e - Z.of_N (bias f)) SG ltac:(lia) FL)
      as (text & v & k & w & T & HF & W & KK & D).
    exists text, v, k, w. split; [|split; [exact HF|split; [|split; auto]]].
    + rewrite <- T. destruct (print_strip (N.to_nat nb) _) as [F' n']. reflexivity.
    + eapply deq_trans; [exact D|]. rewrite PEQ. rewrite value_normal by lia.
      rewrite N2Nat.id, E16. replace (1 * (2 ^ fb * 2 ^ ov) + m * 2 ^ ov) with ((2 ^ fb + m) * 2 ^ ov) by lia.
      eapply deq_trans; [apply deq_shift|]. apply deq_refl_of. f_equal. lia.
    + rewrite W. lia.
Qed.

Lemma deq_zero_fst a b : deq a b -> fst a = 0 -> fst b = 0.
Proof.
  unfold deq, scaled. intros E Z. rewrite Z in E. cbn [Z.of_N] in E. rewrite Z.mul_0_l in E.
  symmetry in E. apply Z.mul_eq_0 in E. destruct E as [E|E]; [lia|].
  pose proof (zpow_pos (snd b - Z.min (snd a) (snd b))). lia.
Qed.
Lemma value_zero eb fb p : fst (value eb fb p) = 0 -> p = 0.
Proof.
  pose proof (pow2_pos fb) as P. unfold value. destruct (N.eqb_spec (p / 2 ^ fb) 0) as [E|E]; cbn [fst]; [|lia].
  apply N.div_small_iff in E; [|lia]. now rewrite N.mod_small.
Qed.

(** reading back what was printed *)
Lemma reads_as_exact eb fb v p q : deq v (value eb fb q) -> q < 2 ^ (eb + fb) -> reads_as eb fb v p -> p = q.
Proof.
  intros D L [PL R]. destruct (N.eqb_spec (fst v) 0) as [Z|Z].
  - subst p. apply (deq_zero_fst _ _ D) in Z. now apply value_zero in Z.
  - destruct R as [R|[R _]].
    + eapply rounds_down_unique; [exact R|]. now apply rounds_down_exact.
    + apply (deq_dle_r _ _ _ D) in R. apply value_dle in R. lia.
Qed.
Theorem hex_roundtrip_fmt f eb fb b rest : fmt_ok f eb fb -> fmt_small f -> b < 2 ^ (1 + eb + fb) -> not_digit_head rest ->
  exists text, print_hex f b = Some text /\ parse_hex f (text ++ rest) = Parsed b rest.
Proof.
  intros O SM L R. destruct (print_hex_spec f eb fb b O SM) as (text & v & n & w & P & HF & D & NL & WL).
  exists text. split; auto. destruct SM as [_ SM].
  destruct (parse_hex_text f eb fb text _ v n w rest O HF R) as (p & -> & RA); [lia|].
  rewrite (reads_as_exact _ _ _ _ _ D (magnitude_lt eb fb b) RA). now rewrite make_fields.
Qed.
