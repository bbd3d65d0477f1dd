(** Conversions between floating point formats: rounding and the assembly of the result. *)
From Verif Require Import Base NumberSpec ParseNumber NumberProofs WordsProofs HexFloat HexFloatSpec HexFloatProofs HexFloatProofs2 HexFloatProofs3 HexFloatProofs5 HexFloatProofs6 HexFloatProofs8.
Local Open Scope N_scope.

(** ** Rounding the significand *)
(** [t] and the [n] bits [rem] below it are rounded away from zero *)
Definition away (dir : rounding) (neg : bool) (n rem t : N) : bool :=
  if rem =? 0 then false
  else match dir with
       | To_zero => false
       | To_positive_infinity => negb neg
       | To_negative_infinity => neg
       | To_nearest_even => if 2 * rem <? 2 ^ n then false else if 2 ^ n <? 2 * rem then true else negb (N.even t)
       end.
Lemma ldiff_pow2 x i : N.testbit x i = true -> N.ldiff x (2 ^ i) = x - 2 ^ i.
Proof.
  intros T. symmetry. apply N.sub_nocarry_ldiff. apply N.bits_inj. intros j.
  rewrite N.ldiff_spec, N.pow2_bits_eqb, N.bits_0. destruct (N.eqb_spec i j) as [<-|]; [now rewrite T|reflexivity].
Qed.
Lemma testbit_top x i : x < 2 ^ (i + 1) -> N.testbit x i = (2 ^ i <=? x).
Proof.
  intros L. rewrite N.testbit_eqb. rewrite pow2_add in L. change (2 ^ 1) with 2 in L. pose proof (pow2_pos i).
  destruct (N.leb_spec (2 ^ i) x) as [A|A].
  - replace (x / 2 ^ i) with 1; [reflexivity|]. apply N.div_unique with (x - 2 ^ i); lia.
  - rewrite N.div_small by auto. reflexivity.
Qed.

Lemma rounded_spec s d eb fb eb' fb' dir b sig : fmt_ok s eb fb -> fmt_ok d eb' fb' ->
  normalized_significand s 64 b = Some sig -> sig < 2 ^ fb ->
  let n := fb - fb' in let t := sig * 2 ^ (fb' - fb) / 2 ^ n in let rem := sig mod 2 ^ n in
  let a := away dir (sign_of eb fb b) n rem t in
  rounded_significand s d dir 64 b =
    Some (if a then (if t + 1 =? 2 ^ fb' then 0 else t + 1) else t, a && (t + 1 =? 2 ^ fb'),
          if rem =? 0 then Success else Lost_precision) /\ t < 2 ^ fb'.
Proof.
  intros O O' NS SL n t rem a. unfold rounded_significand. rewrite NS, (ok_f _ _ _ O), (ok_f _ _ _ O').
  pose proof (ok_u _ _ _ O) as OU. pose proof (ok_u _ _ _ O') as OU'.
  destruct (Z.leb_spec (Z.of_N fb - Z.of_N fb') 0) as [W|W].
  - assert (N0 : n = 0) by (unfold n; lia).
    assert (R0 : rem = 0) by (unfold rem; rewrite N0; change (2 ^ 0) with 1; apply N.mod_1_r).
    assert (A0 : a = false) by (unfold a, away; now rewrite R0).
    rewrite A0, R0. cbn [andb N.eqb].
    assert (TE : t = sig * 2 ^ (fb' - fb)) by (unfold t; rewrite N0; change (2 ^ 0) with 1; apply N.div_1_r).
    assert (TL : t < 2 ^ fb').
    { rewrite TE. replace fb' with (fb + (fb' - fb)) at 2 by lia. rewrite pow2_add.
      apply N.mul_lt_mono_pos_r; auto. apply pow2_pos. }
    split; auto. rewrite N.shiftl_mul_pow2, (wrap_small (uwidth d) sig).
    2:{ apply N.lt_le_trans with (1 := SL). apply pow2_le. lia. }
    replace (Z.to_N (- (Z.of_N fb - Z.of_N fb'))) with (fb' - fb) by lia. rewrite <- TE.
    rewrite wrap_small; [reflexivity|]. apply N.lt_le_trans with (1 := TL). apply pow2_le. lia.
  - assert (NN : Z.to_N (Z.of_N fb - Z.of_N fb') = n) by (unfold n; lia). rewrite NN.
    assert (N1 : 0 < n) by (unfold n; lia).
    assert (TE : t = sig / 2 ^ n).
    { unfold t. replace (fb' - fb) with 0 by lia. change (2 ^ 0) with 1. now rewrite N.mul_1_r. }
    pose proof (pow2_pos n) as PN.
    assert (FN : 2 ^ fb = 2 ^ fb' * 2 ^ n) by (rewrite <- pow2_add; f_equal; unfold n; lia).
    assert (TL : t < 2 ^ fb') by (rewrite TE; apply N.div_lt_upper_bound; lia).
    split; auto.
    assert (SE : sig = 2 ^ n * t + rem) by (rewrite TE; apply N.div_mod').
    assert (RL : rem < 2 ^ n) by (apply N.mod_lt; lia).
    assert (HALF : 2 ^ n = 2 * 2 ^ (n - 1)).
    { replace n with (1 + (n - 1)) at 1 by lia. apply (pow2_add 1). }
    assert (TW : forall x, x <= 2 ^ fb' -> wrap (uwidth d) x = x).
    { intros x XL. apply wrap_small. apply N.le_lt_trans with (1 := XL). apply pow2_lt. lia. }
    rewrite !N.shiftl_1_l. rewrite (wrap_small _ (2 ^ n)) by (apply pow2_lt; unfold n; lia).
    rewrite (wrap_small _ (2 ^ (n - 1))) by (apply pow2_lt; unfold n; lia).
    rewrite land_set0. fold rem. rewrite N.shiftr_div_pow2, <- TE.
    destruct (N.eqb_spec rem 0) as [R0|R0].
    { assert (A0 : a = false) by (unfold a, away; now rewrite R0). rewrite A0, TW by lia. reflexivity. }
    assert (AW : match dir with
                 | To_zero => false
                 | To_nearest_even =>
                     if N.land (2 ^ (n - 1)) sig =? 0 then false
                     else if negb (N.ldiff rem (2 ^ (n - 1)) =? 0) then true
                     else negb (N.land sig (2 ^ n) =? 0)
                 | To_positive_infinity => negb (is_negative s b)
                 | To_negative_infinity => is_negative s b
                 end = a).
    { unfold a, away. rewrite (sign_negative _ _ _ _ O). destruct (N.eqb_spec rem 0); [lia|].
      destruct dir; auto.
      assert (T1 : N.testbit sig (n - 1) = (2 ^ (n - 1) <=? rem)).
      { rewrite <- testbit_top by (replace (n - 1 + 1) with n by lia; auto).
        unfold rem. rewrite N.mod_pow2_bits_low by lia. reflexivity. }
      rewrite N.land_comm, land_pow2, T1. pose proof (pow2_pos (n - 1)).
      destruct (N.leb_spec (2 ^ (n - 1)) rem) as [C|C].
      - destruct (N.eqb_spec (2 ^ (n - 1)) 0); [lia|].
        rewrite ldiff_pow2 by (rewrite testbit_top by (replace (n - 1 + 1) with n by lia; auto); lia).
        destruct (N.ltb_spec (2 * rem) (2 ^ n)); [lia|].
        destruct (N.ltb_spec (2 ^ n) (2 * rem)).
        + destruct (N.eqb_spec (rem - 2 ^ (n - 1)) 0); [lia|]. reflexivity.
        + destruct (N.eqb_spec (rem - 2 ^ (n - 1)) 0); [|lia]. cbn [negb].
          rewrite land_pow2, N.testbit_odd, N.shiftr_div_pow2, <- TE, <- N.negb_even.
          destruct (N.even t); cbn [negb]; [reflexivity|]. destruct (N.eqb_spec (2 ^ n) 0); [lia|]. reflexivity.
      - cbn [N.eqb]. destruct (N.ltb_spec (2 * rem) (2 ^ n)); [reflexivity|lia]. }
    rewrite AW. destruct a; cbn [andb].
    + unfold increment_significand. assert (XL : sig + 2 ^ n < 2 ^ (fb + 1)).
      { rewrite pow2_add. change (2 ^ 1) with 2. rewrite FN in *. clear - SL PN FN TL. pose proof (pow2_pos fb'). nia. }
      rewrite (wrap_small (uwidth s)).
      2:{ apply N.lt_le_trans with (1 := XL). apply pow2_le. pose proof (ok_eb _ _ _ O). lia. }
      unfold first_exponent_bit. rewrite (ok_f _ _ _ O), N.shiftl_1_l, bit_at by auto.
      destruct (N.eqb_spec (t + 1) (2 ^ fb')) as [C|C].
      * assert (GE : 2 ^ fb <= sig + 2 ^ n) by (rewrite FN, <- C, SE; lia).
        destruct (N.ltb_spec (sig + 2 ^ n) (2 ^ fb)); [lia|].
        rewrite ldiff_pow2 by (rewrite testbit_top by auto; lia).
        rewrite !N.shiftr_div_pow2. change (2 ^ 1) with 2.
        replace ((sig + 2 ^ n - 2 ^ fb) / 2 / 2 ^ n) with 0; [rewrite TW by lia; reflexivity|].
        symmetry. apply N.div_small. apply N.le_lt_trans with (sig + 2 ^ n - 2 ^ fb); [|lia].
        apply N.div_le_upper_bound; lia.
      * assert (LT : sig + 2 ^ n < 2 ^ fb).
        { rewrite FN, SE. assert (C2 : t + 2 <= 2 ^ fb') by lia. clear - C2 RL. nia. }
        destruct (N.ltb_spec (sig + 2 ^ n) (2 ^ fb)); [|lia].
        rewrite N.shiftr_div_pow2. replace ((sig + 2 ^ n) / 2 ^ n) with (t + 1); [rewrite TW by lia; reflexivity|].
        apply N.div_unique with rem; [auto|]. rewrite SE. lia.
    + rewrite TW by lia. reflexivity.
Qed.

(** ** The assembly of a finite number *)
Lemma shift_out_iter j x r : exists r',
  Nat.iter j shift_out (x, r) = (x / 2 ^ N.of_nat j, r') /\
  (r' = Success \/ r' = Lost_precision \/ r' = r) /\
  (r' = Success <-> r = Success /\ x mod 2 ^ N.of_nat j = 0) /\ (r <> Not_representable -> r' <> Not_representable).
Proof.
  induction j as [|j (r' & IH & K & S0 & NR)].
  - exists r. cbn [Nat.iter nat_rect]. change (N.of_nat 0) with 0. change (2 ^ 0) with 1. rewrite N.div_1_r, N.mod_1_r.
    repeat split; tauto.
  - change (Nat.iter (S j) shift_out (x, r)) with (shift_out (Nat.iter j shift_out (x, r))). rewrite IH.
    unfold shift_out. eexists. rewrite N.shiftr_div_pow2. change (2 ^ 1) with 2. pose proof (pow2_pos (N.of_nat j)) as PJ.
    replace (N.of_nat (S j)) with (N.of_nat j + 1) by lia. rewrite pow2_add. change (2 ^ 1) with 2.
    rewrite N.div_div by lia. split; [reflexivity|].
    change 1 with (N.ones 1). rewrite N.land_ones. change (2 ^ 1) with 2.
    assert (M : x mod (2 ^ N.of_nat j * 2) = x mod 2 ^ N.of_nat j + 2 ^ N.of_nat j * ((x / 2 ^ N.of_nat j) mod 2)).
    { apply N.mod_mul_r; lia. }
    rewrite M. generalize dependent (x / 2 ^ N.of_nat j). intros y _ _.
    destruct (N.eqb_spec (y mod 2) 0) as [E|E].
    + rewrite E, N.mul_0_r, N.add_0_r. repeat split; try tauto.
    + repeat split; try tauto; try discriminate. intros [_ Z]. exfalso. assert (Y : y mod 2 <> 0) by exact E.
      clear - Z Y PJ. nia.
Qed.
Definition sign_bits (eb fb : N) (neg : bool) (p : N) : N := make eb fb neg p.
Lemma make_lor d eb fb (neg : bool) p : fmt_ok d eb fb -> p < 2 ^ (eb + fb) ->
  N.lor (if neg then sign_mask d else 0) p = make eb fb neg p.
Proof.
  intros O L. unfold sign_mask, make, top_bit_left_shift. rewrite (ok_sign _ _ _ O), (ok_used _ _ _ O), (ok_u _ _ _ O).
  replace (1 + eb + fb - 1) with (eb + fb) by lia. destruct neg; [|reflexivity].
  rewrite N.lor_comm. rewrite lor_shift_add by auto. lia.
Qed.
Lemma set_from_normal d eb fb neg E S0 up : fmt_ok d eb fb -> (- Z.of_N (bias d) < E <= Z.of_N (bias d))%Z -> S0 < 2 ^ fb ->
  set_from d neg E S0 up = (make eb fb neg (Z.to_N (E + Z.of_N (bias d)) * 2 ^ fb + S0), Success).
Proof.
  intros O EB SL. unfold set_from, min_exponent.
  destruct (Z.leb_spec E (- Z.of_N (bias d))); [lia|]. cbn [andb].
  replace (Z.to_nat (- Z.of_N (bias d) - E)) with 0%nat by lia. cbn [Nat.iter nat_rect].
  rewrite Z.max_l by lia. destruct (Z.eqb_spec E (- Z.of_N (bias d))); [lia|]. cbn [andb].
  pose proof (ok_u _ _ _ O) as OU. pose proof (ok_bias _ _ _ O) as OB. pose proof (ok_eb _ _ _ O) as OE.
  assert (HE : (Z.of_N (2 ^ eb) = 2 * Z.of_N (bias d) + 2)%Z).
  { rewrite of_N_pow, OB. unfold zbias. replace (Z.of_N eb) with (1 + (Z.of_N eb - 1))%Z at 1 by lia. rewrite zpow_add by lia. lia. }
  set (e := Z.to_N (E + Z.of_N (bias d))). assert (EL : e < 2 ^ eb) by (unfold e; lia).
  assert (EM : Z.to_N ((E + Z.of_N (bias d)) mod 2 ^ Z.of_N (uwidth d)) = e).
  { rewrite Z.mod_small; [reflexivity|]. split; [lia|]. rewrite <- of_N_pow.
    assert (2 ^ eb <= 2 ^ uwidth d) by (apply pow2_le; lia). lia. }
  rewrite EM. unfold exponent_mask, fraction_encode_mask. rewrite (ok_f _ _ _ O), (ok_e _ _ _ O).
  assert (EF : e * 2 ^ fb < 2 ^ (eb + fb)).
  { rewrite pow2_add. apply N.mul_lt_mono_pos_r; [apply pow2_pos|auto]. }
  rewrite (wrap_small _ (N.shiftl e fb)).
  2:{ rewrite N.shiftl_mul_pow2. apply N.lt_le_trans with (1 := EF). apply pow2_le. lia. }
  rewrite land_set, N.mod_small by auto. rewrite land_set0, N.mod_small by auto.
  rewrite set_bits0.
  assert (LD : N.ldiff S0 (N.ones fb) = 0).
  { rewrite N.ldiff_ones_r. rewrite N.shiftr_div_pow2, N.div_small by auto. apply N.shiftl_0_l. }
  rewrite LD. cbn [N.eqb]. f_equal. rewrite N.lor_comm with (a := N.shiftl e fb), lor_shift_add by auto.
  rewrite (N.add_comm S0). apply make_lor; auto. rewrite pow2_add.
  apply N.lt_le_trans with ((e + 1) * 2 ^ fb); [lia|]. apply N.mul_le_mono_r. lia.
Qed.
Lemma set_from_sub d eb fb neg E S0 up : fmt_ok d eb fb -> (E <= - Z.of_N (bias d))%Z -> S0 < 2 ^ fb ->
  let k := Z.to_N (1 - Z.of_N (bias d) - E) in let q := (2 ^ fb + S0) / 2 ^ k in
  exists r, set_from d neg E S0 up = (make eb fb neg (if (q =? 0) && up then 1 else q), r) /\ q < 2 ^ fb /\
    (r = Success <-> (2 ^ fb + S0) mod 2 ^ k = 0) /\ r <> Not_representable.
Proof.
  intros O EB SL k q. unfold set_from, min_exponent.
  destruct (Z.leb_spec E (- Z.of_N (bias d))); [|lia]. rewrite (ok_f _ _ _ O). pose proof (ok_fb _ _ _ O) as OF.
  destruct (N.eqb_spec fb 0); [lia|]. cbn [negb andb].
  unfold first_exponent_bit. rewrite (ok_f _ _ _ O), lor_shift_add by auto. rewrite N.mul_1_l.
  pose proof (pow2_pos fb) as PF.
  destruct (shift_out_iter 1 (S0 + 2 ^ fb) Success) as (r1 & I1 & _ & R1 & N1).
  change (Nat.iter 1 shift_out (S0 + 2 ^ fb, Success)) with (shift_out (S0 + 2 ^ fb, Success)) in I1. rewrite I1.
  destruct (shift_out_iter (Z.to_nat (- Z.of_N (bias d) - E)) ((S0 + 2 ^ fb) / 2 ^ N.of_nat 1) r1) as (r2 & I2 & _ & R2 & N2).
  rewrite I2. set (j := Z.to_nat (- Z.of_N (bias d) - E)) in *.
  assert (KJ : k = 1 + N.of_nat j) by (unfold k, j; lia). change (N.of_nat 1) with 1 in *.
  pose proof (pow2_pos (N.of_nat j)) as PJ.
  assert (QE : (S0 + 2 ^ fb) / 2 ^ 1 / 2 ^ N.of_nat j = q).
  { unfold q. rewrite KJ, (pow2_add 1), N.div_div by (cbn; lia). f_equal. lia. }
  rewrite QE. rewrite Z.max_r by lia. rewrite Z.eqb_refl. cbn [negb andb]. rewrite andb_true_r.
  assert (QL : q < 2 ^ fb).
  { apply N.div_lt_upper_bound; [pose proof (pow2_pos k); lia|]. rewrite KJ, (pow2_add 1). change (2 ^ 1) with 2.
    clear - SL PJ PF. nia. }
  replace (- Z.of_N (bias d) + Z.of_N (bias d))%Z with 0%Z by lia. rewrite Z.mod_0_l.
  2:{ pose proof (zpow_pos (Z.of_N (uwidth d))). lia. }
  change (Z.to_N 0) with 0. rewrite N.shiftl_0_l. unfold wrap at 1. rewrite N.mod_0_l by (pose proof (pow2_pos (uwidth d)); lia).
  rewrite N.land_0_l. unfold fraction_encode_mask. rewrite (ok_f _ _ _ O).
  set (Q := if (q =? 0) && up then 1 else q).
  assert (QL2 : Q < 2 ^ fb).
  { unfold Q. destruct ((q =? 0) && up); auto. change 1 with (2 ^ 0). apply pow2_lt. lia. }
  rewrite land_set0, N.mod_small by auto. rewrite set_bits0.
  assert (LD : N.ldiff Q (N.ones fb) = 0).
  { rewrite N.ldiff_ones_r. rewrite N.shiftr_div_pow2, N.div_small by auto. apply N.shiftl_0_l. }
  rewrite LD. cbn [N.eqb]. rewrite N.lor_0_l. exists r2. split; [|split; [auto|split]].
  - f_equal. apply make_lor; auto. apply N.lt_le_trans with (1 := QL2). apply pow2_le. lia.
  - rewrite R2, R1. rewrite KJ, (pow2_add 1), (N.add_comm (2 ^ fb)). change (2 ^ 1) with 2.
    rewrite N.mod_mul_r by lia. pose proof (N.mod_lt (S0 + 2 ^ fb) 2 ltac:(lia)).
    set (x := (S0 + 2 ^ fb) / 2). set (y := (S0 + 2 ^ fb) mod 2) in *. clear - H. split.
    + intros [[_ A] B]. rewrite A, B. reflexivity.
    + intros A. destruct (N.eq_dec y 0) as [Y|Y]; [|lia]. rewrite Y in *. split; [auto|]. lia.
  - apply N2, N1. discriminate.
Qed.
