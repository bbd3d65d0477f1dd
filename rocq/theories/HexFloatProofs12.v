(** Conversions: zeros, infinities, NaNs, and the concrete formats. *)
From Verif Require Import Base NumberSpec ParseNumber NumberProofs WordsProofs HexFloat HexFloatSpec HexFloatProofs HexFloatProofs2 HexFloatProofs3 HexFloatProofs5 HexFloatProofs6 HexFloatProofs8 HexFloatProofs9 HexFloatProofs10 HexFloatProofs11.
Local Open Scope N_scope.

Lemma infinity_lt eb fb : infinity eb fb < 2 ^ (eb + fb).
Proof. unfold infinity. rewrite pow2_add. apply N.mul_lt_mono_pos_r; [apply pow2_pos|]. pose proof (pow2_pos eb). lia. Qed.

Lemma cast_zero s d eb fb eb' fb' dir b : ieee_ok s eb fb -> ieee_ok d eb' fb' ->
  b < 2 ^ (1 + eb + fb) -> magnitude eb fb b = 0 ->
  cast 64 s d dir b = Some (make eb' fb' (sign_of eb fb b) 0, Success).
Proof.
  intros I I' BL M0. pose proof (ie_ok _ _ _ I) as O. pose proof (ie_ok _ _ _ I') as O'.
  unfold cast. rewrite (sign_negative _ _ _ _ O), (unsigned_magnitude _ _ _ _ O BL), (ok_zero _ _ _ O), M0, (ok_zero _ _ _ O').
  cbn [andb N.eqb]. rewrite (ok_used _ _ _ O'), (ok_u _ _ _ O'). replace (1 + eb' + fb' - 1) with (eb' + fb') by lia.
  rewrite N.lxor_0_l, N.shiftl_1_l, wrap_small by (apply pow2_lt; lia). unfold make.
  destruct (sign_of eb fb b); rewrite N.add_0_r; reflexivity.
Qed.
Lemma cast_infinite s d eb fb eb' fb' dir b : ieee_ok s eb fb -> ieee_ok d eb' fb' -> pair_ok s d ->
  b < 2 ^ (1 + eb + fb) -> magnitude eb fb b = infinity eb fb ->
  cast 64 s d dir b = Some (make eb' fb' (sign_of eb fb b) (infinity eb' fb'), Success).
Proof.
  intros I I' PO BL M0. pose proof (ie_ok _ _ _ I) as O. pose proof (ie_ok _ _ _ I') as O'.
  assert (NZ : magnitude eb fb b <> 0).
  { rewrite M0. unfold infinity. pose proof (pow2_pos fb). destruct (half_bias _ _ _ O). intros Z. apply N.mul_eq_0 in Z. lia. }
  pose proof (cast_shape s d eb fb eb' fb' dir b I I' PO BL NZ) as CS. cbv zeta in CS.
  destruct PO as (P1 & P2 & P3). rewrite (ok_f _ _ _ O) in P2.
  destruct (source_normal s eb fb b O BL NZ P2) as (sig & NS & SL & _ & _ & _ & SI).
  assert (S0 : sig = 0) by (rewrite SI, M0 by lia; lia).
  destruct (rounded_spec s d eb fb eb' fb' dir b sig O O' NS SL) as [RS _]. rewrite RS, M0 in CS.
  rewrite N.ltb_irrefl, N.eqb_refl, orb_true_r in CS. cbn [negb andb] in CS. rewrite CS, S0.
  rewrite N.mod_0_l by (pose proof (pow2_pos (fb - fb')); lia). reflexivity.
Qed.
Lemma cast_nan s d eb fb eb' fb' dir b : ieee_ok s eb fb -> ieee_ok d eb' fb' -> pair_ok s d ->
  b < 2 ^ (1 + eb + fb) -> is_nan eb fb (magnitude eb fb b) ->
  exists p r, cast 64 s d dir b = Some (make eb' fb' (sign_of eb fb b) p, r) /\ is_nan eb' fb' p.
Proof.
  intros I I' PO BL [M0 M1]. pose proof (ie_ok _ _ _ I) as O. pose proof (ie_ok _ _ _ I') as O'.
  assert (NZ : magnitude eb fb b <> 0) by lia.
  pose proof (cast_shape s d eb fb eb' fb' dir b I I' PO BL NZ) as CS. cbv zeta in CS.
  destruct PO as (P1 & P2 & P3). rewrite (ok_f _ _ _ O) in P2.
  destruct (source_normal s eb fb b O BL NZ P2) as (sig & NS & SL & _ & _ & _ & SI).
  destruct (rounded_spec s d eb fb eb' fb' dir b sig O O' NS SL) as [RS _]. rewrite RS in CS.
  assert (C : (infinity eb fb <? magnitude eb fb b) = true) by lia. rewrite C in CS. cbn [negb andb] in CS.
  unfold significand_bits in CS. rewrite (field_fraction _ _ _ _ O) in CS.
  set (m := magnitude eb fb b mod 2 ^ fb) in *.
  assert (ML : m < 2 ^ fb) by (apply N.mod_lt; pose proof (pow2_pos fb); lia).
  set (sh := wrap (uwidth d) (negatable_left_shift s (Z.of_N fb' - Z.of_N fb) m)) in *.
  pose proof (pow2_pos fb') as PF'. pose proof (ok_u _ _ _ O') as OU'.
  assert (SHL : sh < 2 ^ fb').
  { assert (N.le sh (negatable_left_shift s (Z.of_N fb' - Z.of_N fb) m)).
    { apply N.mod_le. pose proof (pow2_pos (uwidth d)). lia. }
    apply N.le_lt_trans with (1 := H). unfold negatable_left_shift.
    destruct (Z.ltb_spec (Z.of_N fb' - Z.of_N fb) 0).
    - rewrite N.shiftr_div_pow2. apply N.div_lt_upper_bound; [pose proof (pow2_pos (Z.to_N (- (Z.of_N fb' - Z.of_N fb)))); lia|].
      rewrite <- pow2_add. replace (Z.to_N (- (Z.of_N fb' - Z.of_N fb)) + fb') with fb by lia. exact ML.
    - apply N.le_lt_trans with (N.shiftl m (Z.to_N (Z.of_N fb' - Z.of_N fb))).
      + unfold wrap. etransitivity; [apply N.mod_le; pose proof (pow2_pos (uwidth s)); lia|].
        apply N.mod_le. pose proof (pow2_pos 64). lia.
      + rewrite N.shiftl_mul_pow2. replace fb' with (fb + Z.to_N (Z.of_N fb' - Z.of_N fb)) at 2 by lia. rewrite pow2_add.
        apply N.mul_lt_mono_pos_r; [apply pow2_pos|exact ML]. }
  set (x := if sh =? 0 then 1 else sh) in *.
  assert (XL : 0 < x < 2 ^ fb').
  { unfold x. destruct (N.eqb_spec sh 0); [|lia]. split; [lia|]. change 1 with (2 ^ 0). apply pow2_lt. pose proof (ok_fb _ _ _ O'). lia. }
  assert (XM : exponent_mask d = N.shiftl (2 ^ eb' - 1) fb').
  { unfold exponent_mask, set_bits. now rewrite (ok_e _ _ _ O'), (ok_f _ _ _ O'), ones_val. }
  assert (LX : N.lor (exponent_mask d) x = infinity eb' fb' + x).
  { rewrite XM, N.lor_comm, lor_shift_add by lia. unfold infinity. lia. }
  set (p := N.lor (nan_pattern d) (infinity eb' fb' + x)).
  assert (IX : infinity eb' fb' + x < 2 ^ (eb' + fb')).
  { unfold infinity. rewrite pow2_add. pose proof (pow2_pos eb'). replace (2 ^ eb') with ((2 ^ eb' - 1) + 1) at 2 by lia. lia. }
  assert (PL : p < 2 ^ (eb' + fb')).
  { unfold p. pose proof (ie_pattern _ _ _ I') as IP. pose proof (pow2_pos (eb' + fb')).
    destruct (N.eq_dec (N.lor (nan_pattern d) (infinity eb' fb' + x)) 0) as [->|NZ0]; [auto|].
    apply N.log2_lt_pow2; [lia|]. rewrite N.log2_lor. apply N.max_lub_lt; apply log2_lt_of; auto; pose proof (ok_fb _ _ _ O'); lia. }
  assert (PG : infinity eb' fb' < p).
  { assert (infinity eb' fb' + x <= p); [|lia]. unfold p. rewrite N.lor_comm.
    rewrite <- (N.lor_ldiff_and (nan_pattern d) (infinity eb' fb' + x)).
    rewrite N.lor_assoc, N.lor_comm, N.lor_assoc. 
    replace (N.lor (N.lor (N.land (nan_pattern d) (infinity eb' fb' + x)) (infinity eb' fb' + x)) (N.ldiff (nan_pattern d) (infinity eb' fb' + x)))
      with (N.lor (infinity eb' fb' + x) (N.ldiff (nan_pattern d) (infinity eb' fb' + x))).
    - rewrite <- N.lxor_lor, <- N.add_nocarry_lxor; [lia| |];
        apply N.bits_inj; intros i; rewrite N.land_spec, N.ldiff_spec, N.bits_0;
        destruct (N.testbit (infinity eb' fb' + x) i), (N.testbit (nan_pattern d) i); reflexivity.
    - apply N.bits_inj. intros i. rewrite !N.lor_spec, !N.land_spec, !N.ldiff_spec.
      destruct (N.testbit (infinity eb' fb' + x) i), (N.testbit (nan_pattern d) i); reflexivity. }
  exists p. eexists. split; [|split; [exact PG|exact PL]]. rewrite CS. do 2 f_equal.
  rewrite LX. rewrite N.lor_assoc, (N.lor_comm (nan_pattern d)), <- N.lor_assoc. fold p.
  rewrite (make_lor d eb' fb') by auto. apply wrap_small. unfold make. rewrite OU'.
  replace (1 + eb' + fb') with (1 + (eb' + fb')) by lia. rewrite (pow2_add 1). change (2 ^ 1) with 2.
  destruct (sign_of eb fb b); lia.
Qed.
Lemma cast_overflow s d eb fb eb' fb' dir b : ieee_ok s eb fb -> ieee_ok d eb' fb' -> pair_ok s d ->
  b < 2 ^ (1 + eb + fb) -> 0 < magnitude eb fb b < infinity eb fb ->
  dle (value eb' fb' (infinity eb' fb')) (value eb fb (magnitude eb fb b)) ->
  exists r, cast 64 s d dir b = Some (make eb' fb' (sign_of eb fb b) (infinity eb' fb'), r).
Proof.
  intros I I' PO BL [M0 MF] LE. pose proof (ie_ok _ _ _ I) as O. pose proof (ie_ok _ _ _ I') as O'.
  pose proof (cast_shape s d eb fb eb' fb' dir b I I' PO BL ltac:(lia)) as CS. cbv zeta in CS.
  destruct PO as (P1 & P2 & P3). rewrite (ok_f _ _ _ O) in P2.
  destruct (source_normal s eb fb b O BL ltac:(lia) P2) as (sig & NS & SL & DV & EB & _).
  destruct (rounded_spec s d eb fb eb' fb' dir b sig O O' NS SL) as [RS _]. rewrite RS in CS.
  assert (G : (Z.of_N (bias d) < source_exponent s b)%Z).
  { destruct (Z.lt_ge_cases (Z.of_N (bias d)) (source_exponent s b)) as [|G]; auto. exfalso.
    apply (deq_dle_r _ _ _ DV) in LE. rewrite (value_infinity _ _ _ O') in LE.
    set (E := source_exponent s b) in *.
    set (k := Z.min (E - Z.of_N fb) (Z.of_N (bias d) + 1 - Z.of_N fb')) in *.
    rewrite (dle_at _ _ k) in LE by (cbn [snd]; unfold k; lia). unfold scaled in LE. cbn [fst snd] in LE.
    assert (GE : (Z.of_N (2 ^ fb + sig) * 2 ^ (E - Z.of_N fb - k) <
                  Z.of_N (2 ^ fb') * 2 ^ (Z.of_N (bias d) + 1 - Z.of_N fb' - k))%Z); [|lia].
    apply Z.lt_le_trans with (Z.of_N (2 ^ (fb + 1)) * 2 ^ (E - Z.of_N fb - k))%Z.
    - apply Z.mul_lt_mono_pos_r; [apply zpow_pos; unfold k; lia|]. rewrite pow2_add. change (2 ^ 1) with 2. lia.
    - rewrite !of_N_pow, <- !zpow_add by (unfold k; lia). apply Z.pow_le_mono_r; lia. }
  assert (C : (infinity eb fb <? magnitude eb fb b) = false) by lia. rewrite C in CS. cbn [negb andb] in CS.
  rewrite Z.gtb_ltb in CS.
  destruct (Z.ltb_spec (Z.of_N (bias d)) (source_exponent s b +
    (if away dir (sign_of eb fb b) (fb - fb') (sig mod 2 ^ (fb - fb')) (sig * 2 ^ (fb' - fb) / 2 ^ (fb - fb')) &&
        (sig * 2 ^ (fb' - fb) / 2 ^ (fb - fb') + 1 =? 2 ^ fb')%N then 1 else 0))) as [H|H].
  - cbn [orb] in CS. eauto.
  - exfalso. clear - G H. destruct (_ && _) in H; lia.
Qed.

(** ** The formats *)
Lemma top_bits e f b : (N.land b (N.shiftl (N.ones e) f) =? N.shiftl (N.ones e) f) = (magnitude e f b / 2 ^ f =? 2 ^ e - 1).
Proof.
  assert (E : N.land b (N.shiftl (N.ones e) f) = N.shiftl (magnitude e f b / 2 ^ f) f).
  { unfold magnitude. rewrite <- land_mid. unfold set_bits. apply N.bits_inj. intros i.
    destruct (N.lt_ge_cases i f).
    - rewrite N.land_spec, !N.shiftl_spec_low by auto. apply andb_false_r.
    - rewrite N.shiftl_spec_high', N.shiftr_spec' by auto. replace (i - f + f) with i by lia. reflexivity. }
  rewrite E, ones_val, !N.shiftl_mul_pow2. pose proof (pow2_pos f).
  destruct (N.eqb_spec (magnitude e f b / 2 ^ f) (2 ^ e - 1)) as [->|NE]; [apply N.eqb_refl|].
  apply N.eqb_neq. intros H1. apply N.mul_cancel_r in H1; lia.
Qed.
Lemma low_bits e f b : N.land b (N.ones f) = magnitude e f b mod 2 ^ f.
Proof.
  rewrite N.land_ones. unfold magnitude. rewrite pow2_add, (N.mul_comm (2 ^ e)). pose proof (pow2_pos f). pose proof (pow2_pos e).
  rewrite N.mod_mul_r by lia. rewrite (N.mul_comm (2 ^ f)), N.mod_add by lia. symmetry. apply N.mod_mod. lia.
Qed.
Lemma ieee_tests e f b : ieee_nan e f b = (infinity e f <? magnitude e f b) /\ ieee_inf e f b = (magnitude e f b =? infinity e f).
Proof.
  unfold ieee_nan, ieee_inf. rewrite top_bits, (low_bits e). pose proof (magnitude_lt e f b) as PL. set (p := magnitude e f b) in *.
  pose proof (pow2_pos f) as PF. pose proof (pow2_pos e) as PE.
  assert (PEQ : p = p / 2 ^ f * 2 ^ f + p mod 2 ^ f) by (rewrite N.mul_comm; apply N.div_mod'; lia).
  assert (EL : p / 2 ^ f < 2 ^ e) by (apply N.div_lt_upper_bound; [lia|]; now rewrite N.mul_comm, <- pow2_add).
  assert (ML : p mod 2 ^ f < 2 ^ f) by (apply N.mod_lt; lia).
  unfold infinity. generalize dependent (p / 2 ^ f). generalize dependent (p mod 2 ^ f). intros m ML q PEQ EL.
  destruct (N.eqb_spec q (2 ^ e - 1)) as [->|NE]; cbn [andb].
  - split; destruct (N.eqb_spec m 0); cbn [negb]; lia.
  - assert (q + 1 <= 2 ^ e - 1) by lia. assert ((q + 1) * 2 ^ f <= (2 ^ e - 1) * 2 ^ f) by (apply N.mul_le_mono_r; auto).
    split; lia.
Qed.

Ltac fmt_tac := constructor; vm_compute; try reflexivity; try discriminate.
Lemma f16_ok : fmt_ok f16 5 10. Proof. fmt_tac. Qed.
Lemma bf16_ok : fmt_ok bf16 8 7. Proof. fmt_tac. Qed.
Lemma f32_ok : fmt_ok f32 8 23. Proof. fmt_tac. Qed.
Lemma f64_ok : fmt_ok f64 11 52. Proof. fmt_tac. Qed.
Lemma e4m3_ok : fmt_ok e4m3 4 3. Proof. fmt_tac. Qed.
Lemma e5m2_ok : fmt_ok e5m2 5 2. Proof. fmt_tac. Qed.
Lemma f16_small : fmt_small f16. Proof. repeat split; vm_compute; try reflexivity; discriminate. Qed.
Lemma bf16_small : fmt_small bf16. Proof. repeat split; vm_compute; try reflexivity; discriminate. Qed.
Lemma f32_small : fmt_small f32. Proof. repeat split; vm_compute; try reflexivity; discriminate. Qed.
Lemma f64_small : fmt_small f64. Proof. repeat split; vm_compute; try reflexivity; discriminate. Qed.
Lemma e4m3_small : fmt_small e4m3. Proof. repeat split; vm_compute; try reflexivity; discriminate. Qed.
Lemma e5m2_small : fmt_small e5m2. Proof. repeat split; vm_compute; try reflexivity; discriminate. Qed.
Ltac ieee_tac ok := constructor; [exact ok|reflexivity|reflexivity|intros b; apply ieee_tests|intros b; apply ieee_tests|reflexivity].
Lemma f16_ieee : ieee_ok f16 5 10. Proof. ieee_tac f16_ok. Qed.
Lemma bf16_ieee : ieee_ok bf16 8 7. Proof. ieee_tac bf16_ok. Qed.
Lemma f32_ieee : ieee_ok f32 8 23. Proof. ieee_tac f32_ok. Qed.
Lemma f64_ieee : ieee_ok f64 11 52. Proof. ieee_tac f64_ok. Qed.
