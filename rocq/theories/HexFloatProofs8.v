(** Conversions between floating point formats, up to the assembly of the result. *)
From Verif Require Import Base NumberSpec ParseNumber NumberProofs WordsProofs HexFloat HexFloatSpec HexFloatProofs HexFloatProofs2 HexFloatProofs3 HexFloatProofs5 HexFloatProofs6.
Local Open Scope N_scope.

(** The IEEE formats *)
Record ieee_ok (f : fmt) (eb fb : N) : Prop := {
  ie_ok : fmt_ok f eb fb;
  ie_inf : has_inf f = true;
  ie_nan : has_nan f = true;
  ie_isnan : forall b, nan_bits f b = (infinity eb fb <? magnitude eb fb b);
  ie_isinf : forall b, inf_bits f b = (magnitude eb fb b =? infinity eb fb);
  ie_pattern : nan_pattern f < 2 ^ (eb + fb) }.

Lemma unsigned_magnitude f eb fb b : fmt_ok f eb fb -> b < 2 ^ (1 + eb + fb) -> unsigned_bits f b = magnitude eb fb b.
Proof.
  intros O L. unfold unsigned_bits, sign_mask, top_bit_left_shift, magnitude.
  rewrite (ok_sign _ _ _ O), (ok_used _ _ _ O), (ok_u _ _ _ O), N.shiftl_1_l.
  replace (1 + eb + fb - 1) with (eb + fb) by lia. rewrite <- N.land_ones.
  apply N.bits_inj. intros i. rewrite N.ldiff_spec, N.land_spec, N.pow2_bits_eqb.
  destruct (N.lt_trichotomy i (eb + fb)) as [C|[C|C]].
  - rewrite N.ones_spec_low by lia. destruct (N.eqb_spec (eb + fb) i); [lia|]. reflexivity.
  - subst i. rewrite N.eqb_refl, N.ones_spec_high by lia. cbn [negb]. now rewrite !andb_false_r.
  - rewrite N.ones_spec_high by lia. rewrite andb_false_r.
    assert (T : N.testbit b i = false); [|now rewrite T].
    rewrite N.testbit_eqb, N.div_small; [reflexivity|].
    apply N.lt_le_trans with (1 := L). apply pow2_le. lia.
Qed.
Lemma sign_negative f eb fb b : fmt_ok f eb fb -> is_negative f b = sign_of eb fb b.
Proof. intros O. unfold is_negative. rewrite (field_sign _ _ _ _ O). apply negb_involutive. Qed.

(** ** The loops over a subnormal *)
Lemma bit_at F k : F < 2 ^ (k + 1) -> (N.land F (2 ^ k) =? 0) = (F <? 2 ^ k).
Proof.
  intros L. rewrite (pow2_add k 1) in L. change (2 ^ 1) with 2 in L. rewrite land_pow2. pose proof (pow2_pos k).
  assert (T : N.testbit F k = negb (F <? 2 ^ k)).
  { rewrite N.testbit_eqb. destruct (N.ltb_spec F (2 ^ k)) as [A|A]; cbn [negb].
    - rewrite N.div_small by auto. reflexivity.
    - replace (F / 2 ^ k) with 1; [reflexivity|]. apply N.div_unique with (F - 2 ^ k); lia. }
  rewrite T. destruct (F <? 2 ^ k); cbn [negb]; [reflexivity|]. apply N.eqb_neq. lia.
Qed.
Lemma first_half f eb fb : fmt_ok f eb fb -> N.shiftr (first_exponent_bit f) 1 = 2 ^ (fb - 1).
Proof.
  intros O. unfold first_exponent_bit. rewrite (ok_f _ _ _ O), N.shiftl_1_l, N.shiftr_div_pow2.
  pose proof (ok_fb _ _ _ O). replace fb with ((fb - 1) + 1) at 1 by lia. rewrite pow2_add. apply N.div_mul. cbn. lia.
Qed.
Lemma log2_double F : 0 < F -> N.log2 (F * 2) = N.log2 F + 1.
Proof.
  intros P. rewrite N.mul_comm. pose proof (log2_step F false P) as LS. cbn [N.b2n] in LS. now rewrite N.add_0_r in LS.
Qed.
Lemma normalise_exponent_spec f eb fb : fmt_ok f eb fb -> forall fuel m e, 0 < m < 2 ^ fb ->
  (N.to_nat (fb - 1 - N.log2 m) <= fuel)%nat ->
  (- 2 ^ (Z.of_N (uwidth f) - 1) <= e - Z.of_N (fb - 1 - N.log2 m))%Z -> (e <= 0)%Z ->
  normalise_exponent f fuel m e = Some (e - Z.of_N (fb - 1 - N.log2 m))%Z.
Proof.
  intros O. pose proof (ok_fb _ _ _ O) as OF. pose proof (ok_u _ _ _ O) as OU.
  assert (FF : 2 ^ fb = 2 ^ (fb - 1) * 2).
  { replace fb with ((fb - 1) + 1) at 1 by lia. apply pow2_add. }
  induction fuel as [|fuel IH]; intros m e [M0 ML] FU EB E0; cbn [normalise_exponent]; rewrite (first_half _ _ _ O).
  - assert (LL : N.log2 m < fb) by (apply N.log2_lt_pow2; auto). assert (LG : N.log2 m = fb - 1) by lia.
    pose proof (log2_bounds m M0) as [LB UB]. rewrite LG in LB.
    rewrite bit_at by (rewrite pow2_add; change (2 ^ 1) with 2; lia).
    destruct (N.ltb_spec m (2 ^ (fb - 1))); [lia|]. f_equal. lia.
  - rewrite bit_at by (rewrite pow2_add; change (2 ^ 1) with 2; lia).
    destruct (N.ltb_spec m (2 ^ (fb - 1))) as [A|A].
    + assert (LG : N.log2 m < fb - 1) by (apply N.log2_lt_pow2; auto).
      rewrite N.shiftl_mul_pow2. change (2 ^ 1) with 2. rewrite wrap_small.
      2:{ apply N.lt_le_trans with (2 ^ fb); [lia|]. apply pow2_le. lia. }
      rewrite swrap_small by (try split; lia).
      rewrite IH; rewrite ?log2_double by auto; try lia. f_equal. lia.
    + assert (LL : N.log2 m < fb) by (apply N.log2_lt_pow2; auto).
      assert (fb - 1 <= N.log2 m) by (apply N.log2_le_pow2; auto). f_equal. lia.
Qed.
Lemma cast_normalise_spec m e : 0 < m -> forall i fuel, (N.to_nat i < fuel)%nat -> N.log2 m <= i -> m < 2 ^ (i + 1) ->
  cast_normalise fuel (2 ^ i) m e = (e - 1 - Z.of_N (i - N.log2 m))%Z.
Proof.
  intros M0 i. remember (N.to_nat i) as k eqn:K. revert i K e.
  induction k as [|k IH]; intros i K e fuel FU LI LM; destruct fuel as [|fuel]; [lia| |lia|].
  - assert (i = 0) by lia. subst i. cbn [cast_normalise]. change (2 ^ 0) with 1 in *. cbn [N.eqb].
    change (2 ^ (0 + 1)) with 2 in LM. assert (m = 1) by lia. subst m. change (N.land 1 1 =? 0) with false. change (N.log2 1) with 0. cbn match. lia.
  - cbn [cast_normalise]. pose proof (pow2_pos i). destruct (N.eqb_spec (2 ^ i) 0); [lia|].
    rewrite N.land_comm, bit_at by auto. destruct (N.ltb_spec m (2 ^ i)) as [A|A].
    + assert (LG : N.log2 m < i) by (apply N.log2_lt_pow2; auto).
      rewrite N.shiftr_div_pow2.
      replace (2 ^ i / 2 ^ 1) with (2 ^ (i - 1)).
      2:{ replace i with ((i - 1) + 1) at 2 by lia. rewrite pow2_add. symmetry. apply N.div_mul. cbn. lia. }
      rewrite IH; [lia|lia|lia|lia|]. replace (i - 1 + 1) with i by lia. exact A.
    + assert (i <= N.log2 m) by (apply N.log2_le_pow2; auto). lia.
Qed.
Lemma iter_shift u m j : m * 2 ^ N.of_nat j < 2 ^ u -> Nat.iter j (fun s => wrap u (N.shiftl s 1)) m = m * 2 ^ N.of_nat j.
Proof.
  induction j as [|j IH]; intros L.
  - cbn. lia.
  - change (Nat.iter (S j) (fun s => wrap u (N.shiftl s 1)) m) with (wrap u (N.shiftl (Nat.iter j (fun s => wrap u (N.shiftl s 1)) m) 1)).
    replace (N.of_nat (S j)) with (N.of_nat j + 1) in * by lia. rewrite pow2_add in *. change (2 ^ 1) with 2 in *.
    rewrite IH by lia. rewrite N.shiftl_mul_pow2. change (2 ^ 1) with 2. rewrite wrap_small; lia.
Qed.

(** the exponent that castTo computes *)
Definition source_exponent (s : fmt) (b : N) : Z :=
  let e := unbiased_exponent s b in
  if (e =? min_exponent s)%Z
  then cast_normalise (S (N.to_nat (uwidth s))) (N.shiftr (first_exponent_bit s) 1) (significand_bits s b) (e + 1)%Z
  else e.

(** The source as a normalised number *)
Lemma source_normal s eb fb b : fmt_ok s eb fb -> b < 2 ^ (1 + eb + fb) -> magnitude eb fb b <> 0 ->
  (Z.of_N (bias s) + Z.of_N fb + 2 <= 2 ^ (Z.of_N (uwidth s) - 1))%Z ->
  exists sig,
    normalized_significand s 64 b = Some sig /\ sig < 2 ^ fb /\
    deq (value eb fb (magnitude eb fb b)) (2 ^ fb + sig, (source_exponent s b - Z.of_N fb)%Z) /\
    (- Z.of_N (bias s) - Z.of_N fb < source_exponent s b <= Z.of_N (bias s) + 1)%Z /\
    ((source_exponent s b = Z.of_N (bias s) + 1)%Z <-> infinity eb fb <= magnitude eb fb b) /\
    (infinity eb fb <= magnitude eb fb b -> sig = magnitude eb fb b - infinity eb fb).
Proof.
  intros O BL M0 SM. pose proof (magnitude_lt eb fb b) as PL.
  pose proof (ok_fb _ _ _ O) as OF. pose proof (ok_u _ _ _ O) as OU. pose proof (ok_bias _ _ _ O) as OB.
  pose proof (ok_eb _ _ _ O) as OE. pose proof (ok_64 _ _ _ O) as O64.
  assert (UB : unbiased_exponent s b = (Z.of_N (magnitude eb fb b / 2 ^ fb) - Z.of_N (bias s))%Z /\
               (Z.of_N (magnitude eb fb b / 2 ^ fb) <= 2 * Z.of_N (bias s) + 1)%Z /\ (1 <= Z.of_N (bias s))%Z).
  { unfold unbiased_exponent, exponent_bits. rewrite (field_exponent _ _ _ _ O).
    assert (EL : magnitude eb fb b / 2 ^ fb < 2 ^ eb).
    { apply N.div_lt_upper_bound; [pose proof (pow2_pos fb); lia|]. now rewrite N.mul_comm, <- pow2_add. }
    generalize dependent (magnitude eb fb b / 2 ^ fb). intros e EL.
    assert (HE : (Z.of_N (2 ^ eb) = 2 * Z.of_N (bias s) + 2)%Z).
    { rewrite of_N_pow, OB. unfold zbias. replace (Z.of_N eb) with (1 + (Z.of_N eb - 1))%Z at 1 by lia. rewrite zpow_add by lia. lia. }
    assert (4 <= 2 ^ eb) by (change 4 with (2 ^ 2); apply pow2_le; auto).
    rewrite swrap_small by lia. lia. }
  destruct UB as (UB & EU & B1).
  unfold source_exponent, normalized_significand, unbiased_normalized_exponent, significand_bits.
  rewrite (unsigned_magnitude _ _ _ _ O BL), (ok_zero _ _ _ O), (field_fraction _ _ _ _ O), UB, (first_half _ _ _ O).
  unfold min_exponent. set (p := magnitude eb fb b) in *. cbn [andb]. destruct (N.eqb_spec p 0); [lia|].
  pose proof (pow2_pos fb) as PF.
  assert (PEQ : p = p / 2 ^ fb * 2 ^ fb + p mod 2 ^ fb) by (rewrite N.mul_comm; apply N.div_mod'; lia).
  assert (ML : p mod 2 ^ fb < 2 ^ fb) by (apply N.mod_lt; lia).
  set (e := p / 2 ^ fb) in *. set (m := p mod 2 ^ fb) in *.
  unfold fraction_encode_mask. rewrite (ok_f _ _ _ O).
  assert (INF : infinity eb fb = (2 ^ eb - 1) * 2 ^ fb) by reflexivity.
  assert (HE : (Z.of_N (2 ^ eb) = 2 * Z.of_N (bias s) + 2)%Z).
  { rewrite of_N_pow, OB. unfold zbias. replace (Z.of_N eb) with (1 + (Z.of_N eb - 1))%Z at 1 by lia. rewrite zpow_add by lia. lia. }
  destruct (Z.eqb_spec (Z.of_N e - Z.of_N (bias s)) (- Z.of_N (bias s))) as [Z0|Z0].
  - assert (E0 : e = 0) by lia. rewrite E0 in *. cbn [Z.of_N]. assert (PM : p = m) by lia.
    assert (MP : 0 < m) by lia.
    assert (LG : N.log2 m < fb) by (apply N.log2_lt_pow2; auto).
    rewrite (normalise_exponent_spec s eb fb O); [|lia|lia|lia|lia].
    pose proof (log2_bounds m MP) as [LB LU].
    rewrite (cast_normalise_spec m); [|auto|lia|lia|replace (fb - 1 + 1) with fb by lia; auto].
    set (i := fb - 1 - N.log2 m).
    assert (FI : 2 ^ fb = 2 ^ N.log2 m * 2 ^ (i + 1)) by (rewrite <- pow2_add; f_equal; lia).
    assert (PI : 0 < 2 ^ (i + 1)) by apply pow2_pos.
    assert (GE : 2 ^ fb <= m * 2 ^ (i + 1) < 2 * 2 ^ fb).
    { rewrite FI. clear - LB LU PI. split; [apply N.mul_le_mono_r; auto|].
      rewrite N.mul_assoc. apply N.mul_lt_mono_pos_r; auto. }
    assert (ITER : Nat.iter (Z.to_nat (- Z.of_N (bias s) - (0 - Z.of_N (bias s) - Z.of_N i) + 1))
               (fun s0 => wrap (uwidth s) (N.shiftl s0 1)) m = m * 2 ^ (i + 1)).
    { replace (Z.to_nat _) with (N.to_nat (i + 1)) by lia. rewrite iter_shift; rewrite N2Nat.id; auto.
      apply N.lt_le_trans with (2 ^ (1 + fb)).
      - rewrite (pow2_add 1). change (2 ^ 1) with 2. apply GE.
      - apply pow2_le. lia. }
    rewrite ITER, land_set0.
    assert (MM : (m * 2 ^ (i + 1)) mod 2 ^ fb = m * 2 ^ (i + 1) - 2 ^ fb).
    { symmetry. clear - GE. generalize dependent (m * 2 ^ (i + 1)). intros x GE. apply N.mod_unique with 1; lia. }
    rewrite MM. exists (m * 2 ^ (i + 1) - 2 ^ fb).
    assert (4 <= 2 ^ eb) by (change 4 with (2 ^ 2); apply pow2_le; auto).
    split; [reflexivity|]. split; [lia|]. split; [|split; [lia|split]].
    + rewrite PM, value_subnormal by auto. replace (2 ^ fb + (m * 2 ^ (i + 1) - 2 ^ fb)) with (m * 2 ^ (i + 1)) by lia.
      assert (D : deq (m * 2 ^ (i + 1), (0 - Z.of_N (bias s) + 1 - 1 - Z.of_N i - Z.of_N fb)%Z)
                      (m, (0 - Z.of_N (bias s) + 1 - 1 - Z.of_N i - Z.of_N fb + Z.of_N (i + 1))%Z)) by apply deq_shift.
      unfold deq in *. symmetry. rewrite Z.min_comm. 
      replace (1 - zbias eb - Z.of_N fb)%Z with (0 - Z.of_N (bias s) + 1 - 1 - Z.of_N i - Z.of_N fb + Z.of_N (i + 1))%Z by lia.
      exact D.
    + split; intros A; [lia|]. exfalso. rewrite INF in A. assert (3 * 2 ^ fb <= (2 ^ eb - 1) * 2 ^ fb) by (apply N.mul_le_mono_r; lia). lia.
    + intros A. exfalso. rewrite INF in A. assert (3 * 2 ^ fb <= (2 ^ eb - 1) * 2 ^ fb) by (apply N.mul_le_mono_r; lia). lia.
  - assert (E0 : 0 < e) by lia.
    replace (Z.to_nat _) with 0%nat by lia. cbn [Nat.iter]. rewrite land_set0, (N.mod_small m) by auto.
    exists m. split; [reflexivity|]. split; [auto|].
    assert (EI : infinity eb fb <= p <-> e = 2 ^ eb - 1).
    { rewrite INF. assert (EB : e <= 2 ^ eb - 1) by lia. split; intros A.
      - destruct (N.eq_dec e (2 ^ eb - 1)); auto. exfalso. assert (e + 1 <= 2 ^ eb - 1) by lia.
        assert ((e + 1) * 2 ^ fb <= (2 ^ eb - 1) * 2 ^ fb) by (apply N.mul_le_mono_r; auto). lia.
      - rewrite PEQ, A. lia. }
    split; [|split; [lia|split]].
    + rewrite PEQ, value_normal by auto. apply deq_refl_of. f_equal. lia.
    + rewrite EI. lia.
    + rewrite EI. intros A. rewrite PEQ at 1. rewrite A, INF. lia.
Qed.
