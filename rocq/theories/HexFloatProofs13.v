(** Widening conversions are exact. *)
From Verif Require Import Base NumberSpec ParseNumber NumberProofs WordsProofs HexFloat HexFloatSpec HexFloatProofs HexFloatProofs2 HexFloatProofs3 HexFloatProofs5 HexFloatProofs6 HexFloatProofs8 HexFloatProofs9 HexFloatProofs10 HexFloatProofs11 HexFloatProofs12.
Local Open Scope N_scope.

Lemma value_inj eb fb p q : deq (value eb fb p) (value eb fb q) -> p = q.
Proof.
  intros H. apply N.le_antisymm; apply (value_dle eb fb); unfold deq, dle in *; [lia|].
  rewrite (Z.min_comm (snd (value eb fb q))). lia.
Qed.
Lemma widen_value s d eb fb eb' fb' p : fmt_ok s eb fb -> fmt_ok d eb' fb' -> fb <= fb' ->
  eb = eb' \/ eb < eb' /\ (Z.of_N (bias s) + Z.of_N fb <= Z.of_N (bias d))%Z ->
  p < infinity eb fb -> exists p', p' < infinity eb' fb' /\ deq (value eb fb p) (value eb' fb' p').
Proof.
  intros O O' F E P. pose proof (half_bias _ _ _ O) as [HB HB1]. pose proof (half_bias _ _ _ O') as [HB' HB1'].
  assert (Zb : zbias eb = Z.of_N (bias s)) by (now rewrite (ok_bias _ _ _ O)).
  assert (Zb' : zbias eb' = Z.of_N (bias d)) by (now rewrite (ok_bias _ _ _ O')).
  pose proof (pow2_pos fb) as PF. pose proof (pow2_pos fb') as PF'.
  set (e := p / 2 ^ fb). set (m := p mod 2 ^ fb).
  assert (PEQ : p = e * 2 ^ fb + m) by (unfold e, m; rewrite N.mul_comm; apply N.div_mod'; lia).
  assert (ML : m < 2 ^ fb) by (apply N.mod_lt; lia).
  assert (EL : e < 2 ^ eb - 1).
  { unfold e. apply N.div_lt_upper_bound; [lia|]. rewrite N.mul_comm. exact P. }
  clearbody e m. subst p.
  assert (LE : (Z.of_N (bias s) <= Z.of_N (bias d))%Z) by (destruct E as [->|[]]; lia).
  assert (FB : 2 ^ fb * 2 ^ (fb' - fb) = 2 ^ fb') by (rewrite <- pow2_add; f_equal; lia).
  assert (ML' : m * 2 ^ (fb' - fb) < 2 ^ fb') by (rewrite <- FB; apply N.mul_lt_mono_pos_r; [apply pow2_pos|auto]).
  destruct (N.eq_dec e 0) as [->|NE].
  - rewrite N.mul_0_l, N.add_0_l, value_subnormal, Zb by auto.
    destruct E as [EE|[EE EB]].
    + exists (m * 2 ^ (fb' - fb)). split.
      * unfold infinity. assert (1 <= 2 ^ eb' - 1) by lia. assert (1 * 2 ^ fb' <= (2 ^ eb' - 1) * 2 ^ fb') by (apply N.mul_le_mono_r; auto). lia.
      * rewrite value_subnormal, Zb' by auto. apply deq_sym. eapply deq_trans; [apply deq_shift|].
        apply deq_refl_of. f_equal. subst eb'. lia.
    + destruct (N.eq_dec m 0) as [->|NM].
      { exists 0. split; [unfold infinity; apply N.mul_pos_pos; lia|]. rewrite value_subnormal by lia. unfold deq, scaled. cbn [fst snd]. reflexivity. }
      destruct (log2_bounds m ltac:(lia)) as [L1 L2]. set (k := N.log2 m) in *.
      assert (KL : k < fb) by (apply (N.pow_lt_mono_r_iff 2); lia).
      set (E' := Z.to_N (1 - Z.of_N (bias s) - Z.of_N fb + Z.of_N k + Z.of_N (bias d))).
      assert (EP : 0 < E') by (unfold E'; lia).
      assert (ME : (m - 2 ^ k) * 2 ^ (fb' - k) < 2 ^ fb').
      { replace fb' with (k + (fb' - k)) at 2 by lia. rewrite pow2_add. apply N.mul_lt_mono_pos_r; [apply pow2_pos|lia]. }
      exists (E' * 2 ^ fb' + (m - 2 ^ k) * 2 ^ (fb' - k)). split.
      * unfold infinity. assert (E' + 1 <= 2 ^ eb' - 1) by (unfold E'; lia).
        assert ((E' + 1) * 2 ^ fb' <= (2 ^ eb' - 1) * 2 ^ fb') by (apply N.mul_le_mono_r; auto). lia.
      * rewrite value_normal, Zb' by auto. apply deq_sym. eapply deq_trans; [apply deq_refl_of|eapply deq_trans; [apply (deq_shift m (Z.of_N E' - Z.of_N (bias d) - Z.of_N fb')%Z (fb' - k))|]].
        -- f_equal. replace (2 ^ fb') with (2 ^ k * 2 ^ (fb' - k)) by (rewrite <- pow2_add; f_equal; lia). rewrite <- N.mul_add_distr_r. f_equal. lia.
        -- apply deq_refl_of. f_equal. unfold E'. lia.
  - rewrite value_normal, Zb by (auto; lia). set (E' := e + bias d - bias s).
    exists (E' * 2 ^ fb' + m * 2 ^ (fb' - fb)). split.
    + unfold infinity. assert (E' + 1 <= 2 ^ eb' - 1) by (unfold E'; lia).
      assert ((E' + 1) * 2 ^ fb' <= (2 ^ eb' - 1) * 2 ^ fb') by (apply N.mul_le_mono_r; auto). lia.
    + rewrite value_normal, Zb' by (auto; unfold E'; lia). apply deq_sym. rewrite <- FB, <- N.mul_add_distr_r.
      eapply deq_trans; [apply deq_shift|]. apply deq_refl_of. f_equal. unfold E'. lia.
Qed.

Lemma make_sign eb fb neg p : p < 2 ^ (eb + fb) -> sign_of eb fb (make eb fb neg p) = neg /\ magnitude eb fb (make eb fb neg p) = p.
Proof.
  intros P. unfold sign_of, magnitude, make. pose proof (pow2_pos (eb + fb)). split.
  - destruct neg; [|rewrite N.add_0_l].
    + rewrite testbit_top; [lia|]. rewrite (pow2_add (eb + fb) 1). change (2 ^ 1) with 2. lia.
    + rewrite testbit_top; [lia|]. rewrite (pow2_add (eb + fb) 1). change (2 ^ 1) with 2. lia.
  - destruct neg; [|rewrite N.add_0_l; now apply N.mod_small]. rewrite <- (N.mul_1_l (2 ^ (eb + fb))) at 1.
    rewrite N.add_comm, N.mod_add by lia. now apply N.mod_small.
Qed.
Lemma make_lt eb fb neg p : p < 2 ^ (eb + fb) -> make eb fb neg p < 2 ^ (1 + eb + fb).
Proof. intros P. unfold make. rewrite <- N.add_assoc, (pow2_add 1). change (2 ^ 1) with 2. destruct neg; lia. Qed.

Lemma dlt_of eb fb p v : deq v (value eb fb p) -> p < infinity eb fb -> dlt v (value eb fb (infinity eb fb)).
Proof. intros D P. apply (deq_dlt_l _ _ _ D). now apply value_dlt. Qed.

(** a finite number that the destination has is converted to it *)
Lemma cast_exact s d eb fb eb' fb' dir b p : ieee_ok s eb fb -> ieee_ok d eb' fb' -> pair_ok s d ->
  b < 2 ^ (1 + eb + fb) -> magnitude eb fb b < infinity eb fb ->
  p < infinity eb' fb' -> deq (value eb fb (magnitude eb fb b)) (value eb' fb' p) ->
  cast 64 s d dir b = Some (make eb' fb' (sign_of eb fb b) p, Success).
Proof.
  intros I I' PO BL MF PL D. destruct (N.eq_dec (magnitude eb fb b) 0) as [Z|NZ].
  - rewrite (cast_zero s d eb fb eb' fb') by auto. assert (p = 0) as ->; auto. apply (value_zero eb' fb').
    apply (deq_zero_fst _ _ D). rewrite Z, value_subnormal by apply pow2_pos. reflexivity.
  - destruct (cast_finite s d eb fb eb' fb' dir b I I' PO BL ltac:(lia) (dlt_of _ _ _ _ D PL)) as (q & r & p' & RD & QL & C & PL' & _ & RS & SEL).
    assert (q = p) as -> by (eapply rounds_down_unique; [exact RD|]; now apply rounds_down_exact).
    rewrite C. assert (r = Success) as -> by now apply RS.
    assert (p' = p) as ->; auto. symmetry. 
    assert (S1 : selects eb' fb' (mode_of dir) (sign_of eb fb b) (value eb fb (magnitude eb fb b)) p).
    { assert (RU : rounds_up eb' fb' (value eb fb (magnitude eb fb b)) p).
      { split; [unfold dle; unfold deq in D; lia|]. intros q H. apply (deq_dle_l _ _ _ D) in H. now apply value_dle in H. }
      assert (RN : rounds_nearest eb' fb' (value eb fb (magnitude eb fb b)) p) by (exists p; split; [auto|left; auto]).
      unfold selects. destruct (mode_of dir); auto; destruct (downwards _ _); auto. }
    symmetry. eapply SEL; eauto.
Qed.
