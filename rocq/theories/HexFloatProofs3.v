(** Proofs about HexFloat.v: the value of a hexadecimal text. *)
From Verif Require Import Base NumberSpec ParseNumber NumberProofs WordsProofs HexFloat HexFloatSpec HexFloatProofs HexFloatProofs2.
Local Open Scope N_scope.

(** ** The exponent *)
Lemma written_digit_exact f w d : (0 <= w)%Z -> (0 <= d < 10)%Z -> (w * 10 + d <= written_overflow f - 10)%Z ->
  written_digit f w d = (w * 10 + d)%Z.
Proof.
  intros W D L. unfold written_digit.
  rewrite Z.geb_leb. destruct (Z.leb_spec ((written_overflow f - d) ÷ 10) w) as [G|G]; auto.
  rewrite Z.quot_div_nonneg in G by lia. lia.
Qed.
Lemma number_mono ds : forall a, a <= num_from 10 a ds.
Proof.
  induction ds as [|d ds IH]; intros a; cbn [num_from fold_left]; [lia|].
  specialize (IH (10 * a + d)). unfold num_from in IH. lia.
Qed.
Definition not_digit_head (l : list N) : Prop := match l with c :: _ => ~ (48 <= c <= 57) | [] => True end.
Lemma exp_loop_digits f es eds rest ss minus :
  Forall2 decimal_digit es eds -> not_digit_head rest ->
  forall w sd, (Z.of_N (num_from 10 w eds) <= written_overflow f - 10)%Z -> (es <> [] \/ sd = true) ->
  exp_loop f (es ++ rest) ss minus sd (Z.of_N w) = Some (Z.of_N (num_from 10 w eds), minus, rest).
Proof.
  intros F R. induction F as [|c d es eds [-> D] F IH]; intros w sd L NE.
  - cbn [app num_from fold_left]. destruct NE as [NE| ->]; [congruence|].
    destruct rest as [|c t]; [reflexivity|]. cbn [exp_loop negb andb].
    cbn in R. assert (C : (48 <=? c) && (c <=? 57) = false) by lia. now rewrite C.
  - cbn [app exp_loop]. assert (C : negb sd && ((48 + d =? 45) || (48 + d =? 43)) = false).
    { apply andb_false_intro2. lia. }
    rewrite C. assert (C' : (48 <=? 48 + d) && (48 + d <=? 57) = true) by lia. rewrite C'.
    cbn [num_from fold_left] in *.
    pose proof (number_mono eds (10 * w + d)) as M. unfold num_from in M.
    replace (Z.of_N (48 + d) - 48)%Z with (Z.of_N d) by lia.
    rewrite written_digit_exact by lia.
    replace (Z.of_N w * 10 + Z.of_N d)%Z with (Z.of_N (10 * w + d)) by lia.
    apply IH; auto.
Qed.

(** ** The fraction *)
(** the fraction and the exponent after the adjustment at 2055-2061 *)
Lemma adjust f eb fb hi V q s : fmt_ok f eb fb -> seen f hi V q s -> 0 < V ->
  let F := if hi then fr s else wrap (uwidth f) (N.shiftl (fr s) 1) in
  fr s <> 0 \/ hi = true ->
  F < 2 ^ uwidth f /\
  forall k, k <= uwidth f - 1 -> F / 2 ^ (uwidth f - k) = top k (N.log2 V) (V - 2 ^ N.log2 V).
Proof.
  intros O (H & St) P F NZ. pose proof (log2_bounds V P) as [LB UB]. set (n := N.log2 V) in *.
  set (u := uwidth f) in *. assert (U0 : 0 < u) by (unfold u; rewrite (ok_u _ _ _ O); lia).
  destruct hi.
  - destruct St as (_ & E & _). unfold F. rewrite E. split.
    + apply top_lt. lia.
    + intros k K. apply top_cut. lia.
  - unfold F. assert (V0 : V =? 0 = false) by lia. rewrite V0 in St. destruct St as (E & _).
    fold n u in E. rewrite E.
    split; [unfold wrap; apply N.mod_lt; pose proof (pow2_pos u); lia|].
    intros k K. set (T := top u (n + 1) V).
    assert (T1 : T < 2 ^ u) by (apply top_lt; rewrite pow2_add; change (2 ^ 1) with 2; lia).
    assert (PU : 2 ^ u = 2 * 2 ^ (u - 1)) by (apply pow_half; lia).
    assert (PN := pow2_pos n). assert (PU1 := pow2_pos (u - 1)).
    assert (T2 : 2 ^ (u - 1) <= T).
    { unfold T, top. apply N.div_le_lower_bound; [rewrite pow2_add; change (2 ^ 1) with 2; lia|].
      rewrite pow2_add, PU. change (2 ^ 1) with 2. nia. }
    assert (W : wrap u (N.shiftl T 1) = 2 * (T - 2 ^ (u - 1))).
    { unfold wrap. rewrite N.shiftl_mul_pow2. change (2 ^ 1) with 2.
      symmetry. apply N.mod_unique with 1; lia. }
    rewrite W. replace (u - k) with (1 + (u - (k + 1))) by lia. rewrite pow2_add. change (2 ^ 1) with 2.
    assert (PK := pow2_pos (u - (k + 1))). rewrite N.div_mul_cancel_l by lia.
    assert (PU2 : 2 ^ (u - 1) = 2 ^ k * 2 ^ (u - (k + 1))).
    { rewrite <- pow2_add. f_equal. lia. }
    assert (TK : T / 2 ^ (u - (k + 1)) = V * 2 ^ k / 2 ^ n).
    { unfold T. rewrite top_cut by lia. unfold top. rewrite !pow2_add. change (2 ^ 1) with 2.
      rewrite N.mul_assoc. apply N.div_mul_cancel_r; lia. }
    assert (TD : (T - 2 ^ (u - 1)) / 2 ^ (u - (k + 1)) = T / 2 ^ (u - (k + 1)) - 2 ^ k).
    { symmetry. apply N.div_unique with (T mod 2 ^ (u - (k + 1))).
      - apply N.mod_lt. lia.
      - pose proof (N.div_mod' T (2 ^ (u - (k + 1)))) as DM.
        assert (2 ^ k <= T / 2 ^ (u - (k + 1))) by (apply N.div_le_lower_bound; [lia|]; rewrite N.mul_comm, <- PU2; auto).
        rewrite N.mul_sub_distr_l. rewrite (N.mul_comm _ (2 ^ k)), <- PU2.
        assert (2 ^ (u - 1) <= 2 ^ (u - (k + 1)) * (T / 2 ^ (u - (k + 1)))).
        { rewrite PU2, (N.mul_comm (2 ^ k)). apply N.mul_le_mono_l. auto. }
        lia. }
    rewrite TD, TK. unfold top.
    rewrite N.mul_sub_distr_r. apply N.div_unique with ((V * 2 ^ k) mod 2 ^ n).
    + apply N.mod_lt. lia.
    + pose proof (N.div_mod' (V * 2 ^ k) (2 ^ n)) as DM.
      assert (2 ^ k <= V * 2 ^ k / 2 ^ n) by (apply N.div_le_lower_bound; [lia|]; apply N.mul_le_mono_r; lia).
      rewrite N.mul_sub_distr_l.
      assert (2 ^ n * 2 ^ k <= 2 ^ n * (V * 2 ^ k / 2 ^ n)) by (apply N.mul_le_mono_l; auto). lia.
Qed.
Lemma seen_fr f eb fb V q s : fmt_ok f eb fb -> seen f false V q s -> (fr s =? 0) = (V =? 0).
Proof.
  intros O (H & St). destruct (N.eqb_spec V 0) as [->|V0].
  - destruct St as (-> & _). reflexivity.
  - destruct St as (-> & _). apply N.eqb_neq. intros Z.
    pose proof (log2_bounds V ltac:(lia)) as [LB UB].
    unfold top in Z. apply N.div_small_iff in Z.
    + rewrite pow2_add in Z. change (2 ^ 1) with 2 in Z.
      assert (2 <= 2 ^ uwidth f).
      { replace 2 with (2 ^ 1) at 1 by reflexivity. apply pow2_le. rewrite (ok_u _ _ _ O). lia. }
      nia.
    + pose proof (pow2_pos (N.log2 V + 1)). lia.
Qed.

Lemma denorm_loop_spec f eb fb G b fuel : fmt_ok f eb fb -> G < 2 ^ fb -> (b <= 0)%Z ->
  (1 <= fuel)%nat -> G < 2 ^ N.of_nat fuel ->
  denorm_loop f fuel G b = Some (G / 2 ^ Z.to_N (- b), 0%Z).
Proof.
  intros O. revert G b. induction fuel as [|fuel IH]; intros G b GF B FL GL; [lia|].
  cbn [denorm_loop]. destruct (Z.ltb_spec b 0) as [L|L].
  - unfold fraction_encode_mask. rewrite land_set0, (ok_f _ _ _ O), N.shiftr_div_pow2. change (2 ^ 1) with 2.
    rewrite (N.mod_small (G / 2)) by lia.
    assert (E : Z.to_N (- b) = 1 + Z.to_N (- (b + 1))) by lia. rewrite E, pow2_add. change (2 ^ 1) with 2.
    pose proof (pow2_pos (Z.to_N (- (b + 1)))) as PB.
    rewrite <- N.div_div by lia.
    destruct (N.eqb_spec (G / 2) 0) as [Z|Z].
    + rewrite Z. rewrite N.div_0_l by lia. reflexivity.
    + rewrite Nat2N.inj_succ, N.pow_succ_r' in GL.
      assert (G / 2 < 2 ^ N.of_nat fuel) by lia.
      assert (1 <= fuel)%nat.
      { destruct fuel; [|lia]. change (2 ^ N.of_nat 0) with 1 in H. lia. }
      apply IH; auto; lia.
  - replace b with 0%Z by lia. change (2 ^ Z.to_N (- 0)) with 1. now rewrite N.div_1_r.
Qed.

(** the three fields put together *)
Lemma make_bits f eb fb sign fraction e : fmt_ok f eb fb -> fraction < 2 ^ fb -> e < 2 ^ eb ->
  N.lor (N.lor (wrap (uwidth f) (N.shiftl (match sign with Minus => 1 | _ => 0 end) (top_bit_left_shift f))) fraction)
        (N.land (wrap (uwidth f) (N.shiftl e (fbits f))) (exponent_mask f))
  = make eb fb (match sign with Minus => true | _ => false end) (e * 2 ^ fb + fraction).
Proof.
  intros O FL EL. unfold top_bit_left_shift, exponent_mask, make.
  rewrite (ok_used _ _ _ O), (ok_u _ _ _ O), (ok_e _ _ _ O), (ok_f _ _ _ O).
  assert (EF : e * 2 ^ fb < 2 ^ (eb + fb)).
  { rewrite pow2_add. apply N.mul_lt_mono_pos_r; [apply pow2_pos|auto]. }
  rewrite (wrap_small _ (N.shiftl e fb)).
  2:{ rewrite N.shiftl_mul_pow2. eapply N.lt_trans; [exact EF|]. apply pow2_lt. lia. }
  rewrite land_set. rewrite (N.mod_small e) by auto.
  replace (1 + eb + fb - 1) with (eb + fb) by lia.
  assert (L : N.lor fraction (N.shiftl e fb) = e * 2 ^ fb + fraction).
  { rewrite lor_shift_add by auto. lia. }
  rewrite <- N.lor_assoc, L, N.lor_comm.
  assert (LT : e * 2 ^ fb + fraction < 2 ^ (eb + fb)).
  { rewrite pow2_add. assert (e + 1 <= 2 ^ eb) by lia.
    apply N.lt_le_trans with ((e + 1) * 2 ^ fb); [rewrite N.mul_add_distr_r, N.mul_1_l; apply N.add_lt_mono_l; auto|]. apply N.mul_le_mono_r. auto. }
  assert (WS : forall x, x <= 1 -> wrap (1 + eb + fb) (N.shiftl x (eb + fb)) = N.shiftl x (eb + fb)).
  { intros x X. apply wrap_small. rewrite N.shiftl_mul_pow2, <- N.add_assoc, (pow2_add 1). change (2 ^ 1) with 2.
    pose proof (pow2_pos (eb + fb)). nia. }
  destruct sign; rewrite WS by lia; rewrite lor_shift_add by auto; lia.
Qed.

(** ** Assembling *)
(** What a magnitude is read as: the truncation, or infinity beyond the exponent range. *)
Definition reads_as (eb fb : N) (v : dyadic) (p : N) : Prop :=
  p < 2 ^ (eb + fb) /\
  (if fst v =? 0 then p = 0
   else (rounds_down eb fb v p \/ dle (value eb fb (2 ^ (eb + fb))) v /\ p = infinity eb fb)).

Lemma int_max_val f eb fb : fmt_ok f eb fb -> int_max f = (2 ^ Z.of_N (eb + fb) - 1)%Z.
Proof. intros O. unfold int_max. rewrite (ok_u _ _ _ O). f_equal. f_equal. lia. Qed.
Lemma int_min_val f eb fb : fmt_ok f eb fb -> int_min f = (- 2 ^ Z.of_N (eb + fb))%Z.
Proof. intros O. unfold int_min. rewrite (ok_u _ _ _ O). f_equal. f_equal. lia. Qed.

Lemma value_normal eb fb e m : 0 < e -> m < 2 ^ fb ->
  value eb fb (e * 2 ^ fb + m) = (2 ^ fb + m, (Z.of_N e - zbias eb - Z.of_N fb)%Z).
Proof.
  intros E M. unfold value. pose proof (pow2_pos fb).
  replace ((e * 2 ^ fb + m) / 2 ^ fb) with e by (apply N.div_unique with m; lia).
  replace ((e * 2 ^ fb + m) mod 2 ^ fb) with m by (apply N.mod_unique with e; lia).
  destruct (N.eqb_spec e 0); [lia|]. reflexivity.
Qed.
Lemma value_subnormal eb fb m : m < 2 ^ fb -> value eb fb m = (m, (1 - zbias eb - Z.of_N fb)%Z).
Proof.
  intros M. unfold value. rewrite (N.div_small m) by auto. rewrite (N.mod_small m) by auto. reflexivity.
Qed.

Lemma fold_exponent_exact f written exponent :
  (0 <= written_overflow f)%Z -> (Z.abs written + Z.abs exponent < written_overflow f)%Z ->
  fold_exponent f written exponent = (written + exponent)%Z.
Proof.
  intros P L. unfold fold_exponent. rewrite !Z.geb_leb, !Z.gtb_ltb.
  destruct (Z.leb_spec 0 written), (Z.leb_spec 0 exponent); cbn [andb];
    try (destruct (Z.ltb_spec written (written_overflow f - exponent)); lia);
    destruct (Z.ltb_spec written 0), (Z.ltb_spec exponent 0); cbn [andb]; try lia.
  destruct (Z.ltb_spec (- written) (written_overflow f + exponent)); lia.
Qed.

Lemma assemble_spec f eb fb sign hi V q s w rest : fmt_ok f eb fb -> seen f hi V q s ->
  (Z.abs w + Z.of_N (bias f) + Z.of_N (N.log2 V) + Z.of_N q + 4 < written_overflow f)%Z ->
  exists p, assemble f sign s w rest = Parsed (make eb fb (match sign with Minus => true | _ => false end) p) rest /\
            reads_as eb fb (V, (w - Z.of_N q)%Z) p.
Proof.
  intros O S0 BD. pose proof (ok_bias _ _ _ O) as OB. pose proof (ok_u _ _ _ O) as OU.
  pose proof (ok_eb _ _ _ O) as OE. pose proof (ok_fb _ _ _ O) as OF.
  assert (IM : (int_max f = written_overflow f + 1)%Z) by (unfold written_overflow; lia).
  assert (IN : (int_min f = - (written_overflow f) - 2)%Z).
  { unfold written_overflow. rewrite (int_max_val _ _ _ O), (int_min_val _ _ _ O). lia. }
  destruct (N.eq_dec V 0) as [->|V0].
  - (* zero *)
    assert (hi = false) as ->.
    { destruct hi; auto. destruct S0 as (_ & P & _). lia. }
    pose proof S0 as (H & St). cbn [N.eqb] in St. destruct St as (F & I & B & X).
    assert (EX : fold_exponent f w (ex s) = (w + ex s)%Z).
    { apply fold_exponent_exact; lia. }
    unfold assemble. rewrite EX. unfold to_int.
    assert (C : in_int f (w + ex s) = true) by (unfold in_int; lia).
    rewrite C, H, F. cbn [negb andb N.eqb].
    change (0 <=? 0)%Z with true. cbn [andb]. rewrite N.shiftr_0_l, N.land_0_l.
    assert (Z.of_N (set_bits 0 (ebits f)) >= 0)%Z by lia.
    rewrite Z.gtb_ltb. destruct (Z.ltb_spec (Z.of_N (set_bits 0 (ebits f))) 0); [lia|].
    change (Z.to_N 0) with 0. exists 0.
    pose proof (make_bits f eb fb sign 0 0 O (pow2_pos _) (pow2_pos _)) as MB.
    change (0 * 2 ^ fb + 0) with 0 in MB. rewrite MB. split; auto.
    split; [apply pow2_pos|]. reflexivity.
  - (* not zero *)
    assert (P : 0 < V) by lia. pose proof (log2_bounds V P) as [LB UB]. set (n := N.log2 V) in *.
    assert (NZ : fr s <> 0 \/ hi = true).
    { destruct hi; auto. left. pose proof (seen_fr _ _ _ _ _ _ O S0) as E. intros Z. rewrite Z in E. cbn in E. lia. }
    pose proof (adjust f eb fb hi V q s O S0 P NZ) as (FL & FK). fold n in FK.
    pose proof S0 as (H & St).
    set (b := (w + Z.of_N (bias f) + Z.of_N n - Z.of_N q)%Z).
    set (F := if hi then fr s else wrap (uwidth f) (N.shiftl (fr s) 1)) in *.
    assert (ZR : negb (has_int s) && (fr s =? 0) = false).
    { rewrite H. destruct hi; auto. cbn [negb andb]. rewrite (seen_fr _ _ _ _ _ _ O S0). lia. }
    assert (EXS : ex s = (Z.of_N (bias f) + Z.of_N n - Z.of_N q + if hi then 0 else 1)%Z).
    { destruct hi.
      - destruct St as (_ & _ & _ & X). fold n in X. lia.
      - destruct (N.eqb_spec V 0); [lia|]. destruct St as (_ & _ & _ & X). fold n in X. lia. }
    assert (EX : fold_exponent f w (ex s) = (w + ex s)%Z).
    { apply fold_exponent_exact; [lia|]. rewrite EXS. destruct hi; lia. }
    assert (C2 : in_int f b = true) by (unfold in_int, b; lia).
    assert (AD : (if negb (has_int s) && true
                  then match to_int f (w + ex s - 1)%Z with
                       | Some e => Some (wrap (uwidth f) (N.shiftl (fr s) 1), e)
                       | None => None
                       end
                  else if false then Some (fr s, 0%Z) else Some (fr s, (w + ex s)%Z)) = Some (F, b)).
    { rewrite H. unfold F. assert (BE : (b = w + ex s - if hi then 0 else 1)%Z) by (unfold b; rewrite EXS; destruct hi; lia).
      destruct hi; cbn [negb andb].
      - do 2 f_equal. lia.
      - replace (w + ex s - 1)%Z with b by lia. unfold to_int. rewrite C2. reflexivity. }
    unfold assemble. rewrite EX, ZR.
    assert (C : in_int f (w + ex s) = true) by (rewrite EXS; unfold in_int; destruct hi; lia).
    assert (TI : to_int f (w + ex s) = Some (w + ex s)%Z) by (unfold to_int; now rewrite C).
    rewrite TI. cbn [negb]. rewrite AD. rewrite andb_true_r.
    set (u := uwidth f) in *.
    set (G := if (b <=? 0)%Z then V * 2 ^ (fb - 1) / 2 ^ n else (V - 2 ^ n) * 2 ^ fb / 2 ^ n).
    assert (PN := pow2_pos n). assert (PF := pow2_pos fb). assert (PF1 := pow2_pos (fb - 1)).
    assert (PFH : 2 ^ fb = 2 * 2 ^ (fb - 1)) by (apply pow_half; lia).
    assert (GL : G < 2 ^ fb).
    { unfold G. destruct (b <=? 0)%Z.
      - apply N.div_lt_upper_bound; [lia|]. rewrite PFH. nia.
      - apply N.div_lt_upper_bound; [lia|]. apply N.mul_lt_mono_pos_r; lia. }
    assert (FG : N.land (N.shiftr (if (b <=? 0)%Z then N.lor (N.shiftr F 1) (wrap u (N.shiftl 1 (top_bit_left_shift f))) else F)
                            (fraction_right_shift f)) (fraction_encode_mask f) = G).
    { unfold fraction_right_shift, fraction_encode_mask. rewrite land_set0, (ok_f _ _ _ O), N.shiftr_div_pow2. fold u.
      assert (GE : (if (b <=? 0)%Z then N.lor (N.shiftr F 1) (wrap u (N.shiftl 1 (top_bit_left_shift f))) else F) / 2 ^ (u - fb) = G);
        [|rewrite GE; apply N.mod_small; auto].
      unfold G. destruct (b <=? 0)%Z.
      - unfold top_bit_left_shift. rewrite (ok_used _ _ _ O). fold u.
        assert (PU : 2 ^ u = 2 * 2 ^ (u - 1)) by (apply pow_half; lia). assert (PU1 := pow2_pos (u - 1)).
        rewrite (wrap_small u) by (rewrite N.shiftl_mul_pow2; lia).
        rewrite lor_shift_add by (rewrite N.shiftr_div_pow2; change (2 ^ 1) with 2; lia).
        rewrite N.shiftr_div_pow2, N.mul_1_l.
        replace (2 ^ (u - 1)) with (2 ^ (fb - 1) * 2 ^ (u - fb)) by (rewrite <- pow2_add; f_equal; lia).
        assert (PUF := pow2_pos (u - fb)). rewrite N.div_add by lia.
        rewrite N.div_div by (change (2 ^ 1) with 2; lia).
        rewrite <- pow2_add. replace (1 + (u - fb)) with (u - (fb - 1)) by lia.
        rewrite FK by lia. unfold top. rewrite N.mul_sub_distr_r.
        apply N.div_unique with ((V * 2 ^ (fb - 1) - 2 ^ n * 2 ^ (fb - 1)) mod 2 ^ n).
        + apply N.mod_lt. lia.
        + pose proof (N.div_mod' (V * 2 ^ (fb - 1) - 2 ^ n * 2 ^ (fb - 1)) (2 ^ n)) as DM.
          assert (2 ^ n * 2 ^ (fb - 1) <= V * 2 ^ (fb - 1)) by (apply N.mul_le_mono_r; lia).
          rewrite N.mul_add_distr_l. lia.
      - rewrite FK by lia. reflexivity. }
    rewrite FG, (ok_e _ _ _ O), !set_bits0, !ones_val.
    assert (PE := pow2_pos eb).
    assert (DEN : denorm_loop f (S (N.to_nat u)) G b =
                  Some (if (b <=? 0)%Z then G / 2 ^ Z.to_N (- b) else G, Z.max b 0)).
    { destruct (Z.leb_spec b 0) as [BL|BL].
      - replace (Z.max b 0) with 0%Z by lia. apply (denorm_loop_spec f eb fb); auto; try lia.
        eapply N.lt_trans; [exact GL|]. apply pow2_lt. lia.
      - cbn [denorm_loop]. destruct (Z.ltb_spec b 0); [lia|]. now replace (Z.max b 0) with b by lia. }
    rewrite DEN.
    assert (SC : forall k, (k <= w - Z.of_N q)%Z -> scaled (V, (w - Z.of_N q)%Z) k = (Z.of_N V * 2 ^ (w - Z.of_N q - k))%Z) by reflexivity.
    assert (WB : (w - Z.of_N q = b - zbias eb - Z.of_N n)%Z) by (unfold b; lia).
    pose proof (of_N_pow n) as ZN. pose proof (of_N_pow fb) as ZF.
    rewrite Z.gtb_ltb.
    destruct (Z.ltb_spec (Z.of_N (2 ^ eb - 1)) (Z.max b 0)) as [OV|OV].
    + (* overflow *)
      exists (infinity eb fb). rewrite N2Z.id. fold u. unfold u.
      rewrite (make_bits f eb fb sign 0 (2 ^ eb - 1) O PF ltac:(lia)). rewrite N.add_0_r. fold (infinity eb fb).
      split; auto. split.
      * unfold infinity. rewrite pow2_add. apply N.mul_lt_mono_pos_r; lia.
      * cbn [fst]. destruct (N.eqb_spec V 0); [lia|]. right. split; auto.
        assert (VV : value eb fb (2 ^ (eb + fb)) = (2 ^ fb, (2 ^ Z.of_N eb - zbias eb - Z.of_N fb)%Z)).
        { replace (2 ^ (eb + fb)) with (2 ^ eb * 2 ^ fb + 0) by (rewrite pow2_add; lia).
          rewrite value_normal by lia. rewrite N.add_0_r, of_N_pow. reflexivity. }
        rewrite VV. set (k := (Z.min (b - zbias eb - Z.of_N n) (2 ^ Z.of_N eb - zbias eb - Z.of_N fb))%Z).
        apply (dle_at _ _ k); cbn [snd]; try (unfold k; lia).
        rewrite WB. unfold scaled. cbn [fst snd]. rewrite ZF, <- zpow_add by (unfold k; lia).
        assert (BE : (2 ^ Z.of_N eb <= b)%Z) by (rewrite <- of_N_pow; lia).
        apply Z.le_trans with (2 ^ (Z.of_N n + (b - zbias eb - Z.of_N n - k)))%Z.
        -- apply Z.pow_le_mono_r; lia.
        -- rewrite zpow_add by (unfold k; lia). apply Z.mul_le_mono_nonneg_r; [apply Z.pow_nonneg; lia|]. rewrite <- ZN. lia.
    + (* in range *)
      set (g := if (b <=? 0)%Z then G / 2 ^ Z.to_N (- b) else G).
      assert (gl : g < 2 ^ fb).
      { unfold g. destruct (b <=? 0)%Z; auto. eapply N.le_lt_trans; [|exact GL].
        apply N.div_le_upper_bound; [pose proof (pow2_pos (Z.to_N (- b))); lia|].
        pose proof (pow2_pos (Z.to_N (- b))) as PJ. rewrite <- (N.mul_1_l G) at 1. apply N.mul_le_mono_r.
        clear - PJ. lia. }
      exists (Z.to_N (Z.max b 0) * 2 ^ fb + g). fold u. unfold u.
      rewrite (make_bits f eb fb sign g (Z.to_N (Z.max b 0)) O gl ltac:(lia)).
      split; auto. split.
      * rewrite pow2_add. apply N.lt_le_trans with ((Z.to_N (Z.max b 0) + 1) * 2 ^ fb); [rewrite N.mul_add_distr_r, N.mul_1_l; apply N.add_lt_mono_l; auto|].
        apply N.mul_le_mono_r. lia.
      * cbn [fst]. destruct (N.eqb_spec V 0); [lia|]. left. unfold g, G.
        destruct (Z.leb_spec b 0) as [BL|BL].
        -- replace (Z.max b 0) with 0%Z by lia. change (Z.to_N 0 * 2 ^ fb) with 0. rewrite N.add_0_l.
           unfold g, G in gl. destruct (Z.leb_spec b 0); [|lia]. clear H0.
           set (j := Z.to_N (- b)) in *. assert (PJ := pow2_pos j).
           rewrite N.div_div in * by lia.
           set (D := 2 ^ n * 2 ^ j) in *. assert (PD : 0 < D) by (unfold D; lia).
           apply rounds_down_intro with (m := V * 2 ^ (fb - 1) / D) (x := (1 - zbias eb - Z.of_N fb)%Z)
             (k := (b - zbias eb - Z.of_N n - Z.of_N fb)%Z).
           ++ apply value_subnormal. auto.
           ++ clear - BL. lia.
           ++ cbn [snd]. rewrite WB. clear. lia.
           ++ rewrite SC by (rewrite WB; clear; lia). rewrite WB.
              replace (b - zbias eb - Z.of_N n - (b - zbias eb - Z.of_N n - Z.of_N fb))%Z with (Z.of_N fb) by (clear; lia).
              replace (1 - zbias eb - Z.of_N fb - (b - zbias eb - Z.of_N n - Z.of_N fb))%Z with (Z.of_N (1 + (n + j))) by (unfold j; clear - BL; lia).
              rewrite <- !of_N_pow, pow2_add, pow2_add. fold D. change (2 ^ 1) with 2.
              pose proof (N.div_mod' (V * 2 ^ (fb - 1)) D) as DM.
              pose proof (N.mod_lt (V * 2 ^ (fb - 1)) D ltac:(lia)) as ML.
              set (r := V * 2 ^ (fb - 1) / D) in *. rewrite PFH. clear - DM ML. revert DM ML.
              generalize (V * 2 ^ (fb - 1) mod D), (2 ^ (fb - 1)). intros m X DM ML. nia.
        -- replace (Z.max b 0) with b by lia.
           unfold g, G in gl. destruct (Z.leb_spec b 0); [lia|]. clear H0.
           apply rounds_down_intro with (m := 2 ^ fb + (V - 2 ^ n) * 2 ^ fb / 2 ^ n) (x := (b - zbias eb - Z.of_N fb)%Z)
             (k := (b - zbias eb - Z.of_N n - Z.of_N fb)%Z).
           ++ rewrite value_normal by (auto; clear - BL; lia). f_equal. rewrite Z2N.id by (clear - BL; lia). reflexivity.
           ++ clear. lia.
           ++ cbn [snd]. rewrite WB. clear. lia.
           ++ rewrite SC by (rewrite WB; clear; lia). rewrite WB.
              replace (b - zbias eb - Z.of_N n - (b - zbias eb - Z.of_N n - Z.of_N fb))%Z with (Z.of_N fb) by (clear; lia).
              replace (b - zbias eb - Z.of_N fb - (b - zbias eb - Z.of_N n - Z.of_N fb))%Z with (Z.of_N n) by (clear; lia).
              rewrite <- !of_N_pow.
              pose proof (N.div_mod' ((V - 2 ^ n) * 2 ^ fb) (2 ^ n)) as DM.
              pose proof (N.mod_lt ((V - 2 ^ n) * 2 ^ fb) (2 ^ n) ltac:(lia)) as ML.
              set (r := (V - 2 ^ n) * 2 ^ fb / 2 ^ n) in *.
              assert (VE : V * 2 ^ fb = 2 ^ n * 2 ^ fb + (V - 2 ^ n) * 2 ^ fb) by (rewrite <- N.mul_add_distr_r; f_equal; clear - LB; lia).
              clear - DM ML VE. revert DM ML VE. generalize ((V - 2 ^ n) * 2 ^ fb) (2 ^ n) (2 ^ fb).
              intros a b c. generalize (a mod b). intros m DM ML VE. nia.
Qed.
