(** Conversions between floating point formats: castTo against the specification. *)
From Verif Require Import Base NumberSpec ParseNumber NumberProofs WordsProofs HexFloat HexFloatSpec HexFloatProofs HexFloatProofs2 HexFloatProofs3 HexFloatProofs5 HexFloatProofs6 HexFloatProofs8 HexFloatProofs9 HexFloatProofs10.
Local Open Scope N_scope.

Definition mode_of (dir : rounding) : mode :=
  match dir with To_zero => Toward_zero | To_nearest_even => Nearest_even
               | To_positive_infinity => Toward_positive | To_negative_infinity => Toward_negative end.
(** the exponents of each format fit the integer type of the other *)
Definition pair_ok (s d : fmt) : Prop :=
  (Z.of_N (bias d) < 2 ^ (Z.of_N (uwidth s) - 1) /\
   Z.of_N (bias s) + Z.of_N (fbits s) + 2 <= 2 ^ (Z.of_N (uwidth s) - 1) /\
   Z.of_N (bias s) + Z.of_N (fbits s) + 2 <= 2 ^ (Z.of_N (uwidth d) - 1))%Z.

Lemma half_bias f eb fb : fmt_ok f eb fb -> (Z.of_N (2 ^ eb) = 2 * Z.of_N (bias f) + 2)%Z /\ (1 <= Z.of_N (bias f))%Z.
Proof.
  intros O. pose proof (ok_eb _ _ _ O).
  assert (HE : (Z.of_N (2 ^ eb) = 2 * Z.of_N (bias f) + 2)%Z).
  { rewrite of_N_pow, (ok_bias _ _ _ O). unfold zbias. replace (Z.of_N eb) with (1 + (Z.of_N eb - 1))%Z at 1 by lia.
    rewrite zpow_add by lia. lia. }
  assert (4 <= 2 ^ eb) by (change 4 with (2 ^ 2); apply pow2_le; auto). lia.
Qed.
Lemma value_infinity f eb fb : fmt_ok f eb fb ->
  value eb fb (infinity eb fb) = (2 ^ fb, (Z.of_N (bias f) + 1 - Z.of_N fb)%Z).
Proof.
  intros O. destruct (half_bias _ _ _ O) as [HE B1]. unfold infinity. rewrite <- (N.add_0_r (_ * _)).
  rewrite value_normal; [|lia|apply pow2_pos]. rewrite N.add_0_r. f_equal. rewrite <- (ok_bias _ _ _ O). lia.
Qed.
Lemma value_next_sub f eb fb q : fmt_ok f eb fb -> q < 2 ^ fb ->
  value eb fb (q + 1) = (q + 1, (1 - zbias eb - Z.of_N fb)%Z).
Proof.
  intros O L. destruct (N.eq_dec (q + 1) (2 ^ fb)) as [E|E].
  - rewrite E. replace (2 ^ fb) with (1 * 2 ^ fb + 0) at 1 by lia. rewrite value_normal; [|lia|apply pow2_pos].
    f_equal; lia.
  - apply value_subnormal. lia.
Qed.
Lemma value_next_normal f eb fb e t : fmt_ok f eb fb -> 0 < e -> t < 2 ^ fb ->
  deq (value eb fb (e * 2 ^ fb + t + 1)) (2 ^ fb + t + 1, (Z.of_N e - zbias eb - Z.of_N fb)%Z) /\
  (Z.of_N e - zbias eb - Z.of_N fb <= snd (value eb fb (e * 2 ^ fb + t + 1)))%Z.
Proof.
  intros O E L. destruct (N.eq_dec (t + 1) (2 ^ fb)) as [Z|Z].
  - replace (e * 2 ^ fb + t + 1) with ((e + 1) * 2 ^ fb + 0) by lia.
    rewrite value_normal; [|lia|apply pow2_pos]. cbn [snd]. split; [|lia].
    replace (2 ^ fb + t + 1) with (2 ^ fb * 2 ^ 1) by (change (2 ^ 1) with 2; lia).
    apply deq_sym. eapply deq_trans; [apply deq_shift|]. apply deq_refl_of. f_equal; lia.
  - replace (e * 2 ^ fb + t + 1) with (e * 2 ^ fb + (t + 1)) by lia.
    rewrite value_normal by lia. cbn [snd]. split; [|lia]. apply deq_refl_of. f_equal; lia.
Qed.

Lemma cast_shape s d eb fb eb' fb' dir b : ieee_ok s eb fb -> ieee_ok d eb' fb' -> pair_ok s d ->
  b < 2 ^ (1 + eb + fb) -> magnitude eb fb b <> 0 ->
  let neg := sign_of eb fb b in let p := magnitude eb fb b in let E := source_exponent s b in
  cast 64 s d dir b =
  match rounded_significand s d dir 64 b with
  | None => None
  | Some (rounded, carried, r) =>
      if negb (infinity eb fb <? p) && ((E + (if carried then 1 else 0) >? Z.of_N (bias d))%Z || (p =? infinity eb fb))
      then Some (make eb' fb' neg (infinity eb' fb'), r)
      else if infinity eb fb <? p then
        let shifted := wrap (uwidth d) (negatable_left_shift s (Z.of_N fb' - Z.of_N fb)%Z (significand_bits s b)) in
        Some (wrap (uwidth d)
                  (N.lor (nan_pattern d) (N.lor (if neg then sign_mask d else 0) (N.lor (exponent_mask d)
                     (if shifted =? 0 then 1 else shifted)))), r)
      else
        let '(bits, r2) := set_from d neg E rounded
             (match dir with To_negative_infinity => neg | To_positive_infinity => negb neg | _ => false end) in
        Some (bits, if result_rank r <? result_rank r2 then r2 else r)
  end.
Proof.
  intros I I' (P1 & P2 & P3) BL M0 neg p E. pose proof (ie_ok _ _ _ I) as O. pose proof (ie_ok _ _ _ I') as O'.
  unfold cast. rewrite (sign_negative _ _ _ _ O). fold neg.
  rewrite (unsigned_magnitude _ _ _ _ O BL), (ok_zero _ _ _ O). fold p. fold p in M0. cbn [andb].
  destruct (N.eqb_spec p 0); [lia|]. rewrite (ok_f _ _ _ O) in P2, P3.
  destruct (source_normal s eb fb b O BL M0 P2) as (sig & _ & _ & _ & EB & _). fold E in EB.
  destruct (rounded_significand s d dir 64 b) as [[[rounded carried] r]|]; [|reflexivity].
  fold (source_exponent s b). cbv zeta. fold (source_exponent s b). fold E.
  rewrite (ie_isnan _ _ _ I), (ie_isinf _ _ _ I), (ie_inf _ _ _ I'), (ie_nan _ _ _ I'). fold p.
  rewrite (ok_f _ _ _ O), (ok_f _ _ _ O').
  pose proof (ok_u _ _ _ O) as OU. pose proof (ok_u _ _ _ O') as OU'. pose proof (pow2_pos fb') as PF'.
  assert (XM : exponent_mask d = infinity eb' fb').
  { unfold exponent_mask, infinity, set_bits. rewrite (ok_e _ _ _ O'), (ok_f _ _ _ O'), N.shiftl_mul_pow2, ones_val. reflexivity. }
  assert (IL : infinity eb' fb' < 2 ^ (eb' + fb')).
  { unfold infinity. rewrite pow2_add. apply N.mul_lt_mono_pos_r; auto. pose proof (pow2_pos eb'). lia. }
  rewrite (swrap_small (uwidth s) (Z.of_N (bias d))) by lia.
  rewrite (swrap_small (uwidth d) E) by lia.
  rewrite XM. rewrite (make_lor d eb' fb') by auto.
  rewrite (wrap_small (uwidth d) (make _ _ _ _)).
  2:{ unfold make. rewrite OU'. replace (1 + eb' + fb') with (1 + (eb' + fb')) by lia. rewrite (pow2_add 1). change (2 ^ 1) with 2.
      destruct neg; lia. }
  reflexivity.
Qed.

Lemma cast_finite s d eb fb eb' fb' dir b : ieee_ok s eb fb -> ieee_ok d eb' fb' -> pair_ok s d ->
  b < 2 ^ (1 + eb + fb) -> 0 < magnitude eb fb b < infinity eb fb ->
  let neg := sign_of eb fb b in let v := value eb fb (magnitude eb fb b) in let m := mode_of dir in
  dlt v (value eb' fb' (infinity eb' fb')) ->
  exists q r p', rounds_down eb' fb' v q /\ q < infinity eb' fb' /\
    cast 64 s d dir b = Some (make eb' fb' neg p', r) /\ p' <= infinity eb' fb' /\
    r <> Not_representable /\ (r = Success <-> deq v (value eb' fb' q)) /\
    forall p, selects eb' fb' m neg v p ->
      (downwards m neg = true \/ deq v (value eb' fb' q) \/ q = 0 /\ m <> Nearest_even \/
       2 ^ fb' <= q /\ (p = q \/ (q + 1) mod 2 ^ fb' <> 0 \/ q + 1 = infinity eb' fb')) -> p' = p.
Proof.
  intros I I' PO BL [M0 MF] neg v m LT. pose proof (ie_ok _ _ _ I) as O. pose proof (ie_ok _ _ _ I') as O'.
  pose proof (cast_shape s d eb fb eb' fb' dir b I I' PO BL ltac:(lia)) as CS. cbv zeta in CS. fold neg in CS.
  destruct PO as (P1 & P2 & P3). rewrite (ok_f _ _ _ O) in P2, P3.
  destruct (source_normal s eb fb b O BL ltac:(lia) P2) as (sig & NS & SL & DV & EB & EI & _). fold v in DV.
  destruct (rounded_spec s d eb fb eb' fb' dir b sig O O' NS SL) as [RS TL]. fold neg in RS.
  clearbody neg.
  destruct (half_bias _ _ _ O) as [HE B1]. destruct (half_bias _ _ _ O') as [HE' B1'].
  set (E := source_exponent s b) in *. set (n := fb - fb') in *.
  set (t := sig * 2 ^ (fb' - fb) / 2 ^ n) in *. set (rem := sig mod 2 ^ n) in *.
  pose proof (pow2_pos n) as PN. pose proof (pow2_pos fb') as PF'.
  assert (RL : rem < 2 ^ n) by (apply N.mod_lt; lia).
  (* the source as a number with [n] bits below the target's last *)
  assert (DV' : deq v ((2 ^ fb' + t) * 2 ^ n + rem, (E - Z.of_N fb' - Z.of_N n)%Z)).
  { eapply deq_trans; [exact DV|]. destruct (N.le_gt_cases fb fb') as [W|W].
    - assert (N0 : n = 0) by (unfold n; lia). apply deq_sym.
      assert (RE : rem = 0) by (unfold rem; rewrite N0; change (2 ^ 0) with 1; apply N.mod_1_r).
      rewrite RE, N0. change (2 ^ 0) with 1.
      assert (TE : t = sig * 2 ^ (fb' - fb)) by (unfold t; rewrite N0; change (2 ^ 0) with 1; apply N.div_1_r).
      assert (FE : 2 ^ fb' = 2 ^ fb * 2 ^ (fb' - fb)) by (rewrite <- pow2_add; f_equal; lia).
      replace ((2 ^ fb' + t) * 1 + 0) with ((2 ^ fb + sig) * 2 ^ (fb' - fb)) by (rewrite TE, FE; lia).
      eapply deq_trans; [apply deq_shift|]. apply deq_refl_of. f_equal; lia.
    - apply deq_refl_of. assert (TE : t = sig / 2 ^ n).
      { unfold t. replace (fb' - fb) with 0 by lia. change (2 ^ 0) with 1. now rewrite N.mul_1_r. }
      assert (FE : 2 ^ fb = 2 ^ fb' * 2 ^ n) by (rewrite <- pow2_add; f_equal; unfold n; lia).
      f_equal; [|unfold n; lia]. rewrite FE. pose proof (N.div_mod sig (2 ^ n) ltac:(lia)) as DM.
      rewrite TE. unfold rem. lia. }
  clear NS SL DV. clearbody t rem n E.
  (* no overflow *)
  assert (EL : (E <= Z.of_N (bias d))%Z).
  { destruct (Z.le_gt_cases E (Z.of_N (bias d))) as [|G]; auto. exfalso.
    apply (deq_dlt_l _ _ _ DV') in LT. rewrite (value_infinity _ _ _ O') in LT.
    set (k := Z.min (E - Z.of_N fb' - Z.of_N n) (Z.of_N (bias d) + 1 - Z.of_N fb')) in *.
    rewrite (dlt_at _ _ k) in LT by (cbn [snd]; unfold k; lia). unfold scaled in LT. cbn [fst snd] in LT.
    assert (GE : (Z.of_N (2 ^ fb') * 2 ^ (Z.of_N (bias d) + 1 - Z.of_N fb' - k) <=
                  Z.of_N ((2 ^ fb' + t) * 2 ^ n + rem) * 2 ^ (E - Z.of_N fb' - Z.of_N n - k))%Z); [|lia].
    apply Z.le_trans with (Z.of_N (2 ^ fb' * 2 ^ n) * 2 ^ (E - Z.of_N fb' - Z.of_N n - k))%Z.
    - rewrite N2Z.inj_mul, (of_N_pow n), <- Z.mul_assoc, <- zpow_add by (unfold k; lia).
      apply Z.mul_le_mono_nonneg_l; [lia|]. apply Z.pow_le_mono_r; lia.
    - apply Z.mul_le_mono_nonneg_r; [apply Z.lt_le_incl, zpow_pos; unfold k; lia|].
      apply N2Z.inj_le. rewrite N.mul_add_distr_r. clear. lia. }
  assert (PI : (infinity eb fb <? magnitude eb fb b) = false /\ (magnitude eb fb b =? infinity eb fb) = false) by lia.
  destruct PI as [PI1 PI2]. rewrite RS, PI1, PI2 in CS. rewrite orb_false_r in CS. cbn [negb andb] in CS.
  set (a := away dir neg n rem t) in *.
  assert (ADOWN : downwards m neg = true -> a = false).
  { unfold a, away, m. destruct (rem =? 0); auto. destruct dir; cbn; auto; destruct neg; cbn; auto; discriminate. }
  assert (INFV : infinity eb' fb' = (2 ^ eb' - 1) * 2 ^ fb') by reflexivity.
  destruct (Z.le_gt_cases E (- Z.of_N (bias d))) as [SUB|NOR].
  - (* subnormal target *)
    set (S0 := if a then if t + 1 =? 2 ^ fb' then 0 else t + 1 else t) in *.
    assert (S0L : S0 < 2 ^ fb').
    { unfold S0. destruct a; auto. destruct (N.eqb_spec (t + 1) (2 ^ fb')); lia. }
    assert (NG : (E + (if a && (t + 1 =? 2 ^ fb')%N then 1 else 0) >? Z.of_N (bias d))%Z = false).
    { rewrite Z.gtb_ltb. destruct (a && (t + 1 =? 2 ^ fb')%N); lia. }
    rewrite NG in CS.
    set (up := match dir with To_negative_infinity => neg | To_positive_infinity => negb neg | _ => false end) in *.
    destruct (set_from_sub d eb' fb' neg E S0 up O' SUB S0L) as (r2 & SF & QL & R2 & NR2).
    set (j := Z.to_N (1 - Z.of_N (bias d) - E)) in *. rewrite SF in CS.
    pose proof (pow2_pos j) as PJ.
    set (V := (2 ^ fb' + t) * 2 ^ n + rem) in *.
    set (q := (2 ^ fb' + t) / 2 ^ j). set (q' := (2 ^ fb' + S0) / 2 ^ j) in *.
    assert (PNJ : 2 ^ (n + j) = 2 ^ n * 2 ^ j) by apply pow2_add.
    assert (VD : V / 2 ^ (n + j) = q).
    { rewrite PNJ, <- N.div_div by lia. unfold q. f_equal. symmetry. apply N.div_unique with rem; unfold V; lia. }
    assert (VM : V mod 2 ^ (n + j) = 2 ^ n * ((2 ^ fb' + t) mod 2 ^ j) + rem).
    { rewrite PNJ, N.mod_mul_r by lia. replace (V mod 2 ^ n) with rem by (apply N.mod_unique with (2 ^ fb' + t); unfold V; lia).
      replace (V / 2 ^ n) with (2 ^ fb' + t) by (apply N.div_unique with rem; unfold V; lia). lia. }
    assert (QF : q < 2 ^ fb').
    { apply N.div_lt_upper_bound; [clear - PJ; lia|].
      assert (J0 : 1 <= j) by (clear - SUB; unfold j; lia). apply pow2_le in J0. change (2 ^ 1) with 2 in J0.
      apply N.lt_le_trans with (2 * 2 ^ fb'); [clear - TL; lia|]. apply N.mul_le_mono_r. exact J0. }
    assert (QEQ : a = false -> q' = q) by (intros A0; unfold q', q, S0; now rewrite A0).
    assert (QZ : q = 0 -> q' = 0).
    { intros Q0. apply N.div_small. unfold q in Q0. apply N.div_small_iff in Q0; [|clear - PJ; lia].
      assert (FJ : fb' < j).
      { destruct (N.lt_ge_cases fb' j) as [|G]; auto. apply pow2_le in G. exfalso. clear - G Q0. lia. }
      apply N.lt_le_trans with (2 ^ (fb' + 1)); [rewrite pow2_add; change (2 ^ 1) with 2; clear - S0L; lia|].
      apply pow2_le. clear - FJ. lia. }
    assert (SMOD : a = false -> r2 = Success <-> (2 ^ fb' + t) mod 2 ^ j = 0).
    { intros A0. assert (ST : S0 = t) by (unfold S0; now rewrite A0). rewrite ST in R2. exact R2. }
    assert (VE : V = q * 2 ^ (n + j) + V mod 2 ^ (n + j)).
    { rewrite <- VD, N.mul_comm. apply N.div_mod'. }
    assert (RR : V mod 2 ^ (n + j) < 2 ^ (n + j)) by (apply N.mod_lt; clear - PN PJ PNJ; nia).
    assert (DX : (E - Z.of_N fb' - Z.of_N n = 1 - zbias eb' - Z.of_N fb' - Z.of_N (n + j))%Z).
    { unfold j. pose proof (ok_bias _ _ _ O') as OB. clear - SUB OB. lia. }
    assert (VPOS : 0 < V) by (unfold V; clear - PF' PN; nia).
    clear VD R2. set (R := V mod 2 ^ (n + j)) in *. set (y := (2 ^ fb' + t) mod 2 ^ j) in *.
    clearbody R y q q' S0 V. clear TL S0L SF.
    set (x := (1 - zbias eb' - Z.of_N fb')%Z).
    assert (VQ : value eb' fb' q = (q, x)) by (apply value_subnormal; auto).
    assert (VN : value eb' fb' (q + 1) = (q + 1, x)) by (apply (value_next_sub d); auto).
    fold x in DX. clearbody x. rewrite DX, VE in DV'.
    pose proof (between_down eb' fb' (n + j) R t q x q RR VQ (deq_refl_of _ _ VN) ltac:(rewrite VN; cbn [snd]; clear; lia)) as RD.
    pose proof (between_exact eb' fb' (n + j) R t q x q RR VQ (deq_refl_of _ _ VN) ltac:(rewrite VN; cbn [snd]; clear; lia)) as RX.
    exists q, (if result_rank (if rem =? 0 then Success else Lost_precision) <? result_rank r2 then r2
               else (if rem =? 0 then Success else Lost_precision)),
           (if (q' =? 0) && up then 1 else q').
    assert (IBIG : 2 ^ fb' < infinity eb' fb').
    { rewrite INFV. assert (3 <= 2 ^ eb' - 1) by lia. apply N.lt_le_trans with (3 * 2 ^ fb'); [lia|]. apply N.mul_le_mono_r. auto. }
    assert (EXQ : deq v (value eb' fb' q) <-> rem = 0 /\ y = 0).
    { rewrite (deq_deq_l _ _ _ DV'), RX, VM. clear - PN. split.
      - intros A. assert (rem = 0) by lia. split; auto. assert (A2 : 2 ^ n * y = 0) by lia. apply N.mul_eq_0 in A2. lia.
      - intros [-> ->]. lia. }
    split; [now apply (rounds_down_deq _ _ _ _ _ DV')|]. split; [lia|]. split; [exact CS|].
    split; [|split; [|split]].
    + destruct ((q' =? 0) && up); lia.
    + destruct (rem =? 0), r2; cbn; discriminate || (now elim NR2).
    + rewrite EXQ. destruct (N.eqb_spec rem 0) as [R0|R0].
      * assert (A0 : a = false) by (unfold a, away; now rewrite R0).
        rewrite <- (SMOD A0). destruct r2; cbn; split; intros; try tauto; try discriminate.
      * split; [|intros [H _]; lia]. destruct r2; cbn; discriminate.
    + intros p SP COND. apply (selects_deq _ _ _ _ _ _ _ DV') in SP.
      assert (SEL : p = q \/ p = q + 1 /\ (downwards m neg = false)).
      { destruct (downwards m neg) eqn:DW.
        - left. eapply rounds_down_unique; [|exact RD]. unfold m in *. destruct dir; cbn in SP, DW; try discriminate.
          + exact SP.
          + rewrite DW in SP. exact SP.
          + rewrite DW in SP. exact SP.
        - unfold m in *. destruct dir; cbn in SP, DW; try discriminate.
          + destruct SP as (q0 & R0 & [[-> _]|[-> _]]); rewrite (rounds_down_unique _ _ _ _ _ R0 RD); auto.
          + rewrite DW in SP. destruct (rounds_up_next _ _ _ _ _ RD SP) as [[_ ->]|[_ ->]]; auto.
          + rewrite DW in SP. destruct (rounds_up_next _ _ _ _ _ RD SP) as [[_ ->]|[_ ->]]; auto. }
      destruct COND as [DW|[EX|[[Q0 NM]|[QN _]]]]; [| | |lia].
      * rewrite (QEQ (ADOWN DW)). assert (UP0 : up = false).
        { unfold up, m in *. destruct dir; auto; cbn in DW; destruct neg; auto; discriminate. }
        rewrite UP0, andb_false_r. destruct SEL as [->|[_ F]]; [reflexivity|congruence].
      * pose proof EX as EX2. apply EXQ in EX2. destruct EX2 as [R0 _].
        assert (A0 : a = false) by (unfold a, away; now rewrite R0). rewrite (QEQ A0).
        assert (QNZ : q <> 0).
        { intros Q0. assert (R = 0) by (apply RX; apply (deq_deq_l _ _ _ DV'); auto). rewrite Q0, H in VE. clear - VE VPOS. lia. }
        destruct (N.eqb_spec q 0); [lia|]. cbn [andb].
        destruct SEL as [->|[-> F]]; [reflexivity|]. exfalso.
        assert (D0 : deq (q * 2 ^ (n + j) + R, (x - Z.of_N (n + j))%Z) (value eb' fb' q)) by (apply (deq_deq_l _ _ _ DV'); auto).
        unfold m in *. destruct dir; cbn in SP, F; try discriminate.
        -- destruct SP as (q0 & RQ & [[A _]|(A & NE & _)]); rewrite (rounds_down_unique _ _ _ _ _ RQ RD) in *; [lia|auto].
        -- rewrite F in SP. destruct (rounds_up_next _ _ _ _ _ RD SP) as [[_ A]|[A _]]; [lia|auto].
        -- rewrite F in SP. destruct (rounds_up_next _ _ _ _ _ RD SP) as [[_ A]|[A _]]; [lia|auto].
      * rewrite (QZ Q0). cbn [N.eqb andb].
        destruct (downwards m neg) eqn:DW.
        -- assert (UP0 : up = false).
           { unfold up, m in *. destruct dir; auto; cbn in DW; destruct neg; auto; discriminate. }
           rewrite UP0. destruct SEL as [->|[_ F]]; congruence.
        -- assert (UP1 : up = true).
           { unfold up, m in *. destruct dir; cbn in DW, NM; try discriminate; try congruence; destruct neg; auto; discriminate. }
           rewrite UP1. destruct SEL as [->|[-> _]]; [|lia]. exfalso.
           assert (NE : ~ deq (q * 2 ^ (n + j) + R, (x - Z.of_N (n + j))%Z) (value eb' fb' q)).
           { rewrite RX. intros R0. rewrite Q0, R0 in VE. clear - VE VPOS. lia. }
           unfold m in *. destruct dir; cbn in SP, DW, NM; try discriminate; try congruence; rewrite DW in SP;
             destruct (rounds_up_next _ _ _ _ _ RD SP) as [[A _]|[_ A]]; auto; lia.
  - (* normal target *)
    set (e := Z.to_N (E + Z.of_N (bias d))).
    assert (E1 : 0 < e) by (unfold e; lia).
    set (q := e * 2 ^ fb' + t).
    assert (ZE : (Z.of_N e - zbias eb' - Z.of_N fb' = E - Z.of_N fb')%Z) by (unfold e; rewrite <- (ok_bias _ _ _ O'); lia).
    assert (VQ : value eb' fb' q = (2 ^ fb' + t, (E - Z.of_N fb')%Z)) by (unfold q; rewrite value_normal, ZE by auto; reflexivity).
    destruct (value_next_normal d eb' fb' e t O' E1 TL) as [VN XN]. fold q in VN, XN. rewrite ZE in VN, XN.
    pose proof (between_down eb' fb' n rem t (2 ^ fb' + t) (E - Z.of_N fb') q RL VQ VN XN) as RD.
    pose proof (between_exact eb' fb' n rem t (2 ^ fb' + t) (E - Z.of_N fb') q RL VQ VN XN) as RX.
    assert (PT : N.even q = N.even t).
    { unfold q. replace fb' with (1 + (fb' - 1)) by (pose proof (ok_fb _ _ _ O'); lia). rewrite (pow2_add 1). change (2 ^ 1) with 2.
      replace (e * (2 * 2 ^ (fb' - 1)) + t) with (t + 2 * (e * 2 ^ (fb' - 1))) by lia. apply N.even_add_mul_2. }
    assert (EE : e <= 2 ^ eb' - 2) by (unfold e; lia).
    assert (QI : q < infinity eb' fb').
    { rewrite INFV. unfold q. apply N.lt_le_trans with ((e + 1) * 2 ^ fb'); [lia|]. apply N.mul_le_mono_r. lia. }
    assert (NEXT : (t + 1 =? 2 ^ fb') = true -> (q + 1) mod 2 ^ fb' = 0 /\ q + 1 = (e + 1) * 2 ^ fb').
    { intros C. assert (q + 1 = (e + 1) * 2 ^ fb') by (unfold q; lia). split; auto. rewrite H. apply N.mod_mul. lia. }
    destruct (a && (t + 1 =? 2 ^ fb')) eqn:CARRY.
    + apply andb_true_iff in CARRY. destruct CARRY as [A1 C1]. destruct (NEXT C1) as [N1 N2].
      assert (R0 : rem =? 0 = false).
      { destruct (rem =? 0) eqn:RZ; auto. unfold a, away in A1. rewrite RZ in A1. discriminate. }
      assert (NE : ~ deq v (value eb' fb' q)).
      { rewrite (deq_deq_l _ _ _ DV'), RX. lia. }
      rewrite R0, A1, C1 in CS. rewrite Z.gtb_ltb in CS.
      assert (DW0 : downwards m neg = false).
      { destruct (downwards m neg) eqn:DW; auto. rewrite (ADOWN eq_refl) in A1. discriminate. }
      destruct (Z.ltb_spec (Z.of_N (bias d)) (E + 1)) as [G|G].
      * exists q, Lost_precision, (infinity eb' fb').
        assert (QI1 : q + 1 = infinity eb' fb').
        { rewrite N2, INFV. f_equal. unfold e. lia. }
        split; [now apply (rounds_down_deq _ _ _ _ _ DV')|]. split; [auto|]. split; [exact CS|]. split; [lia|].
        split; [discriminate|]. split; [split; [discriminate|tauto]|].
        intros p SP _. apply (selects_deq _ _ _ _ _ _ _ DV') in SP.
        rewrite (between_selects eb' fb' n rem t (2 ^ fb' + t) (E - Z.of_N fb') q RL VQ VN XN PT dir m neg p eq_refl SP).
        fold a. rewrite A1. auto.
      * rewrite (set_from_normal d eb' fb') in CS by (auto; lia). cbn in CS. rewrite N.add_0_r in CS. fold e in CS.
        exists q, Lost_precision, (e * 2 ^ fb').
        split; [now apply (rounds_down_deq _ _ _ _ _ DV')|]. split; [auto|]. split; [exact CS|]. split; [lia|].
        split; [discriminate|]. split; [split; [discriminate|tauto]|].
        intros p SP COND. exfalso. apply (selects_deq _ _ _ _ _ _ _ DV') in SP.
        apply (between_selects eb' fb' n rem t (2 ^ fb' + t) (E - Z.of_N fb') q RL VQ VN XN PT dir m neg p eq_refl) in SP.
        fold a in SP. rewrite A1 in SP.
        destruct COND as [F|[F|[[F _]|[_ [F|[F|F]]]]]]; [congruence|tauto| |lia|congruence|].
        -- unfold q in F. clear - F E1 PF'. nia.
        -- rewrite N2, INFV in F. apply N.mul_cancel_r in F; [|lia]. unfold e in F. lia.
    + assert (NG : (E + 0 >? Z.of_N (bias d))%Z = false) by (rewrite Z.gtb_ltb; lia). rewrite NG in CS.
      set (S0 := if a then if t + 1 =? 2 ^ fb' then 0 else t + 1 else t) in *.
      assert (S0E : S0 = if a then t + 1 else t).
      { unfold S0. destruct a; auto. cbn [andb] in CARRY. now rewrite CARRY. }
      assert (S0L : S0 < 2 ^ fb').
      { rewrite S0E. destruct a; auto. cbn [andb] in CARRY. lia. }
      rewrite (set_from_normal d eb' fb') in CS by (auto; lia). fold e in CS.
      exists q, (if rem =? 0 then Success else Lost_precision), (e * 2 ^ fb' + S0).
      assert (EXQ : deq v (value eb' fb' q) <-> rem = 0) by (rewrite (deq_deq_l _ _ _ DV'); exact RX).
      split; [now apply (rounds_down_deq _ _ _ _ _ DV')|]. split; [auto|]. split.
      { rewrite CS. destruct (rem =? 0); reflexivity. }
      split; [rewrite S0E; unfold q in QI; destruct a; lia|].
      split; [destruct (rem =? 0); discriminate|]. split.
      { rewrite EXQ. destruct (N.eqb_spec rem 0); split; auto; intros; try discriminate; lia. }
      intros p SP _. apply (selects_deq _ _ _ _ _ _ _ DV') in SP.
      apply (between_selects eb' fb' n rem t (2 ^ fb' + t) (E - Z.of_N fb') q RL VQ VN XN PT dir m neg p eq_refl) in SP.
      fold a in SP. rewrite SP, S0E. unfold q. destruct a; lia.
Qed.
