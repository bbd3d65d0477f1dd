(** Reading a hexadecimal float is defined on every text. *)
From Verif Require Import Base TextLex ParseNumber NumberSpec NumberProofs WordsProofs HexFloat HexFloatSpec HexFloatProofs HexFloatProofs2 HexFloatProofs3 HexFloatProofs4 HexFloatProofs5 HexFloatProofs6.
Local Open Scope N_scope.

Definition ex_ok (f : fmt) (s : mant) : Prop := (int_min f <= ex s <= int_max f)%Z.

Lemma int_bits_ex f bs : forall s s', bits_loop (int_bit f) bs s = Some s' -> (ex s <= int_max f)%Z ->
  (ex s <= ex s' <= int_max f)%Z.
Proof.
  induction bs as [|b bs IH]; intros s s' E L; cbn [bits_loop] in E.
  - injection E as <-. lia.
  - unfold int_bit in E at 1. destruct (bw s).
    + destruct (Z.eqb_spec (ex s) (int_max f)) as [|N]; [discriminate|].
      apply IH in E; cbn [ex] in *; lia.
    + apply IH in E; cbn [ex] in *; lia.
Qed.
Lemma int_loop_ex f l : forall s s' d t, int_loop f l s = Some (s', d, t) -> (ex s <= int_max f)%Z ->
  (ex s <= ex s' <= int_max f)%Z /\ (length t <= length l)%nat.
Proof.
  induction l as [|c l IH]; intros s s' d t E L; cbn [int_loop] in E; [discriminate|].
  destruct (c =? 46); [injection E as <- <- <-; cbn [length]; lia|].
  destruct (c =? 112); [injection E as <- <- <-; cbn [length]; lia|].
  destruct (digit_value c) as [v|]; [|discriminate].
  destruct (bits_loop (int_bit f) (nibble_bits v) _) as [s1|] eqn:B; [|discriminate].
  apply int_bits_ex in B; cbn [ex] in *; [|lia]. apply IH in E; [|lia]. cbn [length]. lia.
Qed.
Lemma frac_bits_ex f bs : forall s s', bits_loop (frac_bit f) bs s = Some s' -> (int_min f <= ex s)%Z ->
  (ex s - Z.of_nat (length bs) <= ex s' <= ex s)%Z /\ (int_min f <= ex s')%Z.
Proof.
  induction bs as [|b bs IH]; intros s s' E L; cbn [bits_loop] in E.
  - injection E as <-. cbn [length]. lia.
  - unfold frac_bit in E at 1. destruct (negb (has_int s) && negb (bw s || b)).
    + destruct (Z.eqb_spec (ex s) (int_min f)) as [|N]; [discriminate|].
      apply IH in E; cbn [ex length] in *; lia.
    + apply IH in E; cbn [ex length] in *; lia.
Qed.
Lemma frac_loop_ex f l : forall s s' t, frac_loop f l s = Some (s', t) -> (int_min f <= ex s)%Z ->
  (ex s - 4 * Z.of_nat (length l) <= ex s' <= ex s)%Z /\ (int_min f <= ex s')%Z.
Proof.
  induction l as [|c l IH]; intros s s' t E L; cbn [frac_loop] in E; [discriminate|].
  destruct (c =? 112); [injection E as <- <-; cbn [length]; lia|].
  destruct (digit_value c) as [v|]; [|discriminate].
  destruct (bits_loop (frac_bit f) (nibble_bits v) _) as [s1|] eqn:B; [|discriminate].
  apply frac_bits_ex in B; [|lia]. cbn [nibble_bits length] in B. apply IH in E; [|lia]. cbn [length]. lia.
Qed.
Lemma written_digit_range f w d : (0 <= w <= written_overflow f)%Z -> (0 <= d <= 9)%Z ->
  (0 <= written_digit f w d <= written_overflow f)%Z.
Proof.
  intros W D. unfold written_digit. rewrite Z.geb_leb. destruct (Z.leb_spec ((written_overflow f - d) ÷ 10) w); [lia|].
  destruct (Z.le_gt_cases 0 (written_overflow f - d)).
  - rewrite Z.quot_div_nonneg in * by lia. lia.
  - assert ((written_overflow f - d) ÷ 10 <= 0)%Z; [|lia].
    replace (written_overflow f - d)%Z with (- (d - written_overflow f))%Z by lia.
    rewrite Z.quot_opp_l by lia. pose proof (Z.quot_pos (d - written_overflow f) 10). lia.
Qed.
Lemma exp_loop_range f l : forall ss m sd w w' m' t, exp_loop f l ss m sd w = Some (w', m', t) ->
  (0 <= w <= written_overflow f)%Z -> (0 <= w' <= written_overflow f)%Z.
Proof.
  induction l as [|c l IH]; intros ss m sd w w' m' t E L; cbn [exp_loop] in E.
  - destruct sd; [|discriminate]. injection E as <- <- <-. exact L.
  - destruct (negb sd && ((c =? 45) || (c =? 43))).
    + destruct ss; [discriminate|]. eapply IH; eauto.
    + destruct ((48 <=? c) && (c <=? 57)) eqn:C.
      * eapply IH; eauto. apply written_digit_range; auto. lia.
      * destruct sd; [|discriminate]. injection E as <- <- <-. exact L.
Qed.
Lemma fold_exponent_range f w e : (- written_overflow f <= w <= written_overflow f)%Z ->
  (int_min f = - written_overflow f - 2)%Z -> (int_max f = written_overflow f + 1)%Z ->
  (int_min f <= e <= int_max f)%Z ->
  (int_min f <= fold_exponent f w e <= int_max f)%Z /\ (Z.min e (int_min f + 1) <= fold_exponent f w e)%Z.
Proof.
  intros W MI MA E. unfold fold_exponent. rewrite !Z.geb_leb, !Z.gtb_ltb.
  destruct (Z.leb_spec 0 w), (Z.leb_spec 0 e); cbn [andb];
    destruct (Z.ltb_spec w 0), (Z.ltb_spec e 0); cbn [andb]; try lia.
  - destruct (Z.ltb_spec w (written_overflow f - e)); lia.
  - destruct (Z.ltb_spec (- w) (written_overflow f + e)); lia.
Qed.

Lemma assemble_defined f eb fb sign s w rest : fmt_ok f eb fb ->
  (- written_overflow f <= w <= written_overflow f)%Z -> (int_min f <= ex s <= int_max f)%Z ->
  uwidth f < 32 \/ (int_min f < ex s)%Z ->
  exists b, assemble f sign s w rest = Parsed b rest.
Proof.
  intros O W E U.
  assert (IM : (int_max f = written_overflow f + 1)%Z) by (unfold written_overflow; lia).
  assert (IN : (int_min f = - (written_overflow f) - 2)%Z).
  { unfold written_overflow. rewrite (int_max_val _ _ _ O), (int_min_val _ _ _ O). lia. }
  destruct (fold_exponent_range f w (ex s) W IN IM E) as [R1 R2].
  unfold assemble. set (e1 := fold_exponent f w (ex s)) in *.
  assert (T1 : to_int f e1 = Some e1).
  { unfold to_int. assert (C : in_int f e1 = true) by (unfold in_int; lia). now rewrite C. }
  rewrite T1.
  assert (FIN : forall fraction exponent iz, exists b,
    match (if iz : bool then Some (N.land (N.shiftr fraction (fraction_right_shift f)) (fraction_encode_mask f), exponent)
         else denorm_loop f (S (N.to_nat (uwidth f)))
            (N.land (N.shiftr fraction (fraction_right_shift f)) (fraction_encode_mask f)) exponent) with
    | None => Stuck
    | Some (fraction, exponent) =>
        let '(fraction, exponent) :=
          if (exponent >? Z.of_N (set_bits 0 (ebits f)))%Z then (0, Z.of_N (set_bits 0 (ebits f))) else (fraction, exponent) in
        Parsed (N.lor (N.lor (wrap (uwidth f) (N.shiftl (match sign with Minus => 1 | _ => 0 end)
                                              (top_bit_left_shift f))) fraction)
                  (N.land (wrap (uwidth f) (N.shiftl (Z.to_N exponent) (fbits f))) (exponent_mask f))) rest
    end = Parsed b rest).
  { intros fraction exponent iz. destruct iz.
    - destruct (exponent >? _)%Z; eauto.
    - assert (exists r, denorm_loop f (S (N.to_nat (uwidth f)))
            (N.land (N.shiftr fraction (fraction_right_shift f)) (fraction_encode_mask f)) exponent = Some r) as [[fr' ex'] ->].
      { destruct (Z.le_gt_cases exponent 0) as [L|L].
        - eexists. apply (denorm_loop_spec f eb fb); auto.
          + unfold fraction_encode_mask. rewrite land_set0, (ok_f _ _ _ O). apply N.mod_lt. pose proof (pow2_pos fb). lia.
          + lia.
          + unfold fraction_encode_mask. rewrite land_set0, (ok_f _ _ _ O).
            apply N.lt_le_trans with (2 ^ fb); [apply N.mod_lt; pose proof (pow2_pos fb); lia|].
            apply pow2_le. rewrite (ok_u _ _ _ O). lia.
        - cbn [denorm_loop]. destruct (Z.ltb_spec exponent 0); [lia|]. eauto. }
      destruct (ex' >? _)%Z; eauto. }
  assert (T2 : exists e2, to_int f (e1 - 1)%Z = Some e2).
  { unfold to_int. destruct (in_int f (e1 - 1)) eqn:C; [eauto|].
    destruct (N.ltb_spec (uwidth f) 32); [eauto|]. unfold in_int in C. lia. }
  destruct T2 as [e2 T2]. rewrite T2.
  destruct (negb (has_int s)); cbn [andb].
  - destruct (fr s =? 0); cbn [negb andb].
    + destruct (0 >? _)%Z; eauto.
    + apply (FIN _ _ false).
  - apply (FIN _ _ false).
Qed.

Lemma skip_zeros_length l : (length (skip_zeros l) <= length l)%nat.
Proof. induction l as [|c l IH]; cbn [skip_zeros length]; [lia|]. destruct (c =? 48); cbn [length]; lia. Qed.
Lemma skip_ws_length l : (length (skip_ws l) <= length l)%nat.
Proof. induction l as [|c l IH]; cbn [skip_ws length]; [lia|]. destruct (is_space c); cbn [length]; lia. Qed.

(** No text makes a loop run on, and none runs into undefined behaviour: for the 32- and 64-bit
    formats this supposes that the text is not longer than an eighth of the range of int_type. *)
Theorem parse_hex_defined_fmt f eb fb text : fmt_ok f eb fb -> fmt_small f ->
  uwidth f < 32 \/ (4 * Z.of_nat (length text) <= 2 ^ (Z.of_N (uwidth f) - 1))%Z ->
  parse_hex f text <> Stuck /\ parse_hex f text <> Undefined.
Proof.
  intros O [_ SM] U.
  assert (IM : (int_max f = written_overflow f + 1)%Z) by (unfold written_overflow; lia).
  assert (IN : (int_min f = - (written_overflow f) - 2)%Z).
  { unfold written_overflow. rewrite (int_max_val _ _ _ O), (int_min_val _ _ _ O). lia. }
  assert (B1 : (1 <= Z.of_N (bias f))%Z).
  { rewrite (ok_bias _ _ _ O). unfold zbias. pose proof (ok_eb _ _ _ O).
    replace (Z.of_N eb - 1)%Z with (1 + (Z.of_N eb - 2))%Z by lia. rewrite zpow_add by lia.
    pose proof (zpow_pos (Z.of_N eb - 2)). lia. }
  assert (PM : forall sign l, (length l <= length text)%nat ->
    parse_mantissa f sign l <> Stuck /\ parse_mantissa f sign l <> Undefined).
  { intros sign l L. unfold parse_mantissa.
    destruct (int_loop f (skip_zeros l) _) as [[[s d] t]|] eqn:I; [|split; discriminate].
    apply int_loop_ex in I; cbn [ex] in *; [|lia].
    pose proof (skip_zeros_length l).
    assert (FIN : forall s t, (int_min f <= ex s <= int_max f)%Z -> uwidth f < 32 \/ (int_min f < ex s)%Z ->
      let r := match exp_loop f t false false false 0%Z with
               | None => Failed
               | Some (w, minus, rest) => assemble f sign s (if minus then (- w)%Z else w) rest
               end in r <> Stuck /\ r <> Undefined).
    { intros s1 t1 E1 E2. destruct (exp_loop f t1 false false false 0%Z) as [[[w m] rest]|] eqn:X; [|split; discriminate].
      apply exp_loop_range in X; [|lia].
      destruct (assemble_defined f eb fb sign s1 (if m then (- w)%Z else w) rest O) as [b ->]; auto.
      - destruct m; lia.
      - split; discriminate. }
    destruct d.
    - destruct (frac_loop f t _) as [[s2 t2]|] eqn:F; [|split; discriminate].
      apply frac_loop_ex in F; cbn [ex] in *; [|lia]. apply FIN; [lia|].
      destruct U as [U|U]; [auto|]. right.
      assert (MV : int_min f = (- 2 ^ (Z.of_N (uwidth f) - 1))%Z) by reflexivity. lia.
    - apply FIN; cbn [ex]; [lia|]. right. lia. }
  unfold parse_hex. pose proof (skip_ws_length text) as SL. set (l := skip_ws text) in *.
  assert (K : forall sign l1, (length l1 <= length text)%nat ->
    let r := match l1 with
      | c0 :: t =>
          if c0 =? 48 then
            match t with
            | x :: t' => if (x =? 120) || (x =? 88) then parse_mantissa f sign t' else Decimal sign l1
            | [] => Decimal sign l1
            end
          else Decimal sign l1
      | [] => Decimal sign l1
      end in r <> Stuck /\ r <> Undefined).
  { intros sign l1 L1. destruct l1 as [|c0 t]; [split; discriminate|].
    destruct (c0 =? 48); [|split; discriminate]. destruct t as [|x t]; [split; discriminate|].
    destruct ((x =? 120) || (x =? 88)); [|split; discriminate]. apply PM. cbn [length] in L1. lia. }
  destruct l as [|c t]; [split; discriminate|]. cbn [length] in SL.
  destruct (c =? 45); [apply (K Minus t); lia|]. destruct (c =? 43); [apply (K Plus t); lia|].
  apply (K No_sign (c :: t)). cbn [length]. lia.
Qed.
