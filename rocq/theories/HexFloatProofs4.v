(** Reading a hexadecimal float text: HexFloat.v against HexFloatSpec.v. *)
From Verif Require Import Base TextLex ParseNumber NumberSpec NumberProofs WordsProofs HexFloat HexFloatSpec HexFloatProofs HexFloatProofs2 HexFloatProofs3.
Local Open Scope N_scope.

Lemma digit_zero c d : digit c d -> (c = 48 <-> d = 0).
Proof. intros H; inversion H; lia. Qed.
Lemma num_from_app b V xs ys : num_from b V (xs ++ ys) = num_from b (num_from b V xs) ys.
Proof. apply fold_left_app. Qed.
Lemma num_from16_mono ds : forall a, a <= num_from 16 a ds.
Proof.
  induction ds as [|d ds IH]; intros a; cbn [num_from fold_left]; [lia|].
  specialize (IH (16 * a + d)). unfold num_from in IH. lia.
Qed.
Lemma skip_zeros_digits ip ids c t : Forall2 digit ip ids -> c <> 48 ->
  exists ip' ids', skip_zeros (ip ++ c :: t) = ip' ++ c :: t /\ Forall2 digit ip' ids' /\
    num_from 16 0 ids' = num_from 16 0 ids /\ (length ids' <= length ids)%nat /\
    match ids' with d :: _ => d <> 0 | [] => True end.
Proof.
  intros F C. induction F as [|x d ip ids D F IH].
  - exists [], []. cbn [app skip_zeros]. destruct (N.eqb_spec c 48); [lia|]. repeat split; auto.
  - cbn [app skip_zeros]. destruct (N.eqb_spec x 48) as [E|E].
    + apply (digit_zero _ _ D) in E. subst d. destruct IH as (ip' & ids' & A & B & G & L & H).
      exists ip', ids'. repeat split; auto. cbn [length]. lia.
    + exists (x :: ip), (d :: ids). repeat split; auto.
      intros Z. apply E. now apply (digit_zero _ _ D).
Qed.

Lemma int_phase f eb fb ip ids c t : fmt_ok f eb fb -> Forall2 digit ip ids -> c = 46 \/ c = 112 ->
  (Z.of_N (bias f) + 4 * Z.of_nat (length ids) + 8 < int_max f)%Z ->
  exists s hi, int_loop f (skip_zeros (ip ++ c :: t))
      {| fr := 0; idx := 0; ex := Z.of_N (bias f); has_int := false; bw := false |} = Some (s, c =? 46, t) /\
    seen f hi (num_from 16 0 ids) 0 {| fr := fr s; idx := idx s; ex := ex s; has_int := has_int s; bw := false |}.
Proof.
  intros O F C M. destruct (skip_zeros_digits ip ids c t F ltac:(lia)) as (ip' & ids' & -> & F' & NE & LE & H).
  destruct F' as [|x d ip' ids' D F'].
  - cbn [app int_loop]. exists {| fr := 0; idx := 0; ex := Z.of_N (bias f); has_int := false; bw := false |}, false.
    split.
    + destruct C as [-> | ->]; reflexivity.
    + rewrite <- NE. unfold seen. cbn [fr idx ex has_int bw num_from fold_left N.eqb].
      repeat split; auto. lia.
  - cbn [length] in LE. cbn [app int_loop]. destruct (digit_char _ _ D) as (C1 & C2 & C3). rewrite C3.
    destruct (N.eqb_spec x 46); [lia|]. destruct (N.eqb_spec x 112); [lia|].
    pose proof (digit_lt _ _ D) as DL.
    destruct (int_digit f eb fb 0 {| fr := 0; idx := 0; ex := Z.of_N (bias f); has_int := false; bw := false |} d 0 O)
      as (s1 & E1 & I1); cbn [fr idx ex has_int bw]; auto; [right; repeat split; auto|cbn; lia|lia|].
    cbn [fr idx ex has_int bw] in E1. rewrite E1.
    destruct (int_loop_digits f eb fb ip' ids' c t O F' C _ _ 4 I1) as (s2 & E2 & I2); [change (2 ^ 4) with 16; lia|lia|].
    exists s2, true. split; [exact E2|].
    change (num_from 16 0 (d :: ids')) with (num_from 16 (16 * 0 + d) ids') in NE. rewrite NE in I2.
    pose proof (num_from16_mono ids' (16 * 0 + d)) as MO. rewrite NE in MO.
    destruct I2 as (A & B & G). unfold seen. cbn [fr idx ex has_int bw].
    destruct (N.eqb_spec (num_from 16 0 ids) 0) as [Z|Z]; [lia|].
    destruct G as (G1 & G2 & G3). repeat split; auto; lia.
Qed.

Lemma number_lt ids : Forall (fun d => d < 16) ids -> (Z.of_N (N.log2 (num_from 16 0 ids)) <= 4 * Z.of_nat (length ids))%Z.
Proof.
  intros F. pose proof (num_from_lt 0 ids F 0 ltac:(cbn; lia)) as L. rewrite N.add_0_l in L.
  destruct (N.eq_dec (N.of_nat (length ids)) 0) as [Z|Z].
  - rewrite Z in L. cbn in L. replace (num_from 16 0 ids) with 0 by lia. cbn. lia.
  - apply log2_lt_of in L; lia.
Qed.
Lemma digits_lt ip ids : Forall2 digit ip ids -> Forall (fun d => d < 16) ids.
Proof. intros F. induction F; constructor; eauto using digit_lt. Qed.

(** Reading a text: the value rounded towards zero, infinity if too large. *)
Lemma parse_hex_text f eb fb text neg v n w rest : fmt_ok f eb fb -> hex_float text neg v n w ->
  not_digit_head rest ->
  (Z.of_N (bias f) + 8 * Z.of_nat n + Z.of_N w + 24 <= written_overflow f)%Z ->
  exists p, parse_hex f (text ++ rest) = Parsed (make eb fb neg p) rest /\ reads_as eb fb v p.
Proof.
  intros O HF R M.
  assert (IM : (int_max f = written_overflow f + 1)%Z) by (unfold written_overflow; lia).
  assert (IN : (int_min f = - (written_overflow f) - 2)%Z).
  { unfold written_overflow. rewrite (int_max_val _ _ _ O), (int_min_val _ _ _ O). lia. }
  destruct HF as [sg neg x ip ids dot fp fds esg eneg es eds SG X FI DOT FF ES NE FE].
  rewrite app_length in M.
  assert (EXPR : exp_loop f (esg ++ es ++ rest) false false false 0%Z = Some (Z.of_N (number 10 eds), eneg, rest)).
  { change 0%Z with (Z.of_N 0).
    destruct ES as [E|[E|E]]; injection E as -> ->; cbn [app].
    - apply exp_loop_digits; auto. change (num_from 10 0 eds) with (number 10 eds). lia.
    - cbn [exp_loop]. change (negb false && ((43 =? 45) || (43 =? 43))) with true. cbn [N.eqb]. cbn match.
      change (43 =? 45) with false. apply exp_loop_digits; auto. change (num_from 10 0 eds) with (number 10 eds). lia.
    - cbn [exp_loop]. change (negb false && ((45 =? 45) || (45 =? 43))) with true. cbn match.
      change (45 =? 45) with true. apply exp_loop_digits; auto. change (num_from 10 0 eds) with (number 10 eds). lia. }
  assert (MANT : forall sign, (match sign with Minus => true | _ => false end) = neg ->
     exists p, parse_mantissa f sign (ip ++ dot ++ fp ++ [112] ++ esg ++ es ++ rest)
       = Parsed (make eb fb neg p) rest /\
       reads_as eb fb (number 16 (ids ++ fds),
         ((if eneg then - Z.of_N (number 10 eds) else Z.of_N (number 10 eds)) - 4 * Z.of_nat (length fds))%Z) p).
  { intros sign SN. unfold parse_mantissa.
    assert (FIN : forall hi s, seen f hi (num_from 16 0 (ids ++ fds)) (4 * N.of_nat (length fds)) s ->
       exists p, match exp_loop f (esg ++ es ++ rest) false false false 0%Z with
                 | None => Failed
                 | Some (w, minus, rest) => assemble f sign s (if minus then (- w)%Z else w) rest
                 end = Parsed (make eb fb neg p) rest /\
       reads_as eb fb (number 16 (ids ++ fds),
         ((if eneg then - Z.of_N (number 10 eds) else Z.of_N (number 10 eds)) - 4 * Z.of_nat (length fds))%Z) p).
    { intros hi s S0. rewrite EXPR.
      pose proof (number_lt (ids ++ fds)) as NL. rewrite app_length in NL.
      assert (AD : Forall (fun d => d < 16) (ids ++ fds)) by (apply Forall_app; split; eauto using digits_lt).
      specialize (NL AD).
      destruct (assemble_spec f eb fb sign hi _ _ s (if eneg then (- Z.of_N (number 10 eds))%Z else Z.of_N (number 10 eds)) rest O S0)
        as (p & E & RD).
      - destruct eneg; lia.
      - rewrite SN in E. exists p. split; [exact E|].
        change (num_from 16 0 (ids ++ fds)) with (number 16 (ids ++ fds)) in RD.
        replace (4 * Z.of_nat (length fds))%Z with (Z.of_N (4 * N.of_nat (length fds))) by lia. exact RD. }
    destruct DOT as [[-> ->]| ->]; cbn [app].
    - inversion FF; subst fds. cbn [app length] in *. rewrite app_nil_r in FIN.
      destruct (int_phase f eb fb ip ids 112 (esg ++ es ++ rest) O FI ltac:(auto) ltac:(lia)) as (s & hi & -> & S0).
      cbn match. change (112 =? 46) with false. cbn match. rewrite app_nil_r. apply (FIN hi). exact S0.
    - destruct (int_phase f eb fb ip ids 46 (fp ++ 112 :: esg ++ es ++ rest) O FI ltac:(auto) ltac:(lia)) as (s & hi & -> & S0).
      change (46 =? 46) with true. cbn match.
      destruct (frac_loop_digits f eb fb hi fp fds (esg ++ es ++ rest) O FF _ _ _ S0) as (s2 & -> & S2); [lia|].
      apply (FIN hi). rewrite num_from_app. exact S2. }
  assert (TX : exists sign, (match sign with Minus => true | _ => false end) = neg /\
    parse_hex f ((sg ++ [48; x] ++ ip ++ dot ++ fp ++ [112] ++ esg ++ es) ++ rest)
    = parse_mantissa f sign (ip ++ dot ++ fp ++ [112] ++ esg ++ es ++ rest)).
  { rewrite <- !app_assoc.
    destruct SG as [E|[E|E]]; injection E as -> ->; cbn [app];
      [exists No_sign|exists Plus|exists Minus]; split; auto; destruct X as [-> | ->]; reflexivity. }
  destruct TX as (sign & SN & ->). exact (MANT sign SN).
Qed.
