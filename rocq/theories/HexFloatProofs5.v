(** Printing a hexadecimal float: HexFloat.v against HexFloatSpec.v. *)
From Verif Require Import Base TextLex ParseNumber NumberSpec NumberProofs WordsProofs HexFloat HexFloatSpec HexFloatProofs HexFloatProofs2 HexFloatProofs3 HexFloatProofs4.
Local Open Scope N_scope.

Lemma number_snoc b ds d : number b (ds ++ [d]) = b * number b ds + d.
Proof. unfold number. rewrite fold_left_app. reflexivity. Qed.
Lemma number_cons b d ds : number b (d :: ds) = d * b ^ N.of_nat (length ds) + number b ds.
Proof.
  unfold number. cbn [fold_left]. rewrite N.mul_0_r, N.add_0_l. revert d.
  induction ds as [|x ds IH] using rev_ind; intros d.
  - cbn [fold_left length]. cbn. lia.
  - rewrite !fold_left_app, app_length. cbn [fold_left length].
    rewrite IH. replace (N.of_nat (length ds + 1)) with (N.succ (N.of_nat (length ds))) by lia.
    rewrite N.pow_succ_r'. lia.
Qed.

Lemma dec10 fuel n acc : n < 2 ^ N.of_nat fuel -> (1 <= fuel)%nat ->
  exists s ds, dec_digits fuel n acc = s ++ acc /\ s <> [] /\ Forall2 decimal_digit s ds /\ number 10 ds = n.
Proof.
  revert n acc. induction fuel as [|fuel IH]; intros n acc L F; [lia|].
  cbn [dec_digits]. cbn zeta. destruct (N.eqb_spec (n / 10) 0) as [E|E].
  - exists [48 + n mod 10], [n mod 10]. repeat split; [discriminate| |].
    + constructor; [|constructor]. split; auto. apply N.mod_lt. lia.
    + unfold number. cbn [fold_left]. rewrite N.mul_0_r, N.add_0_l. apply N.mod_small.
      apply N.div_small_iff in E; lia.
  - assert (n / 10 < 2 ^ N.of_nat fuel).
    { replace (N.of_nat (S fuel)) with (N.of_nat fuel + 1) in L by lia.
      rewrite N.pow_add_r in L. change (2 ^ 1) with 2 in L. lia. }
    destruct fuel as [|fuel]; [cbn in H; lia|].
    destruct (IH (n / 10) (48 + n mod 10 :: acc) H ltac:(lia)) as (s & ds & -> & NE & FD & NV).
    exists (s ++ [48 + n mod 10]), (ds ++ [n mod 10]). rewrite <- app_assoc. repeat split; auto.
    + now destruct s.
    + apply Forall2_app; auto. constructor; [|constructor]. split; auto. apply N.mod_lt. lia.
    + rewrite number_snoc, NV. pose proof (N.div_mod n 10). lia.
Qed.
Lemma print_nat10 n : exists ds, print_nat n <> [] /\ Forall2 decimal_digit (print_nat n) ds /\ number 10 ds = n.
Proof.
  unfold print_nat. destruct (dec10 (S (N.size_nat n)) n [] (size_nat_bound n) ltac:(lia)) as (s & ds & -> & A & B & C).
  exists ds. rewrite app_nil_r. auto.
Qed.
(** the exponent of a printed number *)
Lemma print_exponent z : exists esg eneg es eds,
  (if (0 <=? z)%Z then [43] else []) ++ print_int z = esg ++ es /\
  ((esg, eneg) = ([], false) \/ (esg, eneg) = ([43], false) \/ (esg, eneg) = ([45], true)) /\
  es <> [] /\ Forall2 decimal_digit es eds /\
  (if eneg then - Z.of_N (number 10 eds) else Z.of_N (number 10 eds))%Z = z /\
  Z.of_N (number 10 eds) = Z.abs z.
Proof.
  unfold print_int. destruct (Z.leb_spec 0 z) as [L|L]; destruct (Z.ltb_spec z 0) as [M|M]; try lia.
  - destruct (print_nat10 (Z.to_N z)) as (ds & A & B & C).
    exists [43], false, (print_nat (Z.to_N z)), ds. repeat split; auto; lia.
  - destruct (print_nat10 (Z.to_N (- z))) as (ds & A & B & C).
    exists [45], true, (print_nat (Z.to_N (- z))), ds. repeat split; auto; lia.
Qed.

Lemma hex_digit_ok d : d < 16 -> digit (hex_digit d) d.
Proof.
  intros L. unfold hex_digit. destruct (N.ltb_spec d 10).
  - constructor. auto.
  - replace (87 + d) with (97 + (d - 10)) by lia. replace d with (10 + (d - 10)) at 2 by lia. constructor; lia.
Qed.
Lemma land15 v : N.land v 15 = v mod 16.
Proof. change 15 with (N.ones 4). apply N.land_ones. Qed.
Lemma shiftr4 v : N.shiftr v 4 = v / 16.
Proof. apply N.shiftr_div_pow2. Qed.
Lemma print_digits n : forall v, v < 16 ^ N.of_nat n ->
  exists ds, Forall2 digit (print_hex_digits n v) ds /\ number 16 ds = v /\ length ds = n.
Proof.
  induction n as [|n IH]; intros v L.
  - exists []. cbn in *. repeat split; auto. unfold number. cbn. lia.
  - cbn [print_hex_digits]. rewrite shiftr4, land15.
    replace (N.of_nat (S n)) with (N.succ (N.of_nat n)) in L by lia. rewrite N.pow_succ_r' in L.
    destruct (IH (v / 16)) as (ds & A & B & C); [apply N.div_lt_upper_bound; lia|].
    exists (ds ++ [v mod 16]). repeat split.
    + apply Forall2_app; auto. constructor; [|constructor]. apply hex_digit_ok, N.mod_lt. lia.
    + rewrite number_snoc, B. pose proof (N.div_mod v 16). lia.
    + rewrite app_length, C. cbn. lia.
Qed.
Lemma strip_spec n : forall F, F < 16 ^ N.of_nat n ->
  exists F' n', print_strip n F = (F', n') /\ (n' <= n)%nat /\ F = F' * 16 ^ N.of_nat (n - n') /\ F' < 16 ^ N.of_nat n'.
Proof.
  induction n as [|n IH]; intros F L.
  - exists F, O. cbn in *. repeat split; auto. lia.
  - cbn [print_strip]. rewrite land15, shiftr4. destruct (N.eqb_spec (F mod 16) 0) as [E|E].
    + replace (N.of_nat (S n)) with (N.succ (N.of_nat n)) in L by lia. rewrite N.pow_succ_r' in L.
      destruct (IH (F / 16)) as (F' & n' & A & B & C & D); [apply N.div_lt_upper_bound; lia|].
      exists F', n'. repeat split; auto; try lia.
      replace (N.of_nat (S n - n')) with (N.succ (N.of_nat (n - n'))) by lia. rewrite N.pow_succ_r'.
      pose proof (N.div_mod F 16). lia.
    + exists F, (S n). repeat split; auto. rewrite Nat.sub_diag. cbn. lia.
Qed.

Lemma normalise_spec fuel k F e : 0 < k -> k < 64 -> 0 < F < 2 ^ k -> (N.to_nat k <= fuel + N.to_nat (N.log2 F))%nat ->
  (1 <= fuel)%nat ->
  exists j, print_normalise fuel (N.shiftl 1 (k - 1)) F e = Some (F * 2 ^ j, (e - Z.of_N j)%Z) /\
            2 ^ (k - 1) <= F * 2 ^ j < 2 ^ k /\ j <= k.
Proof.
  intros K0 K64. revert F e. induction fuel as [|fuel IH]; intros F e [F0 FL] FU FU1; [lia|].
  cbn [print_normalise].
  assert (KK : 2 ^ k = 2 * 2 ^ (k - 1)).
  { replace k with (1 + (k - 1)) at 1 by lia. apply (pow2_add 1). }
  pose proof (log2_bounds F F0) as [LB UB].
  assert (BIT : (N.land F (N.shiftl 1 (k - 1)) =? 0) = (F <? 2 ^ (k - 1))).
  { rewrite N.shiftl_1_l.
    assert (E : N.land F (2 ^ (k - 1)) = if N.testbit F (k - 1) then 2 ^ (k - 1) else 0).
    { apply N.bits_inj. intros i. rewrite N.land_spec. rewrite N.pow2_bits_eqb.
      destruct (N.eqb_spec (k - 1) i) as [<-|NE].
      - rewrite andb_true_r. destruct (N.testbit F (k - 1)) eqn:T; [now rewrite N.pow2_bits_true|now rewrite N.bits_0].
      - rewrite andb_false_r. destruct (N.testbit F (k - 1)); [rewrite N.pow2_bits_false; auto|now rewrite N.bits_0]. }
    rewrite E. pose proof (pow2_pos (k - 1)).
    assert (T : N.testbit F (k - 1) = negb (F <? 2 ^ (k - 1))).
    { destruct (N.ltb_spec F (2 ^ (k - 1))) as [A|A]; cbn [negb].
      - rewrite N.testbit_eqb, N.div_small by auto. reflexivity.
      - rewrite N.testbit_eqb. replace (F / 2 ^ (k - 1)) with 1; [reflexivity|].
        apply N.div_unique with (F - 2 ^ (k - 1)); lia. }
    rewrite T. destruct (F <? 2 ^ (k - 1)); cbn [negb]; [reflexivity|]. apply N.eqb_neq. lia. }
  rewrite BIT. destruct (N.ltb_spec F (2 ^ (k - 1))) as [A|A].
  - rewrite (N.shiftl_mul_pow2 F 1). change (2 ^ 1) with 2.
    assert (W : wrap 64 (F * 2) = F * 2).
    { apply wrap_small. pose proof (pow2_lt k 64 K64). lia. }
    rewrite W.
    assert (LG : N.log2 F < k - 1) by (apply N.log2_lt_pow2; auto).
    assert (LG2 : N.log2 (F * 2) = N.log2 F + 1).
    { rewrite N.mul_comm. pose proof (log2_step F false F0) as LS. cbn [N.b2n] in LS. rewrite N.add_0_r in LS. exact LS. }
    destruct (IH (F * 2) (e - 1)%Z) as (j & E & B & J); [lia|rewrite LG2; lia|lia|].
    exists (j + 1). rewrite pow2_add. change (2 ^ 1) with 2.
    replace (F * (2 ^ j * 2)) with (F * 2 * 2 ^ j) by lia. split; [|split; auto].
    + rewrite E. do 2 f_equal. lia.
    + destruct (N.le_gt_cases (j + 1) k) as [|G]; auto.
      assert (JK : j = k) by lia. subst j. assert (0 < 2 ^ k) by apply pow2_pos. nia.
  - exists 0. change (2 ^ 0) with 1. rewrite !N.mul_1_r, Z.sub_0_r. repeat split; auto; lia.
Qed.

(** The digits of a number [1.F] or [0.F] written with a binary exponent [e]. *)
Lemma text_of sg neg lead F n e : (sg, neg) = ([], false) \/ (sg, neg) = ([43], false) \/ (sg, neg) = ([45], true) ->
  lead < 10 -> F < 16 ^ N.of_nat n ->
  exists text v k w,
    (let '(F', n') := print_strip n F in
     sg ++ [48; 120] ++ [48 + lead] ++ (match n' with O => [] | _ => 46 :: print_hex_digits n' F' end)
       ++ [112] ++ (if (0 <=? e)%Z then [43] else []) ++ print_int e) = text /\
    hex_float text neg v k w /\ Z.of_N w = Z.abs e /\ (k <= S n)%nat /\
    deq v (lead * 16 ^ N.of_nat n + F, (e - 4 * Z.of_nat n)%Z).
Proof.
  intros SG LD L. destruct (strip_spec n F L) as (F' & n' & -> & NL & FE & F'L).
  destruct (print_exponent e) as (esg & eneg & es & eds & PE & ES & NE & FD & EV & EA).
  destruct (print_digits n' F' F'L) as (ds & DS & DV & DL).
  do 4 eexists. split; [reflexivity|].
  assert (T : sg ++ [48; 120] ++ [48 + lead] ++ (match n' with O => [] | _ => 46 :: print_hex_digits n' F' end)
       ++ [112] ++ (if (0 <=? e)%Z then [43] else []) ++ print_int e =
       sg ++ [48; 120] ++ [48 + lead] ++ (match n' with O => [] | _ => [46] end) ++ print_hex_digits n' F'
         ++ [112] ++ esg ++ es).
  { rewrite PE. destruct n'; reflexivity. }
  rewrite T. split; [|split; [|split]].
  - refine (hf_intro sg neg 120 [48 + lead] [lead] _ (print_hex_digits n' F') ds esg eneg es eds SG _ _ _ DS ES NE FD).
    + auto.
    + constructor; [constructor; lia|constructor].
    + destruct n'; auto.
  - exact EA.
  - rewrite app_length, DL. cbn [length]. lia.
  - cbn [app]. rewrite number_cons, DV, DL, EV.
    rewrite (deq_at _ _ (e - 4 * Z.of_nat n)) by (cbn [snd]; lia).
    unfold scaled. cbn [fst snd]. rewrite Z.sub_diag. change (2 ^ 0)%Z with 1%Z. rewrite Z.mul_1_r.
    replace (e - 4 * Z.of_nat n' - (e - 4 * Z.of_nat n))%Z with (Z.of_N (4 * N.of_nat (n - n'))) by lia.
    rewrite <- of_N_pow, N.pow_mul_r. change (2 ^ 4) with 16. rewrite <- N2Z.inj_mul. f_equal.
    rewrite FE at 1. rewrite N.mul_add_distr_r. f_equal.
    rewrite <- N.mul_assoc, <- N.pow_add_r. do 2 f_equal. lia.
Qed.
