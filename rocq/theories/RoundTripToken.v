(** Round trip: the texts of single operands, and how the assembler reads them. *)
From Verif Require Import Base Words WordsProofs Operand OperandProofs BinaryParse ParseSpec.
From Verif Require Import TextLex TextSpec TextProofs ParseNumber NumberSpec NumberProofs NamedIds NamedIdsProofs.
From Verif Require Import Assembler Disassembler RoundTripSpec TokenReader RoundTripOperand RoundTripPattern.
Local Open Scope N_scope.
Set Default Proof Using "Type".

(** *** Words *)
Lemma name_char_plain c : name_char c -> ~ special c /\ c <> 61 /\ c <> 33 /\ c <> 124 /\ c <> 37 /\ c <> 40.
Proof. unfold name_char, special, white. lia. Qed.
Lemma plain_word_body w : Forall (fun c => ~ special c) w -> word_body w.
Proof. induction 1; constructor; auto. Qed.
Lemma name_word w : name_text w -> word w /\ w <> [61] /\ hd 0 w <> 33.
Proof.
  intros [NE F]. split; [split; [|exact NE]|].
  { apply plain_word_body. eapply Forall_impl; [|exact F]. intros c H. apply name_char_plain, H. }
  destruct w as [|c w]; [congruence|]. inversion F as [|? ? H _]; subst. apply name_char_plain in H. cbn.
  split; [intros E; injection E as -> _; lia|lia].
Qed.
Lemma name_operand_token w : name_text w -> starts_with_op w = false -> operand_token w.
Proof. intros N S. destruct (name_word w N) as (A & B & C). repeat split; auto; apply A. Qed.

Lemma id_char_name c : is_id_char c = true <-> name_char c.
Proof. unfold is_id_char, name_char. lia. Qed.
Lemma valid_id_name w : is_valid_id w = true <-> name_text w.
Proof.
  unfold is_valid_id, name_text. destruct w as [|c w]; [split; [discriminate|intros [H _]; congruence]|].
  rewrite forallb_forall, Forall_forall. split.
  - intros H. split; [discriminate|]. intros x I. apply id_char_name. auto.
  - intros [_ H] x I. apply id_char_name. auto.
Qed.
Lemma id_token w : is_valid_id w = true -> operand_token (c_percent :: w).
Proof.
  intros V. apply valid_id_name in V. destruct V as [NE F]. unfold c_percent.
  repeat split; try discriminate.
  - constructor; [unfold special, white; lia|]. apply plain_word_body.
    eapply Forall_impl; [|exact F]. intros c H. apply name_char_plain, H.
  - destruct w as [|a [|b w]]; reflexivity.
Qed.

(** *** Numbers *)
Lemma print_nat_digits n : Forall (fun c => 48 <= c <= 57) (print_nat n) /\ print_nat n <> [] /\
  fold_left (fun a c => 10 * a + (c - 48)) (print_nat n) 0 = n.
Proof.
  unfold print_nat. destruct (dec_digits_spec (S (N.size_nat n)) n [] (size_nat_bound n) ltac:(lia))
    as (c & s & E & N0 & _). rewrite E, app_nil_r. clear E.
  assert (X : forall l v, numeral 10 l v -> Forall (fun c => 48 <= c <= 57) l /\
    fold_left (fun a c => 10 * a + (c - 48)) l 0 = v).
  { induction 1 as [c0 d D L|l v c0 d H IH D L].
    - destruct (digit10 _ _ D L) as [R ->]. split; [repeat constructor; lia|]. cbn [fold_left]. lia.
    - destruct (digit10 _ _ D L) as [R ->]. destruct IH as [F EQ]. split.
      + apply Forall_app. split; [exact F|]. repeat constructor; lia.
      + rewrite fold_left_app, EQ. cbn [fold_left]. lia. }
  destruct (X _ _ N0) as [A B]. repeat split; auto. discriminate.
Qed.
Lemma digits_name l : Forall (fun c => 48 <= c <= 57) l -> l <> [] -> name_text l.
Proof. intros F NE. split; [exact NE|]. eapply Forall_impl; [|exact F]. unfold name_char. lia. Qed.
Lemma digits_no_op l : Forall (fun c => 48 <= c <= 57) l -> starts_with_op l = false.
Proof.
  intros F. destruct l as [|a [|b [|c l]]]; try reflexivity. inversion F; subst.
  cbn [starts_with_op]. destruct (N.eqb_spec a 79); [lia|reflexivity].
Qed.
Lemma print_nat_token n : operand_token (print_nat n).
Proof.
  destruct (print_nat_digits n) as (F & NE & _). apply name_operand_token; [apply digits_name; auto|apply digits_no_op; auto].
Qed.
Lemma print_int_token z : operand_token (print_int z).
Proof.
  unfold print_int. destruct (z <? 0)%Z; [|apply print_nat_token].
  destruct (print_nat_digits (Z.to_N (- z))) as (F & NE & _). repeat split; try discriminate.
  - constructor; [unfold special, white; lia|]. apply plain_word_body. eapply Forall_impl; [|exact F].
    intros c [H1 H2]. unfold special, white. lia.
  - destruct (print_nat (Z.to_N (- z))) as [|a [|b l]]; reflexivity.
Qed.
Lemma classify_digits l b s p st : Forall (fun c => 48 <= c <= 57) l -> classify b l s p st = (s, p, st).
Proof.
  revert b. induction l as [|c l IH]; intros b F; [reflexivity|]. inversion F; subst. cbn [classify]. unfold is_digit.
  replace ((48 <=? c) && (c <=? 57)) with true by lia. apply IH. assumption.
Qed.
Lemma print_nat_literal v : v < 2 ^ 32 -> text_to_literal (print_nat v) = Lit_ok (Lit_uint v).
Proof.
  intros L. destruct (print_nat_digits v) as (F & NE & V). unfold text_to_literal.
  destruct (print_nat v) as [|c s] eqn:E; [congruence|]. rewrite (classify_digits _ _ _ _ _ F).
  cbn [orb andb Nat.ltb Nat.leb Nat.eqb]. f_equal. f_equal. unfold strtoull_digits. rewrite V.
  apply N.min_l. change (2 ^ 32) with 4294967296 in L. change (2 ^ 64 - 1) with 18446744073709551615. lia.
Qed.

Section Read.
Variable g : grammar.
Variable t : tables.
Hypothesis K : tables_ok g t.

(** How the assembler describes a numeric type of the parser *)
Definition conv (i : number_type) : id_type :=
  match n_kind i with
  | NK_NONE => {| it_width := 0; it_signed := false; it_class := IC_OTHER; it_enc := 0 |}
  | NK_UNSIGNED_INT => {| it_width := n_width i; it_signed := false; it_class := IC_INT; it_enc := 0 |}
  | NK_SIGNED_INT => {| it_width := n_width i; it_signed := true; it_class := IC_INT; it_enc := 0 |}
  | NK_FLOATING => {| it_width := n_width i; it_signed := false; it_class := IC_FLOAT; it_enc := n_encoding i |}
  end.

Lemma ones_mask w : w <= 32 -> forall v, v < 2 ^ w -> N.land v (N.ones w) = v.
Proof. intros L v H. rewrite N.land_ones. apply N.mod_small. exact H. Qed.

Lemma float_bits_words f w v : float_width f = Some w -> v < 2 ^ w -> float_bits f (float_words f v) = v.
Proof.
  intros W L. unfold float_words. destruct (N.eqb_spec f 3) as [->|N3].
  - cbn in W. injection W as <-. cbn [float_bits]. rewrite lor_shift_add by (apply N.mod_lt; discriminate).
    rewrite (N.div_mod v (2 ^ 32)) at 3 by discriminate. lia.
  - cbn [float_bits].
    assert (M : float_mask f = N.ones w).
    { destruct f as [|p]; [discriminate|]. do 4 (try destruct p; try discriminate W; try congruence);
        cbn in W; injection W as <-; reflexivity. }
    rewrite M, N.land_ones. apply N.mod_small. exact L.
Qed.
Lemma float_small f w v : float_width f = Some w -> v < 2 ^ w -> f <> 3 -> v < 2 ^ 32.
Proof.
  intros W L N3. eapply N.lt_le_trans; [exact L|]. apply N.pow_le_mono_r; [discriminate|].
  destruct f as [|p]; [discriminate|]. do 4 (try destruct p; try discriminate W; try congruence);
        cbn in W; injection W as <-; lia.
Qed.
Lemma float_width_range f w : float_width f = Some w -> 1 <= f <= 11.
Proof.
  destruct f as [|p]; [discriminate|]. do 4 (try destruct p; try discriminate); lia.
Qed.
Lemma float_literal_read enc width f w v : float_type enc width f -> float_width f = Some w -> v < 2 ^ w ->
  t_float_read t f (t_float_show t f v) = Some v ->
  float_literal t (t_float_show t f v) width enc = Enc_success (float_words f v).
Proof.
  intros T W L R. unfold float_literal.
  assert (D : deduce_encoding width enc = f).
  { unfold deduce_encoding. destruct T as [[-> [[-> ->]|[[-> ->]|[-> ->]]]]|[N0 [-> _]]]; try reflexivity.
    destruct (N.eqb_spec enc 0); [contradiction|reflexivity]. }
  rewrite D. pose proof (float_width_range _ _ W) as RG.
  destruct (N.eqb_spec f 0); [lia|]. destruct (N.ltb_spec 11 f); [lia|]. cbn [orb]. rewrite R.
  unfold float_words. destruct (N.eqb_spec f 3) as [->|N3].
  - cbn in W. injection W as <-. f_equal. f_equal.
    + change 4294967295 with (N.ones 32). rewrite N.land_comm, N.land_ones. reflexivity.
    + f_equal. rewrite N.shiftr_land. change (N.shiftr 18446744069414584320 32) with (N.ones 32).
      rewrite N.land_comm, N.land_ones, N.shiftr_div_pow2. apply N.mod_small.
      apply N.div_lt_upper_bound; [discriminate|]. exact L.
  - f_equal. f_equal. apply N.mod_small. eapply float_small; eauto.
Qed.

Lemma number_read o ws err i : number_ok t o ws -> o_num_words o = N.of_nat (length ws) ->
  encode_number t (emit_number t o ws) err
    (conv {| n_kind := o_kind o; n_width := o_bit_width o; n_encoding := o_encoding o |}) i = AOk (add_words i ws) /\
  operand_token (emit_number t o ws) /\ (1 <= length ws)%nat.
Proof.
  unfold number_ok, emit_number, conv, encode_number. cbn [n_kind n_width n_encoding]. intros H NW.
  destruct (o_kind o) eqn:KD.
  - destruct H.
  - destruct H as (v & W & R & ->). cbn [it_class it_width it_signed].
    rewrite (emit_encode_roundtrip _ _ _ W R). repeat split; rewrite (emit_encoding _ _ _ W R) || idtac;
      try apply (print_int_token v). unfold encoding. destruct (_ <=? _); cbn; lia.
  - destruct H as (v & W & R & ->). cbn [it_class it_width it_signed].
    rewrite (emit_encode_roundtrip _ _ _ W R). repeat split; rewrite (emit_encoding _ _ _ W R) || idtac;
      try apply (print_int_token v). unfold encoding. destruct (_ <=? _); cbn; lia.
  - destruct H as (f & w & v & T & W & L & -> & R & TK). cbn [it_class it_width it_signed it_enc].
    assert (FF : float_format (o_num_words o) (o_encoding o) (o_bit_width o) = Some f).
    { rewrite NW. unfold float_format, float_words. destruct (N.eqb_spec f 3) as [->|N3]; [reflexivity|].
      cbn [length]. change (N.of_nat 1 =? 2) with false. change (N.of_nat 1 =? 1) with true. cbn [negb].
      pose proof (float_width_range _ _ W) as RG.
      destruct T as [[-> [[-> ->]|[[-> ->]|[-> ->]]]]|[N0 [-> _]]]; try reflexivity; try congruence.
      destruct (N.eqb_spec (o_encoding o) 0); [contradiction|].
      destruct (N.eqb_spec (o_encoding o) 3); [congruence|]. destruct (N.ltb_spec 11 (o_encoding o)); [lia|]. reflexivity. }
    rewrite FF, (float_bits_words _ _ _ W L), (float_literal_read _ _ _ _ _ T W L R).
    repeat split; try apply TK. unfold float_words. destruct (f =? 3); cbn; lia.
Qed.

Lemma word_read w err i : w < 2 ^ 32 ->
  encode_number t (print_nat w) err {| it_width := 32; it_signed := false; it_class := IC_INT; it_enc := 0 |} i
  = AOk (add_words i [w]).
Proof.
  intros L. unfold encode_number. cbn [it_class it_width it_signed].
  pose proof (emit_encode_roundtrip 32 false (Z.of_N w) ltac:(lia)) as H.
  assert (E : encoding 32 (Z.of_N w) = [w]).
  { unfold encoding. cbn [N.leb N.compare Pos.compare Pos.compare_cont]. f_equal.
    change (2 ^ 32)%Z with (Z.of_N (2 ^ 32)). rewrite <- N2Z.inj_mod, N2Z.id. apply N.mod_small. exact L. }
  rewrite E in H. cbn [emit_integer] in H. rewrite H; [reflexivity|].
  unfold representable. change (2 ^ Z.of_N 32)%Z with (Z.of_N (2 ^ 32)). lia.
Qed.

(** *** Masks *)
Lemma push_mask_ext lookup ty w w' : forall n p, (forall k, k < N.of_nat n -> N.testbit w k = N.testbit w' k) ->
  push_for_mask_loop lookup ty w n p = push_for_mask_loop lookup ty w' n p.
Proof.
  induction n as [|n IH]; intros p H; [reflexivity|]. cbn [push_for_mask_loop]. cbv zeta.
  assert (E : (N.land (N.shiftl 1 (N.of_nat n)) w =? 0) = (N.land (N.shiftl 1 (N.of_nat n)) w' =? 0)).
  { rewrite N.shiftl_1_l, (N.land_comm _ w), (N.land_comm _ w'), !land_pow2_zero. f_equal. apply H. lia. }
  rewrite E. apply IH. intros k L. apply H. lia.
Qed.
Lemma push_mask_zero lookup ty : forall n p, push_for_mask_loop lookup ty 0 n p = p.
Proof.
  induction n as [|n IH]; intros p; [reflexivity|]. cbn [push_for_mask_loop]. cbv zeta. rewrite N.land_0_r. apply IH.
Qed.
Lemma mask_loop_spec ty : forall n w p p', mask_loop g ty n w p = Ok (Some p') ->
  w < 2 ^ N.of_nat n /\ (forall k, N.testbit w k = true -> g_operand g ty (2 ^ k) <> None) /\
  p' = push_for_mask_loop (g_operand g) ty w n p.
Proof.
  induction n as [|n IH]; intros w p p'; cbn [mask_loop].
  - destruct (N.eqb_spec w 0) as [->|]; [|discriminate]. intros H; injection H as <-. repeat split.
    intros k. rewrite N.bits_0. discriminate.
  - destruct (N.eqb_spec w 0) as [->|NZ].
    + intros H; injection H as <-. rewrite push_mask_zero. split; [|split; [|reflexivity]].
      * apply (NumberProofs.pow2_pos (N.of_nat (S n))).
      * intros k. rewrite N.bits_0. discriminate.
    + cbv zeta. rewrite land_pow2_zero, negb_involutive. cbn [push_for_mask_loop]. cbv zeta.
      rewrite N.shiftl_1_l, (N.land_comm _ w), land_pow2_zero, negb_involutive.
      destruct (N.testbit w (N.of_nat n)) eqn:TB.
      * destruct (g_operand g ty (2 ^ N.of_nat n)) as [ts|] eqn:E; [|discriminate]. intros H.
        destruct (IH _ _ _ H) as (L & A & B).
        assert (XB : forall k, k <> N.of_nat n -> N.testbit (N.lxor w (2 ^ N.of_nat n)) k = N.testbit w k).
        { intros k NK. rewrite N.lxor_spec, N.pow2_bits_false by congruence. apply xorb_false_r. }
        split; [|split].
        { apply N_lt_pow2_bits. intros k GE. rewrite <- XB by lia.
          apply (proj1 (N_lt_pow2_bits _ _) L). lia. }
        { intros k TK. destruct (N.eq_dec k (N.of_nat n)) as [->|NK]; [rewrite E; discriminate|].
          apply A. rewrite XB; auto. }
        { rewrite B. apply push_mask_ext. intros k LK. apply XB. lia. }
      * intros H. destruct (IH _ _ _ H) as (L & A & B). split; [|split]; auto.
        eapply N.lt_trans; [exact L|]. apply N.pow_lt_mono_r; lia.
Qed.

Lemma join_split : forall l, l <> [] -> Forall (fun w => name_text w) l -> split_bar (join_bar l) = l.
Proof.
  assert (A : forall w r, Forall name_char w -> split_bar (w ++ 124 :: r) = w :: split_bar r).
  { induction w as [|c w IH]; intros r F; [reflexivity|]. inversion F as [|? ? H F']; subst. cbn [app split_bar].
    apply name_char_plain in H. destruct (N.eqb_spec c 124); [lia|]. rewrite (IH r F'). reflexivity. }
  assert (B : forall w, Forall name_char w -> split_bar w = [w]).
  { induction w as [|c w IH]; intros F; [reflexivity|]. inversion F as [|? ? H F']; subst. cbn [split_bar].
    apply name_char_plain in H. destruct (N.eqb_spec c 124); [lia|]. rewrite (IH F'). reflexivity. }
  induction l as [|w l IH]; intros NE F; [congruence|]. inversion F as [|? ? [NW FW] F']; subst.
  destruct l as [|w2 l]; [apply B; exact FW|].
  change (join_bar (w :: w2 :: l)) with (w ++ 124 :: join_bar (w2 :: l)). rewrite (A _ _ FW). f_equal.
  apply IH; [discriminate|exact F'].
Qed.
Lemma join_nonempty l : l <> [] -> Forall name_text l -> exists c r, join_bar l = c :: r /\ name_char c.
Proof.
  intros NE F. destruct l as [|w l]; [congruence|]. inversion F as [|? ? [NW FW] F']; subst.
  destruct w as [|c w]; [congruence|]. inversion FW; subst. exists c. destruct l; cbn; eauto.
Qed.
Lemma join_token l : l <> [] -> Forall (fun w => name_text w /\ starts_with_op w = false) l -> operand_token (join_bar l).
Proof.
  intros NE F.
  assert (FN : Forall name_text l) by (eapply Forall_impl; [|exact F]; intros a [A _]; exact A).
  destruct (join_nonempty l NE FN) as (c & r & E & NC). apply name_char_plain in NC.
  assert (PL : forall l, Forall name_text l -> Forall (fun c => ~ special c) (join_bar l)).
  { clear. induction l as [|w l IH]; intros F; [constructor|]. inversion F as [|? ? [NW FW] F']; subst.
    assert (P : Forall (fun c => ~ special c) w) by (eapply Forall_impl; [|exact FW]; intros c H; apply name_char_plain, H).
    destruct l as [|w2 l]; [exact P|]. change (join_bar (w :: w2 :: l)) with (w ++ 124 :: join_bar (w2 :: l)).
    apply Forall_app. split; [exact P|]. constructor; [unfold special, white; lia|]. apply IH. exact F'. }
  repeat split.
  - apply plain_word_body. apply PL. exact FN.
  - rewrite E. discriminate.
  - destruct l as [|w l]; [congruence|]. inversion F as [|? ? [[NW FW] SW] F']; subst.
    destruct l as [|w2 l]; [exact SW|]. change (join_bar (w :: w2 :: l)) with (w ++ 124 :: join_bar (w2 :: l)).
    destruct w as [|a [|b [|d w]]]; [congruence| | |exact SW].
    + cbn [app]. destruct (join_bar (w2 :: l)); cbn [starts_with_op]; [reflexivity|].
      change (124 =? 112) with false. rewrite andb_false_r. reflexivity.
    + cbn [app starts_with_op]. change (124 <=? 90) with false. rewrite andb_false_r. reflexivity.
  - rewrite E. intros X. injection X as -> _. lia.
  - rewrite E. cbn. lia.
Qed.

Lemma mask_names_read ty ty' w : (forall k, N.testbit w k = true -> t_operand_find t ty (t_operand_name t ty' (2 ^ k)) = Some (2 ^ k)) ->
  forall n k acc, exists r, mask_value (t_operand_find t ty) (mask_names t ty' w n k) acc = Some r /\
    forall j, N.testbit r j = N.testbit acc j || (N.testbit w j && (k <=? j) && (j <? k + N.of_nat n)).
Proof.
  intros H. induction n as [|n IH]; intros k acc.
  - exists acc. split; [reflexivity|]. intros j.
    destruct (N.leb_spec k j), (N.ltb_spec j (k + N.of_nat 0)); try lia; rewrite ?andb_false_r; cbn [andb]; rewrite ?andb_false_r, ?orb_false_r; reflexivity.
  - cbn [mask_names]. destruct (N.testbit w k) eqn:TB; cbn [app mask_value].
    + rewrite (H k TB). destruct (IH (k + 1) (N.lor acc (2 ^ k))) as (r & E & R). exists r. split; [exact E|].
      intros j. rewrite R, N.lor_spec. destruct (N.eq_dec j k) as [->|NJ].
      * rewrite N.pow2_bits_true, TB. rewrite orb_true_r. cbn [orb andb].
        destruct (N.leb_spec k k); [|lia]. destruct (N.ltb_spec k (k + N.of_nat (S n))); [|lia].
        cbn [andb]. rewrite orb_true_r. reflexivity.
      * rewrite N.pow2_bits_false by congruence. rewrite orb_false_r. f_equal. rewrite <- !andb_assoc. f_equal.
        destruct (N.leb_spec (k + 1) j), (N.leb_spec k j), (N.ltb_spec j (k + 1 + N.of_nat n)), (N.ltb_spec j (k + N.of_nat (S n)));
          try reflexivity; lia.
    + destruct (IH (k + 1) acc) as (r & E & R). exists r. split; [exact E|].
      intros j. rewrite R. destruct (N.eq_dec j k) as [->|NJ].
      * rewrite TB. reflexivity.
      * f_equal. rewrite <- !andb_assoc. f_equal.
        destruct (N.leb_spec (k + 1) j), (N.leb_spec k j), (N.ltb_spec j (k + 1 + N.of_nat n)), (N.ltb_spec j (k + N.of_nat (S n)));
          try reflexivity; lia.
Qed.
Lemma mask_names_forall ty w (P : list N -> Prop) : forall n k, (forall k, N.testbit w k = true -> P (t_operand_name t ty (2 ^ k))) ->
  Forall P (mask_names t ty w n k).
Proof.
  induction n as [|n IH]; intros k H; [constructor|]. cbn [mask_names]. apply Forall_app. split; [|apply IH; exact H].
  destruct (N.testbit w k) eqn:E; repeat constructor. apply H. exact E.
Qed.
Lemma mask_names_nil ty w : forall n k, mask_names t ty w n k = [] -> forall j, k <= j < k + N.of_nat n -> N.testbit w j = false.
Proof.
  induction n as [|n IH]; intros k E j R; [lia|]. cbn [mask_names] in E. apply app_eq_nil in E. destruct E as [E1 E2].
  destruct (N.eq_dec j k) as [->|NJ]; [destruct (N.testbit w k); [discriminate|reflexivity]|].
  apply (IH (k + 1) E2). lia.
Qed.

Lemma mask_read ty w p p' : is_mask_case ty = true -> mask_loop g ty 32 w p = Ok (Some p') ->
  (w = 0 -> g_operand g (enum_concrete ty) 0 <> None) ->
  parse_mask t ty (emit_mask g t (enum_concrete ty) w) = inl w /\
  push_for_mask (g_operand g) ty w p = (if w =? 0 then match g_operand g ty 0 with Some ts => push_operand_types ts p' | None => p' end else p') /\
  operand_token (emit_mask g t (enum_concrete ty) w).
Proof using K.
  intros M L Z. destruct (mask_loop_spec _ _ _ _ _ L) as (LT & HN & EP). clear L.
  assert (B : forall k, N.testbit w k = true -> exists ts, g_operand g ty (2 ^ k) = Some ts).
  { intros k TB. specialize (HN k TB). destruct (g_operand g ty (2 ^ k)); eauto; congruence. }
  unfold emit_mask. destruct (mask_names t (enum_concrete ty) w 32 0) as [|n ns] eqn:E.
  - assert (W0 : w = 0).
    { apply N.bits_inj_0. intros k. destruct (N.lt_ge_cases k 32) as [L|L].
      - apply (mask_names_nil _ _ _ _ E). change (N.of_nat 32) with 32. lia.
      - apply (proj1 (N_lt_pow2_bits _ _) LT). exact L. }
    subst w. specialize (Z eq_refl). rewrite <- (tk_optional _ _ K _ _ M) in Z |- *.
    destruct (g_operand g ty 0) as [ts|] eqn:G; [|congruence].
    destruct (tk_operand_name _ _ K _ _ _ G) as (NT & NO & FD).
    split; [|split].
    + unfold parse_mask. destruct NT as [NE F]. destruct (t_operand_name t (enum_concrete ty) 0) as [|c r] eqn:NM; [congruence|].
      assert (S : split_bar (c :: r) = [c :: r]).
      { apply (join_split [c :: r]); [discriminate|]. constructor; [split; [discriminate|exact F]|constructor]. }
      rewrite S. cbn [mask_value]. rewrite FD. reflexivity.
    + rewrite (tk_zero _ _ K _ _ M G), push_operand_types_spec. cbn [filter app N.eqb]. rewrite EP. reflexivity.
    + apply name_operand_token; auto.
  - assert (FN : Forall (fun x => name_text x /\ starts_with_op x = false) (n :: ns)).
    { rewrite <- E. apply mask_names_forall. intros k TB. destruct (B k TB) as (ts & G).
      destruct (tk_operand_name _ _ K _ _ _ G) as (NT & NO & FD). auto. }
    assert (FN' : Forall name_text (n :: ns)) by (eapply Forall_impl; [|exact FN]; intros a [A _]; exact A).
    assert (J : match n :: ns with [] => match g_operand g (enum_concrete ty) 0 with
               | Some _ => t_operand_name t (enum_concrete ty) 0 | None => [] end | _ => join_bar (n :: ns) end = join_bar (n :: ns))
      by reflexivity.
    split; [|split].
    + unfold parse_mask. destruct (join_nonempty (n :: ns) ltac:(discriminate) FN') as (c & r & EJ & _).
      pose proof (join_split (n :: ns) ltac:(discriminate) FN') as S. rewrite EJ in *. rewrite S, <- E.
      destruct (mask_names_read ty (enum_concrete ty) w) with (n := 32%nat) (k := 0) (acc := 0) as (v & EV & RV).
      { intros k TB. destruct (B k TB) as (ts & G). apply (tk_operand_name _ _ K _ _ _ G). }
      rewrite EV. f_equal. apply N.bits_inj. intros j. rewrite RV, N.bits_0. cbn [orb].
      change (0 + N.of_nat 32) with 32. destruct (N.ltb_spec j 32) as [LJ|LJ].
      * destruct (N.leb_spec 0 j); [|lia]. rewrite !andb_true_r. reflexivity.
      * rewrite andb_false_r. symmetry. apply (proj1 (N_lt_pow2_bits _ _) LT). exact LJ.
    + destruct (N.eqb_spec w 0) as [->|]; [|symmetry; exact EP].
      exfalso. assert (X : mask_names t (enum_concrete ty) 0 32 0 = []) by reflexivity. rewrite E in X. discriminate.
    + apply join_token; [discriminate|exact FN].
Qed.

(** a mask with at most one bit is a name *)
Lemma mask_single ty w p p' : is_mask_case ty = true -> mask_loop g ty 32 w p = Ok (Some p') ->
  (w = 0 -> g_operand g (enum_concrete ty) 0 <> None) -> w = 0 \/ (exists k, w = 2 ^ k) ->
  exists ts, t_operand_find t ty (emit_mask g t (enum_concrete ty) w) = Some w /\ g_operand g ty w = Some ts /\
    push_operand_types ts p = (if w =? 0 then match g_operand g ty 0 with Some ts => push_operand_types ts p' | None => p' end else p').
Proof using K.
  intros M L Z C. destruct (mask_loop_spec _ _ _ _ _ L) as (LT & HN & EP). clear L.
  destruct C as [->|[k ->]].
  - specialize (Z eq_refl). rewrite <- (tk_optional _ _ K _ _ M) in Z.
    destruct (g_operand g ty 0) as [ts|] eqn:G; [|congruence]. exists ts.
    destruct (tk_operand_name _ _ K _ _ _ G) as (NT & NO & FD).
    assert (EM : emit_mask g t (enum_concrete ty) 0 = t_operand_name t (enum_concrete ty) 0).
    { unfold emit_mask. change (mask_names t (enum_concrete ty) 0 32 0) with (@nil (list N)). cbv iota.
      rewrite <- (tk_optional _ _ K _ _ M), G. reflexivity. }
    rewrite EM. repeat split; auto. rewrite (tk_zero _ _ K _ _ M G), !push_operand_types_spec. cbn [filter app N.eqb].
    rewrite EP. reflexivity.
  - assert (TB : N.testbit (2 ^ k) k = true) by apply N.pow2_bits_true.
    specialize (HN k TB). destruct (g_operand g ty (2 ^ k)) as [ts|] eqn:G; [|congruence]. exists ts.
    destruct (tk_operand_name _ _ K _ _ _ G) as (NT & NO & FD).
    assert (K32 : k < 32).
    { destruct (N.lt_ge_cases k 32) as [X|X]; [exact X|]. rewrite (proj1 (N_lt_pow2_bits _ _) LT k X) in TB. discriminate. }
    assert (ON : forall n j, j <= k < j + N.of_nat n -> mask_names t (enum_concrete ty) (2 ^ k) n j = [t_operand_name t (enum_concrete ty) (2 ^ k)]).
    { assert (EMP : forall n j, k < j -> mask_names t (enum_concrete ty) (2 ^ k) n j = []).
      { induction n as [|n IH]; intros j LJ; [reflexivity|]. cbn [mask_names].
        rewrite N.pow2_bits_false by lia. cbn [app]. apply IH. lia. }
      induction n as [|n IH]; intros j RJ; [lia|]. cbn [mask_names].
      destruct (N.eq_dec j k) as [->|NJ].
      - rewrite N.pow2_bits_true, EMP by lia. reflexivity.
      - rewrite N.pow2_bits_false by lia. cbn [app]. apply IH. lia. }
    assert (EM : emit_mask g t (enum_concrete ty) (2 ^ k) = t_operand_name t (enum_concrete ty) (2 ^ k)).
    { unfold emit_mask. rewrite ON by (change (N.of_nat 32) with 32; lia). reflexivity. }
    rewrite EM. repeat split; auto.
    destruct (N.eqb_spec (2 ^ k) 0) as [X|_]; [exfalso; revert X; apply N.pow_nonzero; discriminate|].
    rewrite EP.
    assert (PU : forall n, k < N.of_nat n -> push_for_mask_loop (g_operand g) ty (2 ^ k) n p = push_operand_types ts p).
    { induction n as [|n IH]; intros LN; [lia|]. cbn [push_for_mask_loop]. cbv zeta.
      rewrite N.shiftl_1_l, N.land_comm, land_pow2_zero, negb_involutive.
      destruct (N.eq_dec k (N.of_nat n)) as [EK|NK].
      - rewrite <- EK, N.pow2_bits_true, G. rewrite (push_mask_ext _ _ (2 ^ k) 0), push_mask_zero; [reflexivity|].
        intros j LJ. rewrite N.bits_0. apply N.pow2_bits_false. lia.
      - rewrite N.pow2_bits_false by congruence. apply IH. lia. }
    symmetry. apply PU. change (N.of_nat 32) with 32. exact K32.
Qed.

Lemma mask_or_strict ty : is_mask_case ty = true -> asm_mask_case ty = negb (strict_mask ty).
Proof. destruct ty; try discriminate; reflexivity. Qed.
Lemma mask_concrete ty : is_mask_case ty = true -> is_concrete_mask (enum_concrete ty) = true.
Proof. destruct ty; try discriminate; reflexivity. Qed.
Lemma enum_not_mask ty : is_enum_case ty = true \/ ty = T_SOURCE_LANGUAGE -> is_concrete_mask (enum_concrete ty) = false.
Proof. intros [E| ->]; [destruct ty; try discriminate E; reflexivity|reflexivity]. Qed.
End Read.
