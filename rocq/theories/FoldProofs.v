(** Proofs about the model of constant folding: scalar level. *)
From Verif Require Import Base Fold FoldSpec.
From Coq Require Import Znumtheory.
Local Open Scope Z_scope.

Lemma mod_mod_pow x w k : 0 <= w <= k -> (x mod 2 ^ k) mod 2 ^ w = x mod 2 ^ w.
Proof.
  intros H. symmetry. apply Zmod_div_mod; [apply Z.pow_pos_nonneg; lia|apply Z.pow_pos_nonneg; lia|].
  exists (2 ^ (k - w)). rewrite <- Z.pow_add_r by lia. f_equal. lia.
Qed.
Lemma width_pos w : width_ok w -> 0 < w <= 64.
Proof. unfold width_ok. lia. Qed.
Lemma u64_mod x w : width_ok w -> u64 x mod 2 ^ w = x mod 2 ^ w.
Proof. intros H%width_pos. apply mod_mod_pow. lia. Qed.
Lemma u64_range x : 0 <= u64 x < 2 ^ 64.
Proof. apply Z.mod_pos_bound. reflexivity. Qed.

Ltac widths :=
  repeat match goal with H : width_ok _ |- _ => destruct H as [->|[->|[->| ->]]] end.
Ltac powers :=
  change (2 ^ 8) with 256 in *; change (2 ^ 16) with 65536 in *;
  change (2 ^ 32) with 4294967296 in *; change (2 ^ 64) with 18446744073709551616 in *;
  change (2 ^ 31) with 2147483648 in *; change (2 ^ 63) with 9223372036854775808 in *;
  change (2 ^ (8 - 1)) with 128 in *; change (2 ^ (16 - 1)) with 32768 in *;
  change (2 ^ (32 - 1)) with 2147483648 in *; change (2 ^ (64 - 1)) with 9223372036854775808 in *.

(** Integer constants. *)
Lemma value_of_encode w s v : width_ok w -> 0 <= v < 2 ^ w ->
  sconst_value (SCInt w s (encode w s v)) = v.
Proof.
  intros H Hv. unfold encode. widths; cbn [Z.leb Z.compare Pos.compare Pos.compare_cont];
  cbn -[Z.pow Z.modulo Z.mul Z.add Z.div Z.sub]; powers.
  - destruct s; cbn [andb]; try (apply Z.mod_small; lia). destruct (128 <=? v) eqn:E; lia.
  - destruct s; cbn [andb]; try (apply Z.mod_small; lia). destruct (32768 <=? v) eqn:E; lia.
  - destruct s; cbn [andb]; try (apply Z.mod_small; lia). destruct (2147483648 <=? v) eqn:E; lia.
  - lia.
Qed.

Lemma sconst_int w s c : width_ok w -> sconst_ok (EInt w s) c ->
  (c = SCNull (EInt w s) /\ sconst_value c = 0) \/
  (exists v, 0 <= v < 2 ^ w /\ c = SCInt w s (encode w s v) /\ sconst_value c = v).
Proof.
  intros H Hc. destruct c as [b|w' s' ws|e]; cbn in Hc.
  - discriminate.
  - destruct Hc as (E & v & Hv & ->). inversion E; subst w' s'. right. exists v.
    split; [exact Hv|split; [reflexivity|apply value_of_encode; auto]].
  - subst e. left. split; reflexivity.
Qed.
Lemma sconst_value_range e c : ety_ok e -> sconst_ok e c -> 0 <= sconst_value c < 2 ^ ewidth e.
Proof.
  intros He Hc. destruct e as [|w s].
  - cbn. destruct c as [b|? ? ?|?]; cbn in Hc; [destruct b; cbn; lia|destruct Hc; discriminate|cbn; lia].
  - cbn in He. destruct (sconst_int w s c He Hc) as [[_ ->]|(v & Hv & _ & ->)]; cbn [ewidth]; [|exact Hv].
    pose proof (Z.pow_pos_nonneg 2 w ltac:(lia)). apply width_pos in He. lia.
Qed.
Lemma sconst_ok_type e c : sconst_ok e c -> sconst_type c = e.
Proof. destruct c; cbn; [auto|intros (-> & _); auto|auto]. Qed.

Lemma get_zext_ok w s c : width_ok w -> sconst_ok (EInt w s) c ->
  exists x, get_zext c = FSome x /\ 0 <= x < 2 ^ 64 /\ x mod 2 ^ w = sconst_value c /\
            (s = false -> x = sconst_value c).
Proof.
  intros H Hc. destruct (sconst_int w s c H Hc) as [[-> ->]|(v & Hv & -> & ->)].
  - exists 0. cbn. pose proof (width_pos w H). replace (w <=? 64) with true by lia.
    split; [reflexivity|]. split; [powers; lia|]. split; auto.
  - unfold encode; widths; cbn -[Z.pow Z.modulo Z.mul Z.add Z.div Z.sub]; powers.
    + eexists; split; [reflexivity|]. destruct s; cbn [andb]; [destruct (128 <=? v) eqn:E|]; repeat split; lia.
    + eexists; split; [reflexivity|]. destruct s; cbn [andb]; [destruct (32768 <=? v) eqn:E|]; repeat split; lia.
    + eexists; split; [reflexivity|]. destruct s; cbn [andb]; [destruct (2147483648 <=? v) eqn:E|]; repeat split; lia.
    + eexists; split; [reflexivity|]. repeat split; lia.
Qed.
Ltac ifs := repeat match goal with |- context [if ?b then _ else _] => destruct b eqn:? end.
Lemma get_sext_ok w s c : width_ok w -> sconst_ok (EInt w s) c ->
  exists x, get_sext c = FSome x /\ - 2 ^ 63 <= x < 2 ^ 63 /\ x mod 2 ^ w = sconst_value c /\
            (s = true \/ 32 <= w \/ sconst_value c < 2 ^ (w - 1) -> x = sval w (sconst_value c)) /\
            (x = - 2 ^ 63 -> w = 64 /\ sconst_value c = 2 ^ 63 /\ c <> SCNull (EInt w s)).
Proof.
  intros H Hc. destruct (sconst_int w s c H Hc) as [[-> ->]|(v & Hv & -> & ->)].
  - exists 0. cbn -[Z.pow sval]. pose proof (width_pos w H). replace (w <=? 64) with true by lia.
    split; [reflexivity|]. split; [powers; lia|]. split; [apply Z.mod_0_l; widths; discriminate|].
    split; [|powers; lia].
    intros _. unfold sval. widths; powers; reflexivity.
  - assert (N0 : SCInt w s (encode w s v) <> SCNull (EInt w s)) by discriminate.
    unfold encode, get_sext, get_s32_words, get_s64_words, sval, s32, s64 in *; widths;
    cbn -[Z.pow Z.modulo Z.mul Z.add Z.div Z.sub Z.opp Z.ltb]; powers.
    + eexists; split; [reflexivity|]. destruct s; cbn [andb]; [destruct (128 <=? v) eqn:E|]; ifs; repeat split; lia.
    + eexists; split; [reflexivity|]. destruct s; cbn [andb]; [destruct (32768 <=? v) eqn:E|]; ifs; repeat split; lia.
    + eexists; split; [reflexivity|]. destruct s; cbn [andb]; [destruct (2147483648 <=? v) eqn:E|]; ifs; repeat split; lia.
    + eexists; split; [reflexivity|].
      replace (v / 4294967296 * 4294967296 + v mod 4294967296) with v by lia.
      ifs; repeat split; try lia; discriminate.
Qed.

Lemma gen_int_ok w s r : width_ok w -> 0 <= r < 2 ^ 64 ->
  exists c, gen_int w s r = FSome c /\ sconst_ok (EInt w s) c /\ sconst_value c = r mod 2 ^ w.
Proof.
  intros H Hr. unfold gen_int.
  assert (Hv : 0 <= r mod 2 ^ w < 2 ^ w) by (apply Z.mod_pos_bound; widths; reflexivity).
  assert (G : forall c, c = SCInt w s (encode w s (r mod 2 ^ w)) ->
              sconst_ok (EInt w s) c /\ sconst_value c = r mod 2 ^ w).
  { intros c ->. split; [cbn; eauto|apply value_of_encode; auto]. }
  eexists; split; [|apply G; reflexivity].
  clear G. unfold sign_extend_value, zero_extend_value, encode, u32.
  widths; cbn [Z.eqb Z.leb Z.compare Pos.eqb Pos.compare Pos.compare_cont]; do 2 f_equal.
  - rewrite Z.testbit_eqb by lia. powers. f_equal. destruct s; cbn [andb]; [|lia].
    destruct (r / 128 mod 2 =? 1) eqn:E; destruct (128 <=? r mod 256) eqn:E2; lia.
  - rewrite Z.testbit_eqb by lia. powers. f_equal. destruct s; cbn [andb]; [|lia].
    destruct (r / 32768 mod 2 =? 1) eqn:E; destruct (32768 <=? r mod 65536) eqn:E2; lia.
  - rewrite Z.testbit_eqb by lia. powers. f_equal. destruct s; cbn [andb]; [|lia].
    destruct (r / 2147483648 mod 2 =? 1) eqn:E; destruct (2147483648 <=? r mod 4294967296) eqn:E2; lia.
  - powers. replace (r mod 18446744073709551616) with r by lia. f_equal. f_equal. lia.
Qed.

Lemma get_int_const_ok w s r : width_ok w -> 0 <= r < 2 ^ 64 ->
  sconst_ok (EInt w s) (get_int_const r w s) /\ sconst_value (get_int_const r w s) = r mod 2 ^ w.
Proof.
  intros H Hr.
  assert (Hv : 0 <= r mod 2 ^ w < 2 ^ w) by (apply Z.mod_pos_bound; widths; reflexivity).
  assert (G : forall c, c = SCInt w s (encode w s (r mod 2 ^ w)) ->
              sconst_ok (EInt w s) c /\ sconst_value c = r mod 2 ^ w).
  { intros c ->. split; [cbn; eauto|apply value_of_encode; auto]. }
  apply G. clear G. unfold get_int_const, encode, u32, u64, s64.
  widths; cbn [Z.eqb Z.leb Z.ltb Z.compare Pos.eqb Pos.compare Pos.compare_cont]; f_equal.
  - change (2 ^ (64 - 8)) with 72057594037927936. powers. f_equal. destruct s; cbn [andb]; [|lia].
    destruct (_ <? 9223372036854775808) eqn:E; destruct (128 <=? r mod 256) eqn:E2; lia.
  - change (2 ^ (64 - 16)) with 281474976710656. powers. f_equal. destruct s; cbn [andb]; [|lia].
    destruct (_ <? 9223372036854775808) eqn:E; destruct (32768 <=? r mod 65536) eqn:E2; lia.
  - change (2 ^ (64 - 32)) with 4294967296. powers. f_equal. destruct s; cbn [andb]; [|lia].
    destruct (_ <? 9223372036854775808) eqn:E; destruct (2147483648 <=? r mod 4294967296) eqn:E2; lia.
  - change (2 ^ (64 - 64)) with 1. powers. rewrite Z.mul_1_r, Z.div_1_r.
    replace (r mod 18446744073709551616) with r by lia.
    destruct s.
    + destruct (r <? 9223372036854775808) eqn:E.
      * replace (r mod 18446744073709551616) with r by lia. f_equal. f_equal. lia.
      * replace ((r - 18446744073709551616) mod 18446744073709551616) with r by lia. f_equal. f_equal. lia.
    + f_equal. f_equal. lia.
Qed.

(** *** Scalar rules *)
Lemma add_congr x y a b w : x mod 2 ^ w = a -> y mod 2 ^ w = b -> (x + y) mod 2 ^ w = (a + b) mod 2 ^ w.
Proof. intros <- <-. apply Zplus_mod. Qed.
Lemma sub_congr x y a b w : x mod 2 ^ w = a -> y mod 2 ^ w = b -> (x - y) mod 2 ^ w = (a - b) mod 2 ^ w.
Proof. intros <- <-. apply Zminus_mod. Qed.
Lemma mul_congr x y a b w : x mod 2 ^ w = a -> y mod 2 ^ w = b -> (x * y) mod 2 ^ w = (a * b) mod 2 ^ w.
Proof. intros <- <-. apply Zmult_mod. Qed.
Lemma opp_congr x a w : x mod 2 ^ w = a -> (- x) mod 2 ^ w = (- a) mod 2 ^ w.
Proof.
  intros <-. replace (- x) with (0 - x) by lia. rewrite Zminus_mod.
  replace (- (x mod 2 ^ w)) with (0 - x mod 2 ^ w) by lia.
  rewrite (Zminus_mod 0 (x mod 2 ^ w)), Zmod_mod. reflexivity.
Qed.

Lemma s64_u64 x : - 2 ^ 63 <= x < 2 ^ 63 -> s64 (u64 x) = x.
Proof. unfold s64, u64. powers. intros H. ifs; lia. Qed.
Lemma u64_zero x : - 2 ^ 63 <= x < 2 ^ 63 -> (u64 x =? 0) = (x =? 0).
Proof. unfold u64. powers. lia. Qed.

Lemma binary_unsigned op w s sa sb a b :
  width_ok w -> sconst_ok (EInt w sa) a -> sconst_ok (EInt w sb) b ->
  exists x y, binary_integer false op (EInt w s) a b = fbind (op x y) (gen_int w s) /\
    0 <= x < 2 ^ 64 /\ 0 <= y < 2 ^ 64 /\
    x mod 2 ^ w = sconst_value a /\ y mod 2 ^ w = sconst_value b /\
    (sa = false -> x = sconst_value a) /\ (sb = false -> y = sconst_value b).
Proof.
  intros H Ha Hb. destruct (get_zext_ok w sa a H Ha) as (x & Ex & Hx & Mx & Zx).
  destruct (get_zext_ok w sb b H Hb) as (y & Ey & Hy & My & Zy).
  exists x, y. split; [|tauto].
  unfold binary_integer. rewrite (sconst_ok_type _ _ Ha), (sconst_ok_type _ _ Hb), Z.eqb_refl, Ex, Ey.
  reflexivity.
Qed.
Lemma binary_signed op w s sa sb a b :
  width_ok w -> sconst_ok (EInt w sa) a -> sconst_ok (EInt w sb) b ->
  exists x y, binary_integer true op (EInt w s) a b = fbind (op (u64 x) (u64 y)) (gen_int w s) /\
    - 2 ^ 63 <= x < 2 ^ 63 /\ - 2 ^ 63 <= y < 2 ^ 63 /\
    x mod 2 ^ w = sconst_value a /\ y mod 2 ^ w = sconst_value b /\
    (sa = true \/ 32 <= w \/ sconst_value a < 2 ^ (w - 1) -> x = sval w (sconst_value a)) /\
    (sb = true \/ 32 <= w \/ sconst_value b < 2 ^ (w - 1) -> y = sval w (sconst_value b)) /\
    (x = - 2 ^ 63 -> w = 64 /\ sconst_value a = 2 ^ 63).
Proof.
  intros H Ha Hb. destruct (get_sext_ok w sa a H Ha) as (x & Ex & Hx & Mx & Zx & Bx).
  destruct (get_sext_ok w sb b H Hb) as (y & Ey & Hy & My & Zy & _).
  exists x, y. split; [|tauto].
  unfold binary_integer. rewrite (sconst_ok_type _ _ Ha), (sconst_ok_type _ _ Hb), Z.eqb_refl, Ex, Ey.
  reflexivity.
Qed.

Lemma gen_int_inv w s r c : width_ok w -> 0 <= r < 2 ^ 64 -> gen_int w s r = FSome c ->
  sconst_ok (EInt w s) c /\ sconst_value c = r mod 2 ^ w.
Proof.
  intros H Hr E. destruct (gen_int_ok w s r H Hr) as (c' & E' & R).
  rewrite E in E'. injection E' as ->. exact R.
Qed.

Lemma rem_mod x y : y <> 0 -> (Z.rem x y <> 0 \/ 0 < y) ->
  (if Bool.eqb (y <? 0) (Z.rem x y <? 0) then Z.rem x y else Z.rem x y + y) = x mod y.
Proof.
  intros Hy Hr. pose proof (Z.quot_rem' x y) as E.
  assert (B : Z.abs (Z.rem x y) < Z.abs y) by (apply Z.rem_bound_abs; exact Hy).
  destruct (Bool.eqb (y <? 0) (Z.rem x y <? 0)) eqn:Q.
  - apply Z.mod_unique with (q := Z.quot x y); [|lia].
    apply Bool.eqb_prop in Q. lia.
  - apply Z.mod_unique with (q := Z.quot x y - 1); [|lia].
    apply Bool.eqb_false_iff in Q.
    destruct (y <? 0) eqn:Q1; destruct (Z.rem x y <? 0) eqn:Q2; try congruence; lia.
Qed.

(** What each binary rule computes on one component. *)
Definition rule2_of (o : fop) : option (ety -> sconst -> sconst -> fres sconst) :=
  match o with
  | FIAdd => Some (binary_integer false rule_add)
  | FISub => Some (binary_integer false rule_sub)
  | FIMul => Some (binary_integer false rule_mul)
  | FUDiv => Some (binary_integer false rule_udiv)
  | FUMod => Some (binary_integer false rule_umod)
  | FSDiv => Some (binary_integer true rule_sdiv)
  | FSRem => Some (binary_integer true rule_srem)
  | FSMod => Some (binary_integer true rule_smod)
  | FSMin | FUMin => Some scalar_min
  | FSMax | FUMax => Some scalar_max
  | _ => None
  end.

Lemma not_high_unsigned w s v : ~ high_narrow_unsigned (w, s, v) -> s = true \/ 32 <= w \/ v < 2 ^ (w - 1).
Proof.
  unfold high_narrow_unsigned. intros H. destruct s; [auto|right].
  destruct (Z_lt_le_dec w 32); [right|left; lia].
  destruct (Z_lt_le_dec v (2 ^ (w - 1))); [auto|exfalso; apply H; auto].
Qed.
Lemma Exists2_not {A} (P : A -> Prop) x y : ~ Exists P [x; y] -> ~ P x /\ ~ P y.
Proof. intros H. split; intros K; apply H; [left|right; left]; exact K. Qed.
Lemma Exists3_not {A} (P : A -> Prop) x y z : ~ Exists P [x; y; z] -> ~ P x /\ ~ P y /\ ~ P z.
Proof. intros H. repeat split; intros K; apply H; [left|right; left|right; right; left]; exact K. Qed.

Lemma sval_inj w a b : 0 <= a < 2 ^ w -> 0 <= b < 2 ^ w -> sval w a = sval w b -> a = b.
Proof. unfold sval. ifs; lia. Qed.

(** Comparing as FoldMin and FoldMax do. *)
Lemma minmax_signed w s c : width_ok w -> sconst_ok (EInt w s) c ->
  s = true \/ 32 <= w \/ sconst_value c < 2 ^ (w - 1) ->
  minmax_value w true c = FSome (sval w (sconst_value c)).
Proof.
  intros H Hc Hs. unfold minmax_value.
  destruct (get_sext_ok w s c H Hc) as (x & Ex & Hx & Mx & Zx & Bx). rewrite <- (Zx Hs). clear Zx.
  destruct (sconst_int w s c H Hc) as [[-> _]|(v & Hv & -> & _)].
  - cbn in Ex. pose proof (width_pos w H). replace (w <=? 64) with true in Ex by lia.
    injection Ex as <-. widths; reflexivity.
  - cbn in Ex. widths; cbn -[encode] in *; exact Ex.
Qed.
Lemma minmax_unsigned w s c : width_ok w -> sconst_ok (EInt w s) c ->
  s = false \/ 32 <= w \/ sconst_value c < 2 ^ (w - 1) ->
  minmax_value w false c = FSome (sconst_value c).
Proof.
  intros H Hc Hs. unfold minmax_value.
  destruct (sconst_int w s c H Hc) as [[-> _]|(v & Hv & -> & E)].
  - widths; reflexivity.
  - rewrite E in *. unfold encode. widths; cbn -[Z.pow Z.modulo Z.mul Z.add Z.div Z.sub]; powers; f_equal;
    destruct s; cbn [andb]; ifs; lia.
Qed.

Lemma rule2_sound o rule w s sa sb a b c v :
  rule2_of o = Some rule -> width_ok w -> sconst_ok (EInt w sa) a -> sconst_ok (EInt w sb) b ->
  (o = FUDiv \/ o = FUMod -> sa = false /\ sb = false) ->
  ~ known_deviation o s [(w, sa, sconst_value a); (w, sb, sconst_value b)] ->
  rule (EInt w s) a b = FSome c ->
  component_value o w [(w, sconst_value a); (w, sconst_value b)] = Some v ->
  sconst_value c = v.
Proof.
  intros Hr H Ha Hb Hu Hd Hc Hv.
  pose proof (sconst_value_range (EInt w sa) a H Ha) as Ra. cbn [ewidth] in Ra.
  pose proof (sconst_value_range (EInt w sb) b H Hb) as Rb. cbn [ewidth] in Rb.
  assert (U64 : forall z, 0 <= u64 z < 2 ^ 64) by apply u64_range.
  destruct o; try discriminate; injection Hr as <-; cbn [component_value] in Hv.
  - destruct (binary_unsigned rule_add w s sa sb a b H Ha Hb) as (x & y & E & Hx & Hy & Mx & My & _).
    rewrite E in Hc. cbn [fbind rule_add] in Hc. destruct (gen_int_inv _ _ _ _ H (U64 _) Hc) as (_ & ->).
    injection Hv as <-. rewrite u64_mod by auto. apply add_congr; auto.
  - destruct (binary_unsigned rule_sub w s sa sb a b H Ha Hb) as (x & y & E & Hx & Hy & Mx & My & _).
    rewrite E in Hc. cbn [fbind rule_sub] in Hc. destruct (gen_int_inv _ _ _ _ H (U64 _) Hc) as (_ & ->).
    injection Hv as <-. rewrite u64_mod by auto. apply sub_congr; auto.
  - destruct (binary_unsigned rule_mul w s sa sb a b H Ha Hb) as (x & y & E & Hx & Hy & Mx & My & _).
    rewrite E in Hc. cbn [fbind rule_mul] in Hc. destruct (gen_int_inv _ _ _ _ H (U64 _) Hc) as (_ & ->).
    injection Hv as <-. rewrite u64_mod by auto. apply mul_congr; auto.
  - destruct Hu as (-> & ->); [auto|].
    destruct (binary_unsigned rule_udiv w s false false a b H Ha Hb) as (x & y & E & Hx & Hy & Mx & My & Zx & Zy).
    rewrite E, (Zx eq_refl), (Zy eq_refl) in Hc. unfold rule_udiv in Hc. cbn [fbind] in Hc.
    destruct (sconst_value b =? 0) eqn:B; [discriminate|]. injection Hv as <-.
    assert (R : 0 <= sconst_value a / sconst_value b <= sconst_value a).
    { split; [apply Z.div_pos; lia|]. apply Z.div_le_upper_bound; [lia|]. nia. }
    rewrite (Zx eq_refl) in Hx.
    apply gen_int_inv in Hc; [|exact H|lia]. destruct Hc as (_ & ->). apply Z.mod_small. lia.
  - (* SDiv *)
    destruct (binary_signed rule_sdiv w s sa sb a b H Ha Hb) as (x & y & E & Hx & Hy & Mx & My & Zx & Zy & Bx).
    cbn [known_deviation] in Hd. apply Decidable.not_or in Hd. destruct Hd as (Hd & _).
    apply Exists2_not in Hd. destruct Hd as (Da & Db).
    specialize (Zx (not_high_unsigned _ _ _ Da)). specialize (Zy (not_high_unsigned _ _ _ Db)).
    destruct (division_defined w (sconst_value a) (sconst_value b)) eqn:D; [|discriminate]. injection Hv as <-.
    rewrite E in Hc. unfold rule_sdiv in Hc. rewrite u64_zero, !s64_u64 in Hc by auto.
    destruct (y =? 0) eqn:Y.
    { exfalso. unfold division_defined in D. assert (Y0 : y = 0) by (apply Z.eqb_eq; exact Y).
      rewrite Y0, Z.mod_0_l in My by (clear - H; widths; discriminate).
      rewrite <- My in D. discriminate. }
    destruct (overflows x y); [discriminate|]. cbn [fbind] in Hc.
    destruct (gen_int_inv _ _ _ _ H (U64 _) Hc) as (_ & ->). rewrite u64_mod by auto. rewrite Zx, Zy. reflexivity.
  - destruct Hu as (-> & ->); [auto|].
    destruct (binary_unsigned rule_umod w s false false a b H Ha Hb) as (x & y & E & Hx & Hy & Mx & My & Zx & Zy).
    rewrite E, (Zx eq_refl), (Zy eq_refl) in Hc. unfold rule_umod in Hc. cbn [fbind] in Hc.
    destruct (sconst_value b =? 0) eqn:B; [discriminate|]. injection Hv as <-.
    assert (R : 0 <= sconst_value a mod sconst_value b < sconst_value b) by (apply Z.mod_pos_bound; lia).
    rewrite (Zy eq_refl) in Hy.
    apply gen_int_inv in Hc; [|exact H|lia]. destruct Hc as (_ & ->). apply Z.mod_small. lia.
  - (* SRem *)
    destruct (binary_signed rule_srem w s sa sb a b H Ha Hb) as (x & y & E & Hx & Hy & Mx & My & Zx & Zy & Bx).
    cbn [known_deviation] in Hd.
    apply Exists2_not in Hd. destruct Hd as (Da & Db).
    specialize (Zx (not_high_unsigned _ _ _ Da)). specialize (Zy (not_high_unsigned _ _ _ Db)).
    destruct (division_defined w (sconst_value a) (sconst_value b)) eqn:D; [|discriminate]. injection Hv as <-.
    rewrite E in Hc. unfold rule_srem in Hc. rewrite u64_zero, !s64_u64 in Hc by auto.
    destruct (y =? 0) eqn:Y.
    { exfalso. unfold division_defined in D. assert (Y0 : y = 0) by (apply Z.eqb_eq; exact Y).
      rewrite Y0, Z.mod_0_l in My by (clear - H; widths; discriminate).
      rewrite <- My in D. discriminate. }
    destruct (overflows x y); [discriminate|]. cbn [fbind] in Hc.
    destruct (gen_int_inv _ _ _ _ H (U64 _) Hc) as (_ & ->). rewrite u64_mod by auto. rewrite Zx, Zy. reflexivity.
  - (* SMod *)
    destruct (binary_signed rule_smod w s sa sb a b H Ha Hb) as (x & y & E & Hx & Hy & Mx & My & Zx & Zy & Bx).
    cbn [known_deviation] in Hd. apply Decidable.not_or in Hd. destruct Hd as (Hd & Hz).
    apply Exists2_not in Hd. destruct Hd as (Da & Db).
    specialize (Zx (not_high_unsigned _ _ _ Da)). specialize (Zy (not_high_unsigned _ _ _ Db)).
    destruct (division_defined w (sconst_value a) (sconst_value b)) eqn:D; [|discriminate]. injection Hv as <-.
    rewrite E in Hc. unfold rule_smod in Hc. rewrite u64_zero, !s64_u64 in Hc by auto.
    destruct (y =? 0) eqn:Y.
    { exfalso. unfold division_defined in D. assert (Y0 : y = 0) by (apply Z.eqb_eq; exact Y).
      rewrite Y0, Z.mod_0_l in My by (clear - H; widths; discriminate).
      rewrite <- My in D. discriminate. }
    destruct (overflows x y); [discriminate|]. cbn [fbind] in Hc.
    destruct (gen_int_inv _ _ _ _ H (U64 _) Hc) as (_ & ->). rewrite u64_mod by auto.
    apply Z.eqb_neq in Y.
    rewrite rem_mod; [|exact Y|rewrite <- Zx, <- Zy in Hz; revert Hz Y; generalize (Z.rem x y); clear; intros; lia]. rewrite Zx, Zy. reflexivity.
  - (* SMin *)
    cbn [known_deviation] in Hd. apply Decidable.not_or in Hd. destruct Hd as (Hs & Hd).
    apply Exists2_not in Hd. destruct Hd as (Da & Db). destruct s; [|congruence].
    unfold scalar_min in Hc. rewrite (minmax_signed w sa a H Ha (not_high_unsigned _ _ _ Da)) in Hc.
    rewrite (minmax_signed w sb b H Hb (not_high_unsigned _ _ _ Db)) in Hc. cbn [fbind] in Hc.
    injection Hc as <-. injection Hv as <-. ifs; reflexivity.
  - (* UMin *)
    cbn [known_deviation] in Hd. apply Decidable.not_or in Hd. destruct Hd as (Hs & Hd).
    apply Exists2_not in Hd. destruct Hd as (Da & Db). destruct s; [congruence|].
    unfold scalar_min in Hc. rewrite (minmax_unsigned w sa a H Ha) in Hc;
      [|destruct sa; [right; unfold high_narrow_signed in Da; destruct (Z_lt_le_dec w 32); [|lia]; right; lia|auto]].
    rewrite (minmax_unsigned w sb b H Hb) in Hc;
      [|destruct sb; [right; unfold high_narrow_signed in Db; destruct (Z_lt_le_dec w 32); [|lia]; right; lia|auto]].
    cbn [fbind] in Hc. injection Hc as <-. injection Hv as <-. ifs; lia.
  - (* SMax *)
    cbn [known_deviation] in Hd. apply Decidable.not_or in Hd. destruct Hd as (Hs & Hd).
    apply Exists2_not in Hd. destruct Hd as (Da & Db). destruct s; [|congruence].
    unfold scalar_max in Hc. rewrite (minmax_signed w sa a H Ha (not_high_unsigned _ _ _ Da)) in Hc.
    rewrite (minmax_signed w sb b H Hb (not_high_unsigned _ _ _ Db)) in Hc. cbn [fbind] in Hc.
    injection Hc as <-. injection Hv as <-. ifs; try lia.
    apply (sval_inj w); auto. lia.
  - (* UMax *)
    cbn [known_deviation] in Hd. apply Decidable.not_or in Hd. destruct Hd as (Hs & Hd).
    apply Exists2_not in Hd. destruct Hd as (Da & Db). destruct s; [congruence|].
    unfold scalar_max in Hc. rewrite (minmax_unsigned w sa a H Ha) in Hc;
      [|destruct sa; [right; unfold high_narrow_signed in Da; destruct (Z_lt_le_dec w 32); [|lia]; right; lia|auto]].
    rewrite (minmax_unsigned w sb b H Hb) in Hc;
      [|destruct sb; [right; unfold high_narrow_signed in Db; destruct (Z_lt_le_dec w 32); [|lia]; right; lia|auto]].
    cbn [fbind] in Hc. injection Hc as <-. injection Hv as <-. ifs; lia.
Qed.
