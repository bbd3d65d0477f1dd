(** C14 and C15: hexadecimal floating point texts, and conversions between formats. *)
From Verif Require Import Base NumberSpec ParseNumber NumberProofs WordsProofs HexFloat HexFloatSpec HexFloatProofs HexFloatProofs2 HexFloatProofs3 HexFloatProofs4 HexFloatProofs5 HexFloatProofs6 HexFloatProofs7 HexFloatProofs8 HexFloatProofs9 HexFloatProofs10 HexFloatProofs11 HexFloatProofs12 HexFloatProofs13.
Local Open Scope N_scope.

(** The formats with their numbers of exponent and fraction bits: the IEEE formats, and with
    them the two 8-bit formats that use every pattern of 8 bits. *)
Inductive ieee : fmt -> N -> N -> Prop :=
  | Half : ieee f16 5 10
  | Brain : ieee bf16 8 7
  | Single : ieee f32 8 23
  | Double : ieee f64 11 52.
Inductive full : fmt -> N -> N -> Prop :=
  | Full_ieee f eb fb : ieee f eb fb -> full f eb fb
  | Full_e4m3 : full e4m3 4 3
  | Full_e5m2 : full e5m2 5 2.

Lemma full_facts f eb fb : full f eb fb -> fmt_ok f eb fb /\ fmt_small f.
Proof.
  intros [? ? ? []| |]; split; first [apply f16_ok|apply bf16_ok|apply f32_ok|apply f64_ok|apply e4m3_ok|apply e5m2_ok
    |apply f16_small|apply bf16_small|apply f32_small|apply f64_small|apply e4m3_small|apply e5m2_small].
Qed.
Lemma ieee_facts f eb fb : ieee f eb fb -> ieee_ok f eb fb.
Proof. intros []; [apply f16_ieee|apply bf16_ieee|apply f32_ieee|apply f64_ieee]. Qed.
Lemma ieee_pair s d eb fb eb' fb' : ieee s eb fb -> ieee d eb' fb' -> pair_ok s d.
Proof. intros [] []; repeat split; vm_compute; try reflexivity; discriminate. Qed.

(** ** C14 *)

(** Every pattern is printed, and reading the text back, whatever non-digit follows it in the
    stream, gives the same pattern. *)
Theorem hex_roundtrip f eb fb b rest : full f eb fb -> b < 2 ^ (1 + eb + fb) ->
  match rest with c :: _ => ~ (48 <= c <= 57) | [] => True end ->
  exists text, print_hex f b = Some text /\ parse_hex f (text ++ rest) = Parsed b rest.
Proof.
  intros F BL R. destruct (full_facts _ _ _ F). apply (hex_roundtrip_fmt f eb fb); auto.
Qed.
Example hex_roundtrip_ex : exists text, print_hex f32 0x80000001 = Some text /\ parse_hex f32 (text ++ [32; 65]) = Parsed 0x80000001 [32; 65].
Proof. apply (hex_roundtrip f32 8 23); [repeat constructor|reflexivity|lia]. Qed.
Example hex_roundtrip_text : print_hex f32 0x80000001 = Some [45; 48; 120; 49; 112; 45; 49; 52; 57].
Proof. vm_compute. reflexivity. Qed.

(** The text printed for a pattern is a hexadecimal float of its sign and of its value. *)
Theorem hex_print_meaning f eb fb b : full f eb fb ->
  exists text v n w, print_hex f b = Some text /\ hex_float text (sign_of eb fb b) v n w /\
    deq v (value eb fb (magnitude eb fb b)).
Proof.
  intros F. destruct (full_facts _ _ _ F) as [O SM].
  destruct (print_hex_spec f eb fb b O SM) as (text & v & n & w & P & HF & D & _). eauto 10.
Qed.

(** Any hexadecimal float, printed by this tool or not, is read as the pattern next to its value
    on the side of zero; a value above all patterns is read as infinity.  Missing for the full
    statement: texts with so many digits, or such an exponent, that the exponent arithmetic comes
    near the ends of int_type ([hex_parse_value_refuted]). *)
Theorem hex_parse_value_partial f eb fb text neg v n w rest : full f eb fb -> hex_float text neg v n w ->
  match rest with c :: _ => ~ (48 <= c <= 57) | [] => True end ->
  (2 ^ (Z.of_N eb - 1) + 8 * Z.of_nat n + Z.of_N w + 25 < 2 ^ (Z.of_N eb + Z.of_N fb))%Z ->
  exists p, parse_hex f (text ++ rest) = Parsed (make eb fb neg p) rest /\
    (fst v = 0 -> p = 0) /\
    (fst v <> 0 -> dlt v (value eb fb (2 ^ (eb + fb))) -> rounds_down eb fb v p) /\
    (fst v <> 0 -> dle (value eb fb (2 ^ (eb + fb))) v -> p = infinity eb fb).
Proof.
  intros F HF R M. destruct (full_facts _ _ _ F) as [O SM].
  destruct (parse_hex_text f eb fb text neg v n w rest O HF R) as (p & P & RA & RB).
  { unfold written_overflow. rewrite (int_max_val _ _ _ O), N2Z.inj_add.
    assert (Z.of_N (bias f) = 2 ^ (Z.of_N eb - 1) - 1)%Z by (rewrite (ok_bias _ _ _ O); reflexivity). lia. }
  exists p. split; auto. destruct (N.eqb_spec (fst v) 0) as [Z|NZ].
  - repeat split; intros; congruence.
  - split; [intros; congruence|]. split; intros _ H; destruct RB as [RB|[RB1 RB2]]; auto.
    + exfalso. unfold dlt, dle in *. rewrite Z.min_comm in RB1. lia.
    + exfalso. destruct RB as [RB1 RB2]. assert (L : value eb fb (p + 1) = value eb fb (p + 1)) by auto.
      pose proof (proj2 (value_dle eb fb (p + 1) (2 ^ (eb + fb))) ltac:(lia)) as L2.
      set (k := Z.min (snd v) (unit_exp eb fb)).
      pose proof (value_exp eb fb (p + 1)). pose proof (value_exp eb fb (2 ^ (eb + fb))).
      apply (dlt_at _ _ k) in RB2; [|lia..]. apply (dle_at _ _ k) in L2; [|lia..]. apply (dle_at _ _ k) in H; [|lia..]. lia.
Qed.
(** -0x1.8000001p-1 in single precision, and a value too large for half precision *)
Example hex_parse_value_ex :
  parse_hex f32 [45; 48; 120; 49; 46; 56; 48; 48; 48; 48; 48; 49; 112; 45; 49] = Parsed 0xbf400000 [] /\
  parse_hex f16 [48; 120; 49; 112; 50; 48] = Parsed 0x7c00 [] /\
  hex_float [48; 120; 49; 112; 50; 48] false (1, 20%Z) 1 20.
Proof.
  split; [vm_compute; reflexivity|]. split; [vm_compute; reflexivity|].
  apply (hf_intro [] false 120 [49] [1] [] [] [] [] false [50; 48] [2; 0]); auto; try discriminate.
  - constructor; [first [apply (hex_digit_ok 1)|apply (hex_digit_ok 0)]; reflexivity|constructor].
  - constructor; [split; lia|]. constructor; [split; lia|constructor].
Qed.
(** In the 8-bit format with 5 exponent bits, 0x0.0…01p+0 with 35 zeros after the dot, a number
    far below the least positive one, is read as infinity. *)
Definition tiny_text : list N := [48; 120; 48; 46] ++ repeat 48 35 ++ [49; 112; 43; 48].
Theorem hex_parse_value_refuted : exists text v n w, hex_float text false v n w /\
  parse_hex e5m2 text = Parsed (infinity 5 2) [] /\ dlt v (value 5 2 1) /\ fst v = 1.
Proof.
  exists tiny_text. do 3 eexists. split; [|split; [vm_compute; reflexivity|]].
  - apply (hf_intro [] false 120 [48] [0] [46] (repeat 48 35 ++ [49]) (repeat 0 35 ++ [1]) [43] false [48] [0]); auto; try discriminate.
    + constructor; [first [apply (hex_digit_ok 1)|apply (hex_digit_ok 0)]; reflexivity|constructor].
    + cbn [repeat app]. repeat (constructor; [first [apply (hex_digit_ok 1)|apply (hex_digit_ok 0)]; reflexivity|]). constructor.
    + constructor; [split; lia|constructor].
  - vm_compute. auto.
Qed.

(** Reading any bytes ends in a value, a failure or the decimal parser.  For the formats of 32
    and 64 bits this is for texts shorter than an eighth of the range of the exponent type; the
    narrower formats have no such limit. *)
Theorem hex_parse_defined f eb fb text : full f eb fb ->
  1 + eb + fb < 32 \/ (4 * Z.of_nat (length text) <= 2 ^ (Z.of_N (eb + fb)))%Z ->
  parse_hex f text <> Stuck /\ parse_hex f text <> Undefined.
Proof.
  intros F U. destruct (full_facts _ _ _ F) as [O SM]. apply (parse_hex_defined_fmt f eb fb); auto.
  rewrite (ok_u _ _ _ O). destruct U as [U|U]; [auto|]. right.
  replace (Z.of_N (1 + eb + fb) - 1)%Z with (Z.of_N (eb + fb)) by lia. exact U.
Qed.
Example hex_parse_defined_ex : parse_hex f64 [48; 120; 112; 112] = Failed.
Proof. vm_compute. reflexivity. Qed.

(** The three formats narrower than 8 bits do not have the round trip: the fraction bits of their
    subnormal numbers are read one place too low. *)
Theorem hex_roundtrip_small_refuted :
  (exists t, print_hex e2m1 1 = Some t /\ parse_hex e2m1 t = Parsed 0 []) /\
  (exists t, print_hex e2m3 7 = Some t /\ parse_hex e2m3 t = Parsed 3 []) /\
  (exists t, print_hex e3m2 3 = Some t /\ parse_hex e3m2 t = Parsed 1 []).
Proof. repeat split; eexists; (split; vm_compute; reflexivity). Qed.
(** The exponent-only 8-bit format has it; the patterns are its 256 values. *)
Theorem hex_roundtrip_e8m0 b : b < 256 -> exists text, print_hex e8m0 b = Some text /\ parse_hex e8m0 text = Parsed b [].
Proof.
  intros B. set (ok := fun b => match print_hex e8m0 b with
    | Some t => match parse_hex e8m0 t with Parsed c [] => c =? b | _ => false end | None => false end).
  assert (A : forallb ok (map N.of_nat (seq 0 256)) = true) by (vm_compute; reflexivity).
  rewrite forallb_forall in A. specialize (A b). unfold ok in A. destruct (print_hex e8m0 b) as [t|].
  - exists t. split; [reflexivity|]. destruct (parse_hex e8m0 t) as [c [|]| | | |];
      try (assert (false = true) by (apply A, in_map_iff; exists (N.to_nat b); rewrite in_seq; lia); discriminate).
    assert (c = b) as ->; [|reflexivity]. apply N.eqb_eq, A, in_map_iff. exists (N.to_nat b). rewrite in_seq. lia.
  - assert (false = true) by (apply A, in_map_iff; exists (N.to_nat b); rewrite in_seq; lia). discriminate.
Qed.

(** ** C15 *)

(** The rounding directions by their names. *)
Definition meant (dir : rounding) : mode :=
  match dir with
  | To_zero => Toward_zero
  | To_nearest_even => Nearest_even
  | To_positive_infinity => Toward_positive
  | To_negative_infinity => Toward_negative
  end.

(** Every number that both formats have is converted exactly, whatever the direction, and the
    result says so. *)
Theorem cast_representable s d eb fb eb' fb' dir b p : ieee s eb fb -> ieee d eb' fb' ->
  b < 2 ^ (1 + eb + fb) -> finite eb fb (magnitude eb fb b) ->
  finite eb' fb' p -> deq (value eb fb (magnitude eb fb b)) (value eb' fb' p) ->
  cast 64 s d dir b = Some (make eb' fb' (sign_of eb fb b) p, Success).
Proof.
  intros F F' BL MF PL D. apply (cast_exact s d eb fb eb' fb'); auto using ieee_facts. eapply ieee_pair; eauto.
Qed.
(** the least subnormal half is 2^-24 *)
Example cast_representable_ex : cast 64 f16 f32 To_nearest_even 0x8001 = Some (0xb3800000, Success).
Proof.
  apply (cast_representable f16 f32 5 10 8 23 To_nearest_even 0x8001 0x33800000); try constructor; vm_compute; reflexivity.
Qed.

(** Every number of a narrower format is a number of the wider one, and converting back, in any
    direction, restores the pattern. *)
Inductive wider : fmt -> fmt -> Prop :=
  | W_half_single : wider f16 f32
  | W_half_double : wider f16 f64
  | W_brain_single : wider bf16 f32
  | W_brain_double : wider bf16 f64
  | W_single_double : wider f32 f64.
Theorem cast_widens s d eb fb eb' fb' dir b : ieee s eb fb -> ieee d eb' fb' -> wider s d ->
  b < 2 ^ (1 + eb + fb) -> finite eb fb (magnitude eb fb b) ->
  exists p, finite eb' fb' p /\ deq (value eb fb (magnitude eb fb b)) (value eb' fb' p) /\
    cast 64 s d dir b = Some (make eb' fb' (sign_of eb fb b) p, Success) /\
    forall dir', cast 64 d s dir' (make eb' fb' (sign_of eb fb b) p) = Some (b, Success).
Proof.
  intros F F' W BL MF. pose proof (ieee_facts _ _ _ F) as I. pose proof (ieee_facts _ _ _ F') as I'.
  destruct (widen_value s d eb fb eb' fb' (magnitude eb fb b)) as (p & PL & D); auto using ie_ok.
  { destruct F, F'; inversion W; vm_compute; discriminate. }
  { destruct F, F'; inversion W; vm_compute; first [left; reflexivity|right; split; [reflexivity|discriminate]]. }
  exists p. split; auto. split; auto. split; [eapply cast_representable; eauto|].
  intros dir'. pose proof (infinity_lt eb' fb') as IL. destruct (make_sign eb' fb' (sign_of eb fb b) p) as [MS MM]; [lia|].
  rewrite (cast_representable d s eb' fb' eb fb dir' _ (magnitude eb fb b)); auto.
  - rewrite MS, make_fields by auto. reflexivity.
  - apply make_lt. lia.
  - now rewrite MM.
  - rewrite MM. now apply deq_sym.
Qed.
Example cast_widens_ex : cast 64 bf16 f64 To_zero 0x8001 = Some (0xb7a0000000000000, Success) /\
  cast 64 f64 bf16 To_positive_infinity 0xb7a0000000000000 = Some (0x8001, Success).
Proof. vm_compute. auto. Qed.

(** Zeros, infinities and NaNs stay what they are, with their sign. *)
Theorem cast_special s d eb fb eb' fb' dir b : ieee s eb fb -> ieee d eb' fb' -> b < 2 ^ (1 + eb + fb) ->
  (magnitude eb fb b = 0 -> cast 64 s d dir b = Some (make eb' fb' (sign_of eb fb b) 0, Success)) /\
  (magnitude eb fb b = infinity eb fb ->
   cast 64 s d dir b = Some (make eb' fb' (sign_of eb fb b) (infinity eb' fb'), Success)) /\
  (is_nan eb fb (magnitude eb fb b) ->
   exists p r, cast 64 s d dir b = Some (make eb' fb' (sign_of eb fb b) p, r) /\ is_nan eb' fb' p).
Proof.
  intros F F' BL. pose proof (ieee_facts _ _ _ F) as I. pose proof (ieee_facts _ _ _ F') as I'. pose proof (ieee_pair _ _ _ _ _ _ F F') as PO.
  split; [|split]; intros H; [eapply cast_zero|eapply cast_infinite|eapply cast_nan]; eauto.
Qed.
Example cast_special_ex : cast 64 f64 f16 To_zero 0xfff0000000000000 = Some (0xfc00, Success) /\
  cast 64 f64 f16 To_zero 0xfff0000000000001 = Some (0xfc01, Lost_precision) /\ cast 64 f64 f16 To_zero 0x8000000000000000 = Some (0x8000, Success).
Proof. vm_compute. auto. Qed.

(** A finite number below all that the destination lacks is converted towards zero correctly; a
    number above all finite numbers of the destination gives infinity. *)
Theorem cast_toward_zero s d eb fb eb' fb' dir b : ieee s eb fb -> ieee d eb' fb' -> b < 2 ^ (1 + eb + fb) ->
  finite eb fb (magnitude eb fb b) -> downwards (meant dir) (sign_of eb fb b) = true ->
  dlt (value eb fb (magnitude eb fb b)) (value eb' fb' (infinity eb' fb')) ->
  exists p r, cast 64 s d dir b = Some (make eb' fb' (sign_of eb fb b) p, r) /\
    rounds_down eb' fb' (value eb fb (magnitude eb fb b)) p /\
    (r = Success <-> deq (value eb fb (magnitude eb fb b)) (value eb' fb' p)).
Proof.
  intros F F' BL MF DN LT. pose proof (ieee_facts _ _ _ F) as I. pose proof (ieee_facts _ _ _ F') as I'. pose proof (ieee_pair _ _ _ _ _ _ F F') as PO.
  destruct (N.eq_dec (magnitude eb fb b) 0) as [Z|NZ].
  - exists 0, Success. split; [eapply cast_zero; eauto|].
    assert (D : deq (value eb fb (magnitude eb fb b)) (value eb' fb' 0)).
    { rewrite Z, !value_subnormal by apply pow2_pos. reflexivity. }
    split; [now apply rounds_down_exact|tauto].
  - unfold finite in MF. destruct (cast_finite s d eb fb eb' fb' dir b I I' PO BL ltac:(lia) LT) as (q & r & p & RD & QL & C & _ & _ & RS & SEL).
    exists p, r. split; auto.
    assert (p = q) as ->; [|auto]. apply SEL; [|left; destruct dir; exact DN].
    unfold selects. destruct dir; cbn [mode_of meant] in *; try rewrite DN; auto. discriminate DN.
Qed.
Example cast_toward_zero_ex : cast 64 f32 f16 To_zero 0x3fffffff = Some (0x3fff, Lost_precision) /\
  cast 64 f32 f16 To_positive_infinity 0x80000001 = Some (0x8000, Lost_precision).
Proof. vm_compute. auto. Qed.

Theorem cast_too_large s d eb fb eb' fb' dir b : ieee s eb fb -> ieee d eb' fb' -> b < 2 ^ (1 + eb + fb) ->
  finite eb fb (magnitude eb fb b) ->
  dle (value eb' fb' (infinity eb' fb')) (value eb fb (magnitude eb fb b)) ->
  exists r, cast 64 s d dir b = Some (make eb' fb' (sign_of eb fb b) (infinity eb' fb'), r).
Proof.
  intros F F' BL MF LE. pose proof (ieee_facts _ _ _ F) as I. pose proof (ieee_facts _ _ _ F') as I'. pose proof (ieee_pair _ _ _ _ _ _ F F') as PO.
  eapply cast_overflow; eauto. split; auto. destruct (N.eq_dec (magnitude eb fb b) 0) as [Z|]; [|lia]. exfalso.
  rewrite Z in LE. assert (D : deq (value eb fb 0) (value eb' fb' 0)) by (rewrite !value_subnormal by apply pow2_pos; reflexivity).
  apply (deq_dle_r _ _ _ D) in LE. apply value_dle in LE. unfold infinity in LE.
  destruct (half_bias _ _ _ (ie_ok _ _ _ I')). pose proof (pow2_pos fb').
  assert (0 < (2 ^ eb' - 1) * 2 ^ fb') by (apply N.mul_pos_pos; lia). lia.
Qed.

(** All directions, in the range where the code is right: [q] is the neighbour towards zero.
    Missing for the full statement: rounding a number whose neighbour [q] is subnormal other than
    towards zero, and rounding up to the next power of two ([cast_carry_refuted],
    [cast_subnormal_refuted]). *)
Theorem cast_rounds_partial s d eb fb eb' fb' dir b q : ieee s eb fb -> ieee d eb' fb' -> b < 2 ^ (1 + eb + fb) ->
  let neg := sign_of eb fb b in let v := value eb fb (magnitude eb fb b) in
  finite eb fb (magnitude eb fb b) -> magnitude eb fb b <> 0 ->
  dlt v (value eb' fb' (infinity eb' fb')) -> rounds_down eb' fb' v q ->
  exists p' r, cast 64 s d dir b = Some (make eb' fb' neg p', r) /\ r <> Not_representable /\
    (r = Success <-> deq v (value eb' fb' q)) /\
    forall p, selects eb' fb' (meant dir) neg v p ->
      downwards (meant dir) neg = true \/ deq v (value eb' fb' q) \/ q = 0 /\ dir <> To_nearest_even \/
      2 ^ fb' <= q /\ (p = q \/ (q + 1) mod 2 ^ fb' <> 0 \/ q + 1 = infinity eb' fb') ->
      p' = p.
Proof.
  intros F F' BL neg v MF NZ LT RD. pose proof (ieee_facts _ _ _ F) as I. pose proof (ieee_facts _ _ _ F') as I'. pose proof (ieee_pair _ _ _ _ _ _ F F') as PO.
  unfold finite in MF. destruct (cast_finite s d eb fb eb' fb' dir b I I' PO BL ltac:(lia) LT) as (q0 & r & p' & RD' & QL & C & _ & NR & RS & SEL).
  assert (q0 = q) as -> by (eapply rounds_down_unique; eauto).
  exists p', r. split; auto. split; auto. split; auto. intros p S1 K. apply (SEL p); [destruct dir; exact S1|].
  destruct K as [K|[K|[[K1 K2]|K]]]; auto.
  right; right; left. split; auto. destruct dir; cbn; congruence.
Qed.
Example cast_rounds_ex :
  cast 64 f32 f16 To_nearest_even 0x3f803000 = Some (0x3c02, Lost_precision) /\
  cast 64 f32 f16 To_nearest_even 0x3f801000 = Some (0x3c00, Lost_precision) /\
  cast 64 f32 f16 To_positive_infinity 0x3f800001 = Some (0x3c01, Lost_precision) /\
  cast 64 f32 f16 To_negative_infinity 0x80000001 = Some (0x8001, Lost_precision) /\
  rounds_down 5 10 (value 8 23 0x3f803000) 0x3c01 /\ 2 ^ 10 <= 0x3c01 /\ (0x3c01 + 1) mod 2 ^ 10 <> 0.
Proof. do 4 (split; [vm_compute; reflexivity|]). split; [split; vm_compute; [discriminate|reflexivity]|]. split; vm_compute; discriminate. Qed.

(** 1.99999988 rounded to the nearest half is 2; the result is 1. *)
Theorem cast_carry_refuted : exists p, selects 5 10 Nearest_even false (value 8 23 0x3fffffff) p /\
  value 5 10 p = (1024, (-9)%Z) /\
  exists p', cast 64 f32 f16 To_nearest_even 0x3fffffff = Some (p', Lost_precision) /\ value 5 10 p' = (1024, (-10)%Z).
Proof.
  exists 0x4000. split; [|split; [vm_compute; reflexivity|eexists; split; vm_compute; reflexivity]].
  exists 0x3fff. split; [split; vm_compute; [discriminate|reflexivity]|]. right. split; [reflexivity|]. split; [vm_compute; discriminate|left; vm_compute; reflexivity].
Qed.
(** Just below twice the least subnormal half, rounding to the nearest should give 2 and gives 1;
    rounding up should give 2 and gives 1. *)
Theorem cast_subnormal_refuted :
  (selects 5 10 Nearest_even false (value 8 23 0x33ffffff) 2 /\
   exists r, cast 64 f32 f16 To_nearest_even 0x33ffffff = Some (1, r)) /\
  (rounds_down 5 10 (value 8 23 0x33ffffff) 1 /\ ~ deq (value 8 23 0x33ffffff) (value 5 10 1) /\
   exists r, cast 64 f32 f16 To_positive_infinity 0x33ffffff = Some (1, r)).
Proof.
  assert (RD : rounds_down 5 10 (value 8 23 0x33ffffff) 1) by (split; vm_compute; [discriminate|reflexivity]).
  split; split.
  - exists 1. split; auto. right. split; [reflexivity|]. split; [vm_compute; discriminate|left; vm_compute; reflexivity].
  - eexists. vm_compute. reflexivity.
  - exact RD.
  - split; [vm_compute; discriminate|]. eexists. vm_compute. reflexivity.
Qed.
(** Towards zero, 65536 should become the greatest half, 65504; it becomes infinity, and the result
    says that the conversion was exact. *)
Theorem cast_overflow_refuted : value 8 23 0x47800000 = (2 ^ 23, (16 - 23)%Z) /\
  cast 64 f32 f16 To_zero 0x47800000 = Some (infinity 5 10, Success) /\
  finite 5 10 0x7bff /\ dlt (value 5 10 0x7bff) (value 8 23 0x47800000).
Proof. vm_compute. repeat split. Qed.
(** Widening a NaN does not keep its payload: half 0x7e00 would be single 0x7fc00000. *)
Theorem cast_nan_payload_refuted : exists r, cast 64 f16 f32 To_zero 0x7e00 = Some (0x7ff80001, r).
Proof. eexists. vm_compute. reflexivity. Qed.
(** The conversions from and to the small formats: 256 has no place in the range of E4M3 numbers the
    code uses and becomes 448; a tiny single becomes a normal E4M3 number; one becomes infinity; the
    conversion from the least E8M0 number does not end (whatever the fuel). *)
Theorem cast_small_refuted :
  (exists r, cast 64 f32 e4m3 To_zero 0x43800000 = Some (0x7e, r)) /\
  (exists r, cast 64 f32 e4m3 To_zero 0x000116c2 = Some (0x10, r)) /\
  (exists r, cast 64 e4m3 f64 To_zero 0x38 = Some (infinity 11 52, r)) /\
  (forall fuel, cast fuel e8m0 f32 To_zero 0 = None).
Proof.
  split; [|split; [|split]]; try (eexists; vm_compute; reflexivity).
  intros fuel. assert (E : forall n sig e, normalise_exponent e8m0 n sig e = None).
  { induction n; intros sig e; cbn [normalise_exponent]; change (N.shiftr (first_exponent_bit e8m0) 1) with 0; rewrite N.land_0_r; [reflexivity|apply IHn]. }
  unfold cast. change (has_zero e8m0) with false. cbn [andb].
  unfold rounded_significand, normalized_significand, unbiased_normalized_exponent. change (has_zero e8m0) with false. cbn [andb].
  change (unbiased_exponent e8m0 0 =? min_exponent e8m0)%Z with true. cbv iota. rewrite E. reflexivity.
Qed.

(** *** OpQuantizeToF16 on a constant *)

(** Folding gives the number of half precision next to the operand on the side of zero, as a single;
    infinity when the operand is beyond the halves; and keeps zeros, infinities and NaNs. *)
Theorem quantize_folds b : b < 2 ^ 32 ->
  let v := value 8 23 (magnitude 8 23 b) in let neg := sign_of 8 23 b in
  (finite 8 23 (magnitude 8 23 b) -> dlt v (value 5 10 (infinity 5 10)) ->
   exists h p, rounds_down 5 10 v h /\ deq (value 5 10 h) (value 8 23 p) /\ finite 8 23 p /\
     quantize_to_f16 b = Some (make 8 23 neg p)) /\
  (finite 8 23 (magnitude 8 23 b) -> dle (value 5 10 (infinity 5 10)) v ->
   quantize_to_f16 b = Some (make 8 23 neg (infinity 8 23))) /\
  (magnitude 8 23 b = infinity 8 23 -> quantize_to_f16 b = Some b) /\
  (is_nan 8 23 (magnitude 8 23 b) -> exists p, quantize_to_f16 b = Some (make 8 23 neg p) /\ is_nan 8 23 p).
Proof.
  intros BL v neg. pose proof Single as F. pose proof Half as F'.
  assert (IL : infinity 5 10 < 2 ^ (5 + 10)) by reflexivity.
  unfold quantize_to_f16. split; [|split; [|split]].
  - intros MF LT. destruct (cast_toward_zero f32 f16 8 23 5 10 To_zero b F F' BL MF eq_refl LT) as (h & r & -> & RD & _). fold v neg in RD |- *.
    assert (HL : h < infinity 5 10).
    { destruct RD as [RD _]. apply (value_dlt 5 10). set (k := Z.min (snd v) (unit_exp 5 10)).
      pose proof (value_exp 5 10 h). pose proof (value_exp 5 10 (infinity 5 10)).
      apply (dlt_at _ _ k); [lia..|]. apply (dle_at _ _ k) in RD; [|lia..]. apply (dlt_at _ _ k) in LT; [|fold v; lia..]. fold v in LT. lia. }
    destruct (make_sign 5 10 neg h) as [MS MM]; [lia|].
    destruct (cast_widens f16 f32 5 10 8 23 To_zero (make 5 10 neg h) F' F W_half_single) as (p & PF & D & C & _).
    + apply make_lt. lia.
    + now rewrite MM.
    + rewrite MS, MM in *. exists h, p. rewrite C. auto.
  - intros MF LE. destruct (cast_too_large f32 f16 8 23 5 10 To_zero b F F' BL MF LE) as (r & ->). fold neg.
    destruct (make_sign 5 10 neg (infinity 5 10)) as [MS MM]; [auto|].
    destruct (cast_special f16 f32 5 10 8 23 To_zero (make 5 10 neg (infinity 5 10)) F' F (make_lt _ _ _ _ IL)) as (_ & S2 & _).
    rewrite (S2 MM), MS. reflexivity.
  - intros MI. destruct (cast_special f32 f16 8 23 5 10 To_zero b F F' BL) as (_ & S1 & _). rewrite (S1 MI). fold neg.
    destruct (make_sign 5 10 neg (infinity 5 10)) as [MS MM]; [auto|].
    destruct (cast_special f16 f32 5 10 8 23 To_zero (make 5 10 neg (infinity 5 10)) F' F (make_lt _ _ _ _ IL)) as (_ & S2 & _).
    rewrite (S2 MM), MS. rewrite <- MI. unfold neg. now rewrite make_fields.
  - intros MN. destruct (cast_special f32 f16 8 23 5 10 To_zero b F F' BL) as (_ & _ & S1). destruct (S1 MN) as (p & r & -> & PN). fold neg.
    destruct (make_sign 5 10 neg p) as [MS MM]; [apply PN|].
    destruct (cast_special f16 f32 5 10 8 23 To_zero (make 5 10 neg p) F' F (make_lt _ _ _ _ (proj2 PN))) as (_ & _ & S2).
    rewrite MM, MS in S2. destruct (S2 PN) as (p' & r' & -> & PN'). eauto.
Qed.
Example quantize_ex : quantize_to_f16 0x3f801fff = Some 0x3f800000 /\ quantize_to_f16 0xc7800000 = Some 0xff800000.
Proof. vm_compute. auto. Qed.
(** The SPIR-V specification wants zero for operands below the least normal half: 2^-24 is kept. *)
Theorem quantize_subnormal_refuted : quantize_to_f16 0x33800000 = Some 0x33800000 /\
  dlt (value 8 23 0x33800000) (value 5 10 (2 ^ 10)).
Proof. vm_compute. auto. Qed.

Print Assumptions hex_roundtrip.
Print Assumptions hex_print_meaning.
Print Assumptions hex_parse_value_partial.
Print Assumptions hex_parse_value_refuted.
Print Assumptions hex_parse_defined.
Print Assumptions hex_roundtrip_small_refuted.
Print Assumptions hex_roundtrip_e8m0.
Print Assumptions cast_representable.
Print Assumptions cast_widens.
Print Assumptions cast_special.
Print Assumptions cast_toward_zero.
Print Assumptions cast_too_large.
Print Assumptions cast_rounds_partial.
Print Assumptions cast_carry_refuted.
Print Assumptions cast_subnormal_refuted.
Print Assumptions cast_overflow_refuted.
Print Assumptions cast_small_refuted.
Print Assumptions quantize_folds.
Print Assumptions quantize_subnormal_refuted.
