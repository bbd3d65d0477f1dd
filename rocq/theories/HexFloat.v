(** Model of source/util/hex_float.h: the text form of floating point bit patterns
    (operator<< and operator>> on HexFloat) and the conversions between formats
    (HexFloat::castTo and its helpers).

    A value of uint_type is an N below 2^ubits, a value of int_type is a Z; [wrap] and [swrap] are
    the static_casts back to these types.  A text is a list of bytes.  Not modelled: the decimal
    notation, which operator>> leaves to the C++ library (the outcome [Decimal] is the point where
    ParseNormalFloat is called) and HexFixedPoint. *)
From Verif Require Import Base ParseNumber.
Local Open Scope N_scope.

(** hex_float.h:557-785  the traits of a format; [uwidth] is the number of bits of uint_type,
    [max_bits] is the pattern of FloatProxyTraits::max(), [nan_bits] and [inf_bits] are isNan and
    isInfinity (62-271, 280-476). *)
Record fmt := {
  uwidth : N;
  used : N;
  ebits : N;
  fbits : N;
  bias : N;
  has_inf : bool;
  has_nan : bool;
  has_zero : bool;
  has_sign : bool;
  nan_pattern : N;
  max_bits : N;
  nan_bits : N -> bool;
  inf_bits : N -> bool }.

(** isNan and isInfinity of the formats with IEEE infinities: Float8_E5M2 (159-165),
    Float16 (224-230), BFloat16 (250-255), and std::isnan / std::isinf on float and double *)
Definition ieee_nan (e f b : N) : bool :=
  (N.land b (N.shiftl (N.ones e) f) =? N.shiftl (N.ones e) f) && negb (N.land b (N.ones f) =? 0).
Definition ieee_inf (e f b : N) : bool :=
  (N.land b (N.shiftl (N.ones e) f) =? N.shiftl (N.ones e) f) && (N.land b (N.ones f) =? 0).

(** 589-605 HexFloatTraits<FloatProxy<float>>.  NaN_pattern is written 0x7f80000 there. *)
Definition f32 : fmt := {|
  uwidth := 32; used := 32; ebits := 8; fbits := 23; bias := 127;
  has_inf := true; has_nan := true; has_zero := true; has_sign := true;
  nan_pattern := 0x7f80000; max_bits := 0x7f7fffff;
  nan_bits := ieee_nan 8 23; inf_bits := ieee_inf 8 23 |}.
(** 609-625 HexFloatTraits<FloatProxy<double>> *)
Definition f64 : fmt := {|
  uwidth := 64; used := 64; ebits := 11; fbits := 52; bias := 1023;
  has_inf := true; has_nan := true; has_zero := true; has_sign := true;
  nan_pattern := 0x7FF0000000000000; max_bits := 0x7fefffffffffffff;
  nan_bits := ieee_nan 11 52; inf_bits := ieee_inf 11 52 |}.
(** 629-645 HexFloatTraits<FloatProxy<Float4_E2M1>> *)
Definition e2m1 : fmt := {|
  uwidth := 8; used := 4; ebits := 2; fbits := 1; bias := 1;
  has_inf := false; has_nan := false; has_zero := true; has_sign := true;
  nan_pattern := 0; max_bits := 0x7;
  nan_bits := fun _ => false; inf_bits := fun _ => false |}.
(** 649-665 HexFloatTraits<FloatProxy<Float6_E2M3>> *)
Definition e2m3 : fmt := {|
  uwidth := 8; used := 6; ebits := 2; fbits := 3; bias := 1;
  has_inf := false; has_nan := false; has_zero := true; has_sign := true;
  nan_pattern := 0; max_bits := 0x1f;
  nan_bits := fun _ => false; inf_bits := fun _ => false |}.
(** 669-685 HexFloatTraits<FloatProxy<Float6_E3M2>> *)
Definition e3m2 : fmt := {|
  uwidth := 8; used := 6; ebits := 3; fbits := 2; bias := 3;
  has_inf := false; has_nan := false; has_zero := true; has_sign := true;
  nan_pattern := 0; max_bits := 0x1f;
  nan_bits := fun _ => false; inf_bits := fun _ => false |}.
(** 689-705 HexFloatTraits<FloatProxy<Float8_E4M3>> *)
Definition e4m3 : fmt := {|
  uwidth := 8; used := 8; ebits := 4; fbits := 3; bias := 7;
  has_inf := false; has_nan := true; has_zero := true; has_sign := true;
  nan_pattern := 0x7F; max_bits := 0x7e;
  nan_bits := fun b => N.land b 0x7f =? 0x7f; inf_bits := fun _ => false |}.
(** 709-725 HexFloatTraits<FloatProxy<Float8_E5M2>> *)
Definition e5m2 : fmt := {|
  uwidth := 8; used := 8; ebits := 5; fbits := 2; bias := 15;
  has_inf := true; has_nan := true; has_zero := true; has_sign := true;
  nan_pattern := 0x7c; max_bits := 0x7b;
  nan_bits := ieee_nan 5 2; inf_bits := ieee_inf 5 2 |}.
(** 729-745 HexFloatTraits<FloatProxy<Float8_E8M0>> *)
Definition e8m0 : fmt := {|
  uwidth := 16; used := 8; ebits := 8; fbits := 0; bias := 127;
  has_inf := false; has_nan := true; has_zero := false; has_sign := false;
  nan_pattern := 0xff; max_bits := 0xfe;
  nan_bits := fun b => N.land b 0xff =? 0xff; inf_bits := fun _ => false |}.
(** 749-765 HexFloatTraits<FloatProxy<Float16>> *)
Definition f16 : fmt := {|
  uwidth := 16; used := 16; ebits := 5; fbits := 10; bias := 15;
  has_inf := true; has_nan := true; has_zero := true; has_sign := true;
  nan_pattern := 0x7c00; max_bits := 0x7bff;
  nan_bits := ieee_nan 5 10; inf_bits := ieee_inf 5 10 |}.
(** 769-785 HexFloatTraits<FloatProxy<BFloat16>> *)
Definition bf16 : fmt := {|
  uwidth := 16; used := 16; ebits := 8; fbits := 7; bias := 127;
  has_inf := true; has_nan := true; has_zero := true; has_sign := true;
  nan_pattern := 0x7F80; max_bits := 0x7F7F;
  nan_bits := ieee_nan 8 7; inf_bits := ieee_inf 8 7 |}.

(** static_cast to an unsigned type of [u] bits, and to a signed type of [u] bits *)
Definition wrap (u x : N) : N := x mod 2 ^ u.
Definition swrap (u : N) (z : Z) : Z :=
  let m := (z mod 2 ^ Z.of_N u)%Z in
  if (m <? 2 ^ (Z.of_N u - 1))%Z then m else (m - 2 ^ Z.of_N u)%Z.
(** bitutils.h:47-57  SetBits<T, First, Num>::get *)
Definition set_bits (first num : N) : N := N.shiftl (N.ones num) first.

(** 859-912  the constants of HexFloat *)
Definition top_bit_left_shift (f : fmt) : N := used f - 1.
Definition fraction_nibbles (f : fmt) : N := (fbits f + 3) / 4.
Definition num_overflow_bits (f : fmt) : N := fraction_nibbles f * 4 - fbits f.
Definition fraction_represent_mask (f : fmt) : N := set_bits 0 (fbits f + num_overflow_bits f).
Definition first_exponent_bit (f : fmt) : N := N.shiftl 1 (fbits f).
Definition fraction_encode_mask (f : fmt) : N := set_bits 0 (fbits f).
Definition sign_mask (f : fmt) : N := if has_sign f then N.shiftl 1 (top_bit_left_shift f) else 0.
Definition exponent_mask (f : fmt) : N := set_bits (fbits f) (ebits f).
Definition fraction_right_shift (f : fmt) : N := uwidth f - fbits f.
Definition min_exponent (f : fmt) : Z := (- Z.of_N (bias f))%Z.
Definition int_max (f : fmt) : Z := (2 ^ (Z.of_N (uwidth f) - 1) - 1)%Z.
Definition int_min (f : fmt) : Z := (- 2 ^ (Z.of_N (uwidth f) - 1))%Z.

(** ** Printing *)

(** 1429-1432  normalise a subnormal: (fraction, int_exponent) when the loop stops *)
Fixpoint print_normalise (fuel : nat) (top fraction : N) (e : Z) : option (N * Z) :=
  match fuel with
  | O => None
  | S n => if N.land fraction top =? 0
           then print_normalise n top (wrap 64 (N.shiftl fraction 1)) (e - 1)%Z
           else Some (fraction, e)
  end.
(** 1443-1447  drop trailing zero nibbles: (fraction, fraction_nibbles) *)
Fixpoint print_strip (nibbles : nat) (fraction : N) : N * nat :=
  match nibbles with
  | O => (fraction, O)
  | S n => if N.land fraction 0xF =? 0 then print_strip n (N.shiftr fraction 4) else (fraction, nibbles)
  end.
(** a lower case hexadecimal digit *)
Definition hex_digit (d : N) : N := if d <? 10 then 48 + d else 87 + d.
(** std::hex with setw(n) and setfill('0'), for a value of at most [n] digits *)
Fixpoint print_hex_digits (n : nat) (v : N) : list N :=
  match n with
  | O => []
  | S n => print_hex_digits n (N.shiftr v 4) ++ [hex_digit (N.land v 0xF)]
  end.

(** 1388-1465  operator<<(std::ostream&, const HexFloat&); None: the loop at 1429 does not end *)
Definition print_hex (f : fmt) (bits : N) : option (list N) :=
  let sign := if N.land bits (sign_mask f) =? 0 then [] else [45] in
  let exponent := N.shiftr (N.land bits (exponent_mask f)) (fbits f) in
  let fraction := wrap 64 (N.shiftl (N.land bits (fraction_encode_mask f)) (num_overflow_bits f)) in
  let is_zero := has_zero f && (exponent =? 0) && (fraction =? 0) in
  let is_denorm := has_zero f && (exponent =? 0) && negb is_zero in
  let int_exponent := if is_zero then 0%Z
                      else swrap 64 (Z.of_N exponent - Z.of_N (bias f))%Z in
  let normal :=
    if (0 <? fbits f) && is_denorm then
      let top := N.shiftl 1 (fbits f + num_overflow_bits f - 1) in
      match print_normalise 64 top fraction int_exponent with
      | Some (fr, e) => Some (N.land (wrap 64 (N.shiftl fr 1)) (fraction_represent_mask f), e)
      | None => None
      end
    else Some (fraction, int_exponent) in
  match normal with
  | None => None
  | Some (fraction, int_exponent) =>
      let '(fraction, nibbles) := print_strip (N.to_nat (fraction_nibbles f)) fraction in
      Some (sign ++ [48; 120] ++ [if is_zero then 48 else 49]
            ++ (match nibbles with O => [] | _ => 46 :: print_hex_digits nibbles fraction end)
            ++ [112] ++ (if (0 <=? int_exponent)%Z then [43] else []) ++ print_int int_exponent)
  end.

(** ** Parsing *)

(** 1468  LeadingSign *)
Inductive leading_sign := No_sign | Plus | Minus.
(** the outcome of operator>>: the value and what is left of the stream; the fail bit; the call
    of ParseNormalFloat; a loop that did not end within its fuel; undefined behaviour (signed
    overflow) *)
Inductive parse_out :=
  | Parsed (bits : N) (rest : list N)
  | Failed
  | Decimal (s : leading_sign) (rest : list N)
  | Stuck
  | Undefined.

(** 1780-1788  set_nth_most_significant_bit *)
Definition set_nth_msb (f : fmt) (value bit n : N) : N :=
  if negb (bit =? 0) && (n <=? uwidth f - 1)
  then wrap (uwidth f) (N.lor value (N.shiftl bit (uwidth f - 1 - n)))
  else value.
(** 1793-1800  saturated_inc on uint_type, where the result is ignored *)
Definition sat_inc_index (f : fmt) (n : N) : N := if n =? 2 ^ uwidth f - 1 then n else n + 1.

(** the variables of the mantissa loops (1882-1903): fraction, fraction_index, exponent,
    has_integer_part, bits_written *)
Record mant := { fr : N; idx : N; ex : Z; has_int : bool; bw : bool }.

(** 1916-1936  one bit of a digit before the dot; None: overflow failure *)
Definition int_bit (f : fmt) (s : mant) (b : bool) : option mant :=
  let write_bit := if b then 1 else 0 in
  if bw s then
    let fr' := set_nth_msb f (fr s) write_bit (idx s) in
    let idx' := sat_inc_index f (idx s) in
    if (ex s =? int_max f)%Z then None
    else Some {| fr := fr'; idx := idx'; ex := (ex s + 1)%Z; has_int := has_int s;
                 bw := bw s || b |}
  else Some {| fr := fr s; idx := idx s; ex := ex s; has_int := has_int s; bw := bw s || b |}.
(** 1954-1973  one bit of a digit after the dot *)
Definition frac_bit (f : fmt) (s : mant) (b : bool) : option mant :=
  let write_bit := if b then 1 else 0 in
  let bw' := bw s || b in
  if negb (has_int s) && negb bw' then
    if (ex s =? int_min f)%Z then None
    else Some {| fr := fr s; idx := idx s; ex := (ex s - 1)%Z; has_int := has_int s; bw := bw' |}
  else
    Some {| fr := set_nth_msb f (fr s) write_bit (idx s); idx := sat_inc_index f (idx s);
            ex := ex s; has_int := has_int s; bw := bw' |}.
(** the loops over the four bits of a digit, most significant first *)
Fixpoint bits_loop (step : mant -> bool -> option mant) (bs : list bool) (s : mant) : option mant :=
  match bs with
  | [] => Some s
  | b :: bs => match step s b with Some s => bits_loop step bs s | None => None end
  end.
Definition nibble_bits (d : N) : list bool := [N.testbit d 3; N.testbit d 2; N.testbit d 1; N.testbit d 0].

(** 1894-1897  leading zeros *)
Fixpoint skip_zeros (l : list N) : list N :=
  match l with c :: t => if c =? 48 then skip_zeros t else l | [] => [] end.
(** 1906-1943  the digits before the dot: (state, seen_dot, rest).  At the end of the stream
    peek() is EOF, which is none of the accepted characters. *)
Fixpoint int_loop (f : fmt) (l : list N) (s : mant) : option (mant * bool * list N) :=
  match l with
  | [] => None
  | c :: t =>
      if c =? 46 then Some (s, true, t)
      else if c =? 112 then Some (s, false, t)
      else match digit_value c with
           | Some d =>
               match bits_loop (int_bit f) (nibble_bits d)
                       {| fr := fr s; idx := idx s; ex := ex s; has_int := true; bw := bw s |} with
               | Some s => int_loop f t s
               | None => None
               end
           | None => None
           end
  end.
(** 1948-1982  the digits after the dot *)
Fixpoint frac_loop (f : fmt) (l : list N) (s : mant) : option (mant * list N) :=
  match l with
  | [] => None
  | c :: t =>
      if c =? 112 then Some (s, t)
      else match digit_value c with
           | Some d => match bits_loop (frac_bit f) (nibble_bits d) s with
                       | Some s => frac_loop f t s
                       | None => None
                       end
           | None => None
           end
  end.
(** 1997-1998  written_exponent_overflow *)
Definition written_overflow (f : fmt) : Z := (int_max f - 1)%Z.
(** 2009-2020  one digit of the written exponent *)
Definition written_digit (f : fmt) (w : Z) (d : Z) : Z :=
  if (w >=? (written_overflow f - d) ÷ 10)%Z then written_overflow f else (w * 10 + d)%Z.
(** 1999-2031  the written exponent: (magnitude, sign is minus, rest); None: failure *)
Fixpoint exp_loop (f : fmt) (l : list N) (seen_sign minus seen_digits : bool) (w : Z)
  : option (Z * bool * list N) :=
  match l with
  | c :: t =>
      if negb seen_digits && ((c =? 45) || (c =? 43)) then
        if seen_sign then None else exp_loop f t true (c =? 45) seen_digits w
      else if (48 <=? c) && (c <=? 57) then
        exp_loop f t seen_sign minus true (written_digit f w (Z.of_N c - 48)%Z)
      else if seen_digits then Some (w, minus, l) else None
  | [] => if seen_digits then Some (w, minus, []) else None
  end.

(** The result of signed arithmetic stored in an int_type.  Types narrower than int are computed in
    int and converted back modulo 2^uwidth; for int32_t and int64_t overflow is undefined. *)
Definition in_int (f : fmt) (z : Z) : bool := (int_min f <=? z)%Z && (z <=? int_max f)%Z.
Definition to_int (f : fmt) (z : Z) : option Z :=
  if in_int f z then Some z else if uwidth f <? 32 then Some (swrap (uwidth f) z) else None.
(** 2033-2053  fold the bias into the written exponent *)
Definition fold_exponent (f : fmt) (written exponent : Z) : Z :=
  let ovf := written_overflow f in
  if ((written >=? 0) && (exponent >=? 0))%Z then
    if (ovf - exponent >? written)%Z then (written + exponent)%Z else ovf
  else if ((written <? 0) && (exponent <? 0))%Z then
    if (ovf + exponent >? - written)%Z then (written + exponent)%Z else (- ovf)%Z
  else (written + exponent)%Z.

(** 2074-2084  the subnormal loop: (fraction, exponent) *)
Fixpoint denorm_loop (f : fmt) (fuel : nat) (fraction : N) (exponent : Z) : option (N * Z) :=
  if (exponent <? 0)%Z then
    match fuel with
    | O => None
    | S n =>
        let fraction := N.land (N.shiftr fraction 1) (fraction_encode_mask f) in
        if fraction =? 0 then Some (fraction, 0%Z)
        else denorm_loop f n fraction (exponent + 1)
    end
  else Some (fraction, exponent).

(** 2033-2105  everything after the text has been read *)
Definition assemble (f : fmt) (sign : leading_sign) (s : mant) (written : Z) (rest : list N) : parse_out :=
  match to_int f (fold_exponent f written (ex s)) with
  | None => Undefined
  | Some exponent =>
  let is_zero := negb (has_int s) && (fr s =? 0) in
  let adjusted :=
    if negb (has_int s) && negb is_zero then
      match to_int f (exponent - 1)%Z with
      | Some e => Some (wrap (uwidth f) (N.shiftl (fr s) 1), e)
      | None => None
      end
    else if is_zero then Some (fr s, 0%Z)
    else Some (fr s, exponent) in
  match adjusted with
  | None => Undefined
  | Some (fraction, exponent) =>
  let fraction :=
    if (exponent <=? 0)%Z && negb is_zero
    then N.lor (N.shiftr fraction 1) (wrap (uwidth f) (N.shiftl 1 (top_bit_left_shift f)))
    else fraction in
  let fraction := N.land (N.shiftr fraction (fraction_right_shift f)) (fraction_encode_mask f) in
  let max_exponent := Z.of_N (set_bits 0 (ebits f)) in
  match (if is_zero then Some (fraction, exponent)
         else denorm_loop f (S (N.to_nat (uwidth f))) fraction exponent) with
  | None => Stuck
  | Some (fraction, exponent) =>
      let '(fraction, exponent) :=
        if (exponent >? max_exponent)%Z then (0, max_exponent) else (fraction, exponent) in
      let output := wrap (uwidth f) (N.shiftl (match sign with Minus => 1 | _ => 0 end)
                                              (top_bit_left_shift f)) in
      let output := N.lor output fraction in
      let shifted := N.land (wrap (uwidth f) (N.shiftl (Z.to_N exponent) (fbits f))) (exponent_mask f) in
      Parsed (N.lor output shifted) rest
  end
  end
  end.

(** 1876-2033  after the 0x *)
Definition parse_mantissa (f : fmt) (sign : leading_sign) (l : list N) : parse_out :=
  let s0 := {| fr := 0; idx := 0; ex := Z.of_N (bias f); has_int := false; bw := false |} in
  match int_loop f (skip_zeros l) s0 with
  | None => Failed
  | Some (s, seen_dot, l) =>
      let s := {| fr := fr s; idx := idx s; ex := ex s; has_int := has_int s; bw := false |} in
      match (if seen_dot then frac_loop f l s else Some (s, l)) with
      | None => Failed
      | Some (s, l) =>
          match exp_loop f l false false false 0%Z with
          | None => Failed
          | Some (w, minus, rest) => assemble f sign s (if minus then (- w)%Z else w) rest
          end
      end
  end.

(** 1834-1874  operator>>(std::istream&, HexFloat&), on a stream that skips white space *)
Definition parse_hex (f : fmt) (text : list N) : parse_out :=
  let l := skip_ws text in
  let '(sign, l) := match l with
                    | c :: t => if c =? 45 then (Minus, t) else if c =? 43 then (Plus, t) else (No_sign, l)
                    | [] => (No_sign, [])
                    end in
  match l with
  | c0 :: t =>
      if c0 =? 48 then
        match t with
        | x :: t' => if (x =? 120) || (x =? 88) then parse_mantissa f sign t' else Decimal sign l
        | [] => Decimal sign l
        end
      else Decimal sign l
  | [] => Decimal sign l
  end.

(** ** Conversions *)

(** 787-793  round_direction *)
Inductive rounding := To_zero | To_nearest_even | To_positive_infinity | To_negative_infinity.
(** 835-839  CastResult *)
Inductive cast_result := Success | Lost_precision | Not_representable.
Definition result_rank (r : cast_result) : N :=
  match r with Success => 0 | Lost_precision => 1 | Not_representable => 2 end.

(** 914-937, 970 *)
Definition unsigned_bits (f : fmt) (b : N) : N := N.ldiff b (sign_mask f).
Definition exponent_bits (f : fmt) (b : N) : N := N.shiftr (N.land b (exponent_mask f)) (fbits f).
Definition unbiased_exponent (f : fmt) (b : N) : Z :=
  swrap (uwidth f) (Z.of_N (exponent_bits f b) - Z.of_N (bias f))%Z.
Definition significand_bits (f : fmt) (b : N) : N := N.land b (fraction_encode_mask f).
Definition is_negative (f : fmt) (b : N) : bool := negb (N.land b (sign_mask f) =? 0).

(** 949-952  the loop of getUnbiasedNormalizedExponent; None: no end within the fuel *)
Fixpoint normalise_exponent (f : fmt) (fuel : nat) (sig : N) (e : Z) : option Z :=
  if N.land sig (N.shiftr (first_exponent_bit f) 1) =? 0 then
    match fuel with
    | O => None
    | S n => normalise_exponent f n (wrap (uwidth f) (N.shiftl sig 1)) (swrap (uwidth f) (e - 1)%Z)
    end
  else Some e.
(** 941-956  getUnbiasedNormalizedExponent *)
Definition unbiased_normalized_exponent (f : fmt) (fuel : nat) (b : N) : option Z :=
  if has_zero f && (unsigned_bits f b =? 0) then Some 0%Z
  else let e := unbiased_exponent f b in
       if (e =? min_exponent f)%Z then normalise_exponent f fuel (significand_bits f b) e else Some e.
(** 959-967  getNormalizedSignificand *)
Definition normalized_significand (f : fmt) (fuel : nat) (b : N) : option N :=
  match unbiased_normalized_exponent f fuel b with
  | None => None
  | Some e =>
      let sig := Nat.iter (Z.to_nat (min_exponent f - e + 1)%Z)
                   (fun s => wrap (uwidth f) (N.shiftl s 1)) (significand_bits f b) in
      Some (N.land sig (fraction_encode_mask f))
  end.

(** 984-1029  setFromSignUnbiasedExponentAndNormalizedSignificand: the new bits and the result *)
Definition shift_out (st : N * cast_result) : N * cast_result :=
  let '(sig, r) := st in
  (N.shiftr sig 1, if N.land sig 1 =? 0 then r else Lost_precision).
Definition set_from (f : fmt) (negative : bool) (exponent : Z) (sig : N) (round_up : bool)
  : N * cast_result :=
  let zero := sig =? 0 in
  let '(sig, r, zero) :=
    if (exponent <=? min_exponent f)%Z && negb (fbits f =? 0) then
      let '(sig, r) := shift_out (N.lor sig (first_exponent_bit f), Success) in (sig, r, false)
    else (sig, Success, zero) in
  let '(sig, r) := Nat.iter (Z.to_nat (min_exponent f - exponent)%Z) shift_out (sig, r) in
  let exponent := Z.max exponent (min_exponent f) in
  let sig := if (exponent =? min_exponent f)%Z && (sig =? 0) && negb zero && round_up then 1 else sig in
  let ue := Z.to_N ((exponent + Z.of_N (bias f)) mod 2 ^ Z.of_N (uwidth f))%Z in
  let ue := N.land (wrap (uwidth f) (N.shiftl ue (fbits f))) (exponent_mask f) in
  let r := if N.ldiff sig (fraction_encode_mask f) =? 0 then r else Lost_precision in
  let sig := N.land sig (fraction_encode_mask f) in
  (N.lor (if negative then sign_mask f else 0) (N.lor ue sig), r).

(** 1038-1050  incrementSignificand: the significand and the carry *)
Definition increment_significand (f : fmt) (sig inc : N) : N * bool :=
  let sig := wrap (uwidth f) (sig + inc) in
  if N.land sig (first_exponent_bit f) =? 0 then (sig, false)
  else (N.shiftr (N.ldiff sig (first_exponent_bit f)) 1, true).

(** 1080-1097  negatable_left_shift of the format [f] *)
Definition negatable_left_shift (f : fmt) (n : Z) (v : N) : N :=
  if (n <? 0)%Z then N.shiftr v (Z.to_N (- n)) else wrap (uwidth f) (wrap 64 (N.shiftl v (Z.to_N n))).

(** 1117-1198  getRoundedNormalizedSignificand<other_T>: (out_val, carry_bit, result) *)
Definition rounded_significand (s d : fmt) (dir : rounding) (fuel : nat) (b : N)
  : option (N * bool * cast_result) :=
  match normalized_significand s fuel b with
  | None => None
  | Some sig =>
      let throwaway := (Z.of_N (fbits s) - Z.of_N (fbits d))%Z in
      if (throwaway <=? 0)%Z then
        Some (wrap (uwidth d) (N.shiftl (wrap (uwidth d) sig) (Z.to_N (- throwaway))), false, Success)
      else
        let n := Z.to_N throwaway in
        let last := wrap (uwidth s) (N.shiftl 1 n) in
        let first_rounded := wrap (uwidth s) (N.shiftl 1 (n - 1)) in
        let mask := set_bits 0 n in
        if N.land sig mask =? 0 then Some (wrap (uwidth d) (N.shiftr sig n), false, Success)
        else
          let away :=
            match dir with
            | To_zero => false
            | To_positive_infinity => negb (is_negative s b)
            | To_negative_infinity => is_negative s b
            | To_nearest_even =>
                if N.land first_rounded sig =? 0 then false
                else if negb (N.ldiff (N.land sig mask) first_rounded =? 0) then true
                else negb (N.land sig last =? 0)
            end in
          if away then
            let '(sig, carry) := increment_significand s sig last in
            Some (wrap (uwidth d) (N.shiftr sig n), carry, Lost_precision)
          else Some (wrap (uwidth d) (N.shiftr sig n), false, Lost_precision)
  end.

(** 1232-1242  the loop of castTo over the bits of a subnormal *)
Fixpoint cast_normalise (fuel : nat) (check_bit sig : N) (e : Z) : Z :=
  match fuel with
  | O => e
  | S n => if check_bit =? 0 then e
           else if N.land check_bit sig =? 0 then cast_normalise n (N.shiftr check_bit 1) sig (e - 1)%Z
           else (e - 1)%Z
  end.

(** 1210-1300  castTo: the bits of [other] and the result; None: the loop at 949 does not end
    within the fuel *)
Definition cast (fuel : nat) (s d : fmt) (dir : rounding) (b : N) : option (N * cast_result) :=
  let negate := is_negative s b in
  if has_zero s && (unsigned_bits s b =? 0) then
    Some (if negate then wrap (uwidth d) (N.lxor 0 (N.shiftl 1 (used d - 1))) else 0,
          if has_zero d then Success else Not_representable)
  else
  match rounded_significand s d dir fuel b with
  | None => None
  | Some (rounded, carried, r) =>
      let sig := significand_bits s b in
      let e := unbiased_exponent s b in
      let e := if (e =? min_exponent s)%Z
               then cast_normalise (S (N.to_nat (uwidth s))) (N.shiftr (first_exponent_bit s) 1) sig (e + 1)%Z
               else e in
      let is_nan := nan_bits s b in
      let is_inf := negb is_nan &&
                    ((e + (if carried then 1 else 0) >? swrap (uwidth s) (Z.of_N (bias d)))%Z
                     || inf_bits s b) in
      let sign := if negate then sign_mask d else 0 in
      if is_inf then
        Some (wrap (uwidth d) (N.lor sign (if has_inf d then exponent_mask d else max_bits d)), r)
      else if is_nan then
        if has_nan d then
          let shifted := wrap (uwidth d)
                           (negatable_left_shift s (Z.of_N (fbits d) - Z.of_N (fbits s))%Z sig) in
          Some (wrap (uwidth d)
                  (N.lor (nan_pattern d) (N.lor sign (N.lor (exponent_mask d)
                     (if shifted =? 0 then 1 else shifted)))), r)
        else Some (0, Not_representable)
      else
        let up := match dir with
                  | To_negative_infinity => is_negative s b
                  | To_positive_infinity => negb (is_negative s b)
                  | _ => false
                  end in
        let '(bits, r2) := set_from d negate (swrap (uwidth d) e) rounded up in
        Some (bits, if result_rank r <? result_rank r2 then r2 else r)
  end.

(** const_folding_rules.cpp:928-947  FoldQuantizeToF16Scalar, on a 32-bit constant *)
Definition quantize_to_f16 (b : N) : option N :=
  match cast 64 f32 f16 To_zero b with
  | Some (h, _) => match cast 64 f16 f32 To_zero h with Some (r, _) => Some r | None => None end
  | None => None
  end.
