(** Model of integer parsing and printing: source/util/parse_number.{h,cpp}, the extraction
    of integers from a std::istringstream with setbase(0) as ParseNumber uses it, and the
    integer part of source/parsed_operand.cpp.  A text is a list of bytes (a C string
    without its terminating NUL). *)
From Verif Require Import Base TextLex.
Local Open Scope N_scope.

(** *** std::istringstream >> integer, with the base flags cleared (setbase(0)).
    This is the behaviour of the standard num_get facet in the "C" locale: skip white space,
    an optional sign, a base prefix (0x/0X: 16, 0: 8, otherwise 10), then as many digits
    of that base as possible. *)
Definition is_space (c : N) : bool := (c =? 32) || ((9 <=? c) && (c <=? 13)).
Fixpoint skip_ws (l : list N) : list N :=
  match l with
  | c :: t => if is_space c then skip_ws t else l
  | [] => []
  end.
Definition digit_value (c : N) : option N :=
  if (48 <=? c) && (c <=? 57) then Some (c - 48)
  else if (97 <=? c) && (c <=? 102) then Some (c - 87)
  else if (65 <=? c) && (c <=? 70) then Some (c - 55)
  else None.
Definition is_base_digit (base c : N) : option N :=
  match digit_value c with
  | Some d => if d <? base then Some d else None
  | None => None
  end.
(** the longest run of digits: (number of digits read, accumulated value, rest) *)
Fixpoint read_digits (base : N) (l : list N) (n : nat) (acc : N) : nat * N * list N :=
  match l with
  | c :: t => match is_base_digit base c with
              | Some d => read_digits base t (S n) (base * acc + d)
              | None => (n, acc, l)
              end
  | [] => (n, acc, [])
  end.
(** (negative, magnitude, rest); None when no digit was found (failbit). *)
Definition stream_int (text : list N) : option (bool * N * list N) :=
  let l := skip_ws text in
  let '(neg, l) := match l with
                   | c :: t => if c =? 45 then (true, t) else if c =? 43 then (false, t) else (false, l)
                   | [] => (false, [])
                   end in
  match l with
  | c0 :: t =>
      if c0 =? 48 then
        let hex := match t with x :: _ => (x =? 120) || (x =? 88) | [] => false end in
        if hex then
          let '(n, v, r) := read_digits 16 (tl t) 0 0 in
          match n with O => None | _ => Some (neg, v, r) end
        else
          let '(n, v, r) := read_digits 8 t 0 0 in Some (neg, v, r)
      else
        let '(n, v, r) := read_digits 10 l 0 0 in
        match n with O => None | _ => Some (neg, v, r) end
  | [] => None
  end.

(** parse_number.h:186-217  ParseNumber<T> for an unsigned T of [bits] bits.  Range errors set
    failbit; a minus sign wraps around (the GNU behaviour mentioned at line 211), which
    ClampToZeroIfUnsignedType (86-96) turns into a failure when text[0] is the sign. *)
Definition parse_number_unsigned (bits : N) (text : list N) : option N :=
  match stream_int text with
  | Some (neg, mag, []) =>
      if mag <? 2 ^ bits then
        let v := if neg then (2 ^ bits - mag) mod 2 ^ bits else mag in
        match text with
        | c0 :: _ => if (c0 =? 45) && negb (v =? 0) then None else Some v
        | [] => None
        end
      else None
  | _ => None
  end.
(** ParseNumber<T> for a signed T of [bits] bits *)
Definition parse_number_signed (bits : N) (text : list N) : option Z :=
  match stream_int text with
  | Some (neg, mag, []) =>
      if neg then if mag <=? 2 ^ (bits - 1) then Some (- Z.of_N mag)%Z else None
      else if mag <? 2 ^ (bits - 1) then Some (Z.of_N mag) else None
  | _ => None
  end.

(** *** parse_number.h:104-162  CheckRangeAndIfHexThenSignExtend.
    The value is given by its sign test [neg] (value < 0; false for T = uint64_t) and its 64
    bits.  [Some] is the (possibly sign-extended) value, [None] is failure. *)
Definition mask64 (x : N) : N := x mod 2 ^ 64.
Definition check_range (neg : bool) (bits width : N) (signed is_hex : bool) : option N :=
  let magnitude_mask := if width =? 64 then 2 ^ 64 - 1 else 2 ^ width - 1 in
  let overflow_mask := N.lxor (2 ^ 64 - 1) magnitude_mask in
  let '(magnitude_mask, sign_mask) :=
    if neg || signed then (N.shiftr magnitude_mask 1, mask64 (N.shiftr magnitude_mask 1 + 1))
    else (magnitude_mask, 0) in
  let failed :=
    if neg then negb (N.land bits overflow_mask =? overflow_mask)
                || negb (N.land bits sign_mask =? sign_mask)
    else if is_hex then negb (N.land bits overflow_mask =? 0)
    else negb (N.land bits magnitude_mask =? bits) in
  if failed then None
  else if is_hex && negb (N.land bits sign_mask =? 0) then Some (N.lor bits overflow_mask)
  else Some bits.

(** parse_number.h:220-229  EncodeNumberStatus, with the emitted words on success *)
Inductive encode_result : Type :=
  | Enc_success (words : list N)
  | Enc_unsupported
  | Enc_invalid_usage
  | Enc_invalid_text.

(** int64_t -> uint64_t *)
Definition bits_of_int64 (z : Z) : N := Z.to_N (z mod 2 ^ 64)%Z.

(** parse_number.cpp:57-132  ParseAndEncodeIntegerNumber, for a non-null text and an integral type *)
Definition encode_integer (text : list N) (width : N) (signed : bool) : encode_result :=
  if 64 <? width then Enc_unsupported
  else
    let is_negative := match text with c :: _ => c =? 45 | [] => false end in
    if is_negative && negb signed then Enc_invalid_usage
    else
      let is_hex := match text with
                    | c0 :: c1 :: _ => (c0 =? 48) && ((c1 =? 120) || (c1 =? 88))
                    | _ => false
                    end in
      let decoded :=
        if is_negative then
          match parse_number_signed 64 text with
          | None => None
          | Some z => check_range (z <? 0)%Z (bits_of_int64 z) width signed is_hex
          end
        else
          match parse_number_unsigned 64 text with
          | None => None
          | Some b => check_range false b width signed is_hex
          end in
      match decoded with
      | None => Enc_invalid_text
      | Some bits =>
          if 32 <? width
          then Enc_success [N.land (2 ^ 32 - 1) bits; N.shiftr (N.land (2 ^ 64 - 2 ^ 32) bits) 32]
          else Enc_success [bits mod 2 ^ 32]
      end.

(** *** Printing: std::ostream << integer in decimal. *)
Fixpoint dec_digits (fuel : nat) (n : N) (acc : list N) : list N :=
  match fuel with
  | O => acc
  | S f => let acc := (48 + n mod 10) :: acc in
           if n / 10 =? 0 then acc else dec_digits f (n / 10) acc
  end.
Definition print_nat (n : N) : list N := dec_digits (S (N.size_nat n)) n [].
Definition print_int (z : Z) : list N :=
  if (z <? 0)%Z then 45 :: print_nat (Z.to_N (- z)) else print_nat (Z.to_N z).

(** uint32_t -> int32_t and uint64_t -> int64_t *)
Definition to_signed (bits : N) (x : N) : Z :=
  if x <? 2 ^ (bits - 1) then Z.of_N x else (Z.of_N x - 2 ^ Z.of_N bits)%Z.

(** parsed_operand.cpp:24-122  EmitNumericLiteral for SPV_NUMBER_SIGNED_INT / UNSIGNED_INT
    (lines 36-44, 103-113); other word counts print nothing. *)
Definition emit_integer (ws : list N) (signed : bool) : list N :=
  match ws with
  | [w] => if signed then print_int (to_signed 32 w) else print_nat w
  | [lo; hi] =>
      let bits := N.lor lo (N.shiftl hi 32) in
      if signed then print_int (to_signed 64 bits) else print_nat bits
  | _ => []
  end.
