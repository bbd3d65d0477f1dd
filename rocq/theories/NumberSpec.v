(** Specification of integer literals in assembly text, independent of the parser. *)
From Verif Require Import Base.
Local Open Scope N_scope.

(** Digits of a base up to 16 (either case) and the number they denote. *)
Inductive digit : N -> N -> Prop :=
  | dig_dec d : d < 10 -> digit (48 + d) d
  | dig_lower d : d < 6 -> digit (97 + d) (10 + d)
  | dig_upper d : d < 6 -> digit (65 + d) (10 + d).
(** [numeral base text v]: a non-empty run of digits of that base denoting [v]. *)
Inductive numeral (base : N) : list N -> N -> Prop :=
  | num_one c d : digit c d -> d < base -> numeral base [c] d
  | num_snoc s v c d : numeral base s v -> digit c d -> d < base -> numeral base (s ++ [c]) (base * v + d).

(** Unsigned literal: decimal without leading 0, octal with leading 0, or hexadecimal with
    0x/0X.  The boolean tells whether it is hexadecimal. *)
Inductive unsigned_text : list N -> bool -> N -> Prop :=
  | ut_dec c s v : c <> 48 -> numeral 10 (c :: s) v -> unsigned_text (c :: s) false v
  | ut_oct s v : numeral 8 (48 :: s) v -> unsigned_text (48 :: s) false v
  | ut_hex x s v : x = 120 \/ x = 88 -> numeral 16 s v -> unsigned_text (48 :: x :: s) true v.

(** [literal_value width signed text v]: the text is an integer literal whose value for that
    type is [v].  A hexadecimal literal without sign denotes a bit pattern of the type. *)
Inductive literal_value (width : N) (signed : bool) : list N -> Z -> Prop :=
  | lv_neg s hex m : signed = true -> unsigned_text s hex m ->
      literal_value width signed (45 :: s) (- Z.of_N m)
  | lv_plus s hex m : unsigned_text s hex m -> literal_value width signed (43 :: s) (Z.of_N m)
  | lv_plain s m : unsigned_text s false m -> literal_value width signed s (Z.of_N m)
  | lv_hex_pos s m : unsigned_text s true m -> (signed = true -> m < 2 ^ (width - 1)) ->
      literal_value width signed s (Z.of_N m)
  | lv_hex_wrap s m : unsigned_text s true m -> signed = true -> 2 ^ (width - 1) <= m -> m < 2 ^ width ->
      literal_value width signed s (Z.of_N m - 2 ^ Z.of_N width).

(** The values of the integer type. *)
Definition representable (width : N) (signed : bool) (v : Z) : Prop :=
  if signed then (- 2 ^ (Z.of_N width - 1) <= v < 2 ^ (Z.of_N width - 1))%Z
  else (0 <= v < 2 ^ Z.of_N width)%Z.

(** The SPIR-V encoding of a value: one word up to 32 bits, two words (low first) up to 64;
    narrow values are sign- or zero-extended, i.e. the words hold [v] modulo 2^32 / 2^64. *)
Definition encoding (width : N) (v : Z) : list N :=
  if width <=? 32 then [Z.to_N (v mod 2 ^ 32)]
  else [Z.to_N (v mod 2 ^ 32); Z.to_N (v / 2 ^ 32 mod 2 ^ 32)]%Z.
