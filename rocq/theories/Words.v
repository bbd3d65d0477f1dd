(** Models of word-level helpers:
    source/util/string_utils.h (SPIR-V string encoding), source/util/bitutils.h,
    source/spirv_endian.cpp and the first-word packing of source/opcode.cpp. *)
From Verif Require Import Base.
Local Open Scope N_scope.

(** A char/byte is an N below 256, a word an N below 2^32. *)
Definition byte_ok (b : N) : Prop := b < 256.
Definition word_ok (w : N) : Prop := w < 2 ^ 32.

(** *** string_utils.h *)

(** string_utils.h:57-65  the byte loop of AppendToVector.  The list walked is the
    input followed by the terminating 0 byte (byte_index == num_bytes). *)
Fixpoint append_loop (bytes : list N) (byte_index word : N) (result : list N) : list N * N :=
  match bytes with
  | [] => (result, word)
  | new_byte :: rest =>
      let word := N.lor word (N.shiftl new_byte (8 * (byte_index mod 4))) in
      if byte_index mod 4 =? 3
      then append_loop rest (byte_index + 1) 0 (result ++ [word])
      else append_loop rest (byte_index + 1) word result
  end.
(** string_utils.h:50-70  AppendToVector *)
Definition append_to_vector (input : list N) (result : list N) : list N :=
  let num_bytes := N.of_nat (length input) in
  let '(r, word) := append_loop (input ++ [0]) 0 0 result in
  if negb ((num_bytes + 1) mod 4 =? 0) then r ++ [word] else r.
(** string_utils.h:73-79  MakeVector *)
Definition make_vector (input : list N) : list N := append_to_vector input [].

(** string_utils.h:93-100  the inner loop of MakeString over the four bytes of a word:
    the bytes taken and whether the terminating null was met. *)
Fixpoint take_bytes (n : nat) (byte_index word : N) : list N * bool :=
  match n with
  | O => ([], false)
  | S n' =>
      let c := N.land (N.shiftr word (8 * byte_index)) 255 in
      if c =? 0 then ([], true)
      else let '(l, t) := take_bytes n' (byte_index + 1) word in (c :: l, t)
  end.
(** string_utils.h:84-107  MakeString; the boolean is "a terminating null was found"
    (the assert at line 102 fires when it is required and false). *)
Fixpoint make_string (words : list N) : list N * bool :=
  match words with
  | [] => ([], false)
  | w :: ws =>
      let '(l, t) := take_bytes 4 0 w in
      if t then (l, true)
      else let '(r, t') := make_string ws in (l ++ r, t')
  end.

(** *** bitutils.h, for an unsigned type of [w] bits; [None] is a violated assert. *)
Section BitUtils.
Variable w : N.
Definition all_ones : N := 2 ^ w - 1.
Definition trunc (x : N) : N := x mod 2 ^ w.

(** bitutils.h:96-106  CountSetBits, one loop iteration per unit of fuel. *)
Fixpoint count_loop (fuel : nat) (word count : N) : option N :=
  if word =? 0 then Some count
  else match fuel with
       | O => None
       | S f => count_loop f (N.land word (word - 1)) (count + 1)
       end.
Definition count_set_bits (word : N) : option N := count_loop (N.to_nat w) word 0.

(** bitutils.h:111-118  IsBitAtPositionSet *)
Definition is_bit_at_position_set (word position : N) : option bool :=
  if position <? w then Some (negb (N.land word (trunc (N.shiftl 1 position)) =? 0)) else None.

(** bitutils.h:125-154  MutateBits; [~x] on the type is [N.lxor x all_ones]. *)
Definition mutate_bits (word first num : N) (value : bool) : option N :=
  if negb (first <? w) then None
  else if negb (first + num <=? w) then None
  else if num =? 0 then Some word
  else
    let low_mask := trunc (N.shiftl (trunc (N.shiftr all_ones first)) first) in
    let high := w - (first + num) in
    let high_mask := trunc (N.shiftr (trunc (N.shiftl all_ones high)) high) in
    let mask := N.land low_mask high_mask in
    Some (if value then N.lor word mask else N.land word (trunc (N.lxor mask all_ones))).

(** bitutils.h:158-168, 172-182  SetHighBits, ClearHighBits *)
Definition set_high_bits (word num : N) : option N :=
  if num =? 0 then Some word
  else if negb (num <=? w) then None else mutate_bits word (w - num) num true.
Definition clear_high_bits (word num : N) : option N :=
  if num =? 0 then Some word
  else if negb (num <=? w) then None else mutate_bits word (w - num) num false.

(** bitutils.h:186-198, 202-207  SignExtendValue, ZeroExtendValue.
    number_of_bits is a uint32: [n - 1] wraps at 0. *)
Definition sign_extend_value (value n : N) : option N :=
  if n =? w then Some value
  else
    match is_bit_at_position_set value ((n + 2 ^ 32 - 1) mod 2 ^ 32) with
    | None => None
    | Some neg =>
        let k := (w + 2 ^ 32 - n) mod 2 ^ 32 in
        if neg then set_high_bits value k else clear_high_bits value k
    end.
Definition zero_extend_value (value n : N) : option N :=
  if n =? w then Some value else clear_high_bits value ((w + 2 ^ 32 - n) mod 2 ^ 32).

(** bitutils.h:210-219  LSB (unsigned branch) *)
Definition lsb (value : N) : N := N.land value (trunc (trunc (N.lxor value all_ones) + 1)).
End BitUtils.

(** bitutils.h:49-59  SetBits<T, First, Num>: template recursion on Num. *)
Fixpoint set_bits (first : N) (num : nat) : N :=
  match num with
  | O => 0
  | S n => N.lor (N.shiftl 1 first) (set_bits (first + 1) n)
  end.

(** *** spirv_endian.cpp, on a little-endian host (the other case is symmetric). *)
Inductive endianness := Little | Big.
(** spirv_endian.cpp:34-42  spvFixWord *)
Definition bswap (word : N) : N :=
  N.lor (N.lor (N.lor (N.shiftl (N.land word 0xff) 24)
                      (N.shiftl (N.land word 0xff00) 8))
               (N.shiftr (N.land word 0xff0000) 8))
        (N.shiftr (N.land word 0xff000000) 24).
Definition fix_word (word : N) (e : endianness) : N :=
  match e with Little => word | Big => bswap word end.
(** spirv_endian.cpp:44-47  spvFixDoubleWord *)
Definition fix_double_word (low high : N) (e : endianness) : N :=
  N.lor (N.shiftl (fix_word high e) 32) (fix_word low e).
(** spirv_endian.cpp:49-70  spvBinaryEndianness (non-null pEndian); the bytes of the
    first word in memory order on a little-endian host. *)
Definition byte_of (word i : N) : N := N.land (N.shiftr word (8 * i)) 0xff.
Definition binary_endianness (words : list N) : option endianness :=
  match words with
  | [] => None
  | w :: _ =>
      let b := byte_of w in
      if (0x03 =? b 0) && (0x02 =? b 1) && (0x23 =? b 2) && (0x07 =? b 3) then Some Little
      else if (0x07 =? b 0) && (0x23 =? b 1) && (0x02 =? b 2) && (0x03 =? b 3) then Some Big
      else None
  end.

(** *** opcode.cpp *)
(** opcode.cpp:59-61  spvOpcodeMake: spv::Op is a 32-bit enum. *)
Definition opcode_make (word_count opcode : N) : N := N.lor opcode (N.shiftl word_count 16).
(** opcode.cpp:63-71  spvOpcodeSplit: (word count, opcode), both uint16_t. *)
Definition opcode_split (word : N) : N * N :=
  ((N.shiftr (N.land 0xffff0000 word) 16) mod 2 ^ 16, (N.land 0x0000ffff word) mod 2 ^ 16).
