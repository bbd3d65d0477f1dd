(** C03 (string words), C04 (bit helpers), C09 (first word packing). *)
From Verif Require Import Base Words WordsProofs BitUtilsProofs.
Local Open Scope N_scope.

(** *** C03 *)
(** Decoding an encoded NUL-free string gives it back, whatever words follow. *)
Theorem string_words_round_trip : forall s rest,
  Forall byte_ok s -> ~ In 0 s -> make_string (make_vector s ++ rest) = (s, true).
Proof. intros s rest F N0. rewrite make_string_vector by exact F. rewrite until_nul_id by exact N0. reflexivity. Qed.

(** With an embedded NUL exactly the prefix before it survives. *)
Theorem string_words_truncate_at_nul : forall s t rest,
  Forall byte_ok (s ++ 0 :: t) -> ~ In 0 s -> make_string (make_vector (s ++ 0 :: t) ++ rest) = (s, true).
Proof.
  intros s t rest F N0. rewrite make_string_vector by exact F.
  rewrite until_nul_app_nonul by exact N0. simpl. rewrite app_nil_r. reflexivity.
Qed.

(** Size, word range, termination and zero padding: the memory image of the encoding is
    the string followed by 1 to 4 zero bytes. *)
Theorem string_words_layout : forall s, Forall byte_ok s ->
  length (make_vector s) = (length s / 4 + 1)%nat /\ Forall word_ok (make_vector s) /\
  memory (make_vector s) = s ++ repeat 0 (4 - length s mod 4).
Proof.
  intros s F. rewrite make_vector_length by exact F.
  split; [lia|]. split; [exact (make_vector_words s F)|exact (make_vector_memory s F)].
Qed.

Theorem string_words_append_only : forall s v, append_to_vector s v = v ++ make_vector s.
Proof. exact append_acc. Qed.

(** MakeString on arbitrary words: the bytes before the first zero byte in memory order;
    the flag says whether there is one. *)
Theorem string_decoding_reads_up_to_nul : forall ws, Forall word_ok ws ->
  make_string ws = (until_nul (memory ws), existsb (fun b => b =? 0) (memory ws)).
Proof. exact make_string_memory. Qed.

Example string_words_example :
  make_vector [65; 66; 67; 68; 69] = [0x44434241; 0x45] /\
  make_string [0x44434241; 0x45; 0xffffffff] = ([65; 66; 67; 68; 69], true).
Proof. split; reflexivity. Qed.

(** *** C04 *)
Theorem mutate_bits_exact : forall w word first num value,
  word < 2 ^ w -> first < w -> first + num <= w ->
  exists r, mutate_bits w word first num value = Some r /\ r < 2 ^ w /\
    forall k, N.testbit r k = if (first <=? k) && (k <? first + num) then value else N.testbit word k.
Proof. exact mutate_bits_spec. Qed.

Theorem high_bits_exact : forall w word num (value : bool),
  0 < w -> word < 2 ^ w -> num <= w ->
  exists r, (if value then set_high_bits w word num else clear_high_bits w word num) = Some r /\ r < 2 ^ w /\
    forall k, N.testbit r k = if (w - num <=? k) && (k <? w) then value else N.testbit word k.
Proof. exact high_bits_spec. Qed.

(** The result is the [w]-bit two's complement representation of the signed value of the
    low [n] bits. *)
Theorem sign_extend_exact : forall w v n, 0 < w -> w <= 64 -> v < 2 ^ w -> 1 <= n <= w ->
  exists r, sign_extend_value w v n = Some r /\ r < 2 ^ w /\
    Z.of_N r = (signed_low v n mod 2 ^ Z.of_N w)%Z.
Proof. exact sign_extend_spec. Qed.

Theorem zero_extend_exact : forall w v n, 0 < w -> w <= 64 -> v < 2 ^ w -> 1 <= n <= w ->
  zero_extend_value w v n = Some (v mod 2 ^ n).
Proof. exact zero_extend_spec. Qed.

Theorem count_set_bits_exact : forall w v, v < 2 ^ w -> count_set_bits w v = Some (popcount (N.to_nat w) v).
Proof.
  intros w v H. unfold count_set_bits. rewrite (count_loop_spec (N.to_nat w)).
  - f_equal.
  - rewrite N2Nat.id. exact H.
  - apply popcount_le.
Qed.

Theorem lsb_exact : forall w v, v < 2 ^ w -> v <> 0 ->
  exists j, lsb w v = 2 ^ j /\ N.testbit v j = true /\ forall i, i < j -> N.testbit v i = false.
Proof. exact lsb_spec. Qed.

Theorem bit_at_position_exact : forall w word pos, word < 2 ^ w -> pos < w ->
  is_bit_at_position_set w word pos = Some (N.testbit word pos).
Proof. exact is_bit_spec. Qed.

Theorem set_bits_exact : forall num first k,
  N.testbit (set_bits first num) k = (first <=? k) && (k <? first + N.of_nat num).
Proof. exact set_bits_spec. Qed.

Example bit_utils_example :
  mutate_bits 32 0xffffffff 4 8 false = Some 0xfffff00f /\
  sign_extend_value 64 0x8001 16 = Some 0xffffffffffff8001 /\
  sign_extend_value 64 0x17fff 16 = Some 0x7fff /\
  signed_low 0x8001 16 = (-32767)%Z /\
  zero_extend_value 32 0xffff1234 16 = Some 0x1234 /\
  count_set_bits 32 0xf0f00001 = Some 9 /\ lsb 32 0x50 = 0x10 /\ set_bits 30 2 = 0xc0000000.
Proof. vm_compute. repeat split; reflexivity. Qed.

(** *** C09 *)
Theorem opcode_word_split_make : forall wc op, wc < 2 ^ 16 -> op < 2 ^ 16 ->
  opcode_split (opcode_make wc op) = (wc, op).
Proof. exact split_make. Qed.
Theorem opcode_word_make_split : forall w, word_ok w ->
  opcode_make (fst (opcode_split w)) (snd (opcode_split w)) = w.
Proof. exact make_split. Qed.
Example opcode_word_example : opcode_split 0x00030010 = (3, 16) /\ opcode_make 3 16 = 0x00030010.
Proof. split; reflexivity. Qed.

(** *** endianness helpers (used by C06) *)
Theorem byte_swap_reverses_bytes : forall w, word_ok w ->
  word_ok (bswap w) /\ bytes_of_word (bswap w) = rev (bytes_of_word w) /\ bswap (bswap w) = w.
Proof. intros w H. split; [exact (bswap_lt w H)|]. split; [exact (bswap_bytes w H)|exact (bswap_invol w H)]. Qed.
Theorem endianness_detected_from_magic : forall w ws, word_ok w ->
  (binary_endianness (w :: ws) = Some Little <-> w = 0x07230203) /\
  (binary_endianness (w :: ws) = Some Big <-> w = bswap 0x07230203).
Proof. exact binary_endianness_spec. Qed.

Print Assumptions string_words_round_trip.
Print Assumptions string_words_truncate_at_nul.
Print Assumptions string_words_layout.
Print Assumptions string_words_append_only.
Print Assumptions string_decoding_reads_up_to_nul.
Print Assumptions mutate_bits_exact.
Print Assumptions high_bits_exact.
Print Assumptions sign_extend_exact.
Print Assumptions zero_extend_exact.
Print Assumptions count_set_bits_exact.
Print Assumptions lsb_exact.
Print Assumptions bit_at_position_exact.
Print Assumptions set_bits_exact.
Print Assumptions opcode_word_split_make.
Print Assumptions opcode_word_make_split.
Print Assumptions byte_swap_reverses_bytes.
Print Assumptions endianness_detected_from_magic.
