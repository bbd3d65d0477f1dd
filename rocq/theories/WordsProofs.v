From Verif Require Import Base Words.
Local Open Scope N_scope.

(** *** arithmetic of disjoint bit fields *)
Lemma land_shift_disjoint x y n : x < 2 ^ n -> N.land x (N.shiftl y n) = 0.
Proof.
  intros H. apply N.bits_inj_0; intro k. rewrite N.land_spec. destruct (N.lt_ge_cases k n).
  - rewrite N.shiftl_spec_low by auto. apply andb_false_r.
  - rewrite (proj1 (N_lt_pow2_bits x n) H k) by auto; auto.
Qed.
Lemma lor_shift_add x y n : x < 2 ^ n -> N.lor x (N.shiftl y n) = x + y * 2 ^ n.
Proof.
  intros H. rewrite <- N.lxor_lor by (apply land_shift_disjoint; auto).
  rewrite <- N.add_nocarry_lxor by (apply land_shift_disjoint; auto).
  rewrite N.shiftl_mul_pow2; auto.
Qed.
Lemma land_255 x : N.land x 255 = x mod 256.
Proof. change 255 with (N.ones 8). rewrite N.land_ones. reflexivity. Qed.

Definition pack (a b c d : N) : N := a + b * 2 ^ 8 + c * 2 ^ 16 + d * 2 ^ 24.

Lemma pack_lor a b c d : a < 256 -> b < 256 -> c < 256 -> d < 256 ->
  N.lor (N.lor (N.lor (N.lor 0 (N.shiftl a (8 * 0))) (N.shiftl b (8 * 1))) (N.shiftl c (8 * 2))) (N.shiftl d (8 * 3))
  = pack a b c d.
Proof.
  intros. rewrite N.lor_0_l. change (8 * 0) with 0. rewrite N.shiftl_0_r.
  change (8 * 1) with 8; change (8 * 2) with 16; change (8 * 3) with 24.
  rewrite (lor_shift_add a b 8) by (change (2 ^ 8) with 256; lia).
  rewrite (lor_shift_add _ c 16) by (change (2 ^ 8) with 256; change (2 ^ 16) with 65536; lia).
  rewrite (lor_shift_add _ d 24) by (change (2 ^ 8) with 256; change (2 ^ 16) with 65536; change (2 ^ 24) with 16777216; lia).
  reflexivity.
Qed.
Lemma pack_byte0 a b c d : a < 256 -> b < 256 -> c < 256 -> d < 256 -> N.land (N.shiftr (pack a b c d) (8 * 0)) 255 = a.
Proof. intros. rewrite land_255, N.shiftr_div_pow2. unfold pack. change (2 ^ (8 * 0)) with 1. change (2 ^ 8) with 256; change (2 ^ 16) with 65536; change (2 ^ 24) with 16777216. lia. Qed.
Lemma pack_byte1 a b c d : a < 256 -> b < 256 -> c < 256 -> d < 256 -> N.land (N.shiftr (pack a b c d) (8 * (0 + 1))) 255 = b.
Proof. intros. rewrite land_255, N.shiftr_div_pow2. unfold pack. change (2 ^ (8 * (0 + 1))) with 256. change (2 ^ 8) with 256; change (2 ^ 16) with 65536; change (2 ^ 24) with 16777216. lia. Qed.
Lemma pack_byte2 a b c d : a < 256 -> b < 256 -> c < 256 -> d < 256 -> N.land (N.shiftr (pack a b c d) (8 * (0 + 1 + 1))) 255 = c.
Proof. intros. rewrite land_255, N.shiftr_div_pow2. unfold pack. change (2 ^ (8 * (0 + 1 + 1))) with 65536. change (2 ^ 8) with 256; change (2 ^ 16) with 65536; change (2 ^ 24) with 16777216. lia. Qed.
Lemma pack_byte3 a b c d : a < 256 -> b < 256 -> c < 256 -> d < 256 -> N.land (N.shiftr (pack a b c d) (8 * (0 + 1 + 1 + 1))) 255 = d.
Proof. intros. rewrite land_255, N.shiftr_div_pow2. unfold pack. change (2 ^ (8 * (0 + 1 + 1 + 1))) with 16777216. change (2 ^ 8) with 256; change (2 ^ 16) with 65536; change (2 ^ 24) with 16777216. lia. Qed.
Lemma pack_lt a b c d : a < 256 -> b < 256 -> c < 256 -> d < 256 -> pack a b c d < 2 ^ 32.
Proof. unfold pack. change (2 ^ 8) with 256; change (2 ^ 16) with 65536; change (2 ^ 24) with 16777216. change (2 ^ 32) with 4294967296. lia. Qed.

Lemma take_bytes_pack a b c d : a < 256 -> b < 256 -> c < 256 -> d < 256 ->
  take_bytes 4 0 (pack a b c d) =
    if a =? 0 then ([], true) else if b =? 0 then ([a], true) else if c =? 0 then ([a; b], true)
    else if d =? 0 then ([a; b; c], true) else ([a; b; c; d], false).
Proof.
  intros. cbn [take_bytes]. rewrite pack_byte0, pack_byte1, pack_byte2, pack_byte3 by auto.
  destruct (a =? 0); auto. destruct (b =? 0); auto. destruct (c =? 0); auto. destruct (d =? 0); auto.
Qed.

(** *** encoding, four bytes at a time *)
Lemma append_loop_acc bytes i w r :
  append_loop bytes i w r = (r ++ fst (append_loop bytes i w []), snd (append_loop bytes i w [])).
Proof.
  revert i w r; induction bytes as [|b bytes IH]; intros i w r; simpl.
  - rewrite app_nil_r; auto.
  - destruct (i mod 4 =? 3).
    + rewrite IH. rewrite (IH _ _ [_]). simpl. rewrite <- app_assoc; auto.
    + rewrite IH; auto.
Qed.
Lemma append_loop_idx bytes i j w r : i mod 4 = j mod 4 -> append_loop bytes i w r = append_loop bytes j w r.
Proof.
  revert i j w r; induction bytes as [|b bytes IH]; intros i j w r E; simpl; auto.
  rewrite E. destruct (j mod 4 =? 3); apply IH; lia.
Qed.
Lemma append_acc s r : append_to_vector s r = r ++ make_vector s.
Proof.
  unfold make_vector, append_to_vector. rewrite append_loop_acc.
  destruct (append_loop (s ++ [0]) 0 0 []) as [x w]. simpl.
  destruct (negb _); auto. rewrite app_assoc; auto.
Qed.

Lemma append4 a b c d rest r : a < 256 -> b < 256 -> c < 256 -> d < 256 ->
  append_loop (a :: b :: c :: d :: rest) 0 0 r = append_loop rest 0 0 (r ++ [pack a b c d]).
Proof.
  intros. cbn [append_loop].
  change (0 mod 4) with 0; change ((0 + 1) mod 4) with 1; change ((0 + 1 + 1) mod 4) with 2; change ((0 + 1 + 1 + 1) mod 4) with 3.
  change (0 =? 3) with false; change (1 =? 3) with false; change (2 =? 3) with false; change (3 =? 3) with true.
  cbv iota. rewrite pack_lor by auto. apply append_loop_idx. reflexivity.
Qed.

Lemma make_vector_step a b c d s : a < 256 -> b < 256 -> c < 256 -> d < 256 ->
  make_vector (a :: b :: c :: d :: s) = pack a b c d :: make_vector s.
Proof.
  intros. unfold make_vector, append_to_vector. cbn [app]. rewrite append4 by auto.
  rewrite append_loop_acc. destruct (append_loop (s ++ [0]) 0 0 []) as [x w]. cbn [length fst snd app].
  replace ((N.of_nat (S (S (S (S (length s))))) + 1) mod 4) with ((N.of_nat (length s) + 1) mod 4) by lia.
  destruct (negb _); auto.
Qed.
Lemma make_vector_0 : make_vector [] = [pack 0 0 0 0].
Proof. reflexivity. Qed.
Lemma make_vector_1 a : a < 256 -> make_vector [a] = [pack a 0 0 0].
Proof.
  intros. unfold make_vector, append_to_vector. simpl. f_equal. rewrite <- (pack_lor a 0 0 0) by lia.
  rewrite !N.shiftl_0_l, !N.lor_0_r. auto.
Qed.
Lemma make_vector_2 a b : a < 256 -> b < 256 -> make_vector [a; b] = [pack a b 0 0].
Proof.
  intros. unfold make_vector, append_to_vector. simpl. f_equal. rewrite <- (pack_lor a b 0 0) by lia.
  rewrite !N.shiftl_0_l, !N.lor_0_r. auto.
Qed.
Lemma make_vector_3 a b c : a < 256 -> b < 256 -> c < 256 -> make_vector [a; b; c] = [pack a b c 0].
Proof.
  intros. unfold make_vector, append_to_vector. cbn [app]. rewrite append4 by lia. reflexivity.
Qed.

Lemma list_ind4 (P : list N -> Prop) :
  P [] -> (forall a, P [a]) -> (forall a b, P [a; b]) -> (forall a b c, P [a; b; c]) ->
  (forall a b c d l, P l -> P (a :: b :: c :: d :: l)) -> forall l, P l.
Proof.
  intros H0 H1 H2 H3 H4 l.
  assert (X : forall n l, (length l <= n)%nat -> P l).
  { induction n; intros l' L.
    - destruct l'; [auto|simpl in L; lia].
    - destruct l' as [|a [|b [|c [|d l'']]]]; auto. apply H4, IHn. simpl in L; lia. }
  apply (X (length l)); auto.
Qed.

(** the prefix before the first NUL *)
Fixpoint until_nul (s : list N) : list N :=
  match s with [] => [] | c :: r => if c =? 0 then [] else c :: until_nul r end.

Lemma until_nul_id s : ~ In 0 s -> until_nul s = s.
Proof.
  induction s; simpl; intros H; auto. destruct (N.eqb_spec a 0); [exfalso; auto|]. rewrite IHs; auto.
Qed.

Lemma make_string_vector s rest : Forall byte_ok s ->
  make_string (make_vector s ++ rest) = (until_nul s, true).
Proof.
  unfold byte_ok. induction s using list_ind4; intros F; repeat rewrite Forall_cons_iff in F.
  - rewrite make_vector_0. cbn [app make_string]. rewrite take_bytes_pack by lia. reflexivity.
  - rewrite make_vector_1 by tauto. cbn [app make_string]. rewrite take_bytes_pack by (tauto || lia).
    simpl. destruct (a =? 0); auto.
  - rewrite make_vector_2 by tauto. cbn [app make_string]. rewrite take_bytes_pack by (tauto || lia).
    simpl. destruct (a =? 0); auto. destruct (b =? 0); auto.
  - rewrite make_vector_3 by tauto. cbn [app make_string]. rewrite take_bytes_pack by (tauto || lia).
    simpl. destruct (a =? 0); auto. destruct (b =? 0); auto. destruct (c =? 0); auto.
  - destruct F as (? & ? & ? & ? & F). rewrite make_vector_step by auto. cbn [app make_string].
    rewrite take_bytes_pack by auto. specialize (IHs F). rewrite IHs. cbn [until_nul].
    destruct (a =? 0); auto. destruct (b =? 0); auto. destruct (c =? 0); auto. destruct (d =? 0); auto.
Qed.

Lemma make_vector_length s : Forall byte_ok s -> length (make_vector s) = S (length s / 4).
Proof.
  unfold byte_ok. induction s using list_ind4; intros F; repeat rewrite Forall_cons_iff in F.
  - reflexivity.
  - rewrite make_vector_1 by tauto; auto.
  - rewrite make_vector_2 by tauto; auto.
  - rewrite make_vector_3 by tauto; auto.
  - destruct F as (? & ? & ? & ? & F). rewrite make_vector_step by auto. simpl length. rewrite IHs by auto.
    f_equal. change (S (S (S (S (length s))))) with (4 + length s)%nat.
    replace (4 + length s)%nat with (1 * 4 + length s)%nat by lia. rewrite Nat.div_add_l by lia. lia.
Qed.

Lemma make_vector_words s : Forall byte_ok s -> Forall word_ok (make_vector s).
Proof.
  unfold byte_ok, word_ok. induction s using list_ind4; intros F; repeat rewrite Forall_cons_iff in F.
  - repeat constructor.
  - rewrite make_vector_1 by tauto. repeat constructor. apply pack_lt; (tauto || lia).
  - rewrite make_vector_2 by tauto. repeat constructor. apply pack_lt; (tauto || lia).
  - rewrite make_vector_3 by tauto. repeat constructor. apply pack_lt; (tauto || lia).
  - destruct F as (? & ? & ? & ? & F). rewrite make_vector_step by auto. constructor; auto. apply pack_lt; auto.
Qed.

(** memory image of a word list: little-endian bytes *)
Definition bytes_of_word (w : N) : list N := [byte_of w 0; byte_of w 1; byte_of w 2; byte_of w 3].
Definition memory (ws : list N) : list N := flat_map bytes_of_word ws.

Lemma bytes_of_pack a b c d : a < 256 -> b < 256 -> c < 256 -> d < 256 -> bytes_of_word (pack a b c d) = [a; b; c; d].
Proof.
  intros. unfold bytes_of_word, byte_of. rewrite pack_byte0 by auto.
  change (8 * 1) with (8 * (0 + 1)). rewrite pack_byte1 by auto.
  change (8 * 2) with (8 * (0 + 1 + 1)). rewrite pack_byte2 by auto.
  change (8 * 3) with (8 * (0 + 1 + 1 + 1)). rewrite pack_byte3 by auto. auto.
Qed.

Lemma make_vector_memory s : Forall byte_ok s ->
  memory (make_vector s) = s ++ repeat 0 (4 - length s mod 4).
Proof.
  unfold byte_ok, memory. induction s using list_ind4; intros F; repeat rewrite Forall_cons_iff in F.
  - reflexivity.
  - rewrite make_vector_1 by tauto. cbn [flat_map]. rewrite bytes_of_pack by (tauto || lia). reflexivity.
  - rewrite make_vector_2 by tauto. cbn [flat_map]. rewrite bytes_of_pack by (tauto || lia). reflexivity.
  - rewrite make_vector_3 by tauto. cbn [flat_map]. rewrite bytes_of_pack by (tauto || lia). reflexivity.
  - destruct F as (? & ? & ? & ? & F). rewrite make_vector_step by auto. cbn [flat_map].
    rewrite bytes_of_pack by auto. rewrite IHs by auto. cbn [app].
    replace (length (a :: b :: c :: d :: s) mod 4)%nat with (length s mod 4)%nat; auto.
    cbn [length]. rewrite <- (Nat.mod_add (length s) 1 4) by lia. f_equal. lia.
Qed.

(** *** decoding of arbitrary words *)
Lemma pack_of_word w : w < 2 ^ 32 -> exists a b c d, a < 256 /\ b < 256 /\ c < 256 /\ d < 256 /\ w = pack a b c d.
Proof.
  intros H. change (2 ^ 32) with 4294967296 in H.
  exists (w mod 256), (w / 256 mod 256), (w / 65536 mod 256), (w / 16777216).
  unfold pack. change (2 ^ 8) with 256; change (2 ^ 16) with 65536; change (2 ^ 24) with 16777216.
  repeat split; try lia.
Qed.

Lemma until_nul_app_nonul l r : ~ In 0 l -> until_nul (l ++ r) = l ++ until_nul r.
Proof. induction l; simpl; intros H; auto. destruct (N.eqb_spec a 0); [exfalso; auto|]. rewrite IHl; auto. Qed.

(** MakeString reads the memory image up to the first zero byte, for any words *)
Lemma make_string_memory ws : Forall word_ok ws ->
  make_string ws = (until_nul (memory ws), existsb (fun b => b =? 0) (memory ws)).
Proof.
  unfold word_ok, memory. induction ws as [|w ws IH]; intros F; auto. inversion F; subst.
  destruct (pack_of_word w) as (a & b & c & d & Ha & Hb & Hc & Hd & ->); auto.
  cbn [make_string flat_map]. rewrite take_bytes_pack, bytes_of_pack by auto. rewrite IH by auto.
  cbn [app until_nul existsb].
  destruct (a =? 0); auto. destruct (b =? 0); auto. destruct (c =? 0); auto. destruct (d =? 0); auto.
Qed.

(** *** endianness *)
Lemma bswap_pack a b c d : a < 256 -> b < 256 -> c < 256 -> d < 256 -> bswap (pack a b c d) = pack d c b a.
Proof.
  intros. unfold bswap.
  assert (E1 : N.land (pack a b c d) 0xff = a).
  { rewrite land_255. unfold pack. change (2 ^ 8) with 256; change (2 ^ 16) with 65536; change (2 ^ 24) with 16777216. lia. }
  assert (M : forall m k, N.land (pack a b c d) (N.shiftl m k) = N.shiftl (N.land (N.shiftr (pack a b c d) k) m) k).
  { intros m k. apply N.bits_inj; intro j. rewrite N.land_spec.
    destruct (N.lt_ge_cases j k).
    - rewrite !N.shiftl_spec_low by auto. apply andb_false_r.
    - rewrite !N.shiftl_spec_high' by auto. rewrite N.land_spec, N.shiftr_spec'. replace (j - k + k) with j by lia. auto. }
  rewrite E1.
  change 0xff00 with (N.shiftl 255 8). rewrite (M 255 8). rewrite (pack_byte1 a b c d : _ -> _ -> _ -> _ -> N.land (N.shiftr (pack a b c d) 8) 255 = b) by auto.
  change 0xff0000 with (N.shiftl 255 16). rewrite (M 255 16). rewrite (pack_byte2 a b c d : _ -> _ -> _ -> _ -> N.land (N.shiftr (pack a b c d) 16) 255 = c) by auto.
  change 0xff000000 with (N.shiftl 255 24). rewrite (M 255 24). rewrite (pack_byte3 a b c d : _ -> _ -> _ -> _ -> N.land (N.shiftr (pack a b c d) 24) 255 = d) by auto.
  rewrite N.shiftl_shiftl. change (8 + 8) with 16.
  rewrite N.shiftr_shiftl_l by lia. change (16 - 8) with 8.
  rewrite N.shiftr_shiftl_l by lia. change (24 - 24) with 0.
  rewrite <- (pack_lor d c b a) by auto. rewrite N.lor_0_l. change (8 * 0) with 0; change (8 * 1) with 8; change (8 * 2) with 16; change (8 * 3) with 24.
  apply N.bits_inj; intro j. rewrite !N.lor_spec.
  destruct (N.testbit (N.shiftl a 24) j), (N.testbit (N.shiftl b 16) j), (N.testbit (N.shiftl c 8) j), (N.testbit (N.shiftl d 0) j); auto.
Qed.
Lemma bswap_invol w : w < 2 ^ 32 -> bswap (bswap w) = w.
Proof.
  intros H. destruct (pack_of_word w) as (a & b & c & d & Ha & Hb & Hc & Hd & ->); auto.
  rewrite !bswap_pack by auto. auto.
Qed.
Lemma bswap_lt w : w < 2 ^ 32 -> bswap w < 2 ^ 32.
Proof.
  intros H. destruct (pack_of_word w) as (a & b & c & d & Ha & Hb & Hc & Hd & ->); auto.
  rewrite bswap_pack by auto. apply pack_lt; auto.
Qed.
Lemma bswap_bytes w : w < 2 ^ 32 -> bytes_of_word (bswap w) = rev (bytes_of_word w).
Proof.
  intros H. destruct (pack_of_word w) as (a & b & c & d & Ha & Hb & Hc & Hd & ->); auto.
  rewrite bswap_pack, !bytes_of_pack by auto. auto.
Qed.

Lemma pack_inj a b c d a' b' c' d' : a < 256 -> b < 256 -> c < 256 -> d < 256 ->
  a' < 256 -> b' < 256 -> c' < 256 -> d' < 256 -> pack a b c d = pack a' b' c' d' -> a = a' /\ b = b' /\ c = c' /\ d = d'.
Proof. unfold pack. change (2 ^ 8) with 256; change (2 ^ 16) with 65536; change (2 ^ 24) with 16777216. lia. Qed.

Lemma binary_endianness_spec w ws : word_ok w ->
  (binary_endianness (w :: ws) = Some Little <-> w = 0x07230203) /\
  (binary_endianness (w :: ws) = Some Big <-> w = bswap 0x07230203).
Proof.
  unfold word_ok; intros H. destruct (pack_of_word w) as (a & b & c & d & Ha & Hb & Hc & Hd & ->); auto.
  unfold binary_endianness.
  pose proof (bytes_of_pack a b c d Ha Hb Hc Hd) as B. unfold bytes_of_word in B. injection B as -> -> -> ->.
  change 0x07230203 with (pack 3 2 0x23 7). rewrite bswap_pack by lia.
  assert (X : forall p q r s, p < 256 -> q < 256 -> r < 256 -> s < 256 ->
    ((p =? a) && (q =? b) && (r =? c) && (s =? d) = true <-> pack a b c d = pack p q r s)).
  { intros. rewrite !andb_true_iff, !N.eqb_eq. split.
    - intros [[[-> ->] ->] ->]; auto.
    - intros E. apply pack_inj in E; auto. intuition. }
  pose proof (X 3 2 0x23 7) as X1. pose proof (X 7 0x23 2 3) as X2.
  destruct (_ && _ && _ && _) eqn:E1.
  - split; [intuition; apply X1; lia|]. split; [discriminate|]. intros E.
    assert (pack a b c d = pack 3 2 35 7) by (apply X1; lia || auto). rewrite E in H0. apply pack_inj in H0; lia.
  - destruct ((7 =? a) && _ && _ && _) eqn:E2.
    + split.
      * split; [discriminate|]. intros E. assert (false = true) by (apply X1; lia || auto). discriminate.
      * split; auto. intros _. apply X2; lia || auto.
    + split; (split; [discriminate|]); intros E; assert (false = true) by ((apply X1 || apply X2); lia || auto); discriminate.
Qed.

Lemma fix_double_word_little lo hi : lo < 2 ^ 32 -> fix_double_word lo hi Little = lo + hi * 2 ^ 32.
Proof. intros. unfold fix_double_word; simpl. rewrite N.lor_comm. apply lor_shift_add; auto. Qed.

(** *** opcode packing *)
Lemma split_make wc op : wc < 2 ^ 16 -> op < 2 ^ 16 -> opcode_split (opcode_make wc op) = (wc, op).
Proof.
  intros Hw Ho. unfold opcode_make. rewrite lor_shift_add by auto.
  unfold opcode_split. rewrite !(N.land_comm _ (op + wc * 2 ^ 16)).
  change 0xffff with (N.ones 16) at 1. rewrite N.land_ones.
  change (2 ^ 16) with 65536 in *.
  assert (E : N.shiftr (N.land (op + wc * 65536) 0xffff0000) 16 = N.land (N.shiftr (op + wc * 65536) 16) (N.ones 16)).
  { rewrite N.shiftr_land. f_equal. }
  rewrite E, N.land_ones, N.shiftr_div_pow2. change (2 ^ 16) with 65536. f_equal; lia.
Qed.
Lemma make_split w : w < 2 ^ 32 -> opcode_make (fst (opcode_split w)) (snd (opcode_split w)) = w.
Proof.
  intros H. unfold opcode_split, opcode_make; simpl fst; simpl snd.
  rewrite !(N.land_comm _ w). change 0xffff with (N.ones 16) at 1. rewrite N.land_ones.
  assert (E : N.shiftr (N.land w 0xffff0000) 16 = N.land (N.shiftr w 16) (N.ones 16)).
  { rewrite N.shiftr_land. f_equal. }
  rewrite E, N.land_ones, N.shiftr_div_pow2. change (2 ^ 16) with 65536. change (2 ^ 32) with 4294967296 in H.
  rewrite lor_shift_add by (change (2 ^ 16) with 65536; lia). change (2 ^ 16) with 65536. lia.
Qed.
