(** Properties C10-C13: assembly text. *)
From Verif Require Import Base TextLex TextSpec TextProofs ParseNumber NumberSpec NumberProofs
  NamedIds IdSpec NamedIdsProofs.
Local Open Scope N_scope.

(** *** C10 *)
(** Without the option: one id per distinct name, 1, 2, 3, ... in order of first appearance;
    the bound is one more than the number of names. *)
Theorem names_get_dense_ids : forall names, N.of_nat (length names) + 2 < 2 ^ 32 ->
  exists ids, number_names false names = Some (ids, 1 + N.of_nat (length (first_appearances [] names))) /\
    Forall2 (fun n id => exists k, position (first_appearances [] names) n k /\ id = 1 + N.of_nat k) names ids.
Proof. exact number_names_dense. Qed.
Example names_dense_example :
  let foo := [102; 111; 111] in let one := [49] in
  number_names false [foo; one; foo; [50]; one] = Some ([1; 2; 1; 3; 2], 4) /\
  first_appearances [] [foo; one; foo; [50]; one] = [foo; one; [50]].
Proof. vm_compute. auto. Qed.

(** With the option.  Missing from the full claim: a numeric name whose value is 2^32-1 (see
    [preserved_id_bound_refuted]). *)
Theorem numeric_names_keep_their_value_partial : forall names,
  2 * N.of_nat (length names) + 4 < 2 ^ 32 ->
  Forall (fun n => is_valid_id n = true) names ->
  (forall n v, In n names -> numeric_name n v -> v <> 2 ^ 32 - 1) ->
  exists ids bound, number_names true names = Some (ids, bound) /\
    length ids = length names /\
    (forall i n id, nth_error names i = Some n -> nth_error ids i = Some id ->
       id < bound /\
       (forall v, numeric_name n v -> id = v) /\
       ((forall v, ~ numeric_name n v) -> id <> 0 /\ forall n' v, In n' names -> numeric_name n' v -> id <> v)) /\
    (forall i j n n' id id', nth_error names i = Some n -> nth_error names j = Some n' ->
       nth_error ids i = Some id -> nth_error ids j = Some id' ->
       (n = n' -> id = id') /\
       (n <> n' -> (forall v, ~ numeric_name n v) -> (forall v, ~ numeric_name n' v) -> id <> id')).
Proof. exact number_names_preserve. Qed.
(** The name 4294967295 is given the id 0xFFFFFFFF, but the bound computed from it wraps. *)
Theorem preserved_id_bound_refuted : exists names ids bound,
  Forall (fun n => is_valid_id n = true) names /\
  number_names true names = Some (ids, bound) /\ exists id, In id ids /\ bound <= id.
Proof.
  exists [[52; 50; 57; 52; 57; 54; 55; 50; 57; 53]], [4294967295], 1.
  split; [repeat constructor|]. split; [vm_compute; reflexivity|].
  exists 4294967295. split; [left; reflexivity|]. vm_compute. discriminate.
Qed.
Example names_preserved_example :
  let foo := [102; 111; 111] in
  number_names true [foo; [53]; [49]; [98]; foo; [50]] = Some ([3; 5; 1; 4; 3; 2], 6) /\
  numeric_name [53] 5 /\ is_valid_id foo = true.
Proof.
  split; [vm_compute; reflexivity|]. split; [|reflexivity]. split; [|reflexivity].
  exists false. change [53] with [48 + 5]. apply ut_dec; [discriminate|].
  apply num_one; [constructor|]; reflexivity.
Qed.

(** *** C11 *)
(** The assembler reads exactly the words of the text, whatever stands between them. *)
Theorem assembler_reads_the_words : forall ws text, layout ws text ->
  forall n, words n text = firstn n ws.
Proof. exact words_of_layout. Qed.
Theorem layout_does_not_matter : forall ws text1 text2, layout ws text1 -> layout ws text2 ->
  forall n, words n text1 = words n text2.
Proof. intros ws t1 t2 L1 L2 n. now rewrite (words_of_layout _ _ L1), (words_of_layout _ _ L2). Qed.
(** The words after the first one do not depend on how the first one was separated: what is left
    is again a layout of the remaining words (so the statement composes with every reader). *)
Theorem layout_read_one_word : forall ws text, layout ws text ->
  match ws with
  | [] => next_word text = None
  | w :: ws' => exists rest, next_word text = Some (w, rest) /\ layout ws' rest
  end.
Proof. exact layout_next. Qed.
(** Three words, the last one a string with a blank, a semicolon and an escaped quote, in two layouts. *)
Example layout_example :
  let w1 := [79; 112; 78] in let w2 := [37; 97] in let w3 := [34; 98; 32; 59; 92; 34; 34] in
  layout [w1; w2; w3] (w1 ++ [32] ++ w2 ++ [32] ++ w3 ++ []) /\
  layout [w1; w2; w3] ([10; 9] ++ w1 ++ [59; 44; 34; 10; 32] ++ w2 ++ [59; 10] ++ w3 ++ [32; 59; 120]).
Proof.
  assert (P1 : word [79; 112; 78]).
  { split; [|discriminate]. repeat (apply wb_plain; [unfold special, white; lia|]). constructor. }
  assert (P2 : word [37; 97]).
  { split; [|discriminate]. repeat (apply wb_plain; [unfold special, white; lia|]). constructor. }
  assert (P3 : word [34; 98; 32; 59; 92; 34; 34]).
  { split; [|discriminate]. apply (wb_string [98; 32; 59; 92; 34] []); [|constructor].
    repeat (apply sb_char; [lia..|]). apply sb_esc; [lia|]. constructor. }
  assert (G : gap [32]) by (apply gap_white; [left; reflexivity|constructor]).
  intros w1 w2 w3. subst w1 w2 w3. split.
  - apply (lay_word [] [79; 112; 78] [[37; 97]; [34; 98; 32; 59; 92; 34; 34]] [32]
             ([] ++ [37; 97] ++ [32] ++ [34; 98; 32; 59; 92; 34; 34] ++ [])); auto; try discriminate; [constructor|].
    apply (lay_word [] [37; 97] [[34; 98; 32; 59; 92; 34; 34]] [32]
             ([] ++ [34; 98; 32; 59; 92; 34; 34] ++ [])); auto; try discriminate; [constructor|].
    apply (lay_last [] _ []); auto; [constructor|]. constructor. constructor.
  - apply (lay_word [10; 9] [79; 112; 78] [[37; 97]; [34; 98; 32; 59; 92; 34; 34]] [59; 44; 34; 10; 32]
             ([] ++ [37; 97] ++ [59; 10] ++ [34; 98; 32; 59; 92; 34; 34] ++ [32; 59; 120]));
      auto; try discriminate.
    + apply gap_white; [unfold white; lia|]. apply gap_white; [unfold white; lia|constructor].
    + apply (gap_comment [44; 34] [32]); auto. repeat constructor; lia.
    + apply (lay_word [] [37; 97] [[34; 98; 32; 59; 92; 34; 34]] [59; 10]
               ([] ++ [34; 98; 32; 59; 92; 34; 34] ++ [32; 59; 120])); auto; try discriminate; [constructor| |].
      * apply (gap_comment [] []); constructor.
      * apply (lay_last [] _ [32; 59; 120]); auto; [constructor|]. apply (end_comment [32] [120]); auto.
        repeat constructor; lia.
Qed.

(** *** C12 *)
(** [after]: the end of the text, or any text starting with a separator (white space, ';', ',',
    '(' , ')' or NUL). *)
Theorem string_literal_round_trip : forall s after, Forall (fun c => c <> 0) s ->
  N.of_nat (length s) <= literal_string_bytes_max ->
  (match after with [] => True | c :: _ => In c [32; 9; 13; 10; 59; 44; 40; 41; 0] end) ->
  get_word (print_string s ++ after) = (print_string s, after) /\
  advance (print_string s ++ after) = (false, print_string s ++ after) /\
  text_to_literal (print_string s) = Lit_ok (Lit_string s).
Proof.
  intros s after F L B. pose proof (printed_string_word s F) as W. split; [|split].
  - apply word_get; [apply W|]. destruct after as [|c r]; simpl in *; auto.
    intuition (subst; auto).
  - now apply word_advance.
  - now apply print_string_read.
Qed.
Example string_literal_example :
  print_string [97; 34; 32; 92; 59] = [34; 97; 92; 34; 32; 92; 92; 59; 34] /\
  text_to_literal [34; 97; 92; 34; 32; 92; 92; 59; 34] = Lit_ok (Lit_string [97; 34; 32; 92; 59]).
Proof. split; reflexivity. Qed.

(** *** C13 *)
(** The parser accepts exactly the literals with a value representable in the type, and emits
    the encoding of that value.  [no_leading_space] holds of every word of an assembly text;
    see [negative_after_space_accepted] for what happens otherwise. *)
Theorem integer_literal_accepted_iff_representable : forall text width signed ws,
  1 <= width <= 64 -> no_leading_space text ->
  encode_integer text width signed = Enc_success ws <->
  exists v, literal_value width signed text v /\ representable width signed v /\ ws = encoding width v.
Proof. exact encode_integer_iff. Qed.
Theorem integer_literal_round_trip : forall width signed v,
  1 <= width <= 64 -> representable width signed v ->
  encode_integer (emit_integer (encoding width v) signed) width signed = Enc_success (encoding width v).
Proof. exact emit_encode_roundtrip. Qed.
Theorem wide_integers_unsupported : forall text width signed, 64 < width ->
  encode_integer text width signed = Enc_unsupported.
Proof. intros. unfold encode_integer. now replace (64 <? width) with true by lia. Qed.
(** Parsing an unsigned number of any width never wraps a negative literal around. *)
Theorem unsigned_parse_never_negative : forall bits text v,
  parse_number_unsigned bits (45 :: text) = Some v -> v = 0.
Proof.
  intros bits text v. unfold parse_number_unsigned.
  destruct (stream_int (45 :: text)) as [[[neg mag] [|? ?]]|]; try discriminate.
  destruct (mag <? 2 ^ bits); [|discriminate]. cbn zeta. rewrite N.eqb_refl. cbn [andb].
  destruct (N.eqb_spec (if neg then (2 ^ bits - mag) mod 2 ^ bits else mag) 0); cbn [negb]; [congruence | discriminate].
Qed.
(** With a leading blank the sign test (text[0] == '-') is fooled: minus one after a blank is accepted as an
    unsigned 64-bit literal. *)
Theorem negative_after_space_accepted :
  encode_integer [32; 45; 49] 64 false = Enc_success [4294967295; 4294967295].
Proof. vm_compute. reflexivity. Qed.
(** A module may hold a narrow constant whose unused high bits are not a sign- or
    zero-extension; the text printed for it is not accepted for the type. *)
Theorem non_canonical_literal_not_reassembled : exists w, w < 2 ^ 32 /\
  encode_integer (emit_integer [w] false) 16 false = Enc_invalid_text.
Proof. exists 65536. split; [reflexivity|vm_compute; reflexivity]. Qed.
Example integer_literal_example :
  encode_integer [48; 120; 56; 48; 48; 48] 16 true = Enc_success [4294934528] /\
  encode_integer [51; 50; 55; 54; 56] 16 true = Enc_invalid_text /\
  encode_integer [45; 51; 50; 55; 54; 56] 16 true = Enc_success [4294934528] /\
  encode_integer [45; 51; 50; 55; 54; 57] 16 true = Enc_invalid_text /\
  emit_integer [4294967294; 4294967295] true = [45; 50] /\
  representable 33 true (-4294967296) /\ encoding 33 (-4294967296) = [0; 4294967295].
Proof. vm_compute. intuition congruence. Qed.

Print Assumptions names_get_dense_ids.
Print Assumptions numeric_names_keep_their_value_partial.
Print Assumptions preserved_id_bound_refuted.
Print Assumptions assembler_reads_the_words.
Print Assumptions layout_does_not_matter.
Print Assumptions layout_read_one_word.
Print Assumptions string_literal_round_trip.
Print Assumptions integer_literal_accepted_iff_representable.
Print Assumptions integer_literal_round_trip.
Print Assumptions wide_integers_unsupported.
Print Assumptions unsigned_parse_never_negative.
Print Assumptions negative_after_space_accepted.
Print Assumptions non_canonical_literal_not_reassembled.
