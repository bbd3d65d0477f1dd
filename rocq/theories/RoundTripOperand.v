(** Round trip of single operands: what the parser accepts as an operand, the disassembler
    prints as one word, and the assembler reads back as the same words (ids renamed). *)
From Verif Require Import Base Words WordsProofs Operand OperandProofs BinaryParse ParseSpec BinaryParseProofs.
From Verif Require Import TextLex TextSpec TextProofs ParseNumber NumberSpec NumberProofs NamedIds NamedIdsProofs.
From Verif Require Import Assembler Disassembler RoundTripSpec TokenReader.
Local Open Scope N_scope.
Set Default Proof Using "Type".

(** *** What the parser's switch does, by kind of operand *)
Section Case.
Variable g : grammar.
Variable words : list N.
Notation switch := (parse_operand_switch g false words Little).

Definition plain_op (off : N) (ty : otype) : poperand :=
  {| o_offset := off; o_num_words := 1; o_type := ty; o_kind := NK_NONE; o_bit_width := 0; o_encoding := 0 |}.
Definition with_ext (c : cur) (s : N) : cur :=
  {| c_ext := s; c_type := c_type c; c_result := c_result c; c_words := c_words c; c_ops := c_ops c; c_exp := c_exp c |}.
Definition with_type (c : cur) (s : N) : cur :=
  {| c_ext := c_ext c; c_type := s; c_result := c_result c; c_words := c_words c; c_ops := c_ops c; c_exp := c_exp c |}.
Definition with_result (c : cur) (s : N) : cur :=
  {| c_ext := c_ext c; c_type := c_type c; c_result := s; c_words := c_words c; c_ops := c_ops c; c_exp := c_exp c |}.

Inductive pcase (io : nat) (op : N) (ty : otype) (word off : N) (st : pstate) (c : cur) : pstate -> cur -> poperand -> Prop :=
| pc_type : ty = T_TYPE_ID -> word <> 0 -> pcase io op ty word off st c st (with_type c word) (plain_op off T_TYPE_ID)
| pc_result : ty = T_RESULT_ID -> word <> 0 -> id_to_type_id st word = None ->
    pcase io op ty word off st c
      {| word_index := word_index st;
         id_to_type_id := upd (id_to_type_id st) word (if g_generates_type g op then word else c_type c);
         number_info := number_info st; imports := imports st |}
      (with_result c word) (plain_op off T_RESULT_ID)
| pc_id : ty = T_ID \/ ty = T_OPTIONAL_ID -> word <> 0 -> is_extended_instruction op && (off =? 3) = false ->
    pcase io op ty word off st c st c (plain_op off T_ID)
| pc_set s : ty = T_ID \/ ty = T_OPTIONAL_ID -> word <> 0 -> is_extended_instruction op = true -> off = 3 ->
    imports st word = Some s -> pcase io op ty word off st c st (with_ext c s) (plain_op off T_ID)
| pc_scope : ty = T_SCOPE_ID \/ ty = T_MEMORY_SEMANTICS_ID -> word <> 0 ->
    pcase io op ty word off st c st c (plain_op off ty)
| pc_ext ts : ty = T_EXTENSION_INSTRUCTION_NUMBER -> g_ext_inst g (c_ext c) word = Some ts ->
    pcase io op ty word off st c st
      (with_exp c (push_operand_types ts (if is_non_semantic (c_ext c) then T_VARIABLE_ID :: c_exp c else c_exp c)))
      (plain_op off ty)
| pc_ext_new : ty = T_EXTENSION_INSTRUCTION_NUMBER -> g_ext_inst g (c_ext c) word = None ->
    is_non_semantic (c_ext c) = true ->
    pcase io op ty word off st c st (with_exp c (T_VARIABLE_ID :: c_exp c)) (plain_op off ty)
| pc_spec a b ts : ty = T_SPEC_CONSTANT_OP_NUMBER -> g_spec_op g word = true -> g_opcode g word = Some (a :: b :: ts) ->
    pcase io op ty word off st c st (with_exp c (push_operand_types ts (c_exp c))) (plain_op off ty)
| pc_int : ty = T_LITERAL_INTEGER \/ ty = T_OPTIONAL_LITERAL_INTEGER ->
    pcase io op ty word off st c st c {| o_offset := off; o_num_words := 1; o_type := T_LITERAL_INTEGER;
      o_kind := NK_UNSIGNED_INT; o_bit_width := 32; o_encoding := 0 |}
| pc_float : ty = T_LITERAL_FLOAT ->
    pcase io op ty word off st c st c {| o_offset := off; o_num_words := 1; o_type := T_LITERAL_FLOAT;
      o_kind := NK_FLOATING; o_bit_width := 32; o_encoding := 0 |}
| pc_typed info nw tid : ty = T_TYPED_LITERAL_NUMBER \/ ty = T_OPTIONAL_TYPED_LITERAL_INTEGER ->
    set_numeric_type_info st tid = Some (info, nw) ->
    (op = OpSwitch /\ (exists sel, peek_at words Little (io + 1) = Some sel /\ id_to_type_id st sel = Some tid /\
                                   tid <> 0 /\ tid <> sel) /\
     (n_kind info = NK_UNSIGNED_INT \/ n_kind info = NK_SIGNED_INT)) \/ (op <> OpSwitch /\ tid = c_type c) ->
    pcase io op ty word off st c st c {| o_offset := off; o_num_words := nw; o_type := T_TYPED_LITERAL_NUMBER;
      o_kind := n_kind info; o_bit_width := n_width info; o_encoding := n_encoding info |}
| pc_string s : ty = T_LITERAL_STRING \/ ty = T_OPTIONAL_LITERAL_STRING ->
    s = fst (make_string (firstn (length words - word_index st) (skipn (word_index st) words))) ->
    op <> OpExtInstImport -> N.of_nat (length s / 4 + 1) <= 65535 ->
    pcase io op ty word off st c st c {| o_offset := off; o_num_words := N.of_nat (length s / 4 + 1);
      o_type := T_LITERAL_STRING; o_kind := NK_NONE; o_bit_width := 0; o_encoding := 0 |}
| pc_import s : ty = T_LITERAL_STRING \/ ty = T_OPTIONAL_LITERAL_STRING ->
    s = fst (make_string (firstn (length words - word_index st) (skipn (word_index st) words))) ->
    op = OpExtInstImport -> ext_import_type s <> 0 -> N.of_nat (length s / 4 + 1) <= 65535 ->
    pcase io op ty word off st c
      {| word_index := word_index st; id_to_type_id := id_to_type_id st; number_info := number_info st;
         imports := upd (imports st) (c_result c) (ext_import_type s) |}
      c {| o_offset := off; o_num_words := N.of_nat (length s / 4 + 1);
      o_type := T_LITERAL_STRING; o_kind := NK_NONE; o_bit_width := 0; o_encoding := 0 |}
| pc_enum ts : is_enum_case ty = true \/ ty = T_SOURCE_LANGUAGE -> g_operand g ty word = Some ts ->
    pcase io op ty word off st c st (with_exp c (push_operand_types ts (c_exp c))) (plain_op off (enum_concrete ty))
| pc_mask p : is_mask_case ty = true -> mask_loop g ty 32 word (c_exp c) = Ok (Some p) ->
    pcase io op ty word off st c st
      (with_exp c (if word =? 0 then match g_operand g ty 0 with Some ts => push_operand_types ts p | None => p end else p))
      (plain_op off (enum_concrete ty)).

Section Cases.
Variable ms : otype -> N -> pattern -> outcome (option pattern).
Hypothesis MS : forall a b p, ms a b p = mask_loop g a 32 b p.
Notation switchm := (parse_operand_switch_with g false words Little ms).
Notation pcase_at io op ty word st := (pcase io op ty word (N.of_nat (word_index st - io) mod 2 ^ 16) st).

Lemma enum_cases io op ty word st c : is_enum_case ty = true \/ ty = T_SOURCE_LANGUAGE ->
  switchm io op ty word st c =
  match g_operand g ty word with
  | None => Err SPV_ERROR_INVALID_BINARY false
  | Some ts => Ok (st, with_exp c (push_operand_types ts (c_exp c)),
                   plain_op (N.of_nat (word_index st - io) mod 2 ^ 16) (enum_concrete ty))
  end.
Proof. intros [E | ->]; [|reflexivity]. destruct ty; try discriminate E; reflexivity. Qed.
Lemma mask_cases io op ty word st c : is_mask_case ty = true ->
  switchm io op ty word st c =
  match ms ty word (c_exp c) with
  | Stuck => Stuck
  | Err e r => Err e r
  | Ok None => Err SPV_ERROR_INVALID_BINARY false
  | Ok (Some p) =>
      Ok (st, with_exp c (if word =? 0 then match g_operand g ty 0 with Some ts => push_operand_types ts p | None => p end else p),
          plain_op (N.of_nat (word_index st - io) mod 2 ^ 16) (enum_concrete ty))
  end.
Proof. intros E. destruct ty; try discriminate E; reflexivity. Qed.
Lemma other_cases io op ty word st c : is_enum_case ty = false -> ty <> T_SOURCE_LANGUAGE -> is_mask_case ty = false ->
  switchm io op ty word st c = Err SPV_ERROR_INVALID_BINARY false \/
  In ty [T_TYPE_ID; T_RESULT_ID; T_ID; T_OPTIONAL_ID; T_SCOPE_ID; T_MEMORY_SEMANTICS_ID;
         T_EXTENSION_INSTRUCTION_NUMBER; T_SPEC_CONSTANT_OP_NUMBER; T_LITERAL_INTEGER; T_OPTIONAL_LITERAL_INTEGER;
         T_LITERAL_FLOAT; T_TYPED_LITERAL_NUMBER; T_OPTIONAL_TYPED_LITERAL_INTEGER; T_LITERAL_STRING;
         T_OPTIONAL_LITERAL_STRING].
Proof.
  intros E N M. destruct ty; try discriminate E; try discriminate M; try (exfalso; apply N; reflexivity); try (left; reflexivity);
    right; simpl; tauto.
Qed.

Lemma id_cases io op ty word st c st1 c1 o : ty = T_ID \/ ty = T_OPTIONAL_ID ->
  switchm io op ty word st c = Ok (st1, c1, o) -> pcase_at io op ty word st c st1 c1 o.
Proof.
  intros T H.
  assert (H' : (if word =? 0 then Err SPV_ERROR_INVALID_ID false
      else if is_extended_instruction op && (N.of_nat (word_index st - io) mod 2 ^ 16 =? 3) then
        match imports st word with
        | None => Err SPV_ERROR_INVALID_ID false
        | Some s => Ok (st, with_ext c s, plain_op (N.of_nat (word_index st - io) mod 2 ^ 16) T_ID)
        end
      else Ok (st, c, plain_op (N.of_nat (word_index st - io) mod 2 ^ 16) T_ID)) = Ok (st1, c1, o)).
  { rewrite <- H. destruct T as [-> | ->]; reflexivity. }
  clear H. revert H'. generalize (N.of_nat (word_index st - io) mod 2 ^ 16). intros off H.
  destruct (word =? 0) eqn:Z; [discriminate H|]; apply N.eqb_neq in Z.
  destruct (is_extended_instruction op && (off =? 3)) eqn:X.
  - apply andb_true_iff in X. destruct X as [X1 X2]. apply N.eqb_eq in X2.
    destruct (imports st word) eqn:I; [|discriminate]. injection H as <- <- <-. eapply pc_set; eauto.
  - injection H as <- <- <-. apply pc_id; auto.
Qed.
Lemma typed_cases io op ty word st c st1 c1 o : ty = T_TYPED_LITERAL_NUMBER \/ ty = T_OPTIONAL_TYPED_LITERAL_INTEGER ->
  switchm io op ty word st c = Ok (st1, c1, o) -> pcase_at io op ty word st c st1 c1 o.
Proof.
  intros T H.
  assert (H' : switchm io op T_TYPED_LITERAL_NUMBER word st c = Ok (st1, c1, o)).
  { rewrite <- H. destruct T as [-> | ->]; reflexivity. }
  clear H. revert H'. unfold parse_operand_switch_with. cbv beta iota zeta.
  generalize (N.of_nat (word_index st - io) mod 2 ^ 16). intros off H.
  destruct (op =? OpSwitch) eqn:O; [apply N.eqb_eq in O|apply N.eqb_neq in O].
  - destruct (peek_at words Little (io + 1)) as [sel|] eqn:P; [|discriminate].
    destruct (id_to_type_id st sel) as [tid|] eqn:I; [|discriminate].
    destruct (N.eqb_spec tid 0); [discriminate|]. destruct (N.eqb_spec sel tid); [discriminate|].
    destruct (set_numeric_type_info st tid) as [[info nw]|] eqn:SN; [|discriminate].
    assert (K : n_kind info = NK_UNSIGNED_INT \/ n_kind info = NK_SIGNED_INT).
    { destruct (n_kind info); try discriminate H; auto. }
    assert (Q : Ok (st, c, {| o_offset := off; o_num_words := nw; o_type := T_TYPED_LITERAL_NUMBER;
      o_kind := n_kind info; o_bit_width := n_width info; o_encoding := n_encoding info |}) = Ok (st1, c1, o)).
    { rewrite <- H. destruct K as [-> | ->]; reflexivity. }
    injection Q as <- <- <-. apply pc_typed with (tid := tid); [auto|assumption|]. left. split; [exact O|].
    split; [|exact K]. exists sel. auto.
  - cbn [andb] in H. destruct (set_numeric_type_info st (c_type c)) as [[info nw]|] eqn:SN; [|discriminate].
    injection H as <- <- <-. apply pc_typed with (tid := c_type c); auto.
Qed.
Lemma string_cases io op ty word st c st1 c1 o : ty = T_LITERAL_STRING \/ ty = T_OPTIONAL_LITERAL_STRING ->
  switchm io op ty word st c = Ok (st1, c1, o) -> pcase_at io op ty word st c st1 c1 o.
Proof. clear .
  intros T H.
  assert (H' : switchm io op T_LITERAL_STRING word st c = Ok (st1, c1, o)).
  { rewrite <- H. destruct T as [-> | ->]; reflexivity. }
  clear H. revert H'. unfold parse_operand_switch_with. cbv beta iota zeta.
  generalize (N.of_nat (word_index st - io) mod 2 ^ 16). intros off H.
  destruct (_ =? _)%nat; [discriminate|]. destruct (65535 <? _) eqn:L; [discriminate|].
  apply N.ltb_ge in L. rewrite (N.mod_small _ (2 ^ 16)) in H by (change (2 ^ 16) with 65536; lia).
  destruct (op =? OpExtInstImport) eqn:O; [apply N.eqb_eq in O|apply N.eqb_neq in O].
  - destruct (ext_import_type _ =? 0) eqn:Z; [discriminate|]. apply N.eqb_neq in Z. injection H as <- <- <-.
    apply pc_import; auto.
  - injection H as <- <- <-. apply pc_string; auto.
Qed.

Lemma pcase_with io op ty word st c st1 c1 o :
  switchm io op ty word st c = Ok (st1, c1, o) -> pcase_at io op ty word st c st1 c1 o.
Proof using MS.
  intros H.
  destruct (is_enum_case ty) eqn:E.
  { rewrite (enum_cases io op ty word st c (or_introl E)) in H. destruct (g_operand g ty word) eqn:G; [|discriminate].
    injection H as <- <- <-. apply pc_enum; auto. }
  destruct (otype_eqb ty T_SOURCE_LANGUAGE) eqn:SL.
  { apply otype_eqb_eq in SL. rewrite (enum_cases io op ty word st c (or_intror SL)) in H.
    destruct (g_operand g ty word) eqn:G; [|discriminate]. injection H as <- <- <-. apply pc_enum; auto. }
  destruct (is_mask_case ty) eqn:M.
  { rewrite (mask_cases io op ty word st c M) in H. destruct (ms ty word (c_exp c)) as [[p|]|?|] eqn:L; try discriminate.
    rewrite MS in L. injection H as <- <- <-. apply pc_mask; auto. }
  destruct (other_cases io op ty word st c E) as [X|X]; [intros ->; discriminate SL|exact M|rewrite X in H; discriminate|].
  clear E SL M.
  destruct X as [<-|[<-|[<-|[<-|[<-|[<-|[<-|[<-|[<-|[<-|[<-|[<-|[<-|[<-|[<-|[]]]]]]]]]]]]]]]];
    try (apply id_cases; [solve [auto]|exact H]); try (apply typed_cases; [solve [auto]|exact H]); try (apply string_cases; [solve [auto]|exact H]);
    revert H; unfold parse_operand_switch_with; cbv beta iota zeta;
    generalize (N.of_nat (word_index st - io) mod 2 ^ 16); intros off H;
    try (destruct (word =? 0) eqn:Z; [discriminate H|]; apply N.eqb_neq in Z).
  - injection H as <- <- <-. apply pc_type; auto.
  - destruct (id_to_type_id st word) eqn:I; [discriminate|]. injection H as <- <- <-. apply pc_result; auto.
  - injection H as <- <- <-. apply pc_scope; auto.
  - injection H as <- <- <-. apply pc_scope; auto.
  - destruct (g_ext_inst g (c_ext c) word) eqn:X.
    + injection H as <- <- <-. apply pc_ext; auto.
    + destruct (is_non_semantic (c_ext c)) eqn:NS; [|discriminate]. injection H as <- <- <-. apply pc_ext_new; auto.
  - destruct (g_spec_op g word) eqn:S; [|rewrite orb_true_r in H; discriminate].
    destruct (g_op_max g <? word); [discriminate|]. cbn [orb negb] in H.
    destruct (g_opcode g word) as [[|a [|b ts]]|] eqn:G; try discriminate. injection H as <- <- <-.
    apply pc_spec with (a := a) (b := b); auto.
  - injection H as <- <- <-. apply pc_int; auto.
  - injection H as <- <- <-. apply pc_int; auto.
  - injection H as <- <- <-. apply pc_float; auto.
Qed.
End Cases.

Lemma pcase_intro io op ty word st c st1 c1 o :
  switch io op ty word st c = Ok (st1, c1, o) ->
  pcase io op ty word (N.of_nat (word_index st - io) mod 2 ^ 16) st c st1 c1 o.
Proof. exact (pcase_with _ (fun a b p => eq_refl) io op ty word st c st1 c1 o). Qed.
End Case.
