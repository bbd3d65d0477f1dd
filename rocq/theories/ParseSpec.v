(** Specification vocabulary for the binary parser: small definitions that do not mention the
    parser's own functions. *)
From Verif Require Import Base Words BinaryParse.
Local Open Scope N_scope.

(** The operands [ops] tile the word offsets from [start] to [stop]: the first begins at
    [start], each next one where the previous one ends, the last ends at [stop]. *)
Fixpoint tiles (start : N) (ops : list poperand) (stop : N) : Prop :=
  match ops with
  | [] => start = stop
  | o :: r => o_offset o = start /\ tiles (start + o_num_words o) r stop
  end.

(** The instructions reported in a trace, in callback order. *)
Definition insts_of (tr : list event) : list pinst :=
  flat_map (fun e => match e with EInst i => [i] | EHeader _ _ _ _ _ _ => [] end) tr.

(** The words of a module in host order. *)
Definition host_words (e : endianness) (words : list N) : list N := map (fun w => fix_word w e) words.

(** What the generated tables must satisfy for the parser's own indexing to be safe: the
    spec-constant opcodes have at least a type and a result operand, OpTypeInt has exactly
    a result id and two literals, OpTypeFloat starts with a result id and a literal. *)
Definition grammar_ok (g : grammar) : Prop :=
  (forall op ts, g_spec_op g op = true -> g_opcode g op = Some ts -> (2 <= length ts)%nat) /\
  (forall ts, g_opcode g OpTypeInt = Some ts -> ts = [T_RESULT_ID; T_LITERAL_INTEGER; T_LITERAL_INTEGER]) /\
  (forall ts, g_opcode g OpTypeFloat = Some ts ->
     exists r, ts = T_RESULT_ID :: T_LITERAL_INTEGER :: r).

(** Every callback before the last returned success; if the last did not, its code is the
    result. *)
Definition stops_at_first_failure (cb : callbacks) (tr : list event) (code : Z) : Prop :=
  forall k e, nth_error tr k = Some e ->
    ((S k < length tr)%nat -> cb (firstn k tr) e = SPV_SUCCESS) /\
    (S k = length tr -> cb (firstn k tr) e <> SPV_SUCCESS -> code = cb (firstn k tr) e).

(** The positions at which instructions start, walking the words from the header on by the
    word count in the high half of each first word. *)
Inductive inst_start (words : list N) : nat -> Prop :=
| start_first : inst_start words 5
| start_next p w : inst_start words p -> nth_error words p = Some w ->
    inst_start words (p + N.to_nat (w / 2 ^ 16)).

(** The word of an operand of a reported instruction, and the words of its operands of a
    given type. *)
Definition operand_word (i : pinst) (o : poperand) : N := nth (N.to_nat (o_offset o)) (i_words i) 0.
Definition words_of_type (t : otype) (i : pinst) : list N :=
  map (operand_word i) (filter (fun o => otype_eqb (o_type o) t) (i_operands i)).
