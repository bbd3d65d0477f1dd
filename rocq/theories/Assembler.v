(** Model of the assembler: source/text.cpp (spvTextEncodeOperand, spvTextEncodeOpcode,
    spvTextToBinaryInternal) and the rest of AssemblyContext, source/text_handler.cpp.

    The name tables are generated from SPIRV-Headers, which are not part of the repository:
    they are a parameter [tables], used together with the [grammar] of the parser.
    The assembler looks at its text only through the functions of [reader]; [text_reader] is
    the one that models the code.  front() of an empty string, reading a word an instruction
    does not have and an endless loop are the outcome [AStuck], distinct from every result.
    Diagnostic texts and positions are not modelled. *)
From Verif Require Import Base Words TextLex ParseNumber NamedIds.
From Verif Require Export BinaryParse.
Local Open Scope N_scope.

(** libspirv.h:60-88  spv_result_t *)
Definition SPV_FAILED_MATCH : Z := 4.
Definition SPV_ERROR_OUT_OF_MEMORY : Z := -2.
Definition SPV_ERROR_INVALID_TEXT : Z := -5.
Definition SPV_ERROR_INVALID_LOOKUP : Z := -9.

(** Opcodes the assembler names (values from the SPIR-V specification). *)
Definition OpConstant : N := 43.
Definition OpSpecConstant : N := 50.

(** The generated name tables.  The entry found by a name is the one with that number in the
    by-value tables, so its operands are those of the [grammar].  The conversion of a number
    between its bits and its text is left to the C++ library for most floating point values
    (util/hex_float.h: operator<< and operator>>), so it is a parameter here. *)
Record tables := {
  t_op_name : N -> list N;                   (* LookupOpcode(op)->name() *)
  t_op_find : list N -> option N;            (* LookupOpcodeForEnv(env, name)->opcode *)
  t_op_env : N -> bool;                      (* LookupOpcodeForEnv(env, op) succeeds *)
  t_has_result : N -> bool;                  (* InstructionDesc::hasResult *)
  t_has_type : N -> bool;                    (* InstructionDesc::hasType *)
  t_operand_name : otype -> N -> list N;     (* LookupOperand(type, value)->name() *)
  t_operand_find : otype -> list N -> option N;   (* LookupOperand(type, name)->value *)
  t_ext_name : N -> N -> list N;             (* LookupExtInst(set, number)->name() *)
  t_ext_find : N -> list N -> option N;      (* LookupExtInst(set, name)->value *)
  t_spec_find : list N -> option N;          (* lookupSpecConstantOpcode(name) *)
  t_float_show : N -> N -> list N;           (* encoding, bits: the text of the number *)
  t_float_read : N -> list N -> option N;    (* encoding, text: the bits, or failure *)
  t_version : N;                             (* spvVersionForTargetEnv(env) *)
  t_generator : N -> list N                  (* spvGeneratorStr *)
}.

Inductive aout (A : Type) := AOk (a : A) | AErr (code : Z) | AStuck.
Arguments AOk {A}. Arguments AErr {A}. Arguments AStuck {A}.

(** text_handler.h:47-66  IdTypeClass, IdType *)
Inductive id_class := IC_BOTTOM | IC_INT | IC_FLOAT | IC_OTHER.
Record id_type := { it_width : N; it_signed : bool; it_class : id_class; it_enc : N }.
(** text_handler.cpp:192  kUnknownType *)
Definition unknown_type : id_type := {| it_width := 0; it_signed := false; it_class := IC_BOTTOM; it_enc := 0 |}.

(** instruction.h:26-44  spv_instruction_t *)
Record ainst := { a_opcode : N; a_ext : N; a_rtype : N; a_words : list N }.
(** text_handler.h:257-270  the members of AssemblyContext; the unordered_maps other than the
    names are partial functions *)
Record actx := { x_ids : id_ctx; x_types : N -> option id_type; x_values : N -> option N;
                 x_imports : N -> option N }.
Definition set_ids (x : actx) (i : id_ctx) : actx :=
  {| x_ids := i; x_types := x_types x; x_values := x_values x; x_imports := x_imports x |}.
Definition init_actx (keep : list N) : actx :=
  {| x_ids := init_ctx keep; x_types := fun _ => None; x_values := fun _ => None; x_imports := fun _ => None |}.

(** instruction.h:47-49  spvInstructionAddWord; text_handler.cpp:274-278 binaryEncodeU32 *)
Definition add_words (i : ainst) (ws : list N) : ainst :=
  {| a_opcode := a_opcode i; a_ext := a_ext i; a_rtype := a_rtype i; a_words := a_words i ++ ws |}.

(** parse_number.cpp:134-146  DeduceEncoding.  The encodings are the values of
    spv_fp_encoding_t, libspirv.h:395-409: 0 unknown, 1 binary16, 2 binary32, 3 binary64,
    4 bfloat16, 5 E4M3, 6 E5M2, 7 E2M3, 8 E3M2, 9 E2M1, 10 E8M0, 11 MXINT8. *)
Definition deduce_encoding (width enc : N) : N :=
  if negb (enc =? 0) then enc
  else if width =? 16 then 1 else if width =? 32 then 2 else if width =? 64 then 3 else 0.

(** The operand types of text.cpp:416-431, the mask cases of spvTextEncodeOperand *)
Definition asm_mask_case (t : otype) : bool :=
  match t with
  | T_FP_FAST_MATH_MODE | T_FUNCTION_CONTROL | T_LOOP_CONTROL | T_IMAGE | T_OPTIONAL_IMAGE
  | T_TENSOR_OPERANDS | T_OPTIONAL_TENSOR_OPERANDS | T_OPTIONAL_MEMORY_ACCESS
  | T_OPTIONAL_RAW_ACCESS_CHAIN_OPERANDS | T_SELECTION_CONTROL | T_DEBUG_INFO_FLAGS
  | T_CLDEBUG100_DEBUG_INFO_FLAGS | T_OPTIONAL_COOPERATIVE_MATRIX_OPERANDS
  | T_TENSOR_ADDRESSING_OPERANDS | T_COOPERATIVE_MATRIX_REDUCE
  | T_OPTIONAL_MATRIX_MULTIPLY_ACCUMULATE_OPERANDS => true
  | _ => false
  end.

(** assembly_grammar.cpp:59-71  the splitting of a mask expression at its separators *)
Fixpoint split_bar (l : list N) : list (list N) :=
  match l with
  | [] => [[]]
  | c :: r => if c =? 124 then [] :: split_bar r
              else match split_bar r with
                   | w :: ws => (c :: w) :: ws
                   | [] => [[c]]
                   end
  end.
Fixpoint mask_value (find : list N -> option N) (ws : list (list N)) (value : N) : option N :=
  match ws with
  | [] => Some value
  | w :: r => match find w with
              | None => None
              | Some v => mask_value find r (N.lor value v)
              end
  end.

Section Operands.
Variable g : grammar.
Variable t : tables.

(** assembly_grammar.cpp:43-75  spvTextParseMaskOperand: the value or an error code *)
Definition parse_mask (ty : otype) (text : list N) : N + Z :=
  match text with
  | [] => inr SPV_ERROR_INVALID_TEXT
  | _ => match mask_value (t_operand_find t ty) (split_bar text) 0 with
         | Some v => inl v
         | None => inr SPV_ERROR_INVALID_LOOKUP
         end
  end.

(** text_handler.cpp:280-335  binaryEncodeNumericLiteral, with parse_number.cpp:147-323
    (ParseAndEncodeFloatingPointNumber, ParseAndEncodeNumber) *)
Definition float_literal (text : list N) (width enc : N) : encode_result :=
  let e := deduce_encoding width enc in
  if (e =? 0) || (11 <? e) then Enc_unsupported
  else match t_float_read t e text with
       | None => Enc_invalid_text
       | Some bits => if e =? 3
                      then Enc_success [N.land 0xffffffff bits; N.shiftr (N.land 0xffffffff00000000 bits) 32]
                      else Enc_success [bits mod 2 ^ 32]
       end.
Definition encode_number (text : list N) (error_code : Z) (ty : id_type) (i : ainst) : aout ainst :=
  let finish r :=
    match r with
    | Enc_success ws => AOk (add_words i ws)
    | Enc_unsupported => AErr SPV_ERROR_INTERNAL
    | Enc_invalid_usage => AErr SPV_ERROR_INVALID_TEXT
    | Enc_invalid_text => AErr error_code
    end in
  match it_class ty with
  | IC_OTHER => AErr SPV_ERROR_INTERNAL
  | IC_INT => finish (encode_integer text (it_width ty) (it_signed ty))
  | IC_FLOAT => finish (float_literal text (it_width ty) (it_enc ty))
  | IC_BOTTOM =>
      if existsb (N.eqb 46) text then finish (float_literal text 32 (it_enc ty))
      else if it_signed ty || match text with c :: _ => c =? 45 | [] => false end
      then finish (encode_integer text 32 true)
      else finish (encode_integer text 32 false)
  end.

(** text.cpp:211-240  the id cases *)
Definition encode_id (ty : otype) (text : list N) (x : actx) (i : ainst) : aout (actx * ainst) :=
  match text with
  | [] => AErr SPV_ERROR_INVALID_TEXT
  | c :: name =>
      if negb (c =? c_percent) then AErr SPV_ERROR_INVALID_TEXT
      else if negb (is_valid_id name) then AErr SPV_ERROR_INVALID_TEXT
      else match assign_or_get (x_ids x) name with
      | None => AStuck
      | Some (ids, id) =>
          let i := {| a_opcode := a_opcode i; a_ext := a_ext i;
                      a_rtype := if otype_eqb ty T_TYPE_ID then id else a_rtype i;
                      a_words := a_words i ++ [id] |} in
          if is_extended_instruction (a_opcode i) && (length (a_words i) =? 4)%nat then
            match x_imports x (nth 3 (a_words i) 0) with
            | None => AErr SPV_ERROR_INVALID_TEXT
            | Some s => AOk (set_ids x ids, {| a_opcode := a_opcode i; a_ext := s; a_rtype := a_rtype i;
                                               a_words := a_words i |})
            end
          else AOk (set_ids x ids, i)
      end
  end.

(** text.cpp:382-413  the string cases *)
Definition encode_string (error_code : Z) (text : list N) (x : actx) (i : ainst) : aout (actx * ainst) :=
  match text_to_literal text with
  | Lit_out_of_memory => AErr SPV_ERROR_OUT_OF_MEMORY
  | Lit_failed_match => AErr error_code
  | Lit_ok (Lit_string s) =>
      let finish x :=                                   (* text_handler.cpp:337-354 *)
        if (65535 <? N.of_nat (length (a_words i) + (length s / 4 + 1))) then AErr SPV_ERROR_INVALID_TEXT
        else AOk (x, add_words i (make_vector s)) in
      if a_opcode i =? OpExtInstImport then
        let ty := ext_import_type s in
        if ty =? 0 then AErr SPV_ERROR_INVALID_TEXT
        else match a_words i with
        | _ :: id :: _ =>
            match x_imports x id with                   (* text_handler.cpp:428-436 *)
            | Some _ => AErr SPV_ERROR_INVALID_TEXT
            | None => finish {| x_ids := x_ids x; x_types := x_types x; x_values := x_values x;
                                x_imports := upd (x_imports x) id ty |}
            end
        | _ => AStuck
        end
      else finish x
  | Lit_ok _ => AErr SPV_ERROR_INVALID_TEXT
  end.

(** text_handler.cpp:402-408, 410-416  the types recorded for ids *)
Definition type_of_type_id (x : actx) (id : N) : id_type :=
  match x_types x id with Some ty => ty | None => unknown_type end.
Definition type_of_value (x : actx) (id : N) : id_type :=
  match x_values x id with Some ty => type_of_type_id x ty | None => unknown_type end.

(** text.cpp:159-177  encodeImmediate *)
Definition encode_immediate (text : list N) (i : ainst) : aout ainst :=
  match parse_number_unsigned 32 (tl text) with
  | None => AErr SPV_ERROR_INVALID_TEXT
  | Some v => AOk (add_words i [v])
  end.

Definition is_error_code {A} (r : aout A) (code : Z) : bool :=
  match r with AErr c => (c =? code)%Z | _ => false end.

(** text.cpp:188-484  spvTextEncodeOperand *)
Definition encode_operand (ty : otype) (text : list N) (x : actx) (i : ainst) (p : pattern)
    : aout (actx * ainst * pattern) :=
  let lift r := match r with AOk (x', i') => AOk (x', i', p) | AErr c => AErr c | AStuck => AStuck end in
  let number r := match r with AOk i' => AOk (x, i', p) | AErr c => AErr c | AStuck => AStuck end in
  let err := if is_optional ty then SPV_FAILED_MATCH else SPV_ERROR_INVALID_TEXT in
  if match text with c :: _ => c =? c_bang | [] => false end then               (* 195-202 *)
    match encode_immediate text i with
    | AOk i' => AOk (x, i', alternate_pattern p)
    | AErr c => AErr c
    | AStuck => AStuck
    end
  else
  match ty with
  | T_ID | T_TYPE_ID | T_RESULT_ID | T_MEMORY_SEMANTICS_ID | T_SCOPE_ID | T_OPTIONAL_ID =>
      lift (encode_id ty text x i)
  | T_EXTENSION_INSTRUCTION_NUMBER =>                                           (* 242-284 *)
      match t_ext_find t (a_ext i) text with
      | Some v =>
          let p := if is_non_semantic (a_ext i) then T_VARIABLE_ID :: p else p in
          match g_ext_inst g (a_ext i) v with
          | Some ts => AOk (x, add_words i [v], push_operand_types ts p)
          | None => AStuck
          end
      | None =>
          if negb (is_non_semantic (a_ext i)) then AErr SPV_ERROR_INVALID_TEXT
          else match text_to_literal text with
               | Lit_ok (Lit_uint v) =>
                   if v <? 2 ^ 32 then AOk (x, add_words i [v], T_VARIABLE_ID :: p)
                   else AErr SPV_ERROR_INVALID_TEXT
               | _ => AErr SPV_ERROR_INVALID_TEXT
               end
      end
  | T_SPEC_CONSTANT_OP_NUMBER =>                                                (* 285-308 *)
      match t_spec_find t text with
      | None => AErr SPV_ERROR_INVALID_TEXT
      | Some op =>
          if negb (t_op_env t op) then AErr SPV_ERROR_INTERNAL
          else match g_opcode g op with
               | Some (_ :: _ :: ts) => AOk (x, add_words i [op], push_operand_types ts p)
               | _ => AStuck
               end
      end
  | T_LITERAL_INTEGER | T_OPTIONAL_LITERAL_INTEGER =>                           (* 310-320 *)
      number (encode_number text err {| it_width := 32; it_signed := false; it_class := IC_INT; it_enc := 0 |} i)
  | T_LITERAL_FLOAT =>                                                          (* 322-331 *)
      number (encode_number text err {| it_width := 32; it_signed := false; it_class := IC_FLOAT; it_enc := 0 |} i)
  | T_OPTIONAL_LITERAL_NUMBER => number (encode_number text err unknown_type i) (* 333-341 *)
  | T_OPTIONAL_TYPED_LITERAL_INTEGER | T_TYPED_LITERAL_NUMBER =>                (* 343-381 *)
      if (a_opcode i =? OpConstant) || (a_opcode i =? OpSpecConstant) then
        let ety := type_of_type_id x (a_rtype i) in
        match it_class ety with
        | IC_INT | IC_FLOAT => number (encode_number text err ety i)
        | _ => AErr SPV_ERROR_INVALID_TEXT
        end
      else if a_opcode i =? OpSwitch then
        match a_words i with
        | _ :: selector :: _ =>
            let ety := type_of_value x selector in
            match it_class ety with
            | IC_INT => number (encode_number text err ety i)
            | _ => AErr SPV_ERROR_INVALID_TEXT
            end
        | _ => AStuck
        end
      else number (encode_number text err unknown_type i)
  | T_LITERAL_STRING | T_OPTIONAL_LITERAL_STRING => lift (encode_string err text x i)
  | T_OPTIONAL_CIV =>                                                           (* 442-465 *)
      let r1 := number (encode_number text SPV_FAILED_MATCH unknown_type i) in
      let r2 := if is_error_code r1 SPV_FAILED_MATCH
                then lift (encode_string SPV_FAILED_MATCH text x i) else r1 in
      let r3 := if is_error_code r2 SPV_FAILED_MATCH
                then lift (encode_id T_OPTIONAL_ID text x i) else r2 in
      match r3 with
      | AOk (x', i', []) => AOk (x', i', [T_OPTIONAL_CIV])
      | r => r
      end
  | _ =>
      if asm_mask_case ty then                                                  (* 416-441 *)
        match parse_mask ty text with
        | inr code => AErr code
        | inl v => AOk (x, add_words i [v], push_for_mask (g_operand g) ty v p)
        end
      else                                                                      (* 466-481 *)
        match t_operand_find t ty text with
        | None => AErr SPV_ERROR_INVALID_TEXT
        | Some v => match g_operand g ty v with
                    | Some ts => AOk (x, add_words i [v], push_operand_types ts p)
                    | None => AStuck
                    end
        end
  end.

(** text_handler.cpp:158-189  validBitWidthForFPEncoding *)
Definition valid_width_for_encoding (enc width : N) : bool :=
  if (enc =? 1) || (enc =? 4) then width =? 16
  else if enc =? 2 then width =? 32
  else if enc =? 3 then width =? 64
  else if enc =? 9 then width =? 4
  else if (enc =? 7) || (enc =? 8) then width =? 6
  else if (enc =? 6) || (enc =? 5) || (enc =? 10) || (enc =? 11) then width =? 8
  else true.

(** text_handler.cpp:356-400  recordTypeDefinition *)
Definition record_type_definition (i : ainst) (x : actx) : aout actx :=
  match a_words i with
  | _ :: value :: rest =>
      let put ty := AOk {| x_ids := x_ids x; x_types := upd (x_types x) value ty; x_values := x_values x;
                           x_imports := x_imports x |} in
      match x_types x value with
      | Some _ => AErr SPV_ERROR_INVALID_TEXT
      | None =>
          if a_opcode i =? OpTypeInt then
            match rest with
            | [w; s] => put {| it_width := w; it_signed := negb (s =? 0); it_class := IC_INT; it_enc := 0 |}
            | _ => AErr SPV_ERROR_INVALID_TEXT
            end
          else if a_opcode i =? OpTypeFloat then
            match rest with
            | [w] => put {| it_width := w; it_signed := false; it_class := IC_FLOAT; it_enc := 0 |}
            | [w; e] =>
                match g_operand g T_FPENCODING e with
                | None => AErr SPV_ERROR_INVALID_TEXT
                | Some _ =>
                    let enc := g_fp_encoding g e in
                    if valid_width_for_encoding enc w
                    then put {| it_width := w; it_signed := false; it_class := IC_FLOAT; it_enc := enc |}
                    else AErr SPV_ERROR_INVALID_TEXT
                end
            | _ => AErr SPV_ERROR_INVALID_TEXT
            end
          else put {| it_width := 0; it_signed := false; it_class := IC_OTHER; it_enc := 0 |}
      end
  | _ => AStuck
  end.

(** text_handler.cpp:418-426  recordTypeIdForValue, whose error is ignored (text.cpp:840) *)
Definition record_type_id_for_value (i : ainst) (x : actx) : aout actx :=
  match a_words i with
  | _ :: ty :: value :: _ =>
      match x_values x value with
      | Some _ => AOk x
      | None => AOk {| x_ids := x_ids x; x_types := x_types x; x_values := upd (x_values x) value ty;
                       x_imports := x_imports x |}
      end
  | _ => AStuck
  end.

(** text.cpp:831-854  the end of spvTextEncodeOpcode *)
Definition finish_opcode (x : actx) (i : ainst) : aout (actx * ainst) :=
  let recorded :=
    if g_generates_type g (a_opcode i) then record_type_definition i x
    else if t_has_type t (a_opcode i) then record_type_id_for_value i x
    else AOk x in
  match recorded with
  | AStuck => AStuck
  | AErr _ => AErr SPV_ERROR_INVALID_TEXT
  | AOk x' =>
      if 65535 <? N.of_nat (length (a_words i)) then AErr SPV_ERROR_INVALID_TEXT
      else AOk (x', {| a_opcode := a_opcode i; a_ext := a_ext i; a_rtype := a_rtype i;
                       a_words := opcode_make (N.of_nat (length (a_words i))) (a_opcode i) :: tl (a_words i) |})
  end.
End Operands.

(** The functions of AssemblyContext through which the text is read. *)
Record reader := mkReader {
  pos : Type;
  rd_advance : pos -> bool * pos;            (* advance: END_OF_STREAM?, new position *)
  rd_word : pos -> list N * pos;             (* getWord: the word, next position *)
  rd_op : pos -> bool;                       (* startsWithOp *)
  rd_peek : pos -> option N;                 (* peek *)
  rd_skip : pos -> pos;                      (* seekForward(1) *)
  rd_has_text : pos -> bool                  (* hasText *)
}.
(** The text itself: text_handler.cpp:228-266, on the rest of the text (TextLex.v). *)
Definition text_reader : reader := {|
  pos := list N; rd_advance := advance; rd_word := get_word; rd_op := starts_with_op;
  rd_peek := fun l => match l with c :: _ => Some c | [] => None end;
  rd_skip := fun l => tl l;
  rd_has_text := fun l => match l with [] => false | _ => true end |}.

Section Assembler.
Variable g : grammar.
Variable t : tables.
Variable R : reader.
Notation rpos := (pos R).

(** text_handler.cpp:242-259  AssemblyContext::isStartOfNewInst; None: front() of an empty string *)
Definition start_of_new_inst (l : rpos) : option bool :=
  let '(eos, q) := rd_advance R l in
  if eos then Some false
  else if rd_op R q then Some true
  else
    let '(word, q) := rd_word R l in
    match word with
    | [] => None
    | ch :: _ =>
        if negb (ch =? c_percent) then Some false
        else
          let '(eos, q) := rd_advance R q in
          if eos then Some false
          else
            let '(word, q) := rd_word R q in
            if negb (name_eqb word [61]) then Some false
            else
              let '(eos, q) := rd_advance R q in
              if eos then Some false else Some (rd_op R q)
    end.

(** text.cpp:758-829  the operand loop of spvTextEncodeOpcode.  [w] bounds the number of words
    read, [z] the number of steps that read no word; the boolean is false for the early
    return of line 823. *)
Fixpoint asm_loop (result_id : list N) (w : nat) : nat -> actx -> ainst -> pattern -> rpos ->
    aout (actx * ainst * rpos * bool) :=
  fix zloop (z : nat) (x : actx) (i : ainst) (p : pattern) (l : rpos) :=
    match z with
    | O => AStuck
    | S z' =>
        match p with
        | [] => AOk (x, i, l, true)
        | ty :: p0 =>
            match expand_once ty p0 with
            | Some p' => zloop z' x i p' l
            | None =>
                if otype_eqb ty T_RESULT_ID && negb (match result_id with [] => true | _ => false end) then
                  match encode_operand g t T_RESULT_ID result_id x i p0 with
                  | AOk (x', i', _) => zloop z' x' i' p0 l
                  | AErr c => AErr c
                  | AStuck => AStuck
                  end
                else
                  let '(eos, l1) := rd_advance R l in
                  if eos then
                    if is_optional ty then AOk (x, i, l1, true) else AErr SPV_ERROR_INVALID_TEXT
                  else
                    match start_of_new_inst l1 with
                    | None => AStuck
                    | Some true => if is_optional ty then AOk (x, i, l1, true) else AErr SPV_ERROR_INVALID_TEXT
                    | Some false =>
                        let '(text, next) := rd_word R l1 in
                        match encode_operand g t ty text x i p0 with
                        | AStuck => AStuck
                        | AErr c => if (c =? SPV_FAILED_MATCH)%Z && is_optional ty
                                    then AOk (x, i, l1, false) else AErr c
                        | AOk (x', i', p') =>
                            match w with
                            | O => AStuck
                            | S w' => asm_loop result_id w' (2 + length p') x' i' p' next
                            end
                        end
                    end
            end
        end
    end.

(** text.cpp:488-528  encodeInstructionStartingWithImmediate *)
Fixpoint immediate_loop (w : nat) (x : actx) (i : ainst) (l : rpos) : aout (actx * ainst * rpos) :=
  let '(eos, l1) := rd_advance R l in
  if eos then AOk (x, i, l1)
  else match start_of_new_inst l1 with
       | None => AStuck
       | Some true => AOk (x, i, l1)
       | Some false =>
           let '(text, next) := rd_word R l1 in
           if name_eqb text [61] then AErr SPV_ERROR_INVALID_TEXT
           else match encode_operand g t T_OPTIONAL_CIV text x i [] with
                | AStuck => AStuck
                | AErr c => AErr c
                | AOk (x', i', _) => match w with
                                     | O => AStuck
                                     | S w' => immediate_loop w' x' i' next
                                     end
                end
       end.
Definition encode_immediate_inst (w : nat) (x : actx) (i : ainst) (l : rpos) : aout (actx * ainst * rpos) :=
  let '(first, next) := rd_word R l in
  match encode_immediate first i with
  | AOk i' => immediate_loop w x i' next
  | AErr c => AErr c
  | AStuck => AStuck
  end.

(** text.cpp:530-645  encodeInstructionStartingWithOpUnknown *)
Definition expect_char (ch : N) (l : rpos) : aout rpos :=
  let '(eos, l1) := rd_advance R l in
  if eos then AErr SPV_ERROR_INVALID_TEXT
  else match rd_peek R l1 with
       | None => AStuck
       | Some c => if negb (c =? ch) then AErr SPV_ERROR_INVALID_TEXT else AOk (rd_skip R l1)
       end.
Definition expect_number16 (l : rpos) : aout (N * rpos) :=
  let '(eos, l1) := rd_advance R l in
  if eos then AErr SPV_ERROR_INVALID_TEXT
  else let '(text, next) := rd_word R l1 in
       match parse_number_unsigned 16 text with
       | None => AErr SPV_ERROR_INVALID_TEXT
       | Some v => AOk (v, next)
       end.
Fixpoint unknown_operands (n : nat) (x : actx) (i : ainst) (l : rpos) : aout (actx * ainst * rpos) :=
  match n with
  | O => AOk (x, i, l)
  | S n' =>
      let '(eos, l1) := rd_advance R l in
      if eos then AErr SPV_ERROR_INVALID_TEXT
      else match start_of_new_inst l1 with
           | None => AStuck
           | Some true => AErr SPV_ERROR_INVALID_TEXT
           | Some false =>
               let '(text, next) := rd_word R l1 in
               if name_eqb text [61] then AErr SPV_ERROR_INVALID_TEXT
               else match encode_operand g t T_OPTIONAL_CIV text x i [] with
                    | AStuck => AStuck
                    | AErr c => AErr c
                    | AOk (x', i', _) => unknown_operands n' x' i' next
                    end
           end
  end.
Definition encode_unknown_inst (x : actx) (i : ainst) (l : rpos) : aout (actx * ainst * rpos) :=
  match expect_char c_lparen l with
  | AErr c => AErr c | AStuck => AStuck
  | AOk l =>
  match expect_number16 l with
  | AErr c => AErr c | AStuck => AStuck
  | AOk (opcode, l) =>
  match expect_char c_comma l with
  | AErr c => AErr c | AStuck => AStuck
  | AOk l =>
  match expect_number16 l with
  | AErr c => AErr c | AStuck => AStuck
  | AOk (wc, l) =>
      if wc =? 0 then AErr SPV_ERROR_INVALID_TEXT
      else
      match expect_char c_rparen l with
      | AErr c => AErr c | AStuck => AStuck
      | AOk l =>
          unknown_operands (N.to_nat (wc - 1)) x
            {| a_opcode := opcode; a_ext := a_ext i; a_rtype := a_rtype i;
               a_words := a_words i ++ [opcode_make wc opcode] |} l
      end
  end end end end.

(** text.cpp:664-703  the first words of an instruction: the text of the result id (empty if
    none), the name of the opcode and the position after it *)
Definition read_opcode (l : rpos) : aout (list N * list N * rpos) :=
  let '(first, next) := rd_word R l in
  if rd_op R l then AOk ([], first, next)
  else match first with
       | [] => AStuck
       | c :: _ =>
           if negb (c =? c_percent) then AErr SPV_ERROR_INVALID_TEXT
           else
             let '(eos, l1) := rd_advance R next in
             if eos then AErr SPV_ERROR_INVALID_TEXT
             else
               let '(equal_sign, l2) := rd_word R l1 in
               if negb (name_eqb equal_sign [61]) then AErr SPV_ERROR_INVALID_TEXT
               else
                 let '(eos, l3) := rd_advance R l2 in
                 if eos then AErr SPV_ERROR_INVALID_TEXT
                 else
                   let '(name, l4) := rd_word R l3 in
                   if negb (rd_op R l3) then AErr SPV_ERROR_INVALID_TEXT
                   else AOk (first, name, l4)
       end.

(** "OpUnknown" *)
Definition op_unknown : list N := [79; 112; 85; 110; 107; 110; 111; 119; 110].

(** text.cpp:647-856  spvTextEncodeOpcode.  [inst_opcode] is the opcode the instruction is
    created with (text.cpp:894 or 0). *)
Definition encode_opcode (fuel : nat) (inst_opcode : N) (x : actx) (l : rpos) : aout (actx * ainst * rpos) :=
  let i0 := {| a_opcode := inst_opcode; a_ext := 0; a_rtype := 0; a_words := [] |} in
  match rd_peek R l with
  | None => AStuck
  | Some c =>
      if c =? c_bang then encode_immediate_inst fuel x i0 l
      else
        match read_opcode l with
        | AErr c => AErr c
        | AStuck => AStuck
        | AOk (result_id, name, next) =>
            let no_result := match result_id with [] => true | _ => false end in
            if name_eqb name op_unknown then
              if negb no_result then AErr SPV_ERROR_INVALID_TEXT
              else encode_unknown_inst x i0 next
            else
              match t_op_find t (skipn 2 name) with
              | None => AErr SPV_ERROR_INVALID_LOOKUP
              | Some op =>
                  if t_has_result t op && no_result then AErr SPV_ERROR_INVALID_TEXT
                  else if negb (t_has_result t op) && negb no_result then AErr SPV_ERROR_INVALID_TEXT
                  else
                    match g_opcode g op with
                    | None => AStuck
                    | Some ts =>
                        let i := {| a_opcode := op; a_ext := 0; a_rtype := 0; a_words := [0] |} in
                        match asm_loop result_id fuel (2 + length ts) x i ts next with
                        | AErr c => AErr c
                        | AStuck => AStuck
                        | AOk (x', i', l', false) => AOk (x', i', l')
                        | AOk (x', i', l', true) =>
                            match finish_opcode g t x' i' with
                            | AErr c => AErr c
                            | AStuck => AStuck
                            | AOk (x'', i'') => AOk (x'', i'', l')
                            end
                        end
                    end
              end
        end
  end.

(** text.cpp:885-901 and 933-944  the instruction loops: the final context and the words of
    the instructions *)
Fixpoint instructions_loop (fuel : nat) (inst_opcode : N) (opfuel : nat) (x : actx) (l : rpos)
    (acc : list (list N)) : aout (actx * list (list N)) :=
  match fuel with
  | O => AStuck
  | S f =>
      match encode_opcode opfuel inst_opcode x l with
      | AErr c => AErr c
      | AStuck => AStuck
      | AOk (x', i, l') =>
          let '(eos, l1) := rd_advance R l' in
          if eos then AOk (x', acc ++ [a_words i])
          else instructions_loop f inst_opcode opfuel x' l1 (acc ++ [a_words i])
      end
  end.
Definition run (fuel : nat) (inst_opcode : N) (keep : list N) (l : rpos) : aout (actx * list (list N)) :=
  let '(_, l1) := rd_advance R l in
  if rd_has_text R l1 then instructions_loop fuel inst_opcode fuel (init_actx keep) l1 []
  else AOk (init_actx keep, []).

(** text.cpp:876-973  spvTextToBinaryInternal; GetNumericIds is 876-905, SetHeader 860-874.  The option is
    SPV_TEXT_TO_BINARY_OPTION_PRESERVE_NUMERIC_IDS. *)
Definition assemble_with (fuel : nat) (preserve_numeric_ids : bool) (l : rpos) : aout (list N) :=
  let keep :=
    if preserve_numeric_ids then
      match run fuel (g_op_max g) [] l with
      | AErr _ => AErr SPV_ERROR_INVALID_TEXT
      | AStuck => AStuck
      | AOk (x, _) => AOk (numeric_ids (named (x_ids x)))
      end
    else AOk [] in
  match keep with
  | AErr c => AErr c
  | AStuck => AStuck
  | AOk keep =>
      match run fuel 0 keep l with
      | AErr c => AErr c
      | AStuck => AStuck
      | AOk (x, insts) =>
          AOk ([0x07230203; t_version t; 0x00070000; bound (x_ids x); 0] ++ concat insts)
      end
  end.
End Assembler.

(** text.cpp:988-1012  spvTextToBinaryWithOptions on a non-null text *)
Definition assemble (g : grammar) (t : tables) (preserve_numeric_ids : bool) (text : list N) : aout (list N) :=
  assemble_with g t text_reader (S (length text)) preserve_numeric_ids text.
