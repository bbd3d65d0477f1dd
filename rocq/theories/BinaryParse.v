(** Model of the binary parser, source/binary.cpp, and of spvExtInstImportTypeGet
    (source/ext_inst.cpp).

    The instruction/operand tables are generated from SPIRV-Headers, which are not part of the
    repository: they are a parameter [grammar], over which every theorem quantifies.
    The user callbacks are an arbitrary function of the callbacks made so far and the current
    one, returning a result code.  Reading a word outside the buffer, expanding an empty
    pattern, taking a sub-span of a too short span and an endless loop are the outcome
    [Stuck], distinct from every result.  Diagnostic texts are not modelled. *)
From Coq Require Import String Ascii.
From Verif Require Import Base Words.
From Verif Require Export Operand.
Local Open Scope N_scope.
Local Open Scope list_scope.

(** libspirv.h:60-88  spv_result_t *)
Definition SPV_SUCCESS : Z := 0.
Definition SPV_ERROR_INTERNAL : Z := -1.
Definition SPV_ERROR_INVALID_BINARY : Z := -4.
Definition SPV_ERROR_INVALID_ID : Z := -10.

(** Opcodes the parser names (values from the SPIR-V specification). *)
Definition OpExtInstImport : N := 11.
Definition OpExtInst : N := 12.
Definition OpTypeInt : N := 21.
Definition OpTypeFloat : N := 22.
Definition OpSwitch : N := 251.
Definition OpExtInstWithForwardRefsKHR : N := 4433.

(** The generated tables and constants used by the parser. *)
Record grammar := {
  g_opcode : N -> option (list otype);             (* LookupOpcode(op)->operands() *)
  g_operand : otype -> N -> option (list otype);   (* LookupOperand(type, value)->operands() *)
  g_ext_inst : N -> N -> option (list otype);      (* LookupExtInst(set, number)->operands() *)
  g_spec_op : N -> bool;                           (* lookupSpecConstantOpcode succeeds *)
  g_op_max : N;                                    (* spv::Op::Max *)
  g_generates_type : N -> bool;                    (* spvOpcodeGeneratesType *)
  g_fp_encoding : N -> N;                          (* spvFPEncodingFromOperandFPEncoding *)
  g_version : N                                    (* SPV_VERSION *)
}.

(** *** ext_inst.cpp *)
Definition bytes_of (s : string) : list N := List.map N_of_ascii (list_ascii_of_string s).
Fixpoint bytes_eqb (a b : list N) : bool :=
  match a, b with
  | [], [] => true
  | x :: a', y :: b' => (x =? y) && bytes_eqb a' b'
  | _, _ => false
  end.
(** strcmp(name, s) == 0, on NUL-free byte strings *)
Definition is_name (s : string) (name : list N) : bool := bytes_eqb (bytes_of s) name.
(** strncmp(s, name, strlen(s)) == 0 *)
Definition has_prefix (s : string) (name : list N) : bool :=
  bytes_eqb (bytes_of s) (firstn (List.length (bytes_of s)) name).
(** ext_inst.cpp:22-78  spvExtInstImportTypeGet; the results are the values of
    spv_ext_inst_type_t, libspirv.h:356-380 *)
Definition ext_import_type (name : list N) : N :=
  if is_name "GLSL.std.450" name then 1
  else if is_name "OpenCL.std" name then 2
  else if is_name "SPV_AMD_shader_explicit_vertex_parameter" name then 3
  else if is_name "SPV_AMD_shader_trinary_minmax" name then 4
  else if is_name "SPV_AMD_gcn_shader" name then 5
  else if is_name "SPV_AMD_shader_ballot" name then 6
  else if is_name "DebugInfo" name then 7
  else if is_name "OpenCL.DebugInfo.100" name then 8
  else if has_prefix "NonSemantic.Shader.DebugInfo." name then 11
  else if has_prefix "NonSemantic.Graph.DebugInfo." name then 10
  else if has_prefix "NonSemantic.ClspvReflection." name then 9
  else if has_prefix "NonSemantic.VkspReflection." name then 12
  else if is_name "TOSA.001000.1" name then 13
  else if is_name "Arm.MotionEngine.100" name then 14
  else if has_prefix "Arm.ExperimentalMLOperations." name then 15
  else if has_prefix "NonSemantic." name then 16
  else 0.
(** ext_inst.cpp:80-89  spvExtInstIsNonSemantic *)
Definition is_non_semantic (t : N) : bool :=
  (t =? 16) || (t =? 11) || (t =? 9) || (t =? 10) || (t =? 12).
(** opcode.cpp:650-658  spvIsExtendedInstruction *)
Definition is_extended_instruction (op : N) : bool := (op =? OpExtInst) || (op =? OpExtInstWithForwardRefsKHR).

(** libspirv.h:387-392  spv_number_kind_t *)
Inductive nkind := NK_NONE | NK_UNSIGNED_INT | NK_SIGNED_INT | NK_FLOATING.

(** libspirv.h:456-471  spv_parsed_operand_t *)
Record poperand := { o_offset : N; o_num_words : N; o_type : otype;
                     o_kind : nkind; o_bit_width : N; o_encoding : N }.
(** libspirv.h:475-502  spv_parsed_instruction_t.  [i_operands] is the whole array;
    the client reads its first [i_num_operands] elements. *)
Record pinst := { i_words : list N; i_num_words : N; i_opcode : N; i_ext_type : N;
                  i_type_id : N; i_result_id : N; i_operands : list poperand; i_num_operands : N }.
Inductive event :=
  | EHeader (e : endianness) (magic version generator bound schema : N)
  | EInst (i : pinst).
Definition callbacks := list event -> event -> Z.

(** binary.cpp:200-204  NumberType *)
Record number_type := { n_kind : nkind; n_width : N; n_encoding : N }.
(** binary.cpp:207-253  the part of State that survives from instruction to instruction.
    The unordered_maps are partial functions. *)
Record pstate := { word_index : nat; id_to_type_id : N -> option N;
                   number_info : N -> option number_type; imports : N -> option N }.
(** The per-instruction part: the scalar members of [inst] filled so far,
    endian_converted_words, operands and expected_operands. *)
Record cur := { c_ext : N; c_type : N; c_result : N; c_words : list N;
                c_ops : list poperand; c_exp : pattern }.
Definition upd {A} (m : N -> option A) (k : N) (v : A) : N -> option A :=
  fun x => if x =? k then Some v else m x.

Inductive outcome (A : Type) := Ok (a : A) | Err (code : Z) (retry : bool) | Stuck.
Arguments Ok {A}. Arguments Err {A}. Arguments Stuck {A}.

Section Parser.
Variable g : grammar.
Variable handle_unknown : bool.       (* handle_unknown_opcodes_ *)
Variable cb : callbacks.
Variable words : list N.              (* the words in memory *)
Variable endian : endianness.
Notation num_words := (List.length words).

Definition requires_conversion : bool := match endian with Little => false | Big => true end.

(** binary.cpp:177-183  peekAt *)
Definition peek_at (i : nat) : option N :=
  match nth_error words i with Some w => Some (fix_word w endian) | None => None end.

(** binary.cpp:893-913  setNumericTypeInfoForType: the type info and the word count *)
Definition set_numeric_type_info (st : pstate) (type_id : N) : option (number_type * N) :=
  match number_info st type_id with
  | None => None
  | Some info =>
      match n_kind info with
      | NK_NONE => None
      | _ => Some (info, (((n_width info + 31) mod 2 ^ 32) / 32) mod 2 ^ 16)
      end
  end.

(** binary.cpp:831-845  the mask loop: [bits] is the number of mask bits still to visit.
    Ok None: some set bit has no entry. *)
Fixpoint mask_loop (ty : otype) (bits : nat) (remaining : N) (p : pattern) : outcome (option pattern) :=
  if remaining =? 0 then Ok (Some p)
  else match bits with
       | O => Stuck
       | S b =>
           let mask := 2 ^ N.of_nat b in
           if negb (N.land remaining mask =? 0) then
             match g_operand g ty mask with
             | None => Ok None
             | Some ts => mask_loop ty b (N.lxor remaining mask) (push_operand_types ts p)
             end
           else mask_loop ty b remaining p
       end.

Definition with_exp (c : cur) (p : pattern) : cur :=
  {| c_ext := c_ext c; c_type := c_type c; c_result := c_result c; c_words := c_words c;
     c_ops := c_ops c; c_exp := p |}.

(** binary.cpp:503-857  the switch of parseOperand: updated state, updated instruction and
    the parsed operand (type, kind, width, encoding, number of words).  The mask loop is
    passed in as [mask_scan]. *)
Definition parse_operand_switch_with (mask_scan : otype -> N -> pattern -> outcome (option pattern))
    (inst_offset : nat) (opcode : N) (ty : otype) (word : N)
    (st : pstate) (c : cur) : outcome (pstate * cur * poperand) :=
  let offset := N.of_nat (word_index st - inst_offset) mod 2 ^ 16 in
  let plain t := {| o_offset := offset; o_num_words := 1; o_type := t;
                    o_kind := NK_NONE; o_bit_width := 0; o_encoding := 0 |} in
  match ty with
  | T_TYPE_ID =>                                                          (* 504-508 *)
      if word =? 0 then Err SPV_ERROR_INVALID_ID false
      else Ok (st, {| c_ext := c_ext c; c_type := word; c_result := c_result c;
                      c_words := c_words c; c_ops := c_ops c; c_exp := c_exp c |}, plain ty)
  | T_RESULT_ID =>                                                        (* 510-525 *)
      if word =? 0 then Err SPV_ERROR_INVALID_ID false
      else match id_to_type_id st word with
           | Some _ => Err SPV_ERROR_INVALID_ID false
           | None =>
               let ty_of := if g_generates_type g opcode then word else c_type c in
               Ok ({| word_index := word_index st; id_to_type_id := upd (id_to_type_id st) word ty_of;
                      number_info := number_info st; imports := imports st |},
                   {| c_ext := c_ext c; c_type := c_type c; c_result := word;
                      c_words := c_words c; c_ops := c_ops c; c_exp := c_exp c |}, plain ty)
           end
  | T_ID | T_OPTIONAL_ID =>                                               (* 527-543 *)
      if word =? 0 then Err SPV_ERROR_INVALID_ID false
      else if is_extended_instruction opcode && (offset =? 3) then
        match imports st word with
        | None => Err SPV_ERROR_INVALID_ID false
        | Some s => Ok (st, {| c_ext := s; c_type := c_type c; c_result := c_result c;
                               c_words := c_words c; c_ops := c_ops c; c_exp := c_exp c |}, plain T_ID)
        end
      else Ok (st, c, plain T_ID)
  | T_SCOPE_ID | T_MEMORY_SEMANTICS_ID =>                                 (* 545-550 *)
      if word =? 0 then Err SPV_ERROR_INVALID_BINARY false else Ok (st, c, plain ty)
  | T_EXTENSION_INSTRUCTION_NUMBER =>                                     (* 552-583 *)
      match g_ext_inst g (c_ext c) word with
      | Some ts =>
          let p := if is_non_semantic (c_ext c) then T_VARIABLE_ID :: c_exp c else c_exp c in
          Ok (st, with_exp c (push_operand_types ts p), plain ty)
      | None =>
          if negb (is_non_semantic (c_ext c)) && negb handle_unknown
          then Err SPV_ERROR_INVALID_BINARY false
          else Ok (st, with_exp c (T_VARIABLE_ID :: c_exp c), plain ty)
      end
  | T_SPEC_CONSTANT_OP_NUMBER =>                                          (* 585-605 *)
      if (g_op_max g <? word) || negb (g_spec_op g word) then Err SPV_ERROR_INVALID_BINARY false
      else match g_opcode g word with
           | None => Err SPV_ERROR_INTERNAL false
           | Some (_ :: _ :: ts) => Ok (st, with_exp c (push_operand_types ts (c_exp c)), plain ty)
           | Some _ => Stuck
           end
  | T_LITERAL_INTEGER | T_OPTIONAL_LITERAL_INTEGER =>                     (* 607-615 *)
      Ok (st, c, {| o_offset := offset; o_num_words := 1; o_type := T_LITERAL_INTEGER;
                    o_kind := NK_UNSIGNED_INT; o_bit_width := 32; o_encoding := 0 |})
  | T_LITERAL_FLOAT =>                                                    (* 617-622 *)
      Ok (st, c, {| o_offset := offset; o_num_words := 1; o_type := T_LITERAL_FLOAT;
                    o_kind := NK_FLOATING; o_bit_width := 32; o_encoding := 0 |})
  | T_TYPED_LITERAL_NUMBER | T_OPTIONAL_TYPED_LITERAL_INTEGER =>          (* 624-662 *)
      let finish type_id int_only :=
        match set_numeric_type_info st type_id with
        | None => Err SPV_ERROR_INVALID_BINARY false
        | Some (info, nw) =>
            if int_only && match n_kind info with NK_UNSIGNED_INT | NK_SIGNED_INT => false | _ => true end
            then Err SPV_ERROR_INVALID_BINARY false
            else Ok (st, c, {| o_offset := offset; o_num_words := nw; o_type := T_TYPED_LITERAL_NUMBER;
                               o_kind := n_kind info; o_bit_width := n_width info;
                               o_encoding := n_encoding info |})
        end in
      if opcode =? OpSwitch then
        match peek_at (inst_offset + 1) with
        | None => Stuck
        | Some selector =>
            match id_to_type_id st selector with
            | None => Err SPV_ERROR_INVALID_BINARY false
            | Some type_id =>
                if type_id =? 0 then Err SPV_ERROR_INVALID_BINARY false
                else if selector =? type_id then Err SPV_ERROR_INVALID_BINARY false
                else finish type_id true
            end
        end
      else finish (c_type c) false
  | T_LITERAL_STRING | T_OPTIONAL_LITERAL_STRING =>                       (* 664-701 *)
      let max_words := (num_words - word_index st)%nat in
      let s := fst (make_string (firstn max_words (skipn (word_index st) words))) in
      if (List.length s =? max_words * 4)%nat then Err SPV_ERROR_INVALID_BINARY false
      else
        let nw := N.of_nat (List.length s / 4 + 1) in
        if 65535 <? nw then Err SPV_ERROR_INVALID_BINARY false
        else
          let o := {| o_offset := offset; o_num_words := nw mod 2 ^ 16; o_type := T_LITERAL_STRING;
                      o_kind := NK_NONE; o_bit_width := 0; o_encoding := 0 |} in
          if opcode =? OpExtInstImport then
            let t := ext_import_type s in
            if t =? 0 then Err SPV_ERROR_INVALID_BINARY false
            else Ok ({| word_index := word_index st; id_to_type_id := id_to_type_id st;
                        number_info := number_info st; imports := upd (imports st) (c_result c) t |}, c, o)
          else Ok (st, c, o)
  | T_SOURCE_LANGUAGE =>                                                  (* 773-787 *)
      match g_operand g ty word with
      | None => Err SPV_ERROR_INVALID_BINARY handle_unknown
      | Some ts => Ok (st, with_exp c (push_operand_types ts (c_exp c)), plain ty)
      end
  | _ =>
      if is_enum_case ty then                                             (* 703-771 *)
        match g_operand g ty word with
        | None => Err SPV_ERROR_INVALID_BINARY handle_unknown
        | Some ts => Ok (st, with_exp c (push_operand_types ts (c_exp c)), plain (enum_concrete ty))
        end
      else if is_mask_case ty then                                        (* 789-854 *)
        match mask_scan ty word (c_exp c) with
        | Stuck => Stuck
        | Err e r => Err e r
        | Ok None => Err SPV_ERROR_INVALID_BINARY handle_unknown
        | Ok (Some p) =>
            let p := if word =? 0
                     then match g_operand g ty 0 with Some ts => push_operand_types ts p | None => p end
                     else p in
            Ok (st, with_exp c p, plain (enum_concrete ty))
        end
      else Err SPV_ERROR_INVALID_BINARY false                             (* 855-856 *)
  end.

Definition parse_operand_switch := parse_operand_switch_with (fun ty word p => mask_loop ty 32 word p).

(** binary.cpp:470-891  parseOperand *)
Definition parse_operand (inst_offset : nat) (opcode : N) (ty : otype) (st : pstate) (c : cur) :
    outcome (pstate * cur) :=
  if (num_words <=? word_index st)%nat then Err SPV_ERROR_INVALID_BINARY false        (* 494 *)
  else match peek_at (word_index st) with
  | None => Stuck
  | Some word =>
      match parse_operand_switch inst_offset opcode ty word st c with
      | Err e r => Err e r
      | Stuck => Stuck
      | Ok (st1, c1, o) =>
          let after := (word_index st1 + N.to_nat (o_num_words o))%nat in             (* 863 *)
          if (num_words <? after)%nat then Err SPV_ERROR_INVALID_BINARY false         (* 869 *)
          else
            let raw := firstn (after - word_index st1) (skipn (word_index st1) words) in
            Ok ({| word_index := after; id_to_type_id := id_to_type_id st1;
                   number_info := number_info st1; imports := imports st1 |},
                {| c_ext := c_ext c1; c_type := c_type c1; c_result := c_result c1;
                   c_words := if requires_conversion
                              then c_words c1 ++ List.map (fun w => fix_word w endian) raw
                              else c_words c1;                                        (* 872-885 *)
                   c_ops := c_ops c1 ++ [o]; c_exp := c_exp c1 |})
      end
  end.

(** binary.cpp:392-415  the operand loop of parseInstruction.  [w] bounds the number of
    operands that consume words, [z] the number of zero-word operands in a row; running out
    of either is [LStuck]. LErr carries the state at the time of the error. *)
Inductive lres := LDone (st : pstate) (c : cur) | LErr (code : Z) (retry : bool) (st : pstate) (c : cur) | LStuck.
Fixpoint operand_loop (inst_offset : nat) (opcode wc : N) (w : nat) : nat -> pstate -> cur -> lres :=
  fix zloop (z : nat) (st : pstate) (c : cur) : lres :=
    if (word_index st <? inst_offset + N.to_nat wc)%nat then
      match c_exp c with
      | [] => LErr SPV_ERROR_INVALID_BINARY false st c
      | _ =>
          match take_first_matchable (c_exp c) with
          | None => LStuck
          | Some (ty, p) =>
              match parse_operand inst_offset opcode ty st (with_exp c p) with
              | Stuck => LStuck
              | Err e r => LErr e r st (with_exp c p)
              | Ok (st', c') =>
                  if (word_index st' =? word_index st)%nat then
                    match z with
                    | O => LStuck
                    | S z' => zloop z' st' c'
                    end
                  else
                    match w with
                    | O => LStuck
                    | S w' => operand_loop inst_offset opcode wc w' (List.length (c_exp c')) st' c'
                    end
              end
          end
      end
    else LDone st c.

(** binary.cpp:915-942  recordNumberType *)
Definition record_number_type (inst_offset : nat) (opcode num_ws result_id : N) (st : pstate) : option pstate :=
  let put info := {| word_index := word_index st; id_to_type_id := id_to_type_id st;
                     number_info := upd (number_info st) result_id info; imports := imports st |} in
  if g_generates_type g opcode then
    if opcode =? OpTypeInt then
      match peek_at (inst_offset + 3), peek_at (inst_offset + 2) with
      | Some s, Some w =>
          Some (put {| n_kind := if negb (s =? 0) then NK_SIGNED_INT else NK_UNSIGNED_INT;
                       n_width := w; n_encoding := 0 |})
      | _, _ => None
      end
    else if opcode =? OpTypeFloat then
      match peek_at (inst_offset + 2) with
      | None => None
      | Some w =>
          if 4 <=? num_ws then
            match peek_at (inst_offset + 3) with
            | None => None
            | Some e =>
                Some (put {| n_kind := NK_FLOATING; n_width := w;
                             n_encoding := match g_operand g T_FPENCODING e with
                                           | Some _ => g_fp_encoding g e | None => 0 end |})
            end
          else Some (put {| n_kind := NK_FLOATING; n_width := w; n_encoding := 0 |})
      end
    else Some (put {| n_kind := NK_NONE; n_width := 0; n_encoding := 0 |})
  else Some st.

Inductive ires := IDone (st : pstate) (trace : list event) | IStop (code : Z) (trace : list event) | IStuck.

Definition call (trace : list event) (i : pinst) (st : pstate) : ires :=
  let code := cb trace (EInst i) in
  if (code =? SPV_SUCCESS)%Z then IDone st (trace ++ [EInst i]) else IStop code (trace ++ [EInst i]).

(** binary.cpp:349-375  emitAsUnknown *)
Fixpoint peek_range (start : nat) (n : nat) : option (list N) :=
  match n with
  | O => Some []
  | S n' => match peek_at start, peek_range (S start) n' with
            | Some w, Some l => Some (w :: l)
            | _, _ => None
            end
  end.
Definition emit_as_unknown (inst_offset : nat) (first_word opcode wc : N) (st : pstate) (c : cur)
    (trace : list event) : ires :=
  if (num_words <? inst_offset + N.to_nat wc)%nat then IStop SPV_ERROR_INVALID_BINARY trace
  else
    match (if requires_conversion then peek_range (S inst_offset) (N.to_nat wc - 1) else Some []) with
    | None => IStuck
    | Some rest =>
        let st' := {| word_index := (inst_offset + N.to_nat wc)%nat; id_to_type_id := id_to_type_id st;
                      number_info := number_info st; imports := imports st |} in
        let i := {| i_words := if requires_conversion then first_word :: rest
                               else firstn (N.to_nat wc) (skipn inst_offset words);
                    i_num_words := wc; i_opcode := opcode; i_ext_type := c_ext c;
                    i_type_id := c_type c; i_result_id := c_result c;
                    i_operands := []; i_num_operands := 0 |} in
        call trace i st'
    end.

(** binary.cpp:310-468  parseInstruction *)
Definition parse_instruction (st : pstate) (trace : list event) : ires :=
  match peek_at (word_index st) with
  | None => IStuck
  | Some first_word =>
      let '(wc, opcode) := opcode_split first_word in
      if wc <? 1 then IStop SPV_ERROR_INVALID_BINARY trace
      else
        let inst_offset := word_index st in
        let c0 := {| c_ext := 0; c_type := 0; c_result := 0; c_words := [first_word];
                     c_ops := []; c_exp := [] |} in
        let st0 := {| word_index := S inst_offset; id_to_type_id := id_to_type_id st;
                      number_info := number_info st; imports := imports st |} in
        match g_opcode g opcode with
        | None =>
            if negb handle_unknown then IStop SPV_ERROR_INVALID_BINARY trace
            else emit_as_unknown inst_offset first_word opcode wc st0 c0 trace
        | Some types =>
            let exp := push_operand_types types [] in
            match operand_loop inst_offset opcode wc (N.to_nat wc) (List.length exp) st0 (with_exp c0 exp) with
            | LStuck => IStuck
            | LErr code retry st1 c1 =>
                if retry then emit_as_unknown inst_offset first_word opcode wc st1 c1 trace
                else IStop code trace
            | LDone st1 c1 =>
                if match c_exp c1 with [] => false | t :: _ => negb (is_optional t) end
                then IStop SPV_ERROR_INVALID_BINARY trace                             (* 417-423 *)
                else if negb (inst_offset + N.to_nat wc =? word_index st1)%nat
                then IStop SPV_ERROR_INVALID_BINARY trace                             (* 425-431 *)
                else
                  match record_number_type inst_offset opcode wc (c_result c1) st1 with
                  | None => IStuck
                  | Some st2 =>
                      let i := {| i_words := if requires_conversion then c_words c1
                                             else firstn (N.to_nat wc) (skipn inst_offset words);
                                  i_num_words := wc; i_opcode := opcode; i_ext_type := c_ext c1;
                                  i_type_id := c_type c1; i_result_id := c_result c1;
                                  i_operands := c_ops c1;
                                  i_num_operands := N.of_nat (List.length (c_ops c1)) mod 2 ^ 16 |} in
                      call trace i st2
                  end
            end
        end
  end.

(** binary.cpp:300-302  the instruction loop of parseModule, one instruction per fuel unit. *)
Fixpoint module_loop (fuel : nat) (st : pstate) (trace : list event) : option (Z * list event) :=
  if (word_index st <? num_words)%nat then
    match fuel with
    | O => None
    | S f =>
        match parse_instruction st trace with
        | IStuck => None
        | IStop code tr => Some (code, tr)
        | IDone st' tr => module_loop f st' tr
        end
    end
  else Some (SPV_SUCCESS, trace).
End Parser.

(** binary.cpp:39-65  spvBinaryHeaderGet: magic, version, generator, bound, schema *)
Definition header_get (g : grammar) (words : list N) (e : endianness) : option (N * N * N * N * N) :=
  match words with
  | m :: v :: gen :: b :: s :: _ =>
      let version := fix_word v e in
      if negb (N.land version 0x000000ff =? 0) || negb (N.land version 0xff000000 =? 0) then None
      else if (version <? 0x00010000) || (g_version g <? version) then None
      else Some (fix_word m e, version, fix_word gen e, fix_word b e, fix_word s e)
  | _ => None
  end.

(** binary.cpp:268-308  parseModule, with 256-266 parse, 946-971 spvBinaryParse(WithOptions);
    words is non-null; a null callback behaves as one that always returns SPV_SUCCESS.
    [None] is the stuck outcome. *)
Definition binary_parse (g : grammar) (handle_unknown : bool) (cb : callbacks) (words : list N) :
    option (Z * list event) :=
  if (List.length words <? 5)%nat then Some (SPV_ERROR_INVALID_BINARY, [])
  else match binary_endianness words with
  | None => Some (SPV_ERROR_INVALID_BINARY, [])
  | Some e =>
      match header_get g words e with
      | None => Some (SPV_ERROR_INTERNAL, [])
      | Some (magic, version, generator, bound, schema) =>
          let ev := EHeader e magic version generator bound schema in
          let code := cb [] ev in
          if negb (code =? SPV_SUCCESS)%Z then Some (code, [ev])
          else module_loop g handle_unknown cb words e (List.length words)
                 {| word_index := 5; id_to_type_id := fun _ => None;
                    number_info := fun _ => None; imports := fun _ => None |} [ev]
      end
  end.
