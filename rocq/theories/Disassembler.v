(** Model of the disassembler: source/disassemble.cpp, with the numeric literals of
    source/parsed_operand.cpp.

    Options modelled: SPV_BINARY_TO_TEXT_OPTION_NO_HEADER and INDENT.  The name mapper is a
    parameter, an arbitrary function from ids to names (FRIENDLY_NAMES only changes it).
    Colour, comments, byte offsets, nested indentation, block reordering and printing to the
    standard output are not modelled, nor HANDLE_UNKNOWN_OPCODES. *)
From Coq Require Import String.
From Verif Require Import Base Words TextLex ParseNumber.
From Verif Require Export BinaryParse Assembler.
Local Open Scope N_scope.
Local Open Scope list_scope.

Section Emit.
Variable g : grammar.
Variable t : tables.
Variable nm : N -> list N.            (* name_mapper_ *)
Variable indent : bool.               (* indent_ = kStandardIndent = 15, or 0 *)

(** The words of an operand of a reported instruction *)
Definition operand_words (i : pinst) (o : poperand) : list N :=
  firstn (N.to_nat (o_num_words o)) (skipn (N.to_nat (o_offset o)) (i_words i)).

(** parsed_operand.cpp:45-101, 114-118  the format in which a floating point operand is
    printed; None: nothing is printed *)
Definition float_format (num_words enc width : N) : option N :=
  if num_words =? 2 then Some 3
  else if negb (num_words =? 1) then None
  else if enc =? 0 then if width =? 16 then Some 1 else if width =? 32 then Some 2 else None
  else if (enc =? 3) || (11 <? enc) then None
  else Some enc.
(** the bits of the word that are passed on *)
Definition float_mask (f : N) : N :=
  if (f =? 1) || (f =? 4) then 0xffff
  else if f =? 2 then 0xffffffff
  else if f =? 9 then 0xf
  else if (f =? 7) || (f =? 8) then 0x3f
  else 0xff.
Definition float_bits (f : N) (ws : list N) : N :=
  match ws with
  | [w] => N.land w (float_mask f)
  | [lo; hi] => N.lor lo (N.shiftl hi 32)
  | _ => 0
  end.
(** parsed_operand.cpp:24-122  EmitNumericLiteral *)
Definition emit_number (o : poperand) (ws : list N) : list N :=
  match o_kind o with
  | NK_UNSIGNED_INT => emit_integer ws false
  | NK_SIGNED_INT => emit_integer ws true
  | NK_FLOATING =>
      match float_format (o_num_words o) (o_encoding o) (o_bit_width o) with
      | Some f => t_float_show t f (float_bits f ws)
      | None => []
      end
  | NK_NONE => []
  end.

(** disassemble.cpp:1026-1054  EmitMaskOperand: the names of the set bits, from the least
    significant one up; [bits] bits are still to visit, [k] is the current one *)
Fixpoint mask_names (ty : otype) (word : N) (bits : nat) (k : N) : list (list N) :=
  match bits with
  | O => []
  | S b => (if N.testbit word k then [t_operand_name t ty (2 ^ k)] else []) ++ mask_names ty word b (k + 1)
  end.
Fixpoint join_bar (l : list (list N)) : list N :=
  match l with
  | [] => []
  | [w] => w
  | w :: r => w ++ 124 :: join_bar r
  end.
Definition emit_mask (ty : otype) (word : N) : list N :=
  match mask_names ty word 32 0 with
  | [] => match g_operand g ty 0 with Some _ => t_operand_name t ty 0 | None => [] end
  | l => join_bar l
  end.

(** disassemble.cpp:896-1024  EmitOperand.  A failing lookup is a violated assert in the code
    ("should have caught this earlier"); here the name is whatever the table gives. *)
Definition emit_operand (i : pinst) (o : poperand) : list N :=
  let ws := operand_words i o in
  let word := nth (N.to_nat (o_offset o)) (i_words i) 0 in
  match o_type o with
  | T_RESULT_ID | T_ID | T_TYPE_ID | T_SCOPE_ID | T_MEMORY_SEMANTICS_ID => c_percent :: nm word
  | T_EXTENSION_INSTRUCTION_NUMBER =>
      match g_ext_inst g (i_ext_type i) word with
      | Some _ => t_ext_name t (i_ext_type i) word
      | None => print_nat word
      end
  | T_SPEC_CONSTANT_OP_NUMBER => t_op_name t word
  | T_LITERAL_INTEGER | T_TYPED_LITERAL_NUMBER | T_LITERAL_FLOAT => emit_number o ws
  | T_LITERAL_STRING => print_string (fst (make_string ws))
  | ty => if is_concrete_mask ty then emit_mask ty word else t_operand_name t ty word
  end.

(** The operands the disassembler visits: the first num_operands elements of the array. *)
Definition reported_operands (i : pinst) : list poperand := firstn (N.to_nat (i_num_operands i)) (i_operands i).

(** disassemble.cpp:686-820  EmitInstructionImpl *)
Definition spaces (n : nat) : list N := repeat c_space n.
Definition emit_instruction (i : pinst) : list N :=
  (if negb (i_result_id i =? 0) then
     let name := nm (i_result_id i) in
     (if indent then spaces (15 - 3 - length name - 1) else []) ++
     c_percent :: name ++ [c_space; 61; c_space]
   else if indent then spaces 15 else []) ++
  79 :: 112 :: t_op_name t (i_opcode i) ++
  flat_map (fun o => if otype_eqb (o_type o) T_RESULT_ID then [] else c_space :: emit_operand i o)
           (reported_operands i) ++
  [c_nl].

(** disassemble.cpp:647-672  the header comment *)
Definition emit_header (version generator bound schema : N) : list N :=
  bytes_of "; SPIR-V" ++ [c_nl] ++
  bytes_of "; Version: " ++ print_nat (N.land (N.shiftr version 16) 0xff) ++ bytes_of "." ++
    print_nat (N.land (N.shiftr version 8) 0xff) ++ [c_nl] ++
  bytes_of "; Generator: " ++ t_generator t (N.shiftr generator 16) ++
    (if bytes_eqb (bytes_of "Unknown") (t_generator t (N.shiftr generator 16))
     then bytes_of "(" ++ print_nat (N.shiftr generator 16) ++ bytes_of ")" else []) ++
    bytes_of "; " ++ print_nat (N.land generator 0xffff) ++ [c_nl] ++
  bytes_of "; Bound: " ++ print_nat bound ++ [c_nl] ++
  bytes_of "; Schema: " ++ print_nat schema ++ [c_nl].

(** disassemble.cpp:165-181, 183-231  HandleHeader, HandleInstruction *)
Definition emit_event (header : bool) (ev : event) : list N :=
  match ev with
  | EHeader _ _ version generator bound schema =>
      if header then emit_header version generator bound schema else []
  | EInst i => emit_instruction i
  end.
End Emit.

(** disassemble.cpp:1119-1149  spvBinaryToText: the text, or the error code; None is the stuck
    outcome of the parser.  [header] is the absence of NO_HEADER. *)
Definition disassemble (g : grammar) (t : tables) (nm : N -> list N) (header indent : bool)
    (words : list N) : option (list N + Z) :=
  match binary_parse g false (fun _ _ => SPV_SUCCESS) words with
  | None => None
  | Some (code, events) =>
      if (code =? SPV_SUCCESS)%Z
      then Some (inl (flat_map (emit_event g t nm indent header) events))
      else Some (inr code)
  end.
