(** Specification side of the disassemble/assemble round trip: what is assumed of the
    generated tables, which modules have a faithful text, and what a renaming of ids is. *)
From Verif Require Import Base Words TextLex TextSpec NumberSpec ParseSpec.
From Verif Require Import BinaryParse Assembler Disassembler.
Local Open Scope N_scope.

(** *** Texts *)
Definition name_char (c : N) : Prop :=
  48 <= c <= 57 \/ 65 <= c <= 90 \/ 97 <= c <= 122 \/ c = 95.
Definition name_text (w : list N) : Prop := w <> [] /\ Forall name_char w.
(** A word that can stand for an operand: it does not look like the start of an instruction
    ("Op" and a capital letter, or the "=" after a result id) nor like "!number". *)
Definition operand_token (w : list N) : Prop :=
  word w /\ starts_with_op w = false /\ w <> [61] /\ hd 0 w <> 33.

(** *** The generated tables *)
(** The fixed operands an instruction starts with. *)
Definition lead (t : tables) (op : N) : list otype :=
  if (op =? OpExtInst) || (op =? OpExtInstWithForwardRefsKHR)
  then [T_TYPE_ID; T_RESULT_ID; T_ID; T_EXTENSION_INSTRUCTION_NUMBER]
  else if (op =? OpConstant) || (op =? OpSpecConstant)
  then [T_TYPE_ID; T_RESULT_ID; T_TYPED_LITERAL_NUMBER]
  else if op =? OpSwitch then [T_ID; T_ID; T_VARIABLE_LITERAL_INTEGER_ID]
  else if op =? OpExtInstImport then [T_RESULT_ID; T_LITERAL_STRING]
  else if op =? OpTypeInt then [T_RESULT_ID; T_LITERAL_INTEGER; T_LITERAL_INTEGER]
  else if op =? OpTypeFloat then [T_RESULT_ID; T_LITERAL_INTEGER; T_OPTIONAL_FPENCODING]
  else (if t_has_type t op then [T_TYPE_ID] else []) ++ (if t_has_result t op then [T_RESULT_ID] else []).
(** The instructions that have nothing but these. *)
Definition only_lead (op : N) : bool :=
  (op =? OpConstant) || (op =? OpSpecConstant) || (op =? OpSwitch) || (op =? OpExtInstImport) ||
  (op =? OpTypeInt) || (op =? OpTypeFloat).
(** The operand types that occur elsewhere. *)
Definition plain_type (ty : otype) : bool :=
  match ty with
  | T_NONE | T_TYPE_ID | T_RESULT_ID | T_EXTENSION_INSTRUCTION_NUMBER | T_TYPED_LITERAL_NUMBER
  | T_OPTIONAL_TYPED_LITERAL_INTEGER | T_VARIABLE_LITERAL_INTEGER_ID => false
  | _ => true
  end.
(** The mask types that the assembler reads as single names although the parser takes them
    for masks: the non-optional variants of three masks. *)
Definition strict_mask (ty : otype) : bool :=
  match ty with
  | T_MEMORY_ACCESS | T_COOPERATIVE_MATRIX_OPERANDS | T_MATRIX_MULTIPLY_ACCUMULATE_OPERANDS => true
  | _ => false
  end.
Definition inner_type (ty : otype) : Prop := plain_type ty = true /\ strict_mask ty = false.

Record tables_ok (g : grammar) (t : tables) : Prop := {
  (* shape of the operand lists *)
  tk_op : forall op ts, g_opcode g op = Some ts ->
    exists tail, ts = lead t op ++ tail /\ Forall (fun ty => plain_type ty = true) tail /\
                 (only_lead op = true -> tail = []);
  tk_spec : forall op a b ts, g_spec_op g op = true -> g_opcode g op = Some (a :: b :: ts) ->
    Forall inner_type ts;
  tk_operand : forall ty v ts, g_operand g ty v = Some ts -> Forall inner_type ts;
  tk_ext : forall s v ts, g_ext_inst g s v = Some ts -> Forall inner_type ts;
  tk_optional : forall ty v, is_mask_case ty = true -> g_operand g ty v = g_operand g (enum_concrete ty) v;
  tk_zero : forall ty ts, is_mask_case ty = true -> g_operand g ty 0 = Some ts -> ts = [];
  tk_enc : forall v ts, g_operand g T_OPTIONAL_FPENCODING v = Some ts ->
    ts = [] /\ g_operand g T_FPENCODING v <> None;
  tk_result : forall op, t_has_result t op = existsb (otype_eqb T_RESULT_ID) (lead t op);
  tk_type : forall op, t_has_type t op = existsb (otype_eqb T_TYPE_ID) (lead t op);
  tk_type_result : forall op, t_has_type t op = true -> t_has_result t op = true;
  tk_generates : forall op, g_generates_type g op = true -> t_has_result t op = true /\ t_has_type t op = false;
  tk_generates_only : forall op, only_lead op = true ->
    g_generates_type g op = (op =? OpTypeInt) || (op =? OpTypeFloat);
  (* names: made of letters, digits and underscores, and found again under the same type *)
  tk_op_name : forall op ts, g_opcode g op = Some ts ->
    name_text (t_op_name t op) /\ 65 <= hd 0 (t_op_name t op) <= 90 /\
    t_op_name t op <> [85; 110; 107; 110; 111; 119; 110];
  tk_op_token : forall op, g_spec_op g op = true -> starts_with_op (t_op_name t op) = false;
  tk_spec_name : forall op, g_spec_op g op = true -> t_spec_find t (t_op_name t op) = Some op;
  tk_operand_name : forall ty v ts, g_operand g ty v = Some ts ->
    name_text (t_operand_name t (enum_concrete ty) v) /\
    starts_with_op (t_operand_name t (enum_concrete ty) v) = false /\
    t_operand_find t ty (t_operand_name t (enum_concrete ty) v) = Some v;
  tk_ext_name : forall s v ts, g_ext_inst g s v = Some ts ->
    name_text (t_ext_name t s v) /\ starts_with_op (t_ext_name t s v) = false /\
    t_ext_find t s (t_ext_name t s v) = Some v;
  tk_ext_digit : forall s w v, t_ext_find t s w = Some v -> ~ (48 <= hd 0 w <= 57);
  tk_generator : forall n, comment_body (t_generator t n)
}.

(** *** Modules with a faithful text *)
(** The width of the values of a floating point encoding (numbered as in the API). *)
Definition float_width (f : N) : option N :=
  match f with
  | 1 => Some 16 | 2 => Some 32 | 3 => Some 64 | 4 => Some 16 | 5 => Some 8 | 6 => Some 8
  | 7 => Some 6 | 8 => Some 6 | 9 => Some 4 | 10 => Some 8 | 11 => Some 8
  | _ => None
  end.
(** A type with this encoding (0: none given) and width holds numbers in format [f]. *)
Definition float_type (enc width f : N) : Prop :=
  (enc = 0 /\ (width = 16 /\ f = 1 \/ width = 32 /\ f = 2 \/ width = 64 /\ f = 3)) \/
  (enc <> 0 /\ f = enc /\ float_width enc = Some width).
Definition float_words (f v : N) : list N := if f =? 3 then [v mod 2 ^ 32; v / 2 ^ 32] else [v].

Section Printable.
Variable g : grammar.
Variable t : tables.

(** The words [ws] of a numeric operand hold a value of its type, as SPIR-V encodes it.
    For a floating point value the text written for it must be read back as the same value:
    the conversions are those of the C++ library. *)
Definition number_ok (o : poperand) (ws : list N) : Prop :=
  match o_kind o with
  | NK_UNSIGNED_INT => exists v, 1 <= o_bit_width o <= 64 /\ representable (o_bit_width o) false v /\
                                 ws = encoding (o_bit_width o) v
  | NK_SIGNED_INT => exists v, 1 <= o_bit_width o <= 64 /\ representable (o_bit_width o) true v /\
                               ws = encoding (o_bit_width o) v
  | NK_FLOATING => exists f w v, float_type (o_encoding o) (o_bit_width o) f /\
                     float_width f = Some w /\ v < 2 ^ w /\ ws = float_words f v /\
                     t_float_read t f (t_float_show t f v) = Some v /\ operand_token (t_float_show t f v)
  | NK_NONE => False
  end.

Definition printable_operand (i : pinst) (o : poperand) : Prop :=
  match o_type o with
  | T_TYPED_LITERAL_NUMBER | T_LITERAL_FLOAT => number_ok o (operand_words i o)
  | T_LITERAL_STRING =>                      (* padded with zeros *)
      exists s, Forall (fun b => b <> 0 /\ b < 256) s /\ operand_words i o = make_vector s
  | T_SPEC_CONSTANT_OP_NUMBER => t_op_env t (operand_word i o) = true
  | ty =>
      is_concrete_mask ty = true ->
      (operand_word i o = 0 -> g_operand g ty 0 <> None) /\
      (strict_mask ty = true -> (exists ts, g_opcode g (i_opcode i) = Some ts /\ In ty ts) ->
       operand_word i o = 0 \/ exists k, operand_word i o = 2 ^ k)
  end.

Definition printable_inst (i : pinst) : Prop :=
  t_op_find t (t_op_name t (i_opcode i)) = Some (i_opcode i) /\          (* known to the environment *)
  (i_opcode i = OpTypeFloat -> forall a r w e k, i_words i = [a; r; w; e] ->
     float_width (g_fp_encoding g e) = Some k -> w = k) /\
  Forall (printable_operand i) (i_operands i).
End Printable.

(** *** Ids *)
(** The ids in an instruction, in the order of its words. *)
Definition inst_ids (i : pinst) : list N :=
  map (operand_word i) (filter (fun o => is_id_type (o_type o)) (i_operands i)).
(** The words of an instruction with its ids renamed. *)
Definition renamed (r : N -> N) (i : pinst) : list N :=
  firstn 1 (i_words i) ++
  flat_map (fun o => if is_id_type (o_type o) then map r (operand_words i o) else operand_words i o) (i_operands i).
(** The ids in a module, and the largest of them. *)
Definition module_ids (l : list pinst) : list N := flat_map inst_ids l.
Definition max_id (ids : list N) : N := fold_right N.max 0 ids.
