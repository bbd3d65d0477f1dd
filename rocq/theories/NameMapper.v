(** Model of source/name_mapper.cpp: FriendlyNameMapper.

    Parameters (they come from the generated grammar tables, the SPIR-V headers or the literal printer):
    the names of enumerants, of built-ins and of float encodings, and the text of a numeric literal.
    Opcodes are named rather than numbered.  [None] is lack of fuel (one unit per loop iteration). *)
From Coq Require Import String.
From Verif Require Import Base Bytes TextLex ParseNumber NamedIds.
Local Open Scope list_scope.
Local Open Scope N_scope.

(** The opcodes name_mapper.cpp distinguishes. *)
Inductive op : Set :=
| OpName | OpDecorate | OpTypeVoid | OpTypeBool | OpTypeInt | OpTypeFloat | OpTypeVector | OpTypeMatrix
| OpTypeArray | OpTypeRuntimeArray | OpTypeNodePayloadArrayAMDX | OpTypePointer | OpTypeUntypedPointerKHR
| OpTypePipe | OpTypeEvent | OpTypeDeviceEvent | OpTypeReserveId | OpTypeQueue | OpTypeOpaque
| OpTypePipeStorage | OpTypeNamedBarrier | OpTypeStruct | OpConstantTrue | OpConstantFalse | OpConstant
| OpOther.

(** libspirv.h spv_parsed_instruction_t, as far as it is used: the opcode, the words after the first, the
    result and type id (zero when there is none), the number of operands, the decoded
    string operand (of OpName and OpTypeOpaque) and the printed literal (of OpConstant). *)
Record parsed := {
  p_op : op;
  p_words : list N;   (* words[1], words[2], ... *)
  p_result : N;
  p_type : N;
  p_operands : N;
  p_string : list N;
  p_literal : list N }.
(** inst.words[k] for k >= 1; reading beyond the instruction does not happen for parsed instructions *)
Definition word (i : parsed) (k : nat) : N := nth (k - 1) (p_words i) 0.
Definition num_words (i : parsed) : nat := S (length (p_words i)).

(** name_mapper.h:118-122 name_for_id_ and used_names_ *)
Record mapper := mkMapper { name_for_id : list (N * list N); used_names : list (list N) }.
Definition empty_mapper : mapper := mkMapper [] [].
Fixpoint recorded (l : list (N * list N)) (id : N) : option (list N) :=
  match l with
  | [] => None
  | (k, n) :: l' => if k =? id then Some n else recorded l' id
  end.

(** name_mapper.cpp:51-60 NameForId *)
Definition name_of (m : mapper) (id : N) : list N :=
  match recorded (name_for_id m) id with Some n => n | None => print_nat id end.

(** name_mapper.cpp:62-76 Sanitize *)
Definition valid_chars : list N :=
  bytes "abcdefghijklmnopqrstuvwxyz" ++ bytes "ABCDEFGHIJKLMNOPQRSTUVWXYZ" ++ bytes "_0123456789".
Definition sanitize (s : list N) : list N :=
  match s with
  | [] => bytes "_"
  | _ => map (fun c => if mem c valid_chars then c else 95) s
  end.

Definition name_used (m : mapper) (n : list N) : bool := existsb (name_eqb n) (used_names m).

(** name_mapper.cpp:97-100 the loop over index *)
Fixpoint unused_name (fuel : nat) (m : mapper) (prefix : list N) (index : N) : option (list N) :=
  match fuel with
  | O => None
  | S fuel' =>
      let name := prefix ++ print_nat index in
      if name_used m name then unused_name fuel' m prefix ((index + 1) mod 2 ^ 32) else Some name
  end.
(** name_mapper.cpp:78-104 SaveName *)
Definition save_name (m : mapper) (id : N) (suggested : list N) : option mapper :=
  match recorded (name_for_id m) id with
  | Some _ => Some m
  | None =>
      let base := if 256 <? N.of_nat (length suggested) then print_nat id else sanitize suggested in
      let name :=
        if name_used m base
        then unused_name (S (length (used_names m))) m (base ++ bytes "_") 0
        else Some base in
      match name with
      | None => None
      | Some n => Some (mkMapper (name_for_id m ++ [(id, n)]) (n :: used_names m))
      end
  end.

Section Mapper.
(** NameForEnumOperand's table (storage classes and access qualifiers) *)
Variable storage_class_name access_qualifier_name : N -> option (list N).
(** The cases of SaveBuiltInName (name_mapper.cpp:106-174) *)
Variable builtin_name : N -> option (list N).
Variable is_builtin_decoration : N -> bool.
(** The encodings tested for OpTypeFloat (name_mapper.cpp:230-262) *)
Variable float_encoding_name : N -> option (list N).

(** name_mapper.cpp:413-422 NameForEnumOperand *)
Definition name_for_enum (table : N -> option (list N)) (w : N) : list N :=
  match table w with
  | Some n => n
  | None => bytes "StorageClass" ++ print_nat w
  end.

(** name_mapper.cpp:197-224 the name of an integer type *)
Definition int_type_name (width is_signed : N) : list N :=
  let '(signedness, root) :=
    match width with
    | 8 => ([], bytes "char")
    | 16 => ([], bytes "short")
    | 32 => ([], bytes "int")
    | 64 => ([], bytes "long")
    | _ => (bytes "i", print_nat width)
    end in
  (if is_signed =? 0 then bytes "u" else signedness) ++ root.
(** name_mapper.cpp:225-279 the name of a floating point type *)
Definition float_type_name (i : parsed) : list N :=
  let plain :=
    match word i 2 with
    | 16 => bytes "half"
    | 32 => bytes "float"
    | 64 => bytes "double"
    | w => bytes "fp" ++ print_nat w
    end in
  if (3 <? num_words i)%nat
  then match float_encoding_name (word i 3) with Some n => n | None => plain end
  else plain.
(** name_mapper.cpp:381-388 the name of a constant; a minus sign becomes n *)
Definition constant_name (m : mapper) (i : parsed) : list N :=
  name_of m (p_type i) ++ bytes "_" ++ map (fun c => if c =? 45 then 110 else c) (p_literal i).

(** name_mapper.cpp:176-411 ParseInstruction: the id to name and the suggested name *)
Definition suggestion (m : mapper) (i : parsed) : option (N * list N) :=
  let r := p_result i in
  match p_op i with
  | OpName => Some (word i 1, p_string i)
  | OpDecorate =>
      if is_builtin_decoration (word i 2)
      then option_map (fun n => (word i 1, n)) (builtin_name (word i 3))
      else None
  | OpTypeVoid => Some (r, bytes "void")
  | OpTypeBool => Some (r, bytes "bool")
  | OpTypeInt => Some (r, int_type_name (word i 2) (word i 3))
  | OpTypeFloat => Some (r, float_type_name i)
  | OpTypeVector => Some (r, bytes "v" ++ print_nat (word i 3) ++ name_of m (word i 2))
  | OpTypeMatrix => Some (r, bytes "mat" ++ print_nat (word i 3) ++ name_of m (word i 2))
  | OpTypeArray => Some (r, bytes "_arr_" ++ name_of m (word i 2) ++ bytes "_" ++ name_of m (word i 3))
  | OpTypeRuntimeArray => Some (r, bytes "_runtimearr_" ++ name_of m (word i 2))
  | OpTypeNodePayloadArrayAMDX => Some (r, bytes "_payloadarr_" ++ name_of m (word i 2))
  | OpTypePointer =>
      Some (r, bytes "_ptr_" ++ name_for_enum storage_class_name (word i 2) ++ bytes "_" ++ name_of m (word i 3))
  | OpTypeUntypedPointerKHR => Some (r, bytes "_ptr_" ++ name_for_enum storage_class_name (word i 2))
  | OpTypePipe => Some (r, bytes "Pipe" ++ name_for_enum access_qualifier_name (word i 2))
  | OpTypeEvent => Some (r, bytes "Event")
  | OpTypeDeviceEvent => Some (r, bytes "DeviceEvent")
  | OpTypeReserveId => Some (r, bytes "ReserveId")
  | OpTypeQueue => Some (r, bytes "Queue")
  | OpTypeOpaque => Some (r, bytes "Opaque_" ++ sanitize (p_string i))
  | OpTypePipeStorage => Some (r, bytes "PipeStorage")
  | OpTypeNamedBarrier => Some (r, bytes "NamedBarrier")
  | OpTypeStruct => Some (r, bytes "_struct_" ++ print_nat r)
  | OpConstantTrue => Some (r, bytes "true")
  | OpConstantFalse => Some (r, bytes "false")
  | OpConstant => Some (r, constant_name m i)
  | OpOther =>
      if negb (r =? 0) && match recorded (name_for_id m) r with None => true | Some _ => false end
      then Some (r, print_nat r)
      else None
  end.
Definition parse_instruction (m : mapper) (i : parsed) : option mapper :=
  if p_operands i =? 0 then Some m
  else match suggestion m i with
       | Some (id, n) => save_name m id n
       | None => Some m
       end.
(** name_mapper.cpp:40-49 the constructor, on the instructions the binary parser reports *)
Fixpoint build (m : mapper) (is : list parsed) : option mapper :=
  match is with
  | [] => Some m
  | i :: is' => match parse_instruction m i with Some m' => build m' is' | None => None end
  end.
End Mapper.
