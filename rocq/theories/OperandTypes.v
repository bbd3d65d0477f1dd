(** GENERATED from include/spirv-tools/libspirv.h, source/operand.cpp and source/binary.cpp:
    the operand type enumeration and the case lists of the classification switches. *)
From Verif Require Import Base.
Local Open Scope N_scope.

(** libspirv.h:126-346  spv_operand_type_t (SPV_OPERAND_TYPE_X is written T_X). *)
Inductive otype : Set :=
    | T_NONE | T_ID | T_TYPE_ID | T_RESULT_ID | T_MEMORY_SEMANTICS_ID | T_SCOPE_ID
    | T_LITERAL_INTEGER | T_EXTENSION_INSTRUCTION_NUMBER | T_SPEC_CONSTANT_OP_NUMBER
    | T_TYPED_LITERAL_NUMBER | T_LITERAL_FLOAT | T_LITERAL_STRING | T_SOURCE_LANGUAGE
    | T_EXECUTION_MODEL | T_ADDRESSING_MODEL | T_MEMORY_MODEL | T_EXECUTION_MODE
    | T_STORAGE_CLASS | T_DIMENSIONALITY | T_SAMPLER_ADDRESSING_MODE | T_SAMPLER_FILTER_MODE
    | T_SAMPLER_IMAGE_FORMAT | T_IMAGE_CHANNEL_ORDER | T_IMAGE_CHANNEL_DATA_TYPE
    | T_FP_ROUNDING_MODE | T_LINKAGE_TYPE | T_ACCESS_QUALIFIER | T_FUNCTION_PARAMETER_ATTRIBUTE
    | T_DECORATION | T_BUILT_IN | T_GROUP_OPERATION | T_KERNEL_ENQ_FLAGS
    | T_KERNEL_PROFILING_INFO | T_CAPABILITY | T_FPENCODING | T_IMAGE | T_FP_FAST_MATH_MODE
    | T_SELECTION_CONTROL | T_LOOP_CONTROL | T_FUNCTION_CONTROL | T_MEMORY_ACCESS
    | T_FRAGMENT_SHADING_RATE | T_OPTIONAL_ID | T_OPTIONAL_IMAGE | T_OPTIONAL_MEMORY_ACCESS
    | T_OPTIONAL_LITERAL_INTEGER | T_OPTIONAL_LITERAL_NUMBER | T_OPTIONAL_TYPED_LITERAL_INTEGER
    | T_OPTIONAL_LITERAL_STRING | T_OPTIONAL_ACCESS_QUALIFIER | T_OPTIONAL_CIV
    | T_OPTIONAL_FPENCODING | T_VARIABLE_ID | T_VARIABLE_LITERAL_INTEGER
    | T_VARIABLE_LITERAL_INTEGER_ID | T_VARIABLE_ID_LITERAL_INTEGER | T_DEBUG_INFO_FLAGS
    | T_DEBUG_BASE_TYPE_ATTRIBUTE_ENCODING | T_DEBUG_COMPOSITE_TYPE | T_DEBUG_TYPE_QUALIFIER
    | T_DEBUG_OPERATION | T_CLDEBUG100_DEBUG_INFO_FLAGS
    | T_CLDEBUG100_DEBUG_BASE_TYPE_ATTRIBUTE_ENCODING | T_CLDEBUG100_DEBUG_COMPOSITE_TYPE
    | T_CLDEBUG100_DEBUG_TYPE_QUALIFIER | T_CLDEBUG100_DEBUG_OPERATION
    | T_CLDEBUG100_DEBUG_IMPORTED_ENTITY | T_FPDENORM_MODE | T_FPOPERATION_MODE
    | T_QUANTIZATION_MODES | T_OVERFLOW_MODES | T_RAY_FLAGS | T_RAY_QUERY_INTERSECTION
    | T_RAY_QUERY_COMMITTED_INTERSECTION_TYPE | T_RAY_QUERY_CANDIDATE_INTERSECTION_TYPE
    | T_PACKED_VECTOR_FORMAT | T_OPTIONAL_PACKED_VECTOR_FORMAT | T_COOPERATIVE_MATRIX_OPERANDS
    | T_OPTIONAL_COOPERATIVE_MATRIX_OPERANDS | T_COOPERATIVE_MATRIX_LAYOUT
    | T_COOPERATIVE_MATRIX_USE | T_INITIALIZATION_MODE_QUALIFIER | T_HOST_ACCESS_QUALIFIER
    | T_LOAD_CACHE_CONTROL | T_STORE_CACHE_CONTROL | T_NAMED_MAXIMUM_NUMBER_OF_REGISTERS
    | T_RAW_ACCESS_CHAIN_OPERANDS | T_OPTIONAL_RAW_ACCESS_CHAIN_OPERANDS | T_TENSOR_CLAMP_MODE
    | T_COOPERATIVE_MATRIX_REDUCE | T_TENSOR_ADDRESSING_OPERANDS
    | T_MATRIX_MULTIPLY_ACCUMULATE_OPERANDS | T_OPTIONAL_MATRIX_MULTIPLY_ACCUMULATE_OPERANDS
    | T_COOPERATIVE_VECTOR_MATRIX_LAYOUT | T_COMPONENT_TYPE | T_KERNEL_PROPERTY_FLAGS
    | T_SHDEBUG100_BUILD_IDENTIFIER_FLAGS | T_SHDEBUG100_DEBUG_BASE_TYPE_ATTRIBUTE_ENCODING
    | T_SHDEBUG100_DEBUG_COMPOSITE_TYPE | T_SHDEBUG100_DEBUG_IMPORTED_ENTITY
    | T_SHDEBUG100_DEBUG_INFO_FLAGS | T_SHDEBUG100_DEBUG_OPERATION
    | T_SHDEBUG100_DEBUG_TYPE_QUALIFIER | T_TENSOR_OPERANDS | T_OPTIONAL_TENSOR_OPERANDS
    | T_OPTIONAL_CAPABILITY | T_VARIABLE_CAPABILITY | T_GATHER_MODES.

(** The numeric value of the enumerator (its position). *)
Definition otype_code (t : otype) : N :=
  match t with
    | T_NONE => 0 | T_ID => 1 | T_TYPE_ID => 2 | T_RESULT_ID => 3 | T_MEMORY_SEMANTICS_ID => 4
    | T_SCOPE_ID => 5 | T_LITERAL_INTEGER => 6 | T_EXTENSION_INSTRUCTION_NUMBER => 7
    | T_SPEC_CONSTANT_OP_NUMBER => 8 | T_TYPED_LITERAL_NUMBER => 9 | T_LITERAL_FLOAT => 10
    | T_LITERAL_STRING => 11 | T_SOURCE_LANGUAGE => 12 | T_EXECUTION_MODEL => 13
    | T_ADDRESSING_MODEL => 14 | T_MEMORY_MODEL => 15 | T_EXECUTION_MODE => 16
    | T_STORAGE_CLASS => 17 | T_DIMENSIONALITY => 18 | T_SAMPLER_ADDRESSING_MODE => 19
    | T_SAMPLER_FILTER_MODE => 20 | T_SAMPLER_IMAGE_FORMAT => 21 | T_IMAGE_CHANNEL_ORDER => 22
    | T_IMAGE_CHANNEL_DATA_TYPE => 23 | T_FP_ROUNDING_MODE => 24 | T_LINKAGE_TYPE => 25
    | T_ACCESS_QUALIFIER => 26 | T_FUNCTION_PARAMETER_ATTRIBUTE => 27 | T_DECORATION => 28
    | T_BUILT_IN => 29 | T_GROUP_OPERATION => 30 | T_KERNEL_ENQ_FLAGS => 31
    | T_KERNEL_PROFILING_INFO => 32 | T_CAPABILITY => 33 | T_FPENCODING => 34 | T_IMAGE => 35
    | T_FP_FAST_MATH_MODE => 36 | T_SELECTION_CONTROL => 37 | T_LOOP_CONTROL => 38
    | T_FUNCTION_CONTROL => 39 | T_MEMORY_ACCESS => 40 | T_FRAGMENT_SHADING_RATE => 41
    | T_OPTIONAL_ID => 42 | T_OPTIONAL_IMAGE => 43 | T_OPTIONAL_MEMORY_ACCESS => 44
    | T_OPTIONAL_LITERAL_INTEGER => 45 | T_OPTIONAL_LITERAL_NUMBER => 46
    | T_OPTIONAL_TYPED_LITERAL_INTEGER => 47 | T_OPTIONAL_LITERAL_STRING => 48
    | T_OPTIONAL_ACCESS_QUALIFIER => 49 | T_OPTIONAL_CIV => 50 | T_OPTIONAL_FPENCODING => 51
    | T_VARIABLE_ID => 52 | T_VARIABLE_LITERAL_INTEGER => 53
    | T_VARIABLE_LITERAL_INTEGER_ID => 54 | T_VARIABLE_ID_LITERAL_INTEGER => 55
    | T_DEBUG_INFO_FLAGS => 56 | T_DEBUG_BASE_TYPE_ATTRIBUTE_ENCODING => 57
    | T_DEBUG_COMPOSITE_TYPE => 58 | T_DEBUG_TYPE_QUALIFIER => 59 | T_DEBUG_OPERATION => 60
    | T_CLDEBUG100_DEBUG_INFO_FLAGS => 61
    | T_CLDEBUG100_DEBUG_BASE_TYPE_ATTRIBUTE_ENCODING => 62
    | T_CLDEBUG100_DEBUG_COMPOSITE_TYPE => 63 | T_CLDEBUG100_DEBUG_TYPE_QUALIFIER => 64
    | T_CLDEBUG100_DEBUG_OPERATION => 65 | T_CLDEBUG100_DEBUG_IMPORTED_ENTITY => 66
    | T_FPDENORM_MODE => 67 | T_FPOPERATION_MODE => 68 | T_QUANTIZATION_MODES => 69
    | T_OVERFLOW_MODES => 70 | T_RAY_FLAGS => 71 | T_RAY_QUERY_INTERSECTION => 72
    | T_RAY_QUERY_COMMITTED_INTERSECTION_TYPE => 73
    | T_RAY_QUERY_CANDIDATE_INTERSECTION_TYPE => 74 | T_PACKED_VECTOR_FORMAT => 75
    | T_OPTIONAL_PACKED_VECTOR_FORMAT => 76 | T_COOPERATIVE_MATRIX_OPERANDS => 77
    | T_OPTIONAL_COOPERATIVE_MATRIX_OPERANDS => 78 | T_COOPERATIVE_MATRIX_LAYOUT => 79
    | T_COOPERATIVE_MATRIX_USE => 80 | T_INITIALIZATION_MODE_QUALIFIER => 81
    | T_HOST_ACCESS_QUALIFIER => 82 | T_LOAD_CACHE_CONTROL => 83 | T_STORE_CACHE_CONTROL => 84
    | T_NAMED_MAXIMUM_NUMBER_OF_REGISTERS => 85 | T_RAW_ACCESS_CHAIN_OPERANDS => 86
    | T_OPTIONAL_RAW_ACCESS_CHAIN_OPERANDS => 87 | T_TENSOR_CLAMP_MODE => 88
    | T_COOPERATIVE_MATRIX_REDUCE => 89 | T_TENSOR_ADDRESSING_OPERANDS => 90
    | T_MATRIX_MULTIPLY_ACCUMULATE_OPERANDS => 91
    | T_OPTIONAL_MATRIX_MULTIPLY_ACCUMULATE_OPERANDS => 92
    | T_COOPERATIVE_VECTOR_MATRIX_LAYOUT => 93 | T_COMPONENT_TYPE => 94
    | T_KERNEL_PROPERTY_FLAGS => 95 | T_SHDEBUG100_BUILD_IDENTIFIER_FLAGS => 96
    | T_SHDEBUG100_DEBUG_BASE_TYPE_ATTRIBUTE_ENCODING => 97
    | T_SHDEBUG100_DEBUG_COMPOSITE_TYPE => 98 | T_SHDEBUG100_DEBUG_IMPORTED_ENTITY => 99
    | T_SHDEBUG100_DEBUG_INFO_FLAGS => 100 | T_SHDEBUG100_DEBUG_OPERATION => 101
    | T_SHDEBUG100_DEBUG_TYPE_QUALIFIER => 102 | T_TENSOR_OPERANDS => 103
    | T_OPTIONAL_TENSOR_OPERANDS => 104 | T_OPTIONAL_CAPABILITY => 105
    | T_VARIABLE_CAPABILITY => 106 | T_GATHER_MODES => 107
  end.

Definition otype_of_code (n : N) : otype :=
  match n with
    | 0 => T_NONE | 1 => T_ID | 2 => T_TYPE_ID | 3 => T_RESULT_ID | 4 => T_MEMORY_SEMANTICS_ID
    | 5 => T_SCOPE_ID | 6 => T_LITERAL_INTEGER | 7 => T_EXTENSION_INSTRUCTION_NUMBER
    | 8 => T_SPEC_CONSTANT_OP_NUMBER | 9 => T_TYPED_LITERAL_NUMBER | 10 => T_LITERAL_FLOAT
    | 11 => T_LITERAL_STRING | 12 => T_SOURCE_LANGUAGE | 13 => T_EXECUTION_MODEL
    | 14 => T_ADDRESSING_MODEL | 15 => T_MEMORY_MODEL | 16 => T_EXECUTION_MODE
    | 17 => T_STORAGE_CLASS | 18 => T_DIMENSIONALITY | 19 => T_SAMPLER_ADDRESSING_MODE
    | 20 => T_SAMPLER_FILTER_MODE | 21 => T_SAMPLER_IMAGE_FORMAT | 22 => T_IMAGE_CHANNEL_ORDER
    | 23 => T_IMAGE_CHANNEL_DATA_TYPE | 24 => T_FP_ROUNDING_MODE | 25 => T_LINKAGE_TYPE
    | 26 => T_ACCESS_QUALIFIER | 27 => T_FUNCTION_PARAMETER_ATTRIBUTE | 28 => T_DECORATION
    | 29 => T_BUILT_IN | 30 => T_GROUP_OPERATION | 31 => T_KERNEL_ENQ_FLAGS
    | 32 => T_KERNEL_PROFILING_INFO | 33 => T_CAPABILITY | 34 => T_FPENCODING | 35 => T_IMAGE
    | 36 => T_FP_FAST_MATH_MODE | 37 => T_SELECTION_CONTROL | 38 => T_LOOP_CONTROL
    | 39 => T_FUNCTION_CONTROL | 40 => T_MEMORY_ACCESS | 41 => T_FRAGMENT_SHADING_RATE
    | 42 => T_OPTIONAL_ID | 43 => T_OPTIONAL_IMAGE | 44 => T_OPTIONAL_MEMORY_ACCESS
    | 45 => T_OPTIONAL_LITERAL_INTEGER | 46 => T_OPTIONAL_LITERAL_NUMBER
    | 47 => T_OPTIONAL_TYPED_LITERAL_INTEGER | 48 => T_OPTIONAL_LITERAL_STRING
    | 49 => T_OPTIONAL_ACCESS_QUALIFIER | 50 => T_OPTIONAL_CIV | 51 => T_OPTIONAL_FPENCODING
    | 52 => T_VARIABLE_ID | 53 => T_VARIABLE_LITERAL_INTEGER
    | 54 => T_VARIABLE_LITERAL_INTEGER_ID | 55 => T_VARIABLE_ID_LITERAL_INTEGER
    | 56 => T_DEBUG_INFO_FLAGS | 57 => T_DEBUG_BASE_TYPE_ATTRIBUTE_ENCODING
    | 58 => T_DEBUG_COMPOSITE_TYPE | 59 => T_DEBUG_TYPE_QUALIFIER | 60 => T_DEBUG_OPERATION
    | 61 => T_CLDEBUG100_DEBUG_INFO_FLAGS
    | 62 => T_CLDEBUG100_DEBUG_BASE_TYPE_ATTRIBUTE_ENCODING
    | 63 => T_CLDEBUG100_DEBUG_COMPOSITE_TYPE | 64 => T_CLDEBUG100_DEBUG_TYPE_QUALIFIER
    | 65 => T_CLDEBUG100_DEBUG_OPERATION | 66 => T_CLDEBUG100_DEBUG_IMPORTED_ENTITY
    | 67 => T_FPDENORM_MODE | 68 => T_FPOPERATION_MODE | 69 => T_QUANTIZATION_MODES
    | 70 => T_OVERFLOW_MODES | 71 => T_RAY_FLAGS | 72 => T_RAY_QUERY_INTERSECTION
    | 73 => T_RAY_QUERY_COMMITTED_INTERSECTION_TYPE
    | 74 => T_RAY_QUERY_CANDIDATE_INTERSECTION_TYPE | 75 => T_PACKED_VECTOR_FORMAT
    | 76 => T_OPTIONAL_PACKED_VECTOR_FORMAT | 77 => T_COOPERATIVE_MATRIX_OPERANDS
    | 78 => T_OPTIONAL_COOPERATIVE_MATRIX_OPERANDS | 79 => T_COOPERATIVE_MATRIX_LAYOUT
    | 80 => T_COOPERATIVE_MATRIX_USE | 81 => T_INITIALIZATION_MODE_QUALIFIER
    | 82 => T_HOST_ACCESS_QUALIFIER | 83 => T_LOAD_CACHE_CONTROL | 84 => T_STORE_CACHE_CONTROL
    | 85 => T_NAMED_MAXIMUM_NUMBER_OF_REGISTERS | 86 => T_RAW_ACCESS_CHAIN_OPERANDS
    | 87 => T_OPTIONAL_RAW_ACCESS_CHAIN_OPERANDS | 88 => T_TENSOR_CLAMP_MODE
    | 89 => T_COOPERATIVE_MATRIX_REDUCE | 90 => T_TENSOR_ADDRESSING_OPERANDS
    | 91 => T_MATRIX_MULTIPLY_ACCUMULATE_OPERANDS
    | 92 => T_OPTIONAL_MATRIX_MULTIPLY_ACCUMULATE_OPERANDS
    | 93 => T_COOPERATIVE_VECTOR_MATRIX_LAYOUT | 94 => T_COMPONENT_TYPE
    | 95 => T_KERNEL_PROPERTY_FLAGS | 96 => T_SHDEBUG100_BUILD_IDENTIFIER_FLAGS
    | 97 => T_SHDEBUG100_DEBUG_BASE_TYPE_ATTRIBUTE_ENCODING
    | 98 => T_SHDEBUG100_DEBUG_COMPOSITE_TYPE | 99 => T_SHDEBUG100_DEBUG_IMPORTED_ENTITY
    | 100 => T_SHDEBUG100_DEBUG_INFO_FLAGS | 101 => T_SHDEBUG100_DEBUG_OPERATION
    | 102 => T_SHDEBUG100_DEBUG_TYPE_QUALIFIER | 103 => T_TENSOR_OPERANDS
    | 104 => T_OPTIONAL_TENSOR_OPERANDS | 105 => T_OPTIONAL_CAPABILITY
    | 106 => T_VARIABLE_CAPABILITY | 107 => T_GATHER_MODES
    | _ => T_NONE
  end.

Lemma otype_of_code_of t : otype_of_code (otype_code t) = t.
Proof. destruct t; reflexivity. Qed.
Definition otype_eqb (a b : otype) : bool := otype_code a =? otype_code b.
Lemma otype_eqb_eq a b : otype_eqb a b = true <-> a = b.
Proof.
  unfold otype_eqb. rewrite N.eqb_eq. split; [|congruence].
  intro H. rewrite <- (otype_of_code_of a), <- (otype_of_code_of b). congruence.
Qed.

(** operand.cpp:484-495  spvIsIdType *)
Definition is_id_type (t : otype) : bool :=
  match t with
    | T_ID | T_TYPE_ID | T_RESULT_ID | T_MEMORY_SEMANTICS_ID | T_SCOPE_ID => true
    | _ => false
  end.

(** operand.cpp:502-506  the denied types of spvIsInIdType *)
Definition is_in_id_type_deny (t : otype) : bool :=
  match t with
    | T_TYPE_ID | T_RESULT_ID => true
    | _ => false
  end.

(** operand.cpp:497-510  spvIsInIdType *)
Definition is_in_id_type (t : otype) : bool := is_id_type t && negb (is_in_id_type_deny t).

(** operand.cpp:360-382  spvOperandIsConcreteMask *)
Definition is_concrete_mask (t : otype) : bool :=
  match t with
    | T_IMAGE | T_FP_FAST_MATH_MODE | T_SELECTION_CONTROL | T_LOOP_CONTROL | T_FUNCTION_CONTROL
    | T_MEMORY_ACCESS | T_FRAGMENT_SHADING_RATE | T_DEBUG_INFO_FLAGS
    | T_CLDEBUG100_DEBUG_INFO_FLAGS | T_COOPERATIVE_MATRIX_OPERANDS
    | T_MATRIX_MULTIPLY_ACCUMULATE_OPERANDS | T_RAW_ACCESS_CHAIN_OPERANDS
    | T_COOPERATIVE_MATRIX_REDUCE | T_TENSOR_ADDRESSING_OPERANDS | T_TENSOR_OPERANDS => true
    | _ => false
  end.

(** operand.cpp:286-356  the switch of spvOperandIsConcrete *)
Definition is_concrete_other (t : otype) : bool :=
  match t with
    | T_LITERAL_INTEGER | T_LITERAL_FLOAT | T_EXTENSION_INSTRUCTION_NUMBER
    | T_SPEC_CONSTANT_OP_NUMBER | T_TYPED_LITERAL_NUMBER | T_LITERAL_STRING | T_SOURCE_LANGUAGE
    | T_EXECUTION_MODEL | T_ADDRESSING_MODEL | T_MEMORY_MODEL | T_EXECUTION_MODE
    | T_STORAGE_CLASS | T_DIMENSIONALITY | T_SAMPLER_ADDRESSING_MODE | T_SAMPLER_FILTER_MODE
    | T_SAMPLER_IMAGE_FORMAT | T_IMAGE_CHANNEL_ORDER | T_IMAGE_CHANNEL_DATA_TYPE
    | T_FP_ROUNDING_MODE | T_LINKAGE_TYPE | T_ACCESS_QUALIFIER | T_FUNCTION_PARAMETER_ATTRIBUTE
    | T_DECORATION | T_BUILT_IN | T_GROUP_OPERATION | T_KERNEL_ENQ_FLAGS
    | T_KERNEL_PROFILING_INFO | T_CAPABILITY | T_RAY_FLAGS | T_RAY_QUERY_INTERSECTION
    | T_RAY_QUERY_COMMITTED_INTERSECTION_TYPE | T_RAY_QUERY_CANDIDATE_INTERSECTION_TYPE
    | T_DEBUG_BASE_TYPE_ATTRIBUTE_ENCODING | T_DEBUG_COMPOSITE_TYPE | T_DEBUG_TYPE_QUALIFIER
    | T_DEBUG_OPERATION | T_CLDEBUG100_DEBUG_BASE_TYPE_ATTRIBUTE_ENCODING
    | T_CLDEBUG100_DEBUG_COMPOSITE_TYPE | T_CLDEBUG100_DEBUG_TYPE_QUALIFIER
    | T_CLDEBUG100_DEBUG_OPERATION | T_CLDEBUG100_DEBUG_IMPORTED_ENTITY | T_FPDENORM_MODE
    | T_FPOPERATION_MODE | T_QUANTIZATION_MODES | T_OVERFLOW_MODES | T_PACKED_VECTOR_FORMAT
    | T_COOPERATIVE_MATRIX_LAYOUT | T_COOPERATIVE_MATRIX_USE | T_INITIALIZATION_MODE_QUALIFIER
    | T_HOST_ACCESS_QUALIFIER | T_LOAD_CACHE_CONTROL | T_STORE_CACHE_CONTROL
    | T_NAMED_MAXIMUM_NUMBER_OF_REGISTERS | T_FPENCODING | T_TENSOR_CLAMP_MODE
    | T_COOPERATIVE_VECTOR_MATRIX_LAYOUT | T_COMPONENT_TYPE | T_KERNEL_PROPERTY_FLAGS
    | T_SHDEBUG100_BUILD_IDENTIFIER_FLAGS | T_SHDEBUG100_DEBUG_BASE_TYPE_ATTRIBUTE_ENCODING
    | T_SHDEBUG100_DEBUG_COMPOSITE_TYPE | T_SHDEBUG100_DEBUG_IMPORTED_ENTITY
    | T_SHDEBUG100_DEBUG_INFO_FLAGS | T_SHDEBUG100_DEBUG_OPERATION
    | T_SHDEBUG100_DEBUG_TYPE_QUALIFIER | T_GATHER_MODES => true
    | _ => false
  end.

(** operand.cpp:282-358  spvOperandIsConcrete *)
Definition is_concrete (t : otype) : bool := is_id_type t || is_concrete_mask t || is_concrete_other t.

(** operand.cpp:410-422  spvOperandIsVariable *)
Definition is_variable (t : otype) : bool :=
  match t with
    | T_VARIABLE_ID | T_VARIABLE_LITERAL_INTEGER | T_VARIABLE_LITERAL_INTEGER_ID
    | T_VARIABLE_ID_LITERAL_INTEGER | T_VARIABLE_CAPABILITY => true
    | _ => false
  end.

(** operand.cpp:384-408  spvOperandIsOptional *)
Definition is_optional (t : otype) : bool :=
  match t with
    | T_OPTIONAL_ID | T_OPTIONAL_IMAGE | T_OPTIONAL_MEMORY_ACCESS | T_OPTIONAL_LITERAL_INTEGER
    | T_OPTIONAL_LITERAL_NUMBER | T_OPTIONAL_TYPED_LITERAL_INTEGER | T_OPTIONAL_LITERAL_STRING
    | T_OPTIONAL_ACCESS_QUALIFIER | T_OPTIONAL_PACKED_VECTOR_FORMAT
    | T_OPTIONAL_COOPERATIVE_MATRIX_OPERANDS | T_OPTIONAL_MATRIX_MULTIPLY_ACCUMULATE_OPERANDS
    | T_OPTIONAL_CIV | T_OPTIONAL_RAW_ACCESS_CHAIN_OPERANDS | T_OPTIONAL_FPENCODING
    | T_OPTIONAL_TENSOR_OPERANDS | T_OPTIONAL_CAPABILITY => true
    | _ => is_variable t
  end.

(** binary.cpp:703-749  the plain enum cases of Parser::parseOperand *)
Definition is_enum_case (t : otype) : bool :=
  match t with
    | T_CAPABILITY | T_OPTIONAL_CAPABILITY | T_EXECUTION_MODEL | T_ADDRESSING_MODEL
    | T_MEMORY_MODEL | T_EXECUTION_MODE | T_STORAGE_CLASS | T_DIMENSIONALITY
    | T_SAMPLER_ADDRESSING_MODE | T_SAMPLER_FILTER_MODE | T_SAMPLER_IMAGE_FORMAT
    | T_FP_ROUNDING_MODE | T_LINKAGE_TYPE | T_ACCESS_QUALIFIER | T_OPTIONAL_ACCESS_QUALIFIER
    | T_FUNCTION_PARAMETER_ATTRIBUTE | T_DECORATION | T_BUILT_IN | T_GROUP_OPERATION
    | T_KERNEL_ENQ_FLAGS | T_KERNEL_PROFILING_INFO | T_RAY_FLAGS | T_RAY_QUERY_INTERSECTION
    | T_RAY_QUERY_COMMITTED_INTERSECTION_TYPE | T_RAY_QUERY_CANDIDATE_INTERSECTION_TYPE
    | T_DEBUG_BASE_TYPE_ATTRIBUTE_ENCODING | T_DEBUG_COMPOSITE_TYPE | T_DEBUG_TYPE_QUALIFIER
    | T_DEBUG_OPERATION | T_CLDEBUG100_DEBUG_BASE_TYPE_ATTRIBUTE_ENCODING
    | T_CLDEBUG100_DEBUG_COMPOSITE_TYPE | T_CLDEBUG100_DEBUG_TYPE_QUALIFIER
    | T_CLDEBUG100_DEBUG_OPERATION | T_CLDEBUG100_DEBUG_IMPORTED_ENTITY | T_FPDENORM_MODE
    | T_FPOPERATION_MODE | T_QUANTIZATION_MODES | T_OVERFLOW_MODES | T_PACKED_VECTOR_FORMAT
    | T_OPTIONAL_PACKED_VECTOR_FORMAT | T_FPENCODING | T_OPTIONAL_FPENCODING
    | T_HOST_ACCESS_QUALIFIER | T_LOAD_CACHE_CONTROL | T_STORE_CACHE_CONTROL
    | T_NAMED_MAXIMUM_NUMBER_OF_REGISTERS | T_GATHER_MODES => true
    | _ => false
  end.

(** binary.cpp:789-807  the mask cases of Parser::parseOperand *)
Definition is_mask_case (t : otype) : bool :=
  match t with
    | T_FP_FAST_MATH_MODE | T_FUNCTION_CONTROL | T_LOOP_CONTROL | T_IMAGE | T_OPTIONAL_IMAGE
    | T_MEMORY_ACCESS | T_TENSOR_OPERANDS | T_OPTIONAL_TENSOR_OPERANDS
    | T_OPTIONAL_MEMORY_ACCESS | T_OPTIONAL_RAW_ACCESS_CHAIN_OPERANDS | T_SELECTION_CONTROL
    | T_CLDEBUG100_DEBUG_INFO_FLAGS | T_DEBUG_INFO_FLAGS | T_COOPERATIVE_MATRIX_OPERANDS
    | T_OPTIONAL_COOPERATIVE_MATRIX_OPERANDS | T_COOPERATIVE_MATRIX_REDUCE
    | T_TENSOR_ADDRESSING_OPERANDS | T_MATRIX_MULTIPLY_ACCUMULATE_OPERANDS
    | T_OPTIONAL_MATRIX_MULTIPLY_ACCUMULATE_OPERANDS => true
    | _ => false
  end.

(** binary.cpp:753-760, 811-823  the concrete type reported for an optional enum or mask type *)
Definition enum_concrete (t : otype) : otype :=
  match t with
    | T_OPTIONAL_ACCESS_QUALIFIER => T_ACCESS_QUALIFIER
    | T_OPTIONAL_PACKED_VECTOR_FORMAT => T_PACKED_VECTOR_FORMAT
    | T_OPTIONAL_FPENCODING => T_FPENCODING
    | T_OPTIONAL_CAPABILITY => T_CAPABILITY
    | T_OPTIONAL_IMAGE => T_IMAGE
    | T_OPTIONAL_MEMORY_ACCESS => T_MEMORY_ACCESS
    | T_OPTIONAL_COOPERATIVE_MATRIX_OPERANDS => T_COOPERATIVE_MATRIX_OPERANDS
    | T_OPTIONAL_RAW_ACCESS_CHAIN_OPERANDS => T_RAW_ACCESS_CHAIN_OPERANDS
    | T_OPTIONAL_MATRIX_MULTIPLY_ACCUMULATE_OPERANDS => T_MATRIX_MULTIPLY_ACCUMULATE_OPERANDS
    | T_OPTIONAL_TENSOR_OPERANDS => T_TENSOR_OPERANDS
    | _ => t
  end.
