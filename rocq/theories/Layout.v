(** Model of the logical layout checks of the validator: source/val/validate_layout.cpp, the layout state of
    source/val/validation_state.cpp, and the parts of validate_cfg.cpp (CfgPass), validate_instruction.cpp
    (InstructionPass) and validate.cpp (ValidateBinaryUsingContextAndValidationState) that drive it.

    Simplifications: opcodes that every function below treats alike are one constructor; the checks on ids, types,
    capabilities, versions, limits and operand values made between the layout checks of two instructions are left
    out, so an accepted sequence here is one that those functions do not reject for its order. *)
From Verif Require Import Base.
Local Open Scope N_scope.

(** libspirv.h:356-380: the sets of extended instructions; those that no function below tells apart are one. *)
Inductive ext_type :=
| OPENCL_DEBUGINFO_100 | NONSEMANTIC_SHADER_DEBUGINFO_100 | DEBUGINFO
| NONSEMANTIC_UNKNOWN | NONSEMANTIC_CLSPVREFLECTION | NONSEMANTIC_GRAPH_DEBUGINFO | NONSEMANTIC_VKSPREFLECTION
| OTHER_SET.

(** The instructions of the debug information sets that validate_layout.cpp:45-73 names. *)
Inductive ext_index :=
| DebugScope | DebugNoScope | DebugDeclare | DebugValue | DebugLine | DebugNoLine | DebugFunctionDefinition | DebugOther.

(** The opcodes named in validation_state.cpp:44-137 and validate_layout.cpp. [OpTypeOrConstant] stands for those of
    spvOpcodeGeneratesType and spvOpcodeIsConstant (opcode.cpp:133-164, 236-284), [OpTerminator] for those that end a
    block in CfgPass (validate_cfg.cpp:1170-1213), [OpOther] for the rest. *)
Inductive op :=
| OpCapability | OpConditionalCapabilityINTEL
| OpExtension | OpConditionalExtensionINTEL
| OpExtInstImport | OpMemoryModel | OpSamplerImageAddressingModeNV
| OpEntryPoint | OpConditionalEntryPointINTEL
| OpExecutionMode | OpExecutionModeId
| OpSourceContinued | OpSource | OpSourceExtension | OpString
| OpName | OpMemberName | OpModuleProcessed
| OpDecorate | OpMemberDecorate | OpMemberDecorateIdEXT | OpGroupDecorate | OpGroupMemberDecorate | OpDecorationGroup
| OpDecorateId | OpDecorateStringGOOGLE | OpMemberDecorateStringGOOGLE
| OpAliasDomainDeclINTEL | OpAliasScopeDeclINTEL | OpAliasScopeListDeclINTEL
| OpTypeOrConstant | OpTypeForwardPointer | OpTypeTaskSequenceINTEL
| OpVariable | OpUntypedVariableKHR
| OpExtInst (t : ext_type) (i : ext_index) | OpExtInstWithForwardRefsKHR (t : ext_type) (i : ext_index)
| OpLine | OpNoLine | OpPoisonKHR | OpUndef
| OpFunction | OpFunctionParameter | OpFunctionEnd | OpLabel | OpTerminator
| OpGraphEntryPointARM | OpGraphARM | OpGraphInputARM | OpGraphSetOutputARM | OpGraphEndARM
| OpCompositeExtract
| OpOther.

(** validation_state.h:47-64 (ModuleLayoutSection). *)
Inductive section :=
| kLayoutCapabilities | kLayoutExtensions | kLayoutExtInstImport | kLayoutMemoryModel | kLayoutSamplerImageAddressMode
| kLayoutEntryPoint | kLayoutExecutionMode | kLayoutDebug1 | kLayoutDebug2 | kLayoutDebug3 | kLayoutAnnotations
| kLayoutTypes | kLayoutFunctionDeclarations | kLayoutFunctionDefinitions | kLayoutGraphDefinitions.

(** The values of the enumerants of validation_state.h:47-64, which the code compares. *)
Definition section_index (s : section) : N :=
  match s with
  | kLayoutCapabilities => 0 | kLayoutExtensions => 1 | kLayoutExtInstImport => 2 | kLayoutMemoryModel => 3
  | kLayoutSamplerImageAddressMode => 4 | kLayoutEntryPoint => 5 | kLayoutExecutionMode => 6 | kLayoutDebug1 => 7
  | kLayoutDebug2 => 8 | kLayoutDebug3 => 9 | kLayoutAnnotations => 10 | kLayoutTypes => 11
  | kLayoutFunctionDeclarations => 12 | kLayoutFunctionDefinitions => 13 | kLayoutGraphDefinitions => 14
  end.

(** The cast of an integer to ModuleLayoutSection in validation_state.cpp:329-330; the values that occur are those of
    the enumeration. *)
Definition section_of_index (n : N) : section :=
  match n with
  | 0 => kLayoutCapabilities | 1 => kLayoutExtensions | 2 => kLayoutExtInstImport | 3 => kLayoutMemoryModel
  | 4 => kLayoutSamplerImageAddressMode | 5 => kLayoutEntryPoint | 6 => kLayoutExecutionMode | 7 => kLayoutDebug1
  | 8 => kLayoutDebug2 | 9 => kLayoutDebug3 | 10 => kLayoutAnnotations | 11 => kLayoutTypes
  | 12 => kLayoutFunctionDeclarations | 13 => kLayoutFunctionDefinitions | _ => kLayoutGraphDefinitions
  end.

(** Comparison of enumerants. *)
Definition section_eqb (a b : section) : bool := section_index a =? section_index b.
Definition section_ltb (a b : section) : bool := section_index a <? section_index b.

(** validation_state.h:68-74 (GraphDefinitionRegion). *)
Inductive region :=
| kGraphDefinitionOutside | kGraphDefinitionBegin | kGraphDefinitionInputs | kGraphDefinitionBody | kGraphDefinitionOutputs.

(** validation_state.cpp:44-137 (InstructionLayoutSection). *)
Definition instruction_layout_section (current : section) (o : op) : section :=
  match o with
  | OpTypeOrConstant => kLayoutTypes
  | OpCapability | OpConditionalCapabilityINTEL => kLayoutCapabilities
  | OpExtension | OpConditionalExtensionINTEL => kLayoutExtensions
  | OpExtInstImport => kLayoutExtInstImport
  | OpMemoryModel => kLayoutMemoryModel
  | OpEntryPoint | OpConditionalEntryPointINTEL => kLayoutEntryPoint
  | OpExecutionMode | OpExecutionModeId => kLayoutExecutionMode
  | OpSourceContinued | OpSource | OpSourceExtension | OpString => kLayoutDebug1
  | OpName | OpMemberName => kLayoutDebug2
  | OpModuleProcessed => kLayoutDebug3
  | OpDecorate | OpMemberDecorate | OpMemberDecorateIdEXT | OpGroupDecorate | OpGroupMemberDecorate | OpDecorationGroup
  | OpDecorateId | OpDecorateStringGOOGLE | OpMemberDecorateStringGOOGLE
  | OpAliasDomainDeclINTEL | OpAliasScopeDeclINTEL | OpAliasScopeListDeclINTEL => kLayoutAnnotations
  | OpTypeForwardPointer | OpTypeTaskSequenceINTEL => kLayoutTypes
  | OpVariable | OpUntypedVariableKHR =>
      if section_eqb current kLayoutTypes then kLayoutTypes else kLayoutFunctionDefinitions
  | OpExtInst _ _ | OpExtInstWithForwardRefsKHR _ _ =>
      if section_eqb current kLayoutTypes then kLayoutTypes
      else if section_eqb current kLayoutGraphDefinitions then kLayoutGraphDefinitions
      else kLayoutFunctionDefinitions
  | OpLine | OpNoLine | OpPoisonKHR | OpUndef =>
      if section_eqb current kLayoutTypes then kLayoutTypes else kLayoutFunctionDefinitions
  | OpFunction | OpFunctionParameter | OpFunctionEnd =>
      if section_eqb current kLayoutFunctionDeclarations then kLayoutFunctionDeclarations else kLayoutFunctionDefinitions
  | OpSamplerImageAddressingModeNV => kLayoutSamplerImageAddressMode
  | OpGraphEntryPointARM | OpGraphARM | OpGraphInputARM | OpGraphSetOutputARM | OpGraphEndARM => kLayoutGraphDefinitions
  | OpCompositeExtract =>
      if section_eqb current kLayoutGraphDefinitions then kLayoutGraphDefinitions else kLayoutFunctionDefinitions
  | OpLabel | OpTerminator | OpOther => kLayoutFunctionDefinitions
  end.

(** function.h:47-51 (FunctionDecl). *)
Inductive decl_type := DeclUnknown | DeclDeclaration | DeclDefinition.

(** The members of ValidationState_t and of its current (last) Function that the layout checks read
    (validation_state.h:1076-1156, function.h:295-310).  [v_functions] says whether module_functions_ is not empty;
    [v_block_count] is blocks_.size() of the last function with the blocks that are only referred to left out: those
    are referred to from inside blocks of the same function only, so the code's tests of this number against 0 have
    the same outcome. *)
Record vstate := mkV {
  v_section : section;
  v_in_function : bool;
  v_functions : bool;
  v_decl : decl_type;
  v_in_block : bool;
  v_block_count : N;
  v_region : region;
  v_memory_model : bool;
  v_sampler_mode : bool;
  v_prev : option op
}.

(** validation_state.cpp:181-210: the constructor. *)
Definition v_init : vstate :=
  mkV kLayoutCapabilities false false DeclUnknown false 0 kGraphDefinitionOutside false false None.

Definition set_section (v : vstate) (s : section) : vstate :=
  mkV s (v_in_function v) (v_functions v) (v_decl v) (v_in_block v) (v_block_count v) (v_region v)
      (v_memory_model v) (v_sampler_mode v) (v_prev v).
Definition set_decl (v : vstate) (d : decl_type) : vstate :=
  mkV (v_section v) (v_in_function v) (v_functions v) d (v_in_block v) (v_block_count v) (v_region v)
      (v_memory_model v) (v_sampler_mode v) (v_prev v).
Definition set_region_field (v : vstate) (r : region) : vstate :=
  mkV (v_section v) (v_in_function v) (v_functions v) (v_decl v) (v_in_block v) (v_block_count v) r
      (v_memory_model v) (v_sampler_mode v) (v_prev v).

(** Outcomes: success, a layout error, a failed assertion, a loop or recursion that did not end in the given steps. *)
Inductive vres := VOk (v : vstate) | VError | VAssert | VFuel.
Definition vbind (r : vres) (k : vstate -> vres) : vres :=
  match r with VOk v => k v | VError => VError | VAssert => VAssert | VFuel => VFuel end.

(** validation_state.cpp:326-332. *)
Definition progress (v : vstate) : vstate :=
  if section_index (v_section v) <=? section_index kLayoutFunctionDefinitions
  then set_section v (section_of_index (section_index (v_section v) + 1)) else v.
(** validation_state.cpp:334-338. *)
Definition in_previous_section (v : vstate) (o : op) : bool :=
  section_ltb (instruction_layout_section (v_section v) o) (v_section v).
(** validation_state.cpp:139-141 and 340-342. *)
Definition in_current_section (v : vstate) (o : op) : bool :=
  section_eqb (v_section v) (instruction_layout_section (v_section v) o).
(** validation_state.cpp:397-400. *)
Definition in_block (v : vstate) : bool := v_functions v && v_in_block v.

(** function.cpp:112-116, called on current_function(), which validation_state.cpp:373-381 asserts to exist. *)
Definition register_set_decl (v : vstate) (d : decl_type) : vres :=
  if v_in_function v then
    match v_decl v with DeclUnknown => VOk (set_decl v d) | _ => VAssert end
  else VAssert.
(** validation_state.cpp:550-564: the new function becomes the last one. *)
Definition register_function (v : vstate) : vres :=
  if v_in_function v then VAssert
  else VOk (mkV (v_section v) true true DeclUnknown false 0 (v_region v) (v_memory_model v) (v_sampler_mode v) (v_prev v)).
(** function.cpp:55-65. *)
Definition register_parameter (v : vstate) : vres :=
  if v_in_function v then if v_in_block v then VAssert else VOk v else VAssert.
(** validation_state.cpp:566-576. *)
Definition register_function_end (v : vstate) : vres :=
  if v_in_function v then
    if in_block v then VAssert
    else VOk (mkV (v_section v) false (v_functions v) (v_decl v) (v_in_block v) (v_block_count v) (v_region v)
                  (v_memory_model v) (v_sampler_mode v) (v_prev v))
  else VAssert.

(** validation_state.h:68-74: the order of the regions. *)
Definition region_index (r : region) : N :=
  match r with
  | kGraphDefinitionOutside => 0 | kGraphDefinitionBegin => 1 | kGraphDefinitionInputs => 2
  | kGraphDefinitionBody => 3 | kGraphDefinitionOutputs => 4
  end.
Definition region_eqb (a b : region) : bool := region_index a =? region_index b.
(** validation_state.cpp:578-583. *)
Definition set_region (v : vstate) (r : region) : vres :=
  if (region_eqb r kGraphDefinitionOutside && region_eqb (v_region v) kGraphDefinitionOutputs)
     || (region_index (v_region v) <=? region_index r)
  then VOk (set_region_field v r) else VAssert.

(** ext_inst.cpp:80-89. *)
Definition ext_inst_is_non_semantic (t : ext_type) : bool :=
  match t with
  | NONSEMANTIC_UNKNOWN | NONSEMANTIC_SHADER_DEBUGINFO_100 | NONSEMANTIC_CLSPVREFLECTION | NONSEMANTIC_GRAPH_DEBUGINFO
  | NONSEMANTIC_VKSPREFLECTION => true
  | _ => false
  end.
(** ext_inst.cpp:91-98. *)
Definition ext_inst_is_debug_info (t : ext_type) : bool :=
  match t with OPENCL_DEBUGINFO_100 | NONSEMANTIC_SHADER_DEBUGINFO_100 | DEBUGINFO => true | _ => false end.
(** validate_layout.cpp:43-74 and 252-283 (the same code twice). *)
Definition is_local_debug_info (t : ext_type) (i : ext_index) : bool :=
  match t, i with
  | OPENCL_DEBUGINFO_100, (DebugScope | DebugNoScope | DebugDeclare | DebugValue) => true
  | OPENCL_DEBUGINFO_100, _ => false
  | NONSEMANTIC_SHADER_DEBUGINFO_100,
    (DebugScope | DebugNoScope | DebugDeclare | DebugValue | DebugLine | DebugNoLine | DebugFunctionDefinition) => true
  | NONSEMANTIC_SHADER_DEBUGINFO_100, _ => false
  | _, (DebugScope | DebugNoScope | DebugDeclare | DebugValue) => true
  | _, _ => false
  end.

(** validate_layout.cpp:38-117: the checks on extended instructions in the module sections; [true] when they pass. *)
Definition module_ext_inst_ok (v : vstate) (o : op) : bool :=
  match o with
  | OpExtInst t i | OpExtInstWithForwardRefsKHR t i =>
      if ext_inst_is_debug_info t then
        if is_local_debug_info t i then v_in_function v
        else negb (section_ltb (v_section v) kLayoutTypes
                   || (section_index kLayoutFunctionDeclarations <=? section_index (v_section v)))
      else if ext_inst_is_non_semantic t then negb (section_ltb (v_section v) kLayoutTypes)
      else negb (section_ltb (v_section v) kLayoutFunctionDefinitions)
  | _ => true
  end.

(** validate_layout.cpp:122-147: the loop over the sections. [again] is the recursive call of ModuleLayoutPass. *)
Fixpoint module_loop (again : vstate -> vres) (fuel : nat) (v : vstate) (o : op) : vres :=
  if in_current_section v o then VOk v
  else
    match fuel with
    | O => VFuel
    | Datatypes.S fuel' =>
        if in_previous_section v o then VError
        else
          let v := progress v in
          match v_section v with
          | kLayoutMemoryModel => match o with OpMemoryModel => module_loop again fuel' v o | _ => VError end
          | kLayoutFunctionDeclarations => again v
          | _ => module_loop again fuel' v o
          end
    end.

(** validate_layout.cpp:35-149 (ModuleScopedInstructions). There are 15 sections, so the loop runs at most that
    often. *)
Definition module_scoped (again : vstate -> vres) (v : vstate) (o : op) : vres :=
  if module_ext_inst_ok v o then module_loop again 15 v o else VError.

(** validate_layout.cpp:248-328: the checks on extended instructions in the function sections. *)
Definition function_ext_inst_ok (v : vstate) (t : ext_type) (i : ext_index) : bool :=
  if ext_inst_is_debug_info t then
    if is_local_debug_info t i then v_in_function v
    else negb (section_ltb (v_section v) kLayoutTypes
               || (section_index kLayoutFunctionDeclarations <=? section_index (v_section v)))
  else if ext_inst_is_non_semantic t then
    if section_ltb (v_section v) kLayoutTypes then false
    else negb (v_in_function v && negb (in_block v))
  else in_block v.

(** validate_layout.cpp:171-343: the opcode is in the current section. *)
Definition function_op (v : vstate) (o : op) : vres :=
  match o with
  | OpFunction =>
      if v_in_function v then VError
      else vbind (register_function v) (fun v =>
             if section_eqb (v_section v) kLayoutFunctionDefinitions then register_set_decl v DeclDefinition else VOk v)
  | OpFunctionParameter =>
      if negb (v_in_function v) then VError
      else if negb (v_block_count v =? 0) then VError
      else register_parameter v
  | OpFunctionEnd =>
      if negb (v_in_function v) then VError
      else if in_block v then VError
      else if (v_block_count v =? 0) && section_eqb (v_section v) kLayoutFunctionDefinitions then VError
      else vbind (if section_eqb (v_section v) kLayoutFunctionDeclarations
                  then register_set_decl v DeclDeclaration else VOk v)
                 register_function_end
  | OpLine | OpNoLine => VOk v
  | OpLabel =>
      if negb (v_in_function v) then VError else if in_block v then VError else VOk v
  | OpExtInst t i | OpExtInstWithForwardRefsKHR t i => if function_ext_inst_ok v t i then VOk v else VError
  | _ =>
      if section_eqb (v_section v) kLayoutFunctionDeclarations && v_in_function v then VError
      else if in_block v then VOk v else VError
  end.

(** validate_layout.cpp:154-351 (FunctionScopedInstructions). *)
Definition function_scoped (again : vstate -> vres) (v : vstate) (o : op) : vres :=
  vbind
    (if section_eqb (v_section v) kLayoutFunctionDeclarations && negb (in_current_section v o) then
       let v := progress v in
       if v_in_function v then register_set_decl v DeclDefinition else VOk v
     else VOk v)
    (fun v => if in_current_section v o then function_op v o else again (progress v)).

(** validate_layout.cpp:353-426 (GraphScopedInstructions). *)
Definition graph_scoped (v : vstate) (o : op) : vres :=
  if in_current_section v o then
    match o with
    | OpGraphARM =>
        if region_index kGraphDefinitionOutside <? region_index (v_region v) then VError
        else set_region v kGraphDefinitionBegin
    | OpGraphInputARM =>
        if negb (region_eqb (v_region v) kGraphDefinitionBegin) && negb (region_eqb (v_region v) kGraphDefinitionInputs)
        then VError else set_region v kGraphDefinitionInputs
    | OpGraphSetOutputARM =>
        if negb (region_eqb (v_region v) kGraphDefinitionBegin) && negb (region_eqb (v_region v) kGraphDefinitionInputs)
           && negb (region_eqb (v_region v) kGraphDefinitionBody) && negb (region_eqb (v_region v) kGraphDefinitionOutputs)
        then VError else set_region v kGraphDefinitionOutputs
    | OpGraphEndARM =>
        if negb (region_eqb (v_region v) kGraphDefinitionOutputs) then VError
        else set_region v kGraphDefinitionOutside
    | OpGraphEntryPointARM =>
        if negb (region_eqb (v_region v) kGraphDefinitionOutside) then VError else VOk v
    | _ =>
        if match o with OpExtInst t _ => ext_inst_is_non_semantic t | _ => false end then VOk v
        else if region_eqb (v_region v) kGraphDefinitionOutside then VError
        else if region_eqb (v_region v) kGraphDefinitionOutputs then VError
        else set_region v kGraphDefinitionBody
    end
  else VError.

(** validate_layout.cpp:434-468 (ModuleLayoutPass). *)
Fixpoint module_layout_pass (fuel : nat) (v : vstate) (o : op) : vres :=
  match fuel with
  | O => VFuel
  | Datatypes.S fuel' =>
      match v_section v with
      | kLayoutFunctionDeclarations | kLayoutFunctionDefinitions =>
          function_scoped (fun v => module_layout_pass fuel' v o) v o
      | kLayoutGraphDefinitions => graph_scoped v o
      | _ => module_scoped (fun v => module_layout_pass fuel' v o) v o
      end
  end.

(** validate_cfg.cpp:1142-1241 (CfgPass), with function.cpp:118-139 (RegisterBlock) and 141-178 (RegisterBlockEnd). *)
Definition cfg_pass (v : vstate) (o : op) : vres :=
  match o with
  | OpLabel =>
      if v_in_function v then
        match v_decl v with
        | DeclDefinition =>
            if v_in_block v then VAssert
            else VOk (mkV (v_section v) (v_in_function v) (v_functions v) (v_decl v) true (v_block_count v + 1) (v_region v)
                          (v_memory_model v) (v_sampler_mode v) (v_prev v))
        | _ => VAssert
        end
      else VAssert
  | OpTerminator =>
      if v_in_function v then
        if v_in_block v then
          VOk (mkV (v_section v) (v_in_function v) (v_functions v) (v_decl v) false (v_block_count v) (v_region v)
                   (v_memory_model v) (v_sampler_mode v) (v_prev v))
        else VAssert
      else VAssert
  | _ => VOk v
  end.

(** validate_instruction.cpp:463-541 (InstructionPass): the checks of the order of instructions. The bit width in
    OpSamplerImageAddressingModeNV, which the code tests against 0 to see whether there was one, is not 0 by the check
    at 514. *)
Definition instruction_pass (v : vstate) (o : op) : vres :=
  match o with
  | OpMemoryModel =>
      if v_memory_model v then VError
      else VOk (mkV (v_section v) (v_in_function v) (v_functions v) (v_decl v) (v_in_block v) (v_block_count v) (v_region v)
                    true (v_sampler_mode v) (v_prev v))
  | OpSamplerImageAddressingModeNV =>
      if v_sampler_mode v then VError
      else VOk (mkV (v_section v) (v_in_function v) (v_functions v) (v_decl v) (v_in_block v) (v_block_count v) (v_region v)
                    (v_memory_model v) true (v_prev v))
  | OpSourceContinued =>
      match v_prev v with Some OpSource | Some OpSourceContinued => VOk v | _ => VError end
  | _ => VOk v
  end.

(** validate.cpp:316-319: the passes over one instruction; [v_prev] remembers it for 522. *)
Definition check_instruction (v : vstate) (o : op) : vres :=
  vbind (vbind (vbind (module_layout_pass 3 v o) (fun v => cfg_pass v o)) (fun v => instruction_pass v o))
        (fun v => VOk (mkV (v_section v) (v_in_function v) (v_functions v) (v_decl v) (v_in_block v) (v_block_count v)
                           (v_region v) (v_memory_model v) (v_sampler_mode v) (Some o))).

(** validate.cpp:230-329: the instructions in order, up to the first error. *)
Fixpoint check_instructions (v : vstate) (l : list op) : vres :=
  match l with
  | [] => VOk v
  | o :: l' => vbind (check_instruction v o) (fun v => check_instructions v l')
  end.

(** validate.cpp:331-341: what must hold at the end. The check that a module with capability BindlessTextureNV has an
    OpSamplerImageAddressingModeNV (343-346) is left out. *)
Definition check_end (v : vstate) : bool :=
  v_memory_model v && negb (v_in_function v) && region_eqb (v_region v) kGraphDefinitionOutside.

(** Both: [true] when the sequence is accepted. *)
Definition layout_ok (l : list op) : bool :=
  match check_instructions v_init l with VOk v => check_end v | _ => false end.
