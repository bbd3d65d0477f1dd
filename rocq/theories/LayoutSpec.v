(** The logical layout of a module (SPIR-V specification, section 2.4), as a grammar. *)
From Verif Require Import Base Layout.
Local Open Scope list_scope.

(** ** Extended instructions *)
Definition debug_set (t : ext_type) : Prop := In t [OPENCL_DEBUGINFO_100; NONSEMANTIC_SHADER_DEBUGINFO_100; DEBUGINFO].
Definition non_semantic_set (t : ext_type) : Prop :=
  In t [NONSEMANTIC_UNKNOWN; NONSEMANTIC_SHADER_DEBUGINFO_100; NONSEMANTIC_CLSPVREFLECTION; NONSEMANTIC_GRAPH_DEBUGINFO;
        NONSEMANTIC_VKSPREFLECTION].
(** Debug instructions that describe a place in a function body. *)
Definition local_debug (t : ext_type) (i : ext_index) : Prop :=
  debug_set t /\
  (In i [DebugScope; DebugNoScope; DebugDeclare; DebugValue] \/
   (t = NONSEMANTIC_SHADER_DEBUGINFO_100 /\ In i [DebugLine; DebugNoLine; DebugFunctionDefinition])).
Definition ext_inst (o : op) (t : ext_type) (i : ext_index) : Prop :=
  o = OpExtInst t i \/ o = OpExtInstWithForwardRefsKHR t i.
Definition local_debug_inst (o : op) : Prop := exists t i, ext_inst o t i /\ local_debug t i.
Definition global_debug_inst (o : op) : Prop := exists t i, ext_inst o t i /\ debug_set t /\ ~ local_debug t i.
(** Non-semantic instructions that are not debug information. *)
Definition note_inst (o : op) : Prop := exists t i, ext_inst o t i /\ non_semantic_set t /\ ~ debug_set t.
(** Those that compute something. *)
Definition plain_ext_inst (o : op) : Prop := exists t i, ext_inst o t i /\ ~ non_semantic_set t /\ ~ debug_set t.

(** ** Sections before the functions *)
Definition line_inst (o : op) : Prop := In o [OpLine; OpNoLine].
Definition types_inst (o : op) : Prop :=
  line_inst o \/
  In o [OpTypeOrConstant; OpTypeForwardPointer; OpTypeTaskSequenceINTEL; OpVariable; OpUntypedVariableKHR;
        OpPoisonKHR; OpUndef].
(** Extended instructions may appear from the first type on. *)
Definition types_section (l : list op) : Prop :=
  l = [] \/ exists o l', l = o :: l' /\ types_inst o /\
    Forall (fun o => types_inst o \/ global_debug_inst o \/ note_inst o) l'.

(** ** Functions *)
Definition declaration (l : list op) : Prop :=
  exists n, l = OpFunction :: repeat OpFunctionParameter n ++ [OpFunctionEnd].
(** What may be anywhere in a function that has a body. *)
Definition in_function_inst (o : op) : Prop := line_inst o \/ local_debug_inst o.
Definition body_inst (o : op) : Prop :=
  in_function_inst o \/ note_inst o \/ plain_ext_inst o \/
  In o [OpVariable; OpUntypedVariableKHR; OpPoisonKHR; OpUndef; OpCompositeExtract; OpOther].
Definition block (l : list op) : Prop :=
  exists body after, l = OpLabel :: body ++ OpTerminator :: after /\ Forall body_inst body /\ Forall in_function_inst after.
Definition definition (l : list op) : Prop :=
  exists header blocks, l = OpFunction :: header ++ concat blocks ++ [OpFunctionEnd] /\
    Forall (fun o => o = OpFunctionParameter \/ in_function_inst o) header /\ Forall block blocks /\ blocks <> [].
(** Between two definitions there may be lines and notes. *)
Definition function_item (l : list op) : Prop :=
  definition l \/ exists o, l = [o] /\ (line_inst o \/ note_inst o).
(** Declarations, then definitions; the section starts with a function. *)
Definition functions (l : list op) : Prop :=
  exists decls items, l = concat decls ++ concat items /\ Forall declaration decls /\ Forall function_item items /\
    (decls = [] -> match items with [] => True | i :: _ => definition i end).

(** ** Graphs *)
(** OpExtInst of a non-semantic set may be anywhere among graphs. *)
Definition graph_note (o : op) : bool :=
  match o with
  | OpExtInst (NONSEMANTIC_UNKNOWN | NONSEMANTIC_SHADER_DEBUGINFO_100 | NONSEMANTIC_CLSPVREFLECTION
               | NONSEMANTIC_GRAPH_DEBUGINFO | NONSEMANTIC_VKSPREFLECTION) _ => true
  | _ => false
  end.
Definition graph_body_inst (o : op) : Prop :=
  o = OpCompositeExtract \/ exists t i, ext_inst o t i.
Definition graph (l : list op) : Prop :=
  exists inputs body outputs,
    l = OpGraphARM :: repeat OpGraphInputARM inputs ++ body ++ repeat OpGraphSetOutputARM (S outputs) ++ [OpGraphEndARM] /\
    Forall graph_body_inst body.
Definition graph_item (l : list op) : Prop := graph l \/ l = [OpGraphEntryPointARM].
Definition graphs (l : list op) : Prop :=
  (exists items, filter (fun o => negb (graph_note o)) l = concat items /\ Forall graph_item items) /\
  match l with [] => True | o :: _ => graph_note o = false end.

(** ** Modules *)
(** Every OpSourceContinued comes immediately after an OpSource or another OpSourceContinued. *)
Definition source_continued_ok (l : list op) : Prop :=
  forall a b, l = a ++ OpSourceContinued :: b -> exists a' o, a = a' ++ [o] /\ (o = OpSource \/ o = OpSourceContinued).

Definition module_layout (l : list op) : Prop :=
  exists capabilities extensions imports sampler_mode entry_points execution_modes debugs1 debugs2 debugs3 annotations
         types fns grs,
    l = capabilities ++ extensions ++ imports ++ [OpMemoryModel] ++ sampler_mode ++ entry_points ++ execution_modes ++
        debugs1 ++ debugs2 ++ debugs3 ++ annotations ++ types ++ fns ++ grs /\
    Forall (fun o => In o [OpCapability; OpConditionalCapabilityINTEL]) capabilities /\
    Forall (fun o => In o [OpExtension; OpConditionalExtensionINTEL]) extensions /\
    Forall (fun o => o = OpExtInstImport) imports /\
    (sampler_mode = [] \/ sampler_mode = [OpSamplerImageAddressingModeNV]) /\
    Forall (fun o => In o [OpEntryPoint; OpConditionalEntryPointINTEL]) entry_points /\
    Forall (fun o => In o [OpExecutionMode; OpExecutionModeId]) execution_modes /\
    Forall (fun o => In o [OpString; OpSource; OpSourceContinued; OpSourceExtension]) debugs1 /\
    Forall (fun o => In o [OpName; OpMemberName]) debugs2 /\
    Forall (fun o => o = OpModuleProcessed) debugs3 /\
    Forall (fun o => In o [OpDecorate; OpMemberDecorate; OpMemberDecorateIdEXT; OpGroupDecorate; OpGroupMemberDecorate;
                           OpDecorationGroup; OpDecorateId; OpDecorateStringGOOGLE; OpMemberDecorateStringGOOGLE;
                           OpAliasDomainDeclINTEL; OpAliasScopeDeclINTEL; OpAliasScopeListDeclINTEL]) annotations /\
    types_section types /\ functions fns /\ graphs grs.

Definition valid_layout (l : list op) : Prop := module_layout l /\ source_continued_ok l.
