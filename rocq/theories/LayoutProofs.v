(** Proofs about Layout.v: a small automaton that the checks implement, and its language. *)
From Verif Require Import Base Layout LayoutSpec.
Local Open Scope list_scope.

Inductive astate :=
| AMod (s : section) | ADeclOut | ADeclIn | ADefOut | AHead | ABlock | ABetween | AGraph (dead : bool) (r : region).

Definition ext_of (o : op) : option (ext_type * ext_index) :=
  match o with OpExtInst t i | OpExtInstWithForwardRefsKHR t i => Some (t, i) | _ => None end.
Definition is_line (o : op) : bool := match o with OpLine | OpNoLine => true | _ => false end.
Definition is_local (o : op) : bool :=
  match ext_of o with Some (t, i) => ext_inst_is_debug_info t && is_local_debug_info t i | None => false end.
Definition is_global_debug (o : op) : bool :=
  match ext_of o with Some (t, i) => ext_inst_is_debug_info t && negb (is_local_debug_info t i) | None => false end.
Definition is_note (o : op) : bool :=
  match ext_of o with Some (t, i) => ext_inst_is_non_semantic t && negb (ext_inst_is_debug_info t) | None => false end.
Definition is_plain_ext (o : op) : bool :=
  match ext_of o with Some (t, i) => negb (ext_inst_is_non_semantic t) && negb (ext_inst_is_debug_info t) | None => false end.
Definition is_any (o : op) : bool := is_line o || is_local o.
Definition is_body (o : op) : bool :=
  is_any o || is_note o || is_plain_ext o ||
  match o with OpVariable | OpUntypedVariableKHR | OpPoisonKHR | OpUndef | OpCompositeExtract | OpOther => true | _ => false end.
Definition is_graph_body (o : op) : bool :=
  match o with OpCompositeExtract => true | _ => match ext_of o with Some _ => true | None => false end end.

Definition sec_of (o : op) : option section :=
  match o with
  | OpVariable | OpUntypedVariableKHR | OpLine | OpNoLine | OpPoisonKHR | OpUndef => Some kLayoutTypes
  | OpExtInst _ _ | OpExtInstWithForwardRefsKHR _ _ => None
  | _ => let s := instruction_layout_section kLayoutCapabilities o in
         if section_ltb s kLayoutFunctionDeclarations then Some s else None
  end.

Definition start_graph (dead : bool) (o : op) : option astate :=
  match o with
  | OpGraphEntryPointARM => Some (AGraph dead kGraphDefinitionOutside)
  | OpGraphARM => Some (AGraph dead kGraphDefinitionBegin)
  | _ => None
  end.

Definition step_mod (s : section) (o : op) : option astate :=
  match sec_of o with
  | Some k =>
      if section_ltb k s then None
      else if section_eqb k s then
        match s with kLayoutMemoryModel | kLayoutSamplerImageAddressMode => None | _ => Some (AMod s) end
      else if section_ltb s kLayoutMemoryModel && section_ltb kLayoutMemoryModel k then None
      else Some (AMod k)
  | None =>
      if section_eqb s kLayoutTypes && (is_global_debug o || is_note o) then Some (AMod s)
      else if section_ltb s kLayoutMemoryModel then None
      else match o with OpFunction => Some ADeclIn | _ => start_graph false o end
  end.

Definition step_graph (dead : bool) (r : region) (o : op) : option astate :=
  if graph_note o then Some (AGraph dead r)
  else
    match r, o with
    | kGraphDefinitionOutside, OpGraphARM => Some (AGraph dead kGraphDefinitionBegin)
    | kGraphDefinitionOutside, OpGraphEntryPointARM => Some (AGraph dead kGraphDefinitionOutside)
    | kGraphDefinitionOutside, _ => None
    | (kGraphDefinitionBegin | kGraphDefinitionInputs), OpGraphInputARM => Some (AGraph dead kGraphDefinitionInputs)
    | _, OpGraphSetOutputARM => Some (AGraph dead kGraphDefinitionOutputs)
    | kGraphDefinitionOutputs, OpGraphEndARM => Some (AGraph dead kGraphDefinitionOutside)
    | kGraphDefinitionOutputs, _ => None
    | _, _ => if is_graph_body o then Some (AGraph dead kGraphDefinitionBody) else None
    end.

Definition astep (a : astate) (o : op) : option astate :=
  match a with
  | AMod s => step_mod s o
  | ADeclOut =>
      match o with
      | OpFunction => Some ADeclIn
      | _ => if is_line o || is_note o then Some ADefOut else start_graph false o
      end
  | ADeclIn =>
      match o with
      | OpFunctionParameter => Some ADeclIn
      | OpFunctionEnd => Some ADeclOut
      | OpLabel => Some ABlock
      | _ => if is_any o then Some AHead else start_graph true o
      end
  | ADefOut =>
      match o with
      | OpFunction => Some AHead
      | _ => if is_line o || is_note o then Some ADefOut else start_graph false o
      end
  | AHead =>
      match o with
      | OpFunctionParameter => Some AHead
      | OpLabel => Some ABlock
      | _ => if is_any o then Some AHead else start_graph true o
      end
  | ABlock =>
      match o with
      | OpTerminator => Some ABetween
      | _ => if is_body o then Some ABlock else start_graph true o
      end
  | ABetween =>
      match o with
      | OpLabel => Some ABlock
      | OpFunctionEnd => Some ADefOut
      | _ => if is_any o then Some ABetween else start_graph true o
      end
  | AGraph dead r => step_graph dead r o
  end.

Definition rel (a : astate) (v : vstate) : Prop :=
  match a with
  | AMod s => v_section v = s /\ section_ltb s kLayoutFunctionDeclarations = true /\ v_in_function v = false /\
      v_functions v = false /\ v_in_block v = false /\ v_region v = kGraphDefinitionOutside /\
      v_memory_model v = negb (section_ltb s kLayoutMemoryModel) /\
      (section_ltb s kLayoutSamplerImageAddressMode = true -> v_sampler_mode v = false) /\
      (s = kLayoutSamplerImageAddressMode -> v_sampler_mode v = true)
  | _ =>
      v_memory_model v = true /\
      match a with
      | AMod s => False
      | ADeclOut => v_section v = kLayoutFunctionDeclarations /\ v_in_function v = false /\ v_in_block v = false /\
          v_region v = kGraphDefinitionOutside
      | ADeclIn => v_section v = kLayoutFunctionDeclarations /\ v_in_function v = true /\ v_functions v = true /\
          v_in_block v = false /\ v_decl v = DeclUnknown /\ v_block_count v = 0%N /\ v_region v = kGraphDefinitionOutside
      | ADefOut => v_section v = kLayoutFunctionDefinitions /\ v_in_function v = false /\ v_in_block v = false /\
          v_region v = kGraphDefinitionOutside
      | AHead => v_section v = kLayoutFunctionDefinitions /\ v_in_function v = true /\ v_functions v = true /\
          v_in_block v = false /\ v_decl v = DeclDefinition /\ v_block_count v = 0%N /\ v_region v = kGraphDefinitionOutside
      | ABlock => v_section v = kLayoutFunctionDefinitions /\ v_in_function v = true /\ v_functions v = true /\
          v_in_block v = true /\ v_decl v = DeclDefinition /\ (exists p, v_block_count v = Npos p) /\
          v_region v = kGraphDefinitionOutside
      | ABetween => v_section v = kLayoutFunctionDefinitions /\ v_in_function v = true /\ v_functions v = true /\
          v_in_block v = false /\ v_decl v = DeclDefinition /\ (exists p, v_block_count v = Npos p) /\
          v_region v = kGraphDefinitionOutside
      | AGraph dead r => v_section v = kLayoutGraphDefinitions /\ v_in_function v = dead /\ v_region v = r
      end
  end.

Definition prev_ok (p : option op) (o : op) : bool :=
  match o with OpSourceContinued => match p with Some OpSource | Some OpSourceContinued => true | _ => false end | _ => true end.

Definition step_matches (a : astate) (v : vstate) (o : op) : Prop :=
  match check_instruction v o with
  | VOk v' => v_prev v' = Some o /\ prev_ok (v_prev v) o = true /\ exists a', astep a o = Some a' /\ rel a' v'
  | VError => astep a o = None \/ prev_ok (v_prev v) o = false
  | _ => False
  end.

Lemma matches_error : forall a v o,
  check_instruction v o = VError -> astep a o = None \/ prev_ok (v_prev v) o = false -> step_matches a v o.
Proof. intros a v o E H. unfold step_matches. rewrite E. exact H. Qed.
Lemma matches_ok : forall a v o v' a',
  check_instruction v o = VOk v' -> v_prev v' = Some o -> prev_ok (v_prev v) o = true -> astep a o = Some a' -> rel a' v' ->
  step_matches a v o.
Proof. intros a v o v' a' E H1 H2 H3 H4. unfold step_matches. rewrite E. split; [exact H1|]. split; [exact H2|]. exists a'. split; [exact H3|exact H4]. Qed.

Ltac finish_step :=
  first [ apply matches_error; [lazy; reflexivity | first [left; lazy; reflexivity | right; lazy; reflexivity]]
        | eapply matches_ok; [lazy; reflexivity | reflexivity | lazy; reflexivity | lazy; reflexivity
                             | cbn; repeat split; eauto; discriminate] ].
Ltac each_op o := destruct o as [ | | | | | | | | | | | | | | | | | | | | | | | | | | | | | | | | | | | t i | t i | | | | | | | | | | | | | | | | ];
  [ .. | destruct t; destruct i | destruct t; destruct i | | | | | | | | | | | | | | | | ].

Lemma step_mod_ok : forall s v o, rel (AMod s) v -> step_matches (AMod s) v o.
Proof.
  intros s [sec inf fs d ib bc r mm sm p] o H. cbn in H. destruct H as (H1 & H2 & H3 & H4 & H5 & H6 & H7 & H8 & H9). subst.
  destruct s; try discriminate H2; clear H2; cbn in H8, H9;
    try (specialize (H8 eq_refl); subst sm); try (specialize (H9 eq_refl); subst sm);
    each_op o; try finish_step; (destruct p as [q|]; [destruct q|]; finish_step).
Qed.

Lemma step_decl_out_ok : forall v o, rel ADeclOut v -> step_matches ADeclOut v o.
Proof.
  intros [sec inf fs d ib bc r mm sm p] o H. cbn in H. destruct H as (H0 & H1 & H2 & H3 & H4). subst.
  destruct fs; each_op o; finish_step.
Qed.
Lemma step_def_out_ok : forall v o, rel ADefOut v -> step_matches ADefOut v o.
Proof.
  intros [sec inf fs d ib bc r mm sm p] o H. cbn in H. destruct H as (H0 & H1 & H2 & H3 & H4). subst.
  destruct fs; each_op o; finish_step.
Qed.
Lemma step_decl_in_ok : forall v o, rel ADeclIn v -> step_matches ADeclIn v o.
Proof.
  intros [sec inf fs d ib bc r mm sm p] o H. cbn in H. destruct H as (H0 & H1 & H2 & H3 & H4 & H5 & H6 & H7). subst.
  each_op o; finish_step.
Qed.
Lemma step_head_ok : forall v o, rel AHead v -> step_matches AHead v o.
Proof.
  intros [sec inf fs d ib bc r mm sm p] o H. cbn in H. destruct H as (H0 & H1 & H2 & H3 & H4 & H5 & H6 & H7). subst.
  each_op o; finish_step.
Qed.
Lemma step_block_ok : forall v o, rel ABlock v -> step_matches ABlock v o.
Proof.
  intros [sec inf fs d ib bc r mm sm p] o H. cbn in H. destruct H as (H0 & H1 & H2 & H3 & H4 & H5 & (bp & H6) & H7). subst.
  each_op o; finish_step.
Qed.
Lemma step_between_ok : forall v o, rel ABetween v -> step_matches ABetween v o.
Proof.
  intros [sec inf fs d ib bc r mm sm p] o H. cbn in H. destruct H as (H0 & H1 & H2 & H3 & H4 & H5 & (bp & H6) & H7). subst.
  each_op o; finish_step.
Qed.
Lemma step_graph_ok : forall dead r v o, rel (AGraph dead r) v -> step_matches (AGraph dead r) v o.
Proof.
  intros dead r0 [sec inf fs d ib bc r mm sm p] o H. cbn in H. destruct H as (H0 & H1 & H2 & H3). subst.
  destruct r0; each_op o; finish_step.
Qed.
