(** C31: the validator accepts the order of instructions exactly when it follows the logical layout. *)
From Verif Require Import Base Layout LayoutSpec LayoutProofs LayoutLang.
Local Open Scope list_scope.

Theorem layout_accepted_iff_valid : forall l, layout_ok l = true <-> valid_layout l.
Proof. exact layout_ok_iff. Qed.

(** The checks end, and no assertion in them fails. *)
Theorem layout_checks_never_assert : forall l,
  (exists v, check_instructions v_init l = VOk v) \/ check_instructions v_init l = VError.
Proof.
  intros l. pose proof (check_run l _ _ rel_init) as H. destruct (check_instructions v_init l); try contradiction; eauto.
Qed.

(** An error is never reported too early: not before the first instruction after which nothing could make the module
    valid. *)
Theorem layout_error_not_early : forall l rest, valid_layout (l ++ rest) -> exists v, check_instructions v_init l = VOk v.
Proof.
  intros l rest H. apply layout_ok_iff in H. rewrite layout_ok_acc in H. apply andb_true_iff in H. destruct H as (A & C).
  pose proof (check_run l _ _ rel_init) as X. cbn [v_prev v_init] in X. destruct (check_instructions v_init l); try contradiction; eauto.
  exfalso. destruct X as [X|X].
  - unfold acc in A. rewrite arun_app, X in A. discriminate A.
  - assert (Q : forall l p, cont_ok p (l ++ rest) = true -> cont_ok p l = true).
    { induction l0 as [|o l0 IH]; intros p Q; [reflexivity|]. cbn in Q |- *. apply andb_true_iff in Q. rewrite (proj1 Q). apply IH. exact (proj2 Q). }
    rewrite (Q _ _ C) in X. discriminate X.
Qed.

(** Nor too late, in modules without graphs: the error is reported at that instruction. *)
Theorem layout_error_at_first_partial : forall l, ~ In OpGraphARM l -> ~ In OpGraphEntryPointARM l ->
  ((exists v, check_instructions v_init l = VOk v) <-> exists rest, valid_layout (l ++ rest)).
Proof.
  intros l N1 N2. split; [|intros (rest & H); exact (layout_error_not_early l rest H)]. intros (v & E).
  pose proof (check_run l _ _ rel_init) as X. rewrite E in X. destruct X as (a & A & _ & C). cbn [v_prev v_init] in C.
  assert (ND : forall r, a <> AGraph true r).
  { assert (G : forall l a a', (forall d r, a <> AGraph d r) -> ~ In OpGraphARM l -> ~ In OpGraphEntryPointARM l -> arun a l = Some a' -> forall d r, a' <> AGraph d r).
    { clear. induction l as [|o l IH]; intros a a' Na N1 N2 A d r; cbn in A; [injection A as <-; apply Na|].
      destruct (astep a o) as [a1|] eqn:S1; [|discriminate A]. apply (IH a1 a'); [|intros I1; apply N1; right; exact I1 | intros I1; apply N2; right; exact I1 | exact A].
      intros d1 r1 ->. assert (O1 : o <> OpGraphARM) by (intros ->; apply N1; left; reflexivity).
      assert (O2 : o <> OpGraphEntryPointARM) by (intros ->; apply N2; left; reflexivity).
      assert (SG : forall b, start_graph b o = None) by (intros b; destruct o; try reflexivity; congruence).
      destruct a; cbn [astep] in S1; [unfold step_mod in S1; destruct (sec_of o) as [k|]|..];
        repeat match type of S1 with context [if ?b then _ else _] => destruct b end; try discriminate S1.
      all: try (destruct s; discriminate S1).
      all: try (destruct o; rewrite ?SG in S1; discriminate S1).
      exact (Na _ _ eq_refl). }
    intros r. refine (G l _ _ _ N1 N2 A true r). intros d r0. discriminate. }
  assert (CR : forall rest l p, Forall (fun o => o <> OpSourceContinued) rest -> cont_ok p l = true -> cont_ok p (l ++ rest) = true).
  { clear. intros rest l. induction l as [|o l IH]; intros p F H.
    - cbn. clear H. revert p. induction F as [|o rest N F IH]; intros p; [reflexivity|]. cbn. rewrite IH. destruct o; try reflexivity. congruence.
    - cbn in H |- *. apply andb_true_iff in H. rewrite (proj1 H). apply IH; [exact F | exact (proj2 H)]. }
  assert (K : exists rest, Forall (fun o => o <> OpSourceContinued) rest /\ acc a rest = true).
  { destruct a as [s| | | | | | |[] r].
    - destruct (section_ltb s kLayoutMemoryModel) eqn:L.
      + exists [OpMemoryModel]. split; [repeat constructor; discriminate|]. destruct s; try discriminate L; reflexivity.
      + exists []. split; [constructor|]. unfold acc. cbn. rewrite L. reflexivity.
    - exists []. split; [constructor | reflexivity].
    - exists [OpFunctionEnd]. split; [repeat constructor; discriminate | reflexivity].
    - exists []. split; [constructor | reflexivity].
    - exists [OpLabel; OpTerminator; OpFunctionEnd]. split; [repeat constructor; discriminate | reflexivity].
    - exists [OpTerminator; OpFunctionEnd]. split; [repeat constructor; discriminate | reflexivity].
    - exists [OpFunctionEnd]. split; [repeat constructor; discriminate | reflexivity].
    - destruct (ND r eq_refl).
    - destruct r.
      + exists []. split; [constructor | reflexivity].
      + exists [OpGraphSetOutputARM; OpGraphEndARM]. split; [repeat constructor; discriminate | reflexivity].
      + exists [OpGraphSetOutputARM; OpGraphEndARM]. split; [repeat constructor; discriminate | reflexivity].
      + exists [OpGraphSetOutputARM; OpGraphEndARM]. split; [repeat constructor; discriminate | reflexivity].
      + exists [OpGraphEndARM]. split; [repeat constructor; discriminate | reflexivity]. }
  destruct K as (rest & F & R). exists rest. apply layout_ok_iff. rewrite layout_ok_acc. apply andb_true_iff. split.
  - rewrite (acc_app _ _ _ _ A). exact R.
  - apply CR; assumption.
Qed.

(** With graphs it may be reported only at the end: a graph that begins inside a function is not rejected there. *)
Definition graph_in_function : list op := [OpMemoryModel; OpFunction; OpLabel; OpGraphARM].
Theorem layout_error_at_first_refuted :
  (exists v, check_instructions v_init graph_in_function = VOk v) /\ forall rest, ~ valid_layout (graph_in_function ++ rest).
Proof.
  split; [eexists; vm_compute; reflexivity|]. intros rest H. apply layout_ok_iff in H. rewrite layout_ok_acc in H.
  apply andb_true_iff in H. destruct H as (H & _). rewrite (acc_app _ _ _ (AGraph true kGraphDefinitionBegin)) in H by reflexivity.
  rewrite dead_graph in H. discriminate H.
Qed.

(** A module with every section is accepted; swapping two of its instructions is not. *)
Definition example_layout : list op :=
  [OpCapability; OpConditionalCapabilityINTEL; OpExtension; OpExtInstImport; OpMemoryModel; OpEntryPoint; OpExecutionMode; OpString;
   OpSource; OpSourceContinued; OpName; OpModuleProcessed; OpDecorate; OpLine; OpTypeOrConstant;
   OpExtInst NONSEMANTIC_SHADER_DEBUGINFO_100 DebugOther; OpVariable;
   OpFunction; OpFunctionParameter; OpFunctionEnd;
   OpFunction; OpLine; OpFunctionParameter; OpLabel; OpVariable; OpExtInst OTHER_SET DebugOther; OpTerminator; OpNoLine;
   OpLabel; OpExtInst DEBUGINFO DebugScope; OpTerminator; OpFunctionEnd;
   OpGraphEntryPointARM; OpGraphARM; OpGraphInputARM; OpCompositeExtract; OpGraphSetOutputARM; OpGraphEndARM].
Example layout_example : layout_ok example_layout = true /\ valid_layout example_layout.
Proof. assert (E : layout_ok example_layout = true) by (vm_compute; reflexivity). split; [exact E | apply layout_ok_iff; exact E]. Qed.
Example layout_backwards_example :
  check_instructions v_init [OpMemoryModel; OpName; OpEntryPoint] = VError /\
  layout_ok [OpMemoryModel; OpDecorate; OpName] = false /\ layout_ok [OpCapability] = false /\
  ~ In OpGraphARM [OpMemoryModel; OpName] /\ ~ In OpGraphEntryPointARM [OpMemoryModel; OpName] /\
  exists v, check_instructions v_init [OpMemoryModel; OpName] = VOk v.
Proof.
  split; [vm_compute; reflexivity|]. split; [vm_compute; reflexivity|]. split; [vm_compute; reflexivity|].
  split; [cbn; intuition discriminate|]. split; [cbn; intuition discriminate|]. eexists. vm_compute. reflexivity.
Qed.
(** The specification allows OpLine from the types on; the validator takes one between or inside declarations as the
    end of the declarations. *)
Example line_between_declarations_example :
  layout_ok [OpMemoryModel; OpFunction; OpFunctionEnd; OpFunction; OpFunctionEnd] = true /\
  layout_ok [OpMemoryModel; OpFunction; OpFunctionEnd; OpLine; OpFunction; OpFunctionEnd] = false /\
  layout_ok [OpMemoryModel; OpFunction; OpLine; OpFunctionEnd] = false.
Proof. vm_compute. repeat split. Qed.

Print Assumptions layout_accepted_iff_valid.
Print Assumptions layout_checks_never_assert.
Print Assumptions layout_error_not_early.
Print Assumptions layout_error_at_first_partial.
Print Assumptions layout_error_at_first_refuted.
