(** Proofs about Layout.v: the language of the automaton of LayoutProofs.v is the grammar of LayoutSpec.v. *)
From Coq Require Sorted.
From Verif Require Import Base Layout LayoutSpec LayoutProofs.
Local Open Scope list_scope.

Fixpoint arun (a : astate) (l : list op) : option astate :=
  match l with [] => Some a | o :: l' => match astep a o with Some a' => arun a' l' | None => None end end.
Definition accepting (a : astate) : bool :=
  match a with
  | AMod s => negb (section_ltb s kLayoutMemoryModel)
  | ADeclOut | ADefOut => true
  | AGraph false kGraphDefinitionOutside => true
  | _ => false
  end.
Definition acc (a : astate) (l : list op) : bool := match arun a l with Some a' => accepting a' | None => false end.
Fixpoint cont_ok (p : option op) (l : list op) : bool :=
  match l with [] => true | o :: l' => prev_ok p o && cont_ok (Some o) l' end.

Lemma step_ok : forall a v o, rel a v -> step_matches a v o.
Proof.
  intros a v o H. destruct a.
  - apply step_mod_ok; exact H.
  - apply step_decl_out_ok; exact H.
  - apply step_decl_in_ok; exact H.
  - apply step_def_out_ok; exact H.
  - apply step_head_ok; exact H.
  - apply step_block_ok; exact H.
  - apply step_between_ok; exact H.
  - apply step_graph_ok; exact H.
Qed.

Lemma check_run : forall l a v, rel a v ->
  match check_instructions v l with
  | VOk v' => exists a', arun a l = Some a' /\ rel a' v' /\ cont_ok (v_prev v) l = true
  | VError => arun a l = None \/ cont_ok (v_prev v) l = false
  | _ => False
  end.
Proof.
  induction l as [|o l IH]; intros a v H; cbn [check_instructions arun cont_ok].
  - exists a. auto.
  - pose proof (step_ok a v o H) as M. unfold step_matches in M.
    destruct (check_instruction v o) as [v'| | |] eqn:E; cbn [vbind]; try contradiction.
    + destruct M as (P & Q & a' & S1 & R). rewrite S1, Q. cbn [andb]. specialize (IH a' v' R). rewrite P in IH. exact IH.
    + destruct M as [S1|Q]; [rewrite S1; left; reflexivity | rewrite Q; right; reflexivity].
Qed.

Lemma rel_init : rel (AMod kLayoutCapabilities) v_init.
Proof. cbn. repeat split; auto; discriminate. Qed.
Lemma check_end_accepting : forall a v, rel a v -> check_end v = accepting a.
Proof.
  intros a [sec inf fs d ib bc r mm sm p] H. unfold check_end. cbn [v_memory_model v_in_function v_region].
  destruct a as [s| | | | | | |dead r0]; cbn [rel v_section v_memory_model v_in_function v_region] in H;
    repeat match goal with H : _ /\ _ |- _ => destruct H end; subst; cbn [negb andb]; try reflexivity.
  - cbn [accepting region_eqb]. change (region_eqb kGraphDefinitionOutside kGraphDefinitionOutside) with true. rewrite !andb_true_r. reflexivity.
  - destruct dead, r0; reflexivity.
Qed.

Lemma layout_ok_acc : forall l, layout_ok l = acc (AMod kLayoutCapabilities) l && cont_ok None l.
Proof.
  intros l. unfold layout_ok, acc. pose proof (check_run l _ _ rel_init) as H. cbn [v_prev v_init] in H.
  destruct (check_instructions v_init l) as [v'| | |]; try contradiction.
  - destruct H as (a' & R & Q & C). rewrite R, C, (check_end_accepting _ _ Q). symmetry. apply andb_true_r.
  - destruct H as [R|C]; [rewrite R; reflexivity | rewrite C; symmetry; apply andb_false_r].
Qed.

Lemma arun_app : forall l1 l2 a, arun a (l1 ++ l2) = match arun a l1 with Some a' => arun a' l2 | None => None end.
Proof. induction l1 as [|o l1 IH]; intros l2 a; cbn; [reflexivity|]. destruct (astep a o); [apply IH | reflexivity]. Qed.
Lemma acc_app : forall l1 l2 a a', arun a l1 = Some a' -> acc a (l1 ++ l2) = acc a' l2.
Proof. intros l1 l2 a a' H. unfold acc. rewrite arun_app, H. reflexivity. Qed.
Lemma acc_cons : forall a o l, acc a (o :: l) = match astep a o with Some a' => acc a' l | None => false end.
Proof. intros a o l. unfold acc. cbn. destruct (astep a o); reflexivity. Qed.

(** ** The tests decide the predicates *)
Lemma debug_set_dec : forall t, ext_inst_is_debug_info t = true <-> debug_set t.
Proof. intros t. unfold debug_set. cbn. destruct t; cbn; intuition congruence. Qed.
Lemma non_semantic_set_dec : forall t, ext_inst_is_non_semantic t = true <-> non_semantic_set t.
Proof. intros t. unfold non_semantic_set. cbn. destruct t; cbn; intuition congruence. Qed.
Lemma local_debug_dec : forall t i, ext_inst_is_debug_info t && is_local_debug_info t i = true <-> local_debug t i.
Proof.
  intros t i. unfold local_debug. rewrite andb_true_iff, debug_set_dec. split; intros (D & L); (split; [exact D|]).
  - destruct t; try (exfalso; unfold debug_set in D; cbn in D; intuition congruence); destruct i; cbn in L |- *; auto 10; discriminate.
  - destruct t; try (exfalso; unfold debug_set in D; cbn in D; intuition congruence); destruct i; cbn in L |- *; auto; intuition congruence.
Qed.
Lemma ext_of_dec : forall o t i, ext_of o = Some (t, i) <-> ext_inst o t i.
Proof. intros o t i. unfold ext_inst. destruct o; cbn; split; intros H; try discriminate; try (destruct H; discriminate); try (injection H as -> ->; auto);
  (destruct H as [H|H]; [injection H as -> -> | discriminate]) || (destruct H as [H|H]; [discriminate | injection H as -> ->]); auto. Qed.
Lemma is_line_dec : forall o, is_line o = true <-> line_inst o.
Proof. intros o. unfold line_inst. destruct o; cbn; intuition congruence. Qed.

Lemma ext_test : forall (f : ext_type -> ext_index -> bool) (P : ext_type -> ext_index -> Prop) o,
  (forall t i, f t i = true <-> P t i) ->
  (match ext_of o with Some (t, i) => f t i | None => false end = true <-> exists t i, ext_inst o t i /\ P t i).
Proof.
  intros f P o H. split.
  - destruct (ext_of o) as [[t i]|] eqn:E; [|discriminate]. intros F. exists t, i. split; [apply ext_of_dec; exact E | apply H; exact F].
  - intros (t & i & X & Y). rewrite (proj2 (ext_of_dec o t i) X). apply H. exact Y.
Qed.
Lemma is_local_dec : forall o, is_local o = true <-> local_debug_inst o.
Proof. intros o. unfold is_local, local_debug_inst. apply (ext_test (fun t i => ext_inst_is_debug_info t && is_local_debug_info t i)). intros t i. apply local_debug_dec. Qed.
Lemma is_global_debug_dec : forall o, is_global_debug o = true <-> global_debug_inst o.
Proof.
  intros o. unfold is_global_debug, global_debug_inst.
  apply (ext_test (fun t i => ext_inst_is_debug_info t && negb (is_local_debug_info t i)) (fun t i => debug_set t /\ ~ local_debug t i)).
  intros t i. rewrite <- local_debug_dec, <- debug_set_dec, !andb_true_iff, negb_true_iff.
  destruct (ext_inst_is_debug_info t), (is_local_debug_info t i); intuition congruence.
Qed.
Lemma is_note_dec : forall o, is_note o = true <-> note_inst o.
Proof.
  intros o. unfold is_note, note_inst.
  apply (ext_test (fun t i => ext_inst_is_non_semantic t && negb (ext_inst_is_debug_info t)) (fun t i => non_semantic_set t /\ ~ debug_set t)).
  intros t i. rewrite <- non_semantic_set_dec, <- debug_set_dec, andb_true_iff, negb_true_iff.
  destruct (ext_inst_is_debug_info t), (ext_inst_is_non_semantic t); intuition congruence.
Qed.
Lemma is_plain_ext_dec : forall o, is_plain_ext o = true <-> plain_ext_inst o.
Proof.
  intros o. unfold is_plain_ext, plain_ext_inst.
  apply (ext_test (fun t i => negb (ext_inst_is_non_semantic t) && negb (ext_inst_is_debug_info t)) (fun t i => ~ non_semantic_set t /\ ~ debug_set t)).
  intros t i. rewrite <- non_semantic_set_dec, <- debug_set_dec, andb_true_iff, !negb_true_iff.
  destruct (ext_inst_is_debug_info t), (ext_inst_is_non_semantic t); intuition congruence.
Qed.
Lemma is_any_dec : forall o, is_any o = true <-> in_function_inst o.
Proof. intros o. unfold is_any, in_function_inst. rewrite orb_true_iff, is_line_dec, is_local_dec. tauto. Qed.
Lemma is_body_dec : forall o, is_body o = true <-> body_inst o.
Proof.
  intros o. unfold is_body, body_inst. rewrite !orb_true_iff, is_any_dec, is_note_dec, is_plain_ext_dec.
  assert (E : match o with OpVariable | OpUntypedVariableKHR | OpPoisonKHR | OpUndef | OpCompositeExtract | OpOther => true | _ => false end = true
    <-> In o [OpVariable; OpUntypedVariableKHR; OpPoisonKHR; OpUndef; OpCompositeExtract; OpOther])
    by (destruct o; cbn; intuition congruence).
  rewrite E. tauto.
Qed.
Lemma is_graph_body_dec : forall o, is_graph_body o = true <-> graph_body_inst o.
Proof.
  intros o. unfold graph_body_inst. split.
  - destruct o; try discriminate; intros _; try (left; reflexivity); right; eexists; eexists; [left|right]; reflexivity.
  - intros [->|(t & i & [-> | ->])]; reflexivity.
Qed.
Lemma between_dec : forall o, is_line o || is_note o = true <-> line_inst o \/ note_inst o.
Proof. intros o. rewrite orb_true_iff, is_line_dec, is_note_dec. tauto. Qed.

(** ** A graph begun inside a function never ends well *)
Lemma dead_graph : forall l r, acc (AGraph true r) l = false.
Proof.
  induction l as [|o l IH]; intros r; [destruct r; reflexivity|]. rewrite acc_cons.
  destruct (astep (AGraph true r) o) as [a'|] eqn:E; [|reflexivity].
  assert (exists r', a' = AGraph true r') as (r' & ->).
  { cbn in E. unfold step_graph in E. destruct (graph_note o); [injection E as <-; eauto|].
    destruct r; destruct o; cbn in E; try discriminate; injection E as <-; eauto. }
  apply IH.
Qed.
Lemma dead_start : forall o a l, start_graph true o = Some a -> acc a l = true -> False.
Proof. intros o a l H A. destruct o; try discriminate H; injection H as <-; rewrite dead_graph in A; discriminate. Qed.

(** ** What each state accepts *)
Definition R_items (l : list op) : Prop := exists items g, l = concat items ++ g /\ Forall function_item items /\ graphs g.
Definition R_decls (l : list op) : Prop :=
  exists decls items g, l = concat decls ++ concat items ++ g /\ Forall declaration decls /\ Forall function_item items /\ graphs g.
Definition R_between (l : list op) : Prop :=
  exists after blocks l', l = after ++ concat blocks ++ OpFunctionEnd :: l' /\ Forall in_function_inst after /\ Forall block blocks /\ R_items l'.
Definition R_block (l : list op) : Prop :=
  exists body l', l = body ++ OpTerminator :: l' /\ Forall body_inst body /\ R_between l'.
Definition R_head (l : list op) : Prop :=
  exists header l', l = header ++ OpLabel :: l' /\ Forall (fun o => o = OpFunctionParameter \/ in_function_inst o) header /\ R_block l'.
Definition R_decl_in (l : list op) : Prop :=
  (exists n l', l = repeat OpFunctionParameter n ++ OpFunctionEnd :: l' /\ R_decls l') \/ R_head l.

Definition fl (l : list op) : list op := filter (fun o => negb (graph_note o)) l.
Definition R_graph (r : region) (l : list op) : Prop :=
  match r with
  | kGraphDefinitionOutside => exists items, fl l = concat items /\ Forall graph_item items
  | kGraphDefinitionBegin | kGraphDefinitionInputs =>
      exists n body m items, fl l = repeat OpGraphInputARM n ++ body ++ repeat OpGraphSetOutputARM (S m) ++ OpGraphEndARM :: concat items /\
        Forall graph_body_inst body /\ Forall graph_item items
  | kGraphDefinitionBody =>
      exists body m items, fl l = body ++ repeat OpGraphSetOutputARM (S m) ++ OpGraphEndARM :: concat items /\
        Forall graph_body_inst body /\ Forall graph_item items
  | kGraphDefinitionOutputs =>
      exists m items, fl l = repeat OpGraphSetOutputARM m ++ OpGraphEndARM :: concat items /\ Forall graph_item items
  end.

Lemma graph_lang : forall l r, acc (AGraph false r) l = true -> R_graph r l.
Proof.
  induction l as [|o l IH]; intros r H.
  { destruct r; try discriminate H. exists []. split; [reflexivity | constructor]. }
  rewrite acc_cons in H. cbn [astep] in H. unfold step_graph in H.
  destruct (graph_note o) eqn:GN.
  { specialize (IH r H). destruct r; cbn [R_graph] in *; unfold fl in *; cbn [filter]; rewrite GN; exact IH. }
  assert (F : fl (o :: l) = o :: fl l) by (unfold fl; cbn [filter]; rewrite GN; reflexivity).
  destruct r; cbn [R_graph]; rewrite F.
  - destruct o; try discriminate H; specialize (IH _ H); cbn [R_graph] in IH.
    + destruct IH as (items & E & G). exists ([OpGraphEntryPointARM] :: items). split; [cbn; rewrite E; reflexivity|].
      constructor; [right; reflexivity | exact G].
    + destruct IH as (n & body & m & items & E & B & G).
      exists ((OpGraphARM :: repeat OpGraphInputARM n ++ body ++ repeat OpGraphSetOutputARM (S m) ++ [OpGraphEndARM]) :: items).
      split; [cbn [concat]; rewrite E; cbn [app]; rewrite <- !app_assoc; reflexivity|].
      constructor; [left; exists n, body, m; split; [reflexivity | exact B] | exact G].
  - assert (Hb : is_graph_body o = true -> acc (AGraph false kGraphDefinitionBody) l = true ->
      exists n body m items, o :: fl l = repeat OpGraphInputARM n ++ body ++ repeat OpGraphSetOutputARM (S m) ++ OpGraphEndARM :: concat items /\
        Forall graph_body_inst body /\ Forall graph_item items).
    { intros Hbody A. destruct (IH _ A) as (body & m & items & E & B & G). exists 0%nat, (o :: body), m, items.
      rewrite E. split; [reflexivity|]. split; [constructor; [apply is_graph_body_dec; exact Hbody | exact B] | exact G]. }
    destruct o; cbn [is_graph_body ext_of] in *; try discriminate H; try (apply Hb; [reflexivity | exact H]); specialize (IH _ H); cbn [R_graph] in IH.
    + destruct IH as (n & body & m & items & E & B & G). exists (S n), body, m, items. rewrite E. split; [reflexivity | auto].
    + destruct IH as (m & items & E & G). exists 0%nat, [], m, items. rewrite E. split; [reflexivity | auto].
  - assert (Hb : is_graph_body o = true -> acc (AGraph false kGraphDefinitionBody) l = true ->
      exists n body m items, o :: fl l = repeat OpGraphInputARM n ++ body ++ repeat OpGraphSetOutputARM (S m) ++ OpGraphEndARM :: concat items /\
        Forall graph_body_inst body /\ Forall graph_item items).
    { intros Hbody A. destruct (IH _ A) as (body & m & items & E & B & G). exists 0%nat, (o :: body), m, items.
      rewrite E. split; [reflexivity|]. split; [constructor; [apply is_graph_body_dec; exact Hbody | exact B] | exact G]. }
    destruct o; cbn [is_graph_body ext_of] in *; try discriminate H; try (apply Hb; [reflexivity | exact H]); specialize (IH _ H); cbn [R_graph] in IH.
    + destruct IH as (n & body & m & items & E & B & G). exists (S n), body, m, items. rewrite E. split; [reflexivity | auto].
    + destruct IH as (m & items & E & G). exists 0%nat, [], m, items. rewrite E. split; [reflexivity | auto].
  - assert (Hb : is_graph_body o = true -> acc (AGraph false kGraphDefinitionBody) l = true ->
      exists body m items, o :: fl l = body ++ repeat OpGraphSetOutputARM (S m) ++ OpGraphEndARM :: concat items /\
        Forall graph_body_inst body /\ Forall graph_item items).
    { intros Hbody A. destruct (IH _ A) as (body & m & items & E & B & G). exists (o :: body), m, items.
      rewrite E. split; [reflexivity|]. split; [constructor; [apply is_graph_body_dec; exact Hbody | exact B] | exact G]. }
    destruct o; cbn [is_graph_body ext_of] in *; try discriminate H; try (apply Hb; [reflexivity | exact H]); specialize (IH _ H); cbn [R_graph] in IH.
    destruct IH as (m & items & E & G). exists [], m, items. rewrite E. split; [reflexivity | auto].
  - destruct o; try discriminate H; specialize (IH _ H); cbn [R_graph] in IH.
    + destruct IH as (m & items & E & G). exists (S m), items. rewrite E. split; [reflexivity | exact G].
    + destruct IH as (items & E & G). exists 0%nat, items. rewrite E. split; [reflexivity | exact G].
Qed.

Lemma start_graph_lang : forall o a l, start_graph false o = Some a -> acc a l = true -> graphs (o :: l).
Proof.
  intros o a l H A. assert (R : R_graph kGraphDefinitionOutside (o :: l)).
  { apply graph_lang. rewrite acc_cons. destruct o; try discriminate H; injection H as <-; exact A. }
  split; [exact R|]. destruct o; try discriminate H; reflexivity.
Qed.
Lemma graphs_nil : graphs [].
Proof. split; [exists []; split; [reflexivity | constructor] | exact I]. Qed.

Definition R (a : astate) (l : list op) : Prop :=
  match a with
  | AMod _ => True
  | ADeclOut => R_decls l
  | ADeclIn => R_decl_in l
  | ADefOut => R_items l
  | AHead => R_head l
  | ABlock => R_block l
  | ABetween => R_between l
  | AGraph dead r => dead = false /\ R_graph r l
  end.

Lemma R_items_graphs : forall l, graphs l -> R_items l.
Proof. intros l G. exists [], l. split; [reflexivity|]. split; [constructor | exact G]. Qed.
Lemma R_items_cons : forall i l, function_item i -> R_items l -> R_items (i ++ l).
Proof. intros i l F (items & g & E & Fs & G). exists (i :: items), g. cbn [concat]. rewrite <- app_assoc, <- E. split; [reflexivity|]. split; [constructor; assumption | exact G]. Qed.
Lemma R_items_decls : forall l, R_items l -> R_decls l.
Proof. intros l (items & g & E & F & G). exists [], items, g. split; [exact E|]. split; [constructor | auto]. Qed.
Lemma R_head_items : forall l, R_head l -> R_items (OpFunction :: l).
Proof.
  intros l (header & l1 & E1 & F1 & body & l2 & E2 & F2 & after & blocks & l3 & E3 & F3 & F4 & F5).
  replace (OpFunction :: l)
    with ((OpFunction :: header ++ concat ((OpLabel :: body ++ OpTerminator :: after) :: blocks) ++ [OpFunctionEnd]) ++ l3).
  2:{ subst. cbn. rewrite <- !app_assoc. cbn. rewrite <- !app_assoc. cbn. rewrite <- !app_assoc. reflexivity. }
  apply R_items_cons; [|exact F5]. left. exists header, ((OpLabel :: body ++ OpTerminator :: after) :: blocks).
  split; [reflexivity|]. split; [exact F1|]. split; [|discriminate].
  constructor; [exists body, after; auto | exact F4].
Qed.
Lemma R_decl_in_decls : forall l, R_decl_in l -> R_decls (OpFunction :: l).
Proof.
  intros l [(n & l' & E & decls & items & g & E' & F1 & F2 & G)|H].
  - exists ((OpFunction :: repeat OpFunctionParameter n ++ [OpFunctionEnd]) :: decls), items, g.
    split; [subst; cbn; rewrite <- !app_assoc; reflexivity|]. split; [|auto]. constructor; [exists n; reflexivity | exact F1].
  - apply R_items_decls, R_head_items, H.
Qed.

Lemma function_lang : forall l a, acc a l = true -> R a l.
Proof.
  induction l as [|o l IH]; intros a H.
  { destruct a as [s| | | | | | |dead r]; try discriminate H; cbn [R]; try exact I.
    - apply R_items_decls, R_items_graphs, graphs_nil.
    - apply R_items_graphs, graphs_nil.
    - destruct dead; [destruct r; discriminate H|]. split; [reflexivity|]. apply graph_lang. exact H. }
  destruct a as [s| | | | | | |dead r]; cbn [R]; [exact I | ..].
  - (* ADeclOut *)
    rewrite acc_cons in H. cbn [astep] in H.
    assert (X : (o = OpFunction /\ acc ADeclIn l = true) \/ (is_line o || is_note o = true /\ acc ADefOut l = true) \/
                exists a', start_graph false o = Some a' /\ acc a' l = true).
    { destruct o; auto; (destruct (is_line _ || is_note _); [auto|]; destruct (start_graph false _) eqn:E; [|discriminate H]; eauto). }
    destruct X as [(-> & A)|[(B & A)|(a' & B & A)]].
    + apply R_decl_in_decls. exact (IH _ A).
    + apply R_items_decls. apply (R_items_cons [o]); [|exact (IH _ A)]. right. exists o. split; [reflexivity | apply between_dec; exact B].
    + apply R_items_decls, R_items_graphs. exact (start_graph_lang _ _ _ B A).
  - (* ADeclIn *)
    rewrite acc_cons in H. cbn [astep] in H.
    assert (X : (o = OpFunctionParameter /\ acc ADeclIn l = true) \/ (o = OpFunctionEnd /\ acc ADeclOut l = true) \/
                (o = OpLabel /\ acc ABlock l = true) \/ (is_any o = true /\ acc AHead l = true)).
    { destruct o; auto; (destruct (is_any _); [auto|]; destruct (start_graph true _) eqn:E; [|discriminate H]; exfalso; exact (dead_start _ _ _ E H)). }
    destruct X as [(-> & A)|[(-> & A)|[(-> & A)|(B & A)]]].
    + destruct (IH _ A) as [(n & l' & E & D)|(h & l' & E & D & D')].
      * left. exists (S n), l'. rewrite E. split; [reflexivity | exact D].
      * right. exists (OpFunctionParameter :: h), l'. rewrite E. split; [reflexivity|]. split; [constructor; auto | exact D'].
    + left. exists 0%nat, l. split; [reflexivity | exact (IH _ A)].
    + right. exists [], l. split; [reflexivity|]. split; [constructor | exact (IH _ A)].
    + right. destruct (IH _ A) as (h & l' & E & D & D'). exists (o :: h), l'. rewrite E. split; [reflexivity|].
      split; [constructor; [right; apply is_any_dec; exact B | exact D] | exact D'].
  - (* ADefOut *)
    rewrite acc_cons in H. cbn [astep] in H.
    assert (X : (o = OpFunction /\ acc AHead l = true) \/ (is_line o || is_note o = true /\ acc ADefOut l = true) \/
                exists a', start_graph false o = Some a' /\ acc a' l = true).
    { destruct o; auto; (destruct (is_line _ || is_note _); [auto|]; destruct (start_graph false _) eqn:E; [|discriminate H]; eauto). }
    destruct X as [(-> & A)|[(B & A)|(a' & B & A)]].
    + apply R_head_items. exact (IH _ A).
    + apply (R_items_cons [o]); [|exact (IH _ A)]. right. exists o. split; [reflexivity | apply between_dec; exact B].
    + apply R_items_graphs. exact (start_graph_lang _ _ _ B A).
  - (* AHead *)
    rewrite acc_cons in H. cbn [astep] in H.
    assert (X : (o = OpFunctionParameter /\ acc AHead l = true) \/ (o = OpLabel /\ acc ABlock l = true) \/ (is_any o = true /\ acc AHead l = true)).
    { destruct o; auto; (destruct (is_any _); [auto|]; destruct (start_graph true _) eqn:E; [|discriminate H]; exfalso; exact (dead_start _ _ _ E H)). }
    destruct X as [(-> & A)|[(-> & A)|(B & A)]].
    + destruct (IH _ A) as (h & l' & E & D & D'). exists (OpFunctionParameter :: h), l'. rewrite E. split; [reflexivity|]. split; [constructor; auto | exact D'].
    + exists [], l. split; [reflexivity|]. split; [constructor | exact (IH _ A)].
    + destruct (IH _ A) as (h & l' & E & D & D'). exists (o :: h), l'. rewrite E. split; [reflexivity|].
      split; [constructor; [right; apply is_any_dec; exact B | exact D] | exact D'].
  - (* ABlock *)
    rewrite acc_cons in H. cbn [astep] in H.
    assert (X : (o = OpTerminator /\ acc ABetween l = true) \/ (is_body o = true /\ acc ABlock l = true)).
    { destruct o; auto; (destruct (is_body _); [auto|]; destruct (start_graph true _) eqn:E; [|discriminate H]; exfalso; exact (dead_start _ _ _ E H)). }
    destruct X as [(-> & A)|(B & A)].
    + exists [], l. split; [reflexivity|]. split; [constructor | exact (IH _ A)].
    + destruct (IH _ A) as (b & l' & E & D & D'). exists (o :: b), l'. rewrite E. split; [reflexivity|].
      split; [constructor; [apply is_body_dec; exact B | exact D] | exact D'].
  - (* ABetween *)
    rewrite acc_cons in H. cbn [astep] in H.
    assert (X : (o = OpLabel /\ acc ABlock l = true) \/ (o = OpFunctionEnd /\ acc ADefOut l = true) \/ (is_any o = true /\ acc ABetween l = true)).
    { destruct o; auto; (destruct (is_any _); [auto|]; destruct (start_graph true _) eqn:E; [|discriminate H]; exfalso; exact (dead_start _ _ _ E H)). }
    destruct X as [(-> & A)|[(-> & A)|(B & A)]].
    + destruct (IH _ A) as (body & l1 & E & D & after & blocks & l2 & E2 & D2 & D3 & D4).
      exists [], ((OpLabel :: body ++ OpTerminator :: after) :: blocks), l2.
      split; [subst; cbn; repeat (rewrite <- app_assoc; cbn); reflexivity|].
      split; [constructor|]. split; [|exact D4]. constructor; [exists body, after; auto | exact D3].
    + exists [], [], l. split; [reflexivity|]. split; [constructor|]. split; [constructor | exact (IH _ A)].
    + destruct (IH _ A) as (after & blocks & l2 & E2 & D2 & D3 & D4). exists (o :: after), blocks, l2. rewrite E2. split; [reflexivity|].
      split; [constructor; [apply is_any_dec; exact B | exact D2] | auto].
  - (* AGraph *)
    destruct dead; [rewrite dead_graph in H; discriminate|]. split; [reflexivity | apply graph_lang; exact H].
Qed.

(** ** The sections before the functions *)
Fixpoint split_as (Ps : list (list op -> Prop)) (l : list op) : Prop :=
  match Ps with
  | [] => l = []
  | P :: Ps' => exists a b, l = a ++ b /\ P a /\ split_as Ps' b
  end.
Definition ops (s : section) (l : list op) : Prop := Forall (fun o => sec_of o = Some s) l.
Definition types_more (l : list op) : Prop := Forall (fun o => sec_of o = Some kLayoutTypes \/ is_global_debug o || is_note o = true) l.
Definition types_sec (l : list op) : Prop := l = [] \/ exists o l', l = o :: l' /\ sec_of o = Some kLayoutTypes /\ types_more l'.
Definition fns_graphs (l : list op) : Prop := exists f g, l = f ++ g /\ functions f /\ graphs g.

(** What may follow in the section [s] once it has begun, and the sections after it. *)
Definition more (s : section) : list op -> Prop :=
  match s with
  | kLayoutMemoryModel | kLayoutSamplerImageAddressMode => fun l => l = []
  | kLayoutTypes => types_more
  | _ => ops s
  end.
Definition fresh (s : section) : list op -> Prop :=
  match s with
  | kLayoutMemoryModel => fun l => l = [OpMemoryModel]
  | kLayoutSamplerImageAddressMode => fun l => l = [] \/ l = [OpSamplerImageAddressingModeNV]
  | kLayoutTypes => types_sec
  | _ => ops s
  end.
Definition all_sections : list section :=
  [kLayoutCapabilities; kLayoutExtensions; kLayoutExtInstImport; kLayoutMemoryModel; kLayoutSamplerImageAddressMode;
   kLayoutEntryPoint; kLayoutExecutionMode; kLayoutDebug1; kLayoutDebug2; kLayoutDebug3; kLayoutAnnotations; kLayoutTypes].
Definition later (s : section) : list section := skipn (S (N.to_nat (section_index s))) all_sections.
Definition R_mod (s : section) (l : list op) : Prop := split_as (more s :: map fresh (later s) ++ [fns_graphs]) l.

Lemma split_skip : forall (Ps Qs : list (list op -> Prop)) l, (forall P, In P Ps -> P []) -> split_as Qs l -> split_as (Ps ++ Qs) l.
Proof.
  induction Ps as [|P Ps IH]; intros Qs l H S1; [exact S1|]. cbn. exists [], l. split; [reflexivity|].
  split; [apply H; left; reflexivity | apply IH; [intros Q I1; apply H; right; exact I1 | exact S1]].
Qed.
Lemma more_nil : forall s, more s [].
Proof. destruct s; cbn; try constructor. Qed.
Lemma fresh_nil : forall s, s <> kLayoutMemoryModel -> fresh s [].
Proof. destruct s; cbn; intros H; try constructor; try reflexivity; destruct (H eq_refl). Qed.

Lemma split_mod_nil : forall s, section_ltb s kLayoutFunctionDeclarations = true -> section_ltb s kLayoutMemoryModel = false -> forall l,
  fns_graphs l -> R_mod s l.
Proof.
  intros s H1 H2 l F. unfold R_mod. change (more s :: map fresh (later s) ++ [fns_graphs]) with ((more s :: map fresh (later s)) ++ [fns_graphs]).
  apply split_skip.
  - intros P [<-|I1]; [apply more_nil|]. apply in_map_iff in I1. destruct I1 as (s' & <- & I1). apply fresh_nil. intros ->.
    destruct s; try discriminate H1; try discriminate H2; vm_compute in I1; intuition discriminate.
  - exists l, []. split; [symmetry; apply app_nil_r|]. split; [exact F | reflexivity].
Qed.

Lemma fns_graphs_nil : fns_graphs [].
Proof. exists [], []. split; [reflexivity|]. split; [|apply graphs_nil]. exists [], []. repeat split; auto. Qed.

(** Staying in a section, and beginning a later one. *)
Lemma R_mod_stay : forall s o l, (forall a, more s a -> more s (o :: a)) -> R_mod s l -> R_mod s (o :: l).
Proof. intros s o l H (a & b & -> & M & S1). exists (o :: a), b. split; [reflexivity|]. split; [apply H; exact M | exact S1]. Qed.
Lemma R_mod_begin : forall s k o l, (exists pre, later s = pre ++ k :: later k /\ ~ In kLayoutMemoryModel pre) ->
  (forall a, more k a -> fresh k (o :: a)) -> R_mod k l -> R_mod s (o :: l).
Proof.
  intros s k o l (pre & E & NM) H (a & b & -> & M & S1). unfold R_mod. rewrite E, map_app. cbn [map].
  change (more s :: (map fresh pre ++ fresh k :: map fresh (later k)) ++ [fns_graphs])
    with ((more s :: map fresh pre ++ fresh k :: map fresh (later k)) ++ [fns_graphs]).
  replace ((more s :: map fresh pre ++ fresh k :: map fresh (later k)) ++ [fns_graphs])
    with ((more s :: map fresh pre) ++ (fresh k :: map fresh (later k) ++ [fns_graphs])) by (cbn; rewrite <- app_assoc; reflexivity).
  apply split_skip.
  - intros P [<-|I1]; [apply more_nil|]. apply in_map_iff in I1. destruct I1 as (s' & <- & I1). apply fresh_nil. intros ->. exact (NM I1).
  - exists (o :: a), b. split; [reflexivity|]. split; [apply H; exact M | exact S1].
Qed.

Lemma later_split : forall s k, section_ltb k kLayoutFunctionDeclarations = true -> section_ltb s k = true ->
  section_ltb s kLayoutMemoryModel && section_ltb kLayoutMemoryModel k = false ->
  exists pre, later s = pre ++ k :: later k /\ ~ In kLayoutMemoryModel pre.
Proof.
  intros s k H1 H2 H3. exists (firstn (N.to_nat (section_index k - section_index s - 1)) (later s)).
  destruct s, k; try discriminate H1; try discriminate H2; try discriminate H3; (split; [reflexivity | vm_compute; intuition discriminate]).
Qed.

Lemma sec_of_module : forall o k, sec_of o = Some k -> section_ltb k kLayoutFunctionDeclarations = true.
Proof. intros o k H. destruct o; cbn in H; try discriminate H; injection H as <-; reflexivity. Qed.
Lemma section_eqb_eq : forall a b, section_eqb a b = true <-> a = b.
Proof. intros a b. destruct a, b; cbn; split; intros H; try reflexivity; discriminate H. Qed.

Lemma more_stay : forall s o a, s <> kLayoutMemoryModel -> s <> kLayoutSamplerImageAddressMode -> sec_of o = Some s -> more s a -> more s (o :: a).
Proof.
  intros s o a N1 N2 E M. destruct s; cbn in *; try (constructor; assumption); try (destruct (N1 eq_refl)); try (destruct (N2 eq_refl)).
  constructor; [left; exact E | exact M].
Qed.
Lemma fresh_begin : forall s o a, sec_of o = Some s -> more s a -> fresh s (o :: a).
Proof.
  intros s o a E M. destruct s; cbn in M |- *; try (constructor; assumption).
  - subst a. destruct o; cbn in E; try discriminate E. reflexivity.
  - subst a. right. destruct o; cbn in E; try discriminate E. reflexivity.
  - right. exists o, a. auto.
Qed.
Lemma function_first : forall l, R_decls (OpFunction :: l) -> fns_graphs (OpFunction :: l).
Proof.
  intros l (decls & items & g & E & F1 & F2 & G). exists (concat decls ++ concat items), g. split; [rewrite <- app_assoc; exact E|].
  split; [|exact G]. exists decls, items. repeat split; auto. intros ->. cbn in E. destruct items as [|i items]; [exact I|].
  inversion F2 as [|x y [D|(o & -> & B)] Fs]; subst; [exact D|]. cbn in E. injection E as <- E.
  apply between_dec in B. discriminate B.
Qed.
Lemma functions_nil : functions [].
Proof. exists [], []. repeat split; auto. Qed.

Lemma module_lang : forall l s, section_ltb s kLayoutFunctionDeclarations = true -> acc (AMod s) l = true -> R_mod s l.
Proof.
  induction l as [|o l IH]; intros s V H.
  { unfold acc in H. cbn in H. apply negb_true_iff in H. apply split_mod_nil; [exact V | exact H | apply fns_graphs_nil]. }
  rewrite acc_cons in H. cbn [astep] in H. unfold step_mod in H. destruct (sec_of o) as [k|] eqn:E.
  - pose proof (sec_of_module _ _ E) as Vk. destruct (section_ltb k s) eqn:L1; [discriminate H|].
    destruct (section_eqb k s) eqn:L2.
    + apply section_eqb_eq in L2. subst k.
      assert (N : s <> kLayoutMemoryModel /\ s <> kLayoutSamplerImageAddressMode /\ acc (AMod s) l = true).
      { destruct s; try discriminate H; repeat split; try discriminate; exact H. }
      destruct N as (N1 & N2 & A). apply R_mod_stay; [|apply IH; assumption]. intros a. apply more_stay; assumption.
    + destruct (section_ltb s kLayoutMemoryModel && section_ltb kLayoutMemoryModel k) eqn:L3; [discriminate H|].
      apply (R_mod_begin s k); [|intros a; apply fresh_begin; exact E | apply IH; assumption].
      apply later_split; [exact Vk | | exact L3]. destruct s, k; try reflexivity; try discriminate L1; discriminate L2.
  - destruct (section_eqb s kLayoutTypes && (is_global_debug o || is_note o)) eqn:T.
    + apply andb_true_iff in T. destruct T as (T1 & T2). apply section_eqb_eq in T1. subst s.
      apply R_mod_stay; [|apply IH; assumption]. intros a M. constructor; [right; exact T2 | exact M].
    + destruct (section_ltb s kLayoutMemoryModel) eqn:L; [discriminate H|].
      apply split_mod_nil; [exact V | exact L|].
      assert (X : (o = OpFunction /\ acc ADeclIn l = true) \/ exists a', start_graph false o = Some a' /\ acc a' l = true).
      { destruct o; auto; (right; destruct (start_graph false _) as [a'|] eqn:SG; [exists a'; split; [reflexivity | exact H] | discriminate H]). }
      destruct X as [(-> & A)|(a' & SG & A)].
      * apply function_first, R_decl_in_decls. exact (function_lang _ _ A).
      * exists [], (o :: l). split; [reflexivity|]. split; [apply functions_nil | exact (start_graph_lang _ _ _ SG A)].
Qed.

(** ** The converse: the automaton accepts the grammar *)
Lemma run_loop : forall a (P : op -> Prop), (forall o, P o -> astep a o = Some a) -> forall l, Forall P l -> arun a l = Some a.
Proof. intros a P H l F. induction F as [|o l Po F IH]; [reflexivity|]. cbn. rewrite (H o Po). exact IH. Qed.

Lemma step_any : forall o, in_function_inst o -> astep AHead o = Some AHead /\ astep ABetween o = Some ABetween /\ astep ADeclIn o = Some AHead.
Proof. intros o H. apply is_any_dec in H. cbn [astep]. rewrite H. destruct o; try discriminate H; auto. Qed.
Lemma step_body : forall o, body_inst o -> astep ABlock o = Some ABlock.
Proof. intros o H. apply is_body_dec in H. cbn [astep]. rewrite H. destruct o; try discriminate H; auto. Qed.
Lemma step_inter : forall o, line_inst o \/ note_inst o -> astep ADefOut o = Some ADefOut /\ astep ADeclOut o = Some ADefOut.
Proof. intros o H. apply between_dec in H. cbn [astep]. rewrite H. destruct o; try discriminate H; auto. Qed.

Lemma run_block : forall l, block l -> arun AHead l = Some ABetween /\ arun ABetween l = Some ABetween /\ arun ADeclIn l = Some ABetween.
Proof.
  intros l (body & after & -> & B & A).
  assert (E : arun ABlock (body ++ OpTerminator :: after) = Some ABetween).
  { rewrite arun_app, (run_loop ABlock body_inst step_body _ B). cbn.
    apply (run_loop ABetween in_function_inst); [|exact A]. intros o H. apply step_any. exact H. }
  repeat split; cbn; exact E.
Qed.
Lemma run_blocks : forall bs, Forall block bs -> arun ABetween (concat bs) = Some ABetween.
Proof. intros bs F. induction F as [|b bs B F IH]; [reflexivity|]. cbn. rewrite arun_app. rewrite (proj1 (proj2 (run_block _ B))). exact IH. Qed.
Definition header_inst (o : op) : Prop := o = OpFunctionParameter \/ in_function_inst o.
Lemma run_header : forall h, Forall header_inst h -> arun AHead h = Some AHead /\ (arun ADeclIn h = Some AHead \/ arun ADeclIn h = Some ADeclIn).
Proof.
  intros h F. assert (E : forall h, Forall header_inst h -> arun AHead h = Some AHead).
  { apply run_loop. intros o [->|H]; [reflexivity | apply step_any; exact H]. }
  split; [apply E; exact F|]. induction F as [|o h [->|H] F IH]; [right; reflexivity | exact IH|].
  left. cbn [arun]. rewrite (proj2 (proj2 (step_any o H))). apply E. exact F.
Qed.
Lemma run_definition : forall l, definition l -> arun ADefOut l = Some ADefOut /\ arun ADeclOut l = Some ADefOut /\
  exists l', l = OpFunction :: l' /\ arun ADeclIn l' = Some ADefOut.
Proof.
  intros l (h & bs & -> & H & B & N). destruct bs as [|b bs]; [destruct (N eq_refl)|]. apply Forall_inv_tail in B as B2. apply Forall_inv in B.
  destruct (run_block _ B) as (B3 & _ & B4). destruct (run_header _ H) as (H1 & H2).
  assert (T : arun ABetween (concat bs ++ [OpFunctionEnd]) = Some ADefOut) by (rewrite arun_app, (run_blocks _ B2); reflexivity).
  assert (E1 : arun AHead (h ++ concat (b :: bs) ++ [OpFunctionEnd]) = Some ADefOut).
  { rewrite arun_app, H1. cbn [concat]. rewrite <- app_assoc, arun_app, B3. exact T. }
  assert (E2 : arun ADeclIn (h ++ concat (b :: bs) ++ [OpFunctionEnd]) = Some ADefOut).
  { rewrite arun_app. cbn [concat]. destruct H2 as [H2|H2]; rewrite H2, <- app_assoc, arun_app; [rewrite B3 | rewrite B4]; exact T. }
  split; [exact E1|]. split; [exact E2|]. eexists. split; [reflexivity | exact E2].
Qed.
Lemma run_item : forall l, function_item l -> arun ADefOut l = Some ADefOut /\ arun ADeclOut l = Some ADefOut.
Proof.
  intros l [D|(o & -> & H)].
  - destruct (run_definition _ D) as (A & B & _). auto.
  - destruct (step_inter o H) as (A & B). cbn [arun]. rewrite A, B. auto.
Qed.
Lemma run_items : forall is, Forall function_item is -> arun ADefOut (concat is) = Some ADefOut.
Proof. intros is F. induction F as [|i is D F IH]; [reflexivity|]. cbn. rewrite arun_app, (proj1 (run_item _ D)). exact IH. Qed.
Lemma run_params : forall n l, arun ADeclIn (repeat OpFunctionParameter n ++ l) = arun ADeclIn l.
Proof. induction n; intros l; [reflexivity | exact (IHn l)]. Qed.
Lemma run_declaration : forall l, declaration l -> arun ADeclOut l = Some ADeclOut /\ exists l', l = OpFunction :: l' /\ arun ADeclIn l' = Some ADeclOut.
Proof.
  intros l (n & ->). split; [cbn; rewrite run_params; reflexivity|]. eexists. split; [reflexivity|]. rewrite run_params. reflexivity.
Qed.
Lemma run_declarations : forall ds, Forall declaration ds -> arun ADeclOut (concat ds) = Some ADeclOut.
Proof. intros is F. induction F as [|i is D F IH]; [reflexivity|]. cbn. rewrite arun_app, (proj1 (run_declaration _ D)). exact IH. Qed.

Lemma run_graph : forall l r l' a', fl l = l' -> arun (AGraph false r) l' = Some a' -> arun (AGraph false r) l = Some a'.
Proof.
  induction l as [|o l IH]; intros r l' a' <- H; [exact H|]. unfold fl in H. cbn [filter] in H. destruct (graph_note o) eqn:G; cbn [negb] in H.
  - cbn [arun astep]. unfold step_graph. rewrite G. apply (IH r (fl l)); [reflexivity | exact H].
  - cbn [arun] in H |- *. destruct (astep (AGraph false r) o) as [a1|] eqn:E; [|discriminate H].
    assert (exists r', a1 = AGraph false r') as (r' & ->).
    { cbn in E. unfold step_graph in E. rewrite G in E. destruct r; destruct o; cbn in E; try discriminate; injection E as <-; eauto. }
    apply (IH r' (fl l)); [reflexivity | exact H].
Qed.
Lemma run_inputs : forall n l r, (r = kGraphDefinitionBegin \/ r = kGraphDefinitionInputs) ->
  exists r', (r' = kGraphDefinitionBegin \/ r' = kGraphDefinitionInputs) /\ arun (AGraph false r) (repeat OpGraphInputARM n ++ l) = arun (AGraph false r') l.
Proof.
  induction n as [|n IH]; intros l r [-> | ->]; [exists kGraphDefinitionBegin; auto | exists kGraphDefinitionInputs; auto | ..];
    destruct (IH l kGraphDefinitionInputs (or_intror eq_refl)) as (r' & H & E); exists r'; (split; [exact H | exact E]).
Qed.
Lemma run_graph_body : forall b l r, Forall graph_body_inst b -> Forall (fun o => graph_note o = false) b ->
  (r = kGraphDefinitionBegin \/ r = kGraphDefinitionInputs \/ r = kGraphDefinitionBody) ->
  exists r', (r' = kGraphDefinitionBegin \/ r' = kGraphDefinitionInputs \/ r' = kGraphDefinitionBody) /\
    arun (AGraph false r) (b ++ l) = arun (AGraph false r') l.
Proof.
  intros b l r F. revert r. induction F as [|o b H F IH]; intros r G Hr; [exists r; auto|].
  inversion G; subst. destruct (IH kGraphDefinitionBody) as (r' & H' & E); auto. exists r'. split; [exact H'|].
  cbn [app arun astep]. unfold step_graph. rewrite H2. rewrite <- E.
  apply is_graph_body_dec in H. destruct Hr as [->|[->| ->]]; destruct o; try discriminate H; reflexivity.
Qed.
Lemma run_outputs : forall n l, arun (AGraph false kGraphDefinitionOutputs) (repeat OpGraphSetOutputARM n ++ l) = arun (AGraph false kGraphDefinitionOutputs) l.
Proof. induction n; intros l; [reflexivity | exact (IHn l)]. Qed.
Lemma run_graph_item : forall i, graph_item i -> Forall (fun o => graph_note o = false) i ->
  arun (AGraph false kGraphDefinitionOutside) i = Some (AGraph false kGraphDefinitionOutside).
Proof.
  intros i [(n & b & m & -> & B)| ->] F; [|reflexivity].
  change (OpGraphARM :: repeat OpGraphInputARM n ++ b ++ repeat OpGraphSetOutputARM (S m) ++ [OpGraphEndARM])
    with ([OpGraphARM] ++ repeat OpGraphInputARM n ++ b ++ repeat OpGraphSetOutputARM (S m) ++ [OpGraphEndARM]) in F.
  apply Forall_app in F. destruct F as (_ & F). apply Forall_app in F. destruct F as (_ & F). apply Forall_app in F. destruct F as (F & _).
  cbn [arun astep]. change (step_graph false kGraphDefinitionOutside OpGraphARM) with (Some (AGraph false kGraphDefinitionBegin)). cbv iota.
  destruct (run_inputs n (b ++ repeat OpGraphSetOutputARM (S m) ++ [OpGraphEndARM]) kGraphDefinitionBegin (or_introl eq_refl)) as (r1 & H1 & E1). rewrite E1.
  destruct (run_graph_body b (repeat OpGraphSetOutputARM (S m) ++ [OpGraphEndARM]) r1 B F) as (r2 & H2 & E2); [tauto|]. rewrite E2.
  replace (repeat OpGraphSetOutputARM (S m) ++ [OpGraphEndARM]) with (OpGraphSetOutputARM :: repeat OpGraphSetOutputARM m ++ [OpGraphEndARM]) by reflexivity.
  assert (E3 : astep (AGraph false r2) OpGraphSetOutputARM = Some (AGraph false kGraphDefinitionOutputs)) by (destruct H2 as [->|[->| ->]]; reflexivity).
  cbn [arun]. rewrite E3, run_outputs. reflexivity.
Qed.
Lemma fl_no_note : forall l, Forall (fun o => graph_note o = false) (fl l).
Proof. intros l. apply Forall_forall. intros o H. apply filter_In in H. destruct H as (_ & H). apply negb_true_iff. exact H. Qed.
Lemma run_graph_items : forall items, Forall graph_item items -> Forall (fun o => graph_note o = false) (concat items) ->
  arun (AGraph false kGraphDefinitionOutside) (concat items) = Some (AGraph false kGraphDefinitionOutside).
Proof.
  intros items F. induction F as [|i items H F IH]; intros G; [reflexivity|]. cbn in G |- *. apply Forall_app in G. destruct G as (G1 & G2).
  rewrite arun_app, (run_graph_item _ H G1). apply IH. exact G2.
Qed.
(** The states in which a graph section may begin. *)
Definition can_end (a : astate) : bool :=
  match a with AMod s => negb (section_ltb s kLayoutMemoryModel) && section_ltb s kLayoutFunctionDeclarations | ADeclOut | ADefOut => true | _ => false end.
Lemma graph_step_can : forall a o, can_end a = true -> sec_of o = None -> is_global_debug o || is_note o = false -> o <> OpFunction -> is_line o = false -> astep a o = start_graph false o.
Proof.
  intros a o H1 H2 H3 H4 H5. destruct a as [s| | | | | | |]; try discriminate H1; cbn [astep].
  - unfold step_mod. rewrite H2, H3, andb_false_r. cbn in H1. apply andb_true_iff in H1. destruct H1 as (H1 & _). apply negb_true_iff in H1.
    rewrite H1. destruct o; try reflexivity. destruct (H4 eq_refl).
  - apply orb_false_iff in H3. rewrite H5, (proj2 H3). cbn [orb]. destruct o; try reflexivity. destruct (H4 eq_refl).
  - apply orb_false_iff in H3. rewrite H5, (proj2 H3). cbn [orb]. destruct o; try reflexivity. destruct (H4 eq_refl).
Qed.
Lemma acc_graphs : forall g a, graphs g -> can_end a = true -> acc a g = true.
Proof.
  intros g a ((items & E & F) & H) C. destruct g as [|o g].
  { destruct a; try discriminate C; try reflexivity. cbn in C. apply andb_true_iff in C. exact (proj1 C). }
  assert (A : acc (AGraph false kGraphDefinitionOutside) (o :: g) = true).
  { unfold acc. pose proof (fl_no_note (o :: g)) as NN. unfold fl in NN. rewrite E in NN.
    rewrite (run_graph (o :: g) _ (concat items) (AGraph false kGraphDefinitionOutside)); [reflexivity | exact E | apply run_graph_items; assumption]. }
  assert (X : o = OpGraphARM \/ o = OpGraphEntryPointARM).
  { destruct items as [|i items]; [cbn in E; rewrite H in E; discriminate E|]. cbn in E. rewrite H in E. cbn in E.
    inversion F as [|x y [(n & b & m & -> & _)| ->] F']; subst; cbn in E; injection E as -> _; auto. }
  rewrite acc_cons in A |- *. destruct X as [-> | ->]; rewrite graph_step_can; try reflexivity; try discriminate; try exact C; exact A.
Qed.
Lemma acc_functions : forall f g a, functions f -> graphs g -> can_end a = true -> a <> ADefOut -> acc a (f ++ g) = true.
Proof.
  intros f g a (ds & is & -> & D & I1 & Hn) G C Na.
  assert (K : forall l', acc a (OpFunction :: l') = acc ADeclIn l').
  { intros l'. rewrite acc_cons. destruct a as [s| | | | | | |]; try discriminate C; try reflexivity; [|destruct (Na eq_refl)].
    cbn [astep]. unfold step_mod. cbn [sec_of]. change (sec_of OpFunction) with (@None section). cbv iota.
    rewrite andb_false_r. cbn in C. apply andb_true_iff in C. destruct C as (C & _). apply negb_true_iff in C. rewrite C. reflexivity. }
  destruct ds as [|d ds].
  - destruct is as [|i is]; [apply acc_graphs; assumption|]. specialize (Hn eq_refl). cbn.
    destruct (run_definition _ Hn) as (_ & _ & l' & -> & E). cbn. rewrite K. rewrite <- app_assoc. rewrite (acc_app _ _ _ _ E).
    apply Forall_inv_tail in I1. rewrite (acc_app _ _ _ _ (run_items _ I1)). apply acc_graphs; [exact G | reflexivity].
  - apply Forall_inv_tail in D as D2. apply Forall_inv in D. destruct (run_declaration _ D) as (_ & l' & -> & E). cbn. rewrite K.
    rewrite <- !app_assoc. rewrite (acc_app _ _ _ _ E), (acc_app _ _ _ _ (run_declarations _ D2)).
    destruct is as [|i is]; [apply acc_graphs; [exact G | reflexivity]|]. cbn. apply Forall_inv_tail in I1 as I2. apply Forall_inv in I1.
    rewrite <- app_assoc. rewrite (acc_app _ _ _ _ (proj2 (run_item _ I1))), (acc_app _ _ _ _ (run_items _ I2)).
    apply acc_graphs; [exact G | reflexivity].
Qed.

Lemma fresh_cons : forall k o a, fresh k (o :: a) -> sec_of o = Some k /\ more k a.
Proof.
  intros k o a H. destruct k; cbn in H |- *; try (split; [exact (Forall_inv H) | exact (Forall_inv_tail H)]).
  - injection H as -> ->. auto.
  - destruct H as [H|H]; [discriminate H|]. injection H as -> ->. auto.
  - destruct H as [H|(x & y & E & F & G)]; [discriminate H|]. injection E as -> ->. auto.
Qed.
Lemma run_more : forall k a, more k a -> arun (AMod k) a = Some (AMod k).
Proof.
  intros k a M.
  assert (E : forall o, sec_of o = Some k -> k <> kLayoutMemoryModel -> k <> kLayoutSamplerImageAddressMode -> astep (AMod k) o = Some (AMod k)).
  { intros o S1 N1 N2. cbn [astep]. unfold step_mod. rewrite S1. pose proof (proj2 (section_eqb_eq k k) eq_refl) as Q. rewrite Q.
    replace (section_ltb k k) with false by (symmetry; apply N.ltb_irrefl). destruct k; try reflexivity; [destruct (N1 eq_refl) | destruct (N2 eq_refl)]. }
  destruct k; cbn in M; try (subst a; reflexivity); try (apply (run_loop _ _ (fun o H => E o H ltac:(discriminate) ltac:(discriminate)) _ M)).
  refine (run_loop _ _ _ _ M). intros o H. destruct H as [H|H]; [apply E; [exact H | discriminate | discriminate]|].
  cbn [astep]. unfold step_mod. rewrite H. destruct o; cbn in H; try discriminate H; reflexivity.
Qed.

Lemma acc_sections : forall ks s l,
  Sorted.StronglySorted (fun a b => section_ltb a b = true) (s :: ks) -> section_ltb s kLayoutFunctionDeclarations = true ->
  Forall (fun k => section_ltb k kLayoutFunctionDeclarations = true) ks ->
  (section_ltb s kLayoutMemoryModel = true -> In kLayoutMemoryModel ks) ->
  split_as (map fresh ks ++ [fns_graphs]) l -> acc (AMod s) l = true.
Proof.
  induction ks as [|k ks IH]; intros s l So V Vs M H.
  - cbn in H. destruct H as (a & b & -> & (f & g & -> & F & G) & ->). rewrite app_nil_r. apply acc_functions; try assumption; [|discriminate].
    cbn. rewrite V. destruct (section_ltb s kLayoutMemoryModel); [destruct (M eq_refl) | reflexivity].
  - cbn [map app split_as] in H. destruct H as (a & b & -> & Fr & H). inversion So as [|? ? So' Hs]; subst. inversion Hs as [|? ? Hk Hs']; subst.
    inversion So' as [|? ? So2 Hks]; subst. inversion Vs as [|? ? Vk Vks]; subst.
    destruct a as [|o a].
    + cbn [app]. apply IH; try assumption; [constructor; assumption|]. intros L. destruct (M L) as [->|I1]; [|exact I1]. discriminate Fr.
    + destruct (fresh_cons _ _ _ Fr) as (S1 & Mo).
      assert (St : astep (AMod s) o = Some (AMod k)).
      { cbn [astep]. unfold step_mod. rewrite S1.
        assert (L1 : section_ltb k s = false) by (destruct s, k; try reflexivity; discriminate Hk).
        assert (L2 : section_eqb k s = false) by (destruct s, k; try reflexivity; discriminate Hk).
        rewrite L1, L2. destruct (section_ltb s kLayoutMemoryModel) eqn:L3; [|reflexivity].
        destruct (M eq_refl) as [->|I1]; [reflexivity|]. rewrite Forall_forall in Hks. specialize (Hks _ I1).
        destruct k; try reflexivity; discriminate Hks. }
      cbn [app]. rewrite acc_cons, St, (acc_app _ _ _ _ (run_more _ _ Mo)). apply IH; try assumption.
      intros L. assert (Ls : section_ltb s kLayoutMemoryModel = true) by (destruct s, k; try reflexivity; try discriminate Hk; discriminate L).
      destruct (M Ls) as [E|I1]; [subst k; discriminate L | exact I1].
Qed.

Lemma acc_module : forall l, acc (AMod kLayoutCapabilities) l = true <-> split_as (map fresh all_sections ++ [fns_graphs]) l.
Proof.
  intros l. split.
  - intros H. exact (module_lang l kLayoutCapabilities eq_refl H).
  - intros (a & b & -> & F & H). change (fresh kLayoutCapabilities) with (more kLayoutCapabilities) in F. rewrite (acc_app _ _ _ _ (run_more _ _ F)).
    apply (acc_sections (later kLayoutCapabilities)); [| reflexivity | | | exact H].
    + vm_compute later. repeat (constructor; try reflexivity).
    + vm_compute later. repeat (constructor; try reflexivity).
    + intros _. vm_compute. tauto.
Qed.

Lemma Forall_iff : forall (A : Type) (P Q : A -> Prop) l, (forall x, P x <-> Q x) -> (Forall P l <-> Forall Q l).
Proof. intros A P Q l H. rewrite !Forall_forall. split; intros F x I1; apply H, F, I1. Qed.
Lemma types_inst_dec : forall o, sec_of o = Some kLayoutTypes <-> types_inst o.
Proof. intros o. unfold types_inst, line_inst. destruct o; cbn; intuition congruence. Qed.
Lemma types_sec_dec : forall l, types_sec l <-> types_section l.
Proof.
  intros l. unfold types_sec, types_section, types_more. apply or_iff_compat_l.
  split; intros (o & l' & E & T & M); exists o, l'; (split; [exact E|]); (split; [apply types_inst_dec; exact T|]);
    revert M; apply Forall_iff; intros x; rewrite orb_true_iff, types_inst_dec, is_global_debug_dec, is_note_dec; tauto.
Qed.

Lemma module_layout_split : forall l, module_layout l <-> split_as (map fresh all_sections ++ [fns_graphs]) l.
Proof.
  intros l. unfold module_layout. cbn [map all_sections app split_as fresh]. unfold fns_graphs, ops.
  split.
  - intros (l0 & l1 & l2 & l4 & l5 & l6 & l7 & l8 & l9 & l10 & l11 & l12 & l13 & E & H0 & H1 & H2 & H4 & H5 & H6 & H7 & H8 & H9 & H10 & H11 & H12 & H13).
    exists l0; eexists; split; [exact E|]; split; [revert H0; apply Forall_iff; intros o; destruct o; cbn; intuition congruence|].
    exists l1; eexists; split; [reflexivity|]; split; [revert H1; apply Forall_iff; intros o; destruct o; cbn; intuition congruence|].
    exists l2; eexists; split; [reflexivity|]; split; [revert H2; apply Forall_iff; intros o; destruct o; cbn; intuition congruence|].
    exists [OpMemoryModel]; eexists; split; [reflexivity|]; split; [reflexivity|].
    exists l4; eexists; split; [reflexivity|]; split; [exact H4|].
    exists l5; eexists; split; [reflexivity|]; split; [revert H5; apply Forall_iff; intros o; destruct o; cbn; intuition congruence|].
    exists l6; eexists; split; [reflexivity|]; split; [revert H6; apply Forall_iff; intros o; destruct o; cbn; intuition congruence|].
    exists l7; eexists; split; [reflexivity|]; split; [revert H7; apply Forall_iff; intros o; destruct o; cbn; intuition congruence|].
    exists l8; eexists; split; [reflexivity|]; split; [revert H8; apply Forall_iff; intros o; destruct o; cbn; intuition congruence|].
    exists l9; eexists; split; [reflexivity|]; split; [revert H9; apply Forall_iff; intros o; destruct o; cbn; intuition congruence|].
    exists l10; eexists; split; [reflexivity|]; split; [revert H10; apply Forall_iff; intros o; destruct o; cbn; intuition congruence|].
    exists l11; eexists; split; [reflexivity|]; split; [apply types_sec_dec; exact H11|].
    exists (l12 ++ l13), []; split; [symmetry; apply app_nil_r|]; split; [|reflexivity].
    exists l12, l13; auto.
  - intros (l0 & b0 & -> & H0 & l1 & b1 & -> & H1 & l2 & b2 & -> & H2 & l3 & b3 & -> & H3 & l4 & b4 & -> & H4 & l5 & b5 & -> & H5 & l6 & b6 & -> & H6 &
            l7 & b7 & -> & H7 & l8 & b8 & -> & H8 & l9 & b9 & -> & H9 & l10 & b10 & -> & H10 & l11 & b11 & -> & H11 & l12 & b12 & -> & (f & g & -> & F & G) & ->).
    subst l3. exists l0, l1, l2, l4, l5, l6, l7, l8, l9, l10, l11, f, g. rewrite app_nil_r.
    split; [reflexivity|].
    split; [revert H0; apply Forall_iff; intros o; destruct o; cbn; intuition congruence|].
    split; [revert H1; apply Forall_iff; intros o; destruct o; cbn; intuition congruence|].
    split; [revert H2; apply Forall_iff; intros o; destruct o; cbn; intuition congruence|].
    split; [exact H4|].
    split; [revert H5; apply Forall_iff; intros o; destruct o; cbn; intuition congruence|].
    split; [revert H6; apply Forall_iff; intros o; destruct o; cbn; intuition congruence|].
    split; [revert H7; apply Forall_iff; intros o; destruct o; cbn; intuition congruence|].
    split; [revert H8; apply Forall_iff; intros o; destruct o; cbn; intuition congruence|].
    split; [revert H9; apply Forall_iff; intros o; destruct o; cbn; intuition congruence|].
    split; [revert H10; apply Forall_iff; intros o; destruct o; cbn; intuition congruence|].
    split; [apply types_sec_dec; exact H11|]. split; [exact F | exact G].
Qed.

Lemma cont_ok_spec_gen : forall l p, cont_ok p l = true <->
  forall a b, l = a ++ OpSourceContinued :: b ->
    (a = [] /\ prev_ok p OpSourceContinued = true) \/ exists a' o, a = a' ++ [o] /\ (o = OpSource \/ o = OpSourceContinued).
Proof.
  assert (PO : forall o, prev_ok (Some o) OpSourceContinued = true <-> o = OpSource \/ o = OpSourceContinued)
    by (intros o; destruct o; cbn; intuition congruence).
  induction l as [|o l IH]; intros p.
  - split; [|reflexivity]. intros _ a b E. destruct a; discriminate E.
  - cbn [cont_ok]. rewrite andb_true_iff, IH. split.
    + intros (P & H) a b E. destruct a as [|x a]; cbn in E; injection E as <- E; [left; auto|].
      right. destruct (H a b E) as [(-> & Q)|(a' & o' & -> & Q)]; [exists [], o; split; [reflexivity | apply PO; exact Q] | exists (o :: a'), o'; auto].
    + intros H. split.
      * destruct o; try reflexivity. destruct (H [] l eq_refl) as [(_ & Q)|(a' & o' & E & _)]; [exact Q | destruct a'; discriminate E].
      * intros a b E. destruct (H (o :: a) b ltac:(cbn; rewrite E; reflexivity)) as [(Q & _)|(a' & o' & E2 & Q)]; [discriminate Q|].
        destruct a' as [|x a']; cbn in E2; injection E2 as <- E2; [left; split; [exact E2 | apply PO; exact Q] | right; exists a', o'; auto].
Qed.
Lemma cont_ok_spec : forall l, cont_ok None l = true <-> source_continued_ok l.
Proof.
  intros l. rewrite cont_ok_spec_gen. unfold source_continued_ok. split; intros H a b E; destruct (H a b E) as [(_ & X)|X] || pose proof (H a b E) as X; try discriminate X; auto.
Qed.

Lemma layout_ok_iff : forall l, layout_ok l = true <-> valid_layout l.
Proof.
  intros l. rewrite layout_ok_acc, andb_true_iff, acc_module, cont_ok_spec. unfold valid_layout. rewrite module_layout_split. reflexivity.
Qed.
