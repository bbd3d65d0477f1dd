(** Property C44: assembling ends, with a module or an error, for every text. *)
From Coq Require Import String.
From Verif Require Import Base Words TextLex Assembler AssemblerSpec AssemblerTotal P_RoundTrip.
Local Open Scope N_scope.
Local Open Scope list_scope.

(** Proved for the texts without NUL in which a comma or a parenthesis only occurs within a word
    (so that no word the splitter delivers is empty). *)
Theorem assembler_total_partial : forall g t keep text,
  tables_complete g t -> ~ In 0 text -> (forall n, ~ In [] (words n text)) -> N.of_nat (length text) < 2 ^ 32 ->
  exists r, assemble g t keep text = r /\ ((exists module, r = AOk module) \/ (exists code, r = AErr code)).
Proof.
  intros g t keep text C NZ NE L. exists (assemble g t keep text). split; [reflexivity|].
  pose proof (assemble_total g t keep text C NZ NE L) as H. destruct (assemble g t keep text); [left; eauto|right; eauto|congruence].
Qed.

(** In particular for the texts without NUL, commas and parentheses. *)
Corollary assembler_total_plain_partial : forall g t keep text,
  tables_complete g t -> (forall c, In c text -> c <> 0 /\ c <> c_comma /\ c <> c_lparen /\ c <> c_rparen) ->
  N.of_nat (length text) < 2 ^ 32 -> assemble g t keep text <> AStuck.
Proof.
  intros g t keep text C P L. apply assemble_total; auto; [intros IN; destruct (P 0 IN); congruence|].
  clear L. intros n. revert text P. induction n as [|n IH]; intros text P IN; [destruct IN|]. cbn [words] in IN. unfold next_word in IN.
  destruct (advance text) as [e r] eqn:A. destruct e; [destruct IN|].
  assert (SUF : forall l m e r, advance_mode m l = (e, r) -> exists pre, l = pre ++ r).
  { clear. induction l as [|c l IH]; intros m e r H; cbn [advance_mode] in H; [injection H as <- <-; exists []; reflexivity|].
    assert (STEP : forall m', advance_mode m' l = (e, r) -> exists pre, c :: l = pre ++ r)
      by (intros m' H'; destruct (IH _ _ _ H') as (pre & ->); exists (c :: pre); reflexivity).
    destruct (c =? c_nul); [injection H as <- <-; exists []; reflexivity|].
    destruct m; [destruct (c =? c_nl); eapply STEP; exact H|]. destruct (c =? c_semi); [eapply STEP; exact H|].
    destruct (_ || _); [eapply STEP; exact H|]. injection H as <- <-. exists []. reflexivity. }
  destruct (SUF _ _ _ _ A) as (pre & E). destruct (get_word r) as [w r2] eqn:G. pose proof (get_word_app _ _ _ _ _ G) as GA.
  destruct IN as [->|IN].
  - cbn in GA. subst r2. destruct (advance_mode_spec _ _ _ _ A) as (_ & _ & S). destruct (S eq_refl) as (NE & A2).
    destruct r as [|c r]; [congruence|]. destruct (P c) as (P1 & P2 & P3 & P4); [rewrite E; apply in_or_app; right; left; reflexivity|].
    unfold advance in A2. cbn [advance_mode] in A2. unfold get_word in G. cbn [get_word_loop] in G.
    destruct (c =? c_bslash); [destruct (get_word_loop _ _ r); discriminate G|].
    destruct (c =? c_nul) eqn:EN; [discriminate A2|].
    assert (DL : forall l m e q, advance_mode m l = (e, q) -> (length q <= length l)%nat) by (intros; eapply advance_mode_spec; eauto).
    assert (LONG : forall m, advance_mode m r <> (false, c :: r)) by (intros m H; apply DL in H; cbn in H; lia).
    destruct (c =? c_semi) eqn:ES; [destruct (LONG _ A2)|].
    destruct ((c =? c_space) || (c =? c_tab) || (c =? c_cr) || (c =? c_nl)) eqn:EW; [destruct (LONG _ A2)|].
    assert (D : is_delim c = false) by (unfold is_delim; lia). rewrite D in G. cbn [andb] in G.
    destruct (get_word_loop _ false r); discriminate G.
  - apply (IH r2); [|exact IN]. intros c IC. apply P. rewrite E, GA. apply in_or_app. right. apply in_or_app. right. exact IC.
Qed.

Lemma tables0_complete : tables_complete g0 t0.
Proof.
  assert (OPS : forall op x, op_row op = Some x -> In x ops /\ fst (fst x) = op).
  { intros op x H. apply find_some in H. destruct H as [H E]. split; [exact H|]. apply N.eqb_eq in E. exact E. }
  constructor.
  - intros w op H. cbn [t0 t_op_find] in H. destruct (op_by_name w) as [x|] eqn:E; [|discriminate H]. cbn in H. injection H as <-.
    apply find_some in E. destruct E as [IN _]. cbv in IN. repeat (destruct IN as [<-|IN]; [discriminate|]). destruct IN.
  - intros ty w v H. cbn [t0 t_operand_find g0 g_operand] in *. destruct (find_text (enum_concrete ty) w) as [x|] eqn:E; [|discriminate H].
    cbn in H. injection H as <-. apply find_some in E. destruct E as [IN E]. apply andb_true_iff in E. destruct E as [E _].
    apply otype_eqb_eq in E. rewrite <- E. clear E. cbv in IN. repeat (destruct IN as [<-|IN]; [vm_compute; discriminate|]). destruct IN.
  - intros s w v H. cbn [t0 t_ext_find g0 g_ext_inst] in *. destruct (s =? 1); [|discriminate H]. cbn [andb] in H.
    destruct (bytes_eqb _ w); [|discriminate H]. injection H as <-. discriminate.
  - intros w op H. cbn [t0 t_spec_find] in H. destruct (bytes_eqb _ w); [|discriminate H]. injection H as <-.
    eexists _, _, _. vm_compute. reflexivity.
  - intros op ts H G. cbn [g0 g_opcode] in G. destruct (op_row op) as [x|] eqn:E; [|discriminate G]. cbn in G. injection G as <-.
    apply OPS in E. destruct E as [IN <-]. cbv in IN.
    repeat (destruct IN as [<-|IN]; [first [discriminate H | eexists; reflexivity]|]). destruct IN.
  - intros op ts H H2 G. cbn [g0 g_opcode] in G. destruct (op_row op) as [x|] eqn:E; [|discriminate G]. cbn in G. injection G as <-.
    apply OPS in E. destruct E as [IN <-]. cbv in IN.
    repeat (destruct IN as [<-|IN]; [first [discriminate H | discriminate H2 | eexists; reflexivity]|]). destruct IN.
  - intros ts H. cbv in H. injection H as <-. eexists. reflexivity.
  - intros op H. cbn [g0 g_generates_type] in H. apply orb_true_iff in H. destruct H as [H|H]; apply N.eqb_eq in H; subst op; reflexivity.
  - split; reflexivity.
  - split; reflexivity.
  - split; discriminate.
Qed.

(** The hypotheses hold of a text with a comma and a parenthesis inside a string. *)
Definition text_string : list N := bytes_of "OpName %1 ""main(a, b)"" ; (a comment)
%2 = OpTypeInt 32 !1".
Example text_string_words : ~ In 0 text_string /\ (forall n, ~ In [] (words n text_string)) /\
  assemble g0 t0 false text_string = AOk ([0x07230203; 0x00010600; 0x00070000; 3; 0] ++
    inst_of 5 (1 :: make_vector (bytes_of "main(a, b)")) ++ inst_of 21 [2; 32; 1]).
Proof.
  split; [vm_compute; intuition discriminate|]. split; [|vm_compute; reflexivity].
  intros n. do 8 (destruct n as [|n]; [vm_compute; intuition discriminate|]).
  replace (words (S (S (S (S (S (S (S (S n)))))))) text_string) with (words 8 text_string); [vm_compute; intuition discriminate|].
  unfold text_string. vm_compute. destruct n; reflexivity.
Qed.

(** A comma between operands, a lone parenthesis and a lone NUL: the first character of an
    empty string is read. *)
Theorem assembler_comma_refuted : tables_complete g0 t0 /\ assemble g0 t0 false (bytes_of "OpName %1, ""a""") = AStuck.
Proof. split; [exact tables0_complete|vm_compute; reflexivity]. Qed.
Theorem assembler_parenthesis_refuted : tables_complete g0 t0 /\ assemble g0 t0 false [c_lparen] = AStuck.
Proof. split; [exact tables0_complete|vm_compute; reflexivity]. Qed.
(** An import written with OpUnknown: its result id is looked for in word 1, which is not there. *)
Theorem assembler_unknown_import_refuted : tables_complete g0 t0 /\
  assemble g0 t0 false (bytes_of "OpUnknown(11, 6) ""GLSL.std.450""") = AStuck.
Proof. split; [exact tables0_complete|vm_compute; reflexivity]. Qed.

Print Assumptions assembler_total_partial.
Print Assumptions assembler_total_plain_partial.
Print Assumptions assembler_comma_refuted.
