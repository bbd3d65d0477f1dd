(** Proofs about the word splitter and string literals (TextLex.v) against TextSpec.v. *)
From Verif Require Import Base TextLex TextSpec.
Local Open Scope N_scope.

Lemma comment_advance s l : comment_body s -> advance_mode true (s ++ 10 :: l) = advance_mode false l.
Proof.
  induction s as [|c s IH]; intros H; simpl; auto.
  inversion H as [|? ? [H1 H2] H3]; subst.
  replace (c =? c_nul) with false by (symmetry; apply N.eqb_neq; auto).
  replace (c =? c_nl) with false by (symmetry; apply N.eqb_neq; auto). auto.
Qed.
Lemma comment_end s : comment_body s -> fst (advance_mode true s) = true.
Proof.
  induction s as [|c s IH]; intros H; simpl; auto.
  inversion H as [|? ? [H1 H2] H3]; subst.
  replace (c =? c_nul) with false by (symmetry; apply N.eqb_neq; auto).
  replace (c =? c_nl) with false by (symmetry; apply N.eqb_neq; auto). auto.
Qed.
Lemma comment_end_nul s r : comment_body s -> fst (advance_mode true (s ++ 0 :: r)) = true.
Proof.
  induction s as [|c s IH]; intros H; simpl; auto.
  inversion H as [|? ? [H1 H2] H3]; subst.
  replace (c =? c_nul) with false by (symmetry; apply N.eqb_neq; auto).
  replace (c =? c_nl) with false by (symmetry; apply N.eqb_neq; auto). auto.
Qed.

Lemma gap_advance g l : gap g -> advance (g ++ l) = advance l.
Proof.
  unfold advance. induction 1 as [|c g W G IH|s g C G IH]; auto.
  - rewrite <- IH. destruct W as [->|[->|[->| ->]]]; reflexivity.
  - rewrite <- IH. simpl. rewrite <- app_assoc. simpl. now rewrite comment_advance.
Qed.
Lemma gap_app g h : gap g -> gap h -> gap (g ++ h).
Proof.
  induction 1 as [|c g W G IH|s g C G IH]; intros H; simpl; auto.
  - constructor; auto.
  - rewrite <- app_assoc. simpl. apply gap_comment; auto.
Qed.
Lemma ending_advance e : ending e -> fst (advance e) = true.
Proof.
  destruct 1 as [g G|g s G C|g r G|g s r G C].
  - rewrite <- (app_nil_r g), gap_advance; auto.
  - rewrite gap_advance; auto. unfold advance. simpl. now apply comment_end.
  - rewrite gap_advance; auto.
  - rewrite gap_advance; auto. unfold advance. simpl. now apply comment_end_nul.
Qed.

(** The rest of the text is empty or starts with a character that ends a word. *)
Definition boundary (l : list N) : Prop :=
  match l with [] => True | c :: _ => is_delim c = true \/ c = 0 end.

Lemma get_word_boundary l : boundary l -> get_word_loop false false l = ([], l).
Proof.
  destruct l as [|c l]; simpl; auto. intros [H| ->]; [|reflexivity].
  unfold is_delim in *.
  destruct (c =? c_bslash) eqn:E; [apply N.eqb_eq in E; subst; discriminate|].
  destruct (c =? c_nul); auto. rewrite H. reflexivity.
Qed.

Lemma string_get s l : string_body s ->
  get_word_loop true false (s ++ 34 :: l) =
  let '(w, r) := get_word_loop false false l in (s ++ 34 :: w, r).
Proof.
  induction 1 as [|c s H1 H2 H3 S IH|c s H S IH].
  - simpl. destruct (get_word_loop false false l); auto.
  - simpl. replace (c =? c_bslash) with false by (symmetry; apply N.eqb_neq; auto).
    replace (c =? c_nul) with false by (symmetry; apply N.eqb_neq; auto).
    rewrite andb_false_r.
    replace (c =? c_quote) with false by (symmetry; apply N.eqb_neq; auto).
    simpl. rewrite IH. destruct (get_word_loop false false l); auto.
  - change ((92 :: c :: s) ++ 34 :: l) with (92 :: c :: (s ++ 34 :: l)).
    cbn [get_word_loop]. change (92 =? c_bslash) with true. cbn [negb].
    destruct (c =? c_bslash) eqn:E.
    + cbn [negb]. rewrite IH. destruct (get_word_loop false false l); auto.
    + replace (c =? c_nul) with false by (symmetry; apply N.eqb_neq; auto).
      cbn [orb negb]. rewrite !andb_false_r. rewrite IH. destruct (get_word_loop false false l); auto.
Qed.

Lemma not_special c : ~ special c ->
  (c =? c_bslash) = false /\ (c =? c_nul) = false /\ is_delim c = false /\ (c =? c_quote) = false.
Proof.
  unfold special, white, is_delim. intros H.
  assert (D : forall k, (c = k -> False) -> (c =? k) = false) by (intros; apply N.eqb_neq; auto).
  repeat split; repeat (apply orb_false_intro); apply D; intros ->; apply H; vm_compute; intuition auto.
Qed.

Lemma word_get w l : word_body w -> boundary l -> get_word (w ++ l) = (w, l).
Proof.
  unfold get_word. intros W B. induction W as [|c w H W IH|c w H W IH|s w S W IH].
  - now apply get_word_boundary.
  - destruct (not_special c H) as (A1 & A2 & A3 & A4).
    simpl. rewrite A1, A2, A3, A4. simpl. rewrite IH. auto.
  - change ((92 :: c :: w) ++ l) with (92 :: c :: (w ++ l)).
    cbn [get_word_loop]. change (92 =? c_bslash) with true. cbn [negb].
    destruct (c =? c_bslash) eqn:E.
    + cbn [negb]. rewrite IH. auto.
    + replace (c =? c_nul) with false by (symmetry; apply N.eqb_neq; auto).
      cbn [orb negb]. rewrite !andb_false_r. rewrite IH. auto.
  - change ((34 :: s ++ 34 :: w) ++ l) with (34 :: ((s ++ 34 :: w) ++ l)).
    cbn [get_word_loop]. change (34 =? c_bslash) with false. change (34 =? c_nul) with false.
    change (is_delim 34) with false. change (34 =? c_quote) with true. cbn [andb negb].
    rewrite <- app_assoc. cbn [app]. rewrite string_get; auto. rewrite IH. auto.
Qed.

Lemma word_advance w l : word w -> advance (w ++ l) = (false, w ++ l).
Proof.
  intros [W N0]. unfold advance. destruct W as [|c w H W|c w H W|s w S W]; simpl; try congruence; auto.
  destruct (not_special c H) as (A1 & A2 & A3 & A4). unfold is_delim in A3.
  rewrite !orb_false_iff in A3. destruct A3 as [[[[[[[B1 B2] B3] B4] B5] B6] B7] B8].
  rewrite A2, B2, B1, B6, B7, B8. reflexivity.
Qed.

Lemma gap_boundary g l : gap g -> g <> [] -> boundary (g ++ l).
Proof.
  destruct 1 as [|c g W G|s g C G]; intros H; simpl; try congruence.
  - left. destruct W as [->|[->|[->| ->]]]; reflexivity.
  - left. reflexivity.
Qed.
Lemma ending_boundary e : ending e -> boundary e.
Proof.
  destruct 1 as [g G|g s G C|g r G|g s r G C].
  - destruct G as [|c g W G|s g C G]; simpl; auto. left.
    destruct W as [->|[->|[->| ->]]]; reflexivity.
  - destruct g; [left; reflexivity|apply gap_boundary; congruence].
  - destruct g; [right; reflexivity|apply gap_boundary; congruence].
  - destruct g; [left; reflexivity|apply gap_boundary; congruence].
Qed.

(** One word of a layout is delivered, and what is left is a layout of the other words. *)
Lemma layout_next ws text : layout ws text ->
  match ws with
  | [] => next_word text = None
  | w :: ws' => exists rest, next_word text = Some (w, rest) /\ layout ws' rest
  end.
Proof.
  unfold next_word. destruct 1 as [g E|g w e G W E|g w ws sep text G W S S0 W0 L].
  - apply ending_advance in E. destruct (advance g) as [eos r]. simpl in E. now subst.
  - rewrite gap_advance, word_advance; auto. rewrite word_get.
    + eexists; split; eauto. now constructor.
    + apply W.
    + now apply ending_boundary.
  - rewrite gap_advance, word_advance; auto. rewrite word_get.
    + eexists; split; [reflexivity|].
      destruct L as [g' E|g' w' e' G' W' E'|g' w' ws' sep' text' G' W' S' S0' W0' L']; [congruence| |].
      * rewrite app_assoc. constructor; auto. now apply gap_app.
      * rewrite app_assoc. constructor; auto. now apply gap_app.
    + apply W.
    + now apply gap_boundary.
Qed.

Theorem words_of_layout ws text : layout ws text -> forall n, words n text = firstn n ws.
Proof.
  intros L n. revert ws text L. induction n as [|n IH]; intros ws text L; auto.
  apply layout_next in L. simpl. destruct ws as [|w ws].
  - now rewrite L.
  - destruct L as (rest & -> & L). f_equal. auto.
Qed.

(** ** Strings *)
Lemma escaped_string_body s : Forall (fun c => c <> 0) s -> string_body (flat_map escape_char s).
Proof.
  induction 1 as [|c s H F IH]; simpl; [constructor|].
  unfold escape_char at 1. destruct (c =? c_quote) eqn:E1; simpl.
  - apply N.eqb_eq in E1. subst. apply sb_esc; auto.
  - destruct (c =? c_bslash) eqn:E2; simpl.
    + apply N.eqb_eq in E2. subst. apply sb_esc; auto.
    + apply N.eqb_neq in E1, E2. apply sb_char; auto.
Qed.
Lemma printed_string_word s : Forall (fun c => c <> 0) s -> word (print_string s).
Proof.
  intros F. split; [|discriminate]. unfold print_string.
  change [c_quote] with (34 :: @nil N). apply wb_string; [|constructor].
  now apply escaped_string_body.
Qed.

Lemma unescape_escaped s acc size :
  size + N.of_nat (length s) <= literal_string_bytes_max ->
  unescape (flat_map escape_char s) false acc size = Some (acc ++ s).
Proof.
  revert acc size. induction s as [|c s IH]; intros acc size L; simpl.
  - now rewrite app_nil_r.
  - cbn [length] in L.
    assert (Q : (literal_string_bytes_max <=? size) = false) by (apply N.leb_gt; lia).
    assert (R : unescape (flat_map escape_char s) false (acc ++ [c]) (size + 1) = Some (acc ++ c :: s)).
    { rewrite IH by lia. now rewrite <- app_assoc. }
    unfold escape_char at 1. destruct (c =? c_quote) eqn:E1; cbn [orb].
    + apply N.eqb_eq in E1. subst c. cbn -[N.leb]. change (c_bslash =? c_bslash) with true.
      change (c_quote =? c_bslash) with false. cbn -[N.leb]. rewrite Q. exact R.
    + destruct (c =? c_bslash) eqn:E2; cbn -[N.leb].
      * apply N.eqb_eq in E2. subst c. change (c_bslash =? c_bslash) with true. cbn -[N.leb].
        rewrite Q. exact R.
      * rewrite E2. cbn -[N.leb]. rewrite Q. exact R.
Qed.

Theorem print_string_read s : Forall (fun c => c <> 0) s ->
  N.of_nat (length s) <= literal_string_bytes_max ->
  text_to_literal (print_string s) = Lit_ok (Lit_string s).
Proof.
  intros F L. unfold text_to_literal, print_string.
  remember (flat_map escape_char s) as e eqn:E.
  assert (CL : classify true (c_quote :: e ++ [c_quote]) false 0%nat false = (false, 0%nat, true))
    by reflexivity.
  rewrite CL. cbn [orb].
  assert (LEN : Nat.ltb (length (c_quote :: e ++ [c_quote])) 2 = false).
  { apply Nat.ltb_ge. simpl. rewrite app_length. simpl. lia. }
  rewrite LEN. change (negb (c_quote =? c_quote)) with false.
  assert (LA : last (c_quote :: e ++ [c_quote]) 0 = c_quote).
  { rewrite app_comm_cons. apply last_last. }
  rewrite LA. change (negb (c_quote =? c_quote)) with false. cbn [orb tl].
  rewrite removelast_last, E, unescape_escaped by lia. reflexivity.
Qed.
