(** The assembler on a list of words instead of a text: the two agree on every text that is a
    layout of the words (TextSpec.v), so the result depends on the words only. *)
From Verif Require Import Base TextLex TextSpec TextProofs NamedIds NamedIdsProofs Assembler.
Local Open Scope N_scope.

Definition token_reader : reader := {|
  pos := list (list N);
  rd_advance := fun p => (match p with [] => true | _ => false end, p);
  rd_word := fun p => match p with [] => ([], []) | w :: ws => (w, ws) end;
  rd_op := fun p => match p with [] => false | w :: _ => starts_with_op w end;
  rd_peek := fun p => match p with (c :: _) :: _ => Some c | _ => None end;
  rd_skip := fun p => p;
  rd_has_text := fun p => match p with [] => false | _ => true end |}.

(** The words delivered from a position of the text. *)
Fixpoint holds (toks : list (list N)) (l : list N) : Prop :=
  match toks with
  | [] => fst (advance l) = true
  | w :: ws => exists r, advance l = (false, w ++ r) /\ word w /\ boundary r /\ holds ws r
  end.

Lemma layout_holds toks l : layout toks l -> holds toks l.
Proof.
  induction 1 as [g E|g w e G W E|g w ws sep text G W S S0 W0 L IH]; cbn [holds].
  - now apply ending_advance.
  - exists e. rewrite gap_advance, word_advance by auto. split; [reflexivity|]. split; auto. split; [now apply ending_boundary|].
    now apply ending_advance.
  - exists (sep ++ text). rewrite gap_advance, word_advance by auto. split; [reflexivity|]. split; auto.
    split; [now apply gap_boundary|]. revert IH. clear - S. destruct ws as [|w' ws']; cbn [holds];
      rewrite gap_advance by auto; auto.
Qed.

Lemma holds_advanced w ws r : word w -> boundary r -> holds ws r -> holds (w :: ws) (w ++ r).
Proof. intros. exists r. rewrite word_advance by auto. auto. Qed.

Lemma advance_eos_again l l1 : advance l = (true, l1) -> advance l1 = (true, l1).
Proof.
  unfold advance. assert (G : forall m, advance_mode m l = (true, l1) -> advance_mode false l1 = (true, l1)); [|apply G].
  revert l1. induction l as [|c l IH]; intros l1 m H; cbn [advance_mode] in H.
  { injection H as <-. reflexivity. }
  destruct (c =? c_nul) eqn:E.
  { injection H as <-. cbn [advance_mode]. rewrite E. reflexivity. }
  destruct m.
  { destruct (c =? c_nl); eapply IH; eauto. }
  destruct (c =? c_semi); [eapply IH; eauto|]. destruct (_ || _); [eapply IH; eauto|discriminate].
Qed.

(** A position from which the words [toks] are read, already advanced to the first one. *)
Definition at_word (toks : list (list N)) (l : list N) : Prop :=
  exists w ws r, toks = w :: ws /\ l = w ++ r /\ word w /\ boundary r /\ holds ws r.

Lemma holds_advance toks l : holds toks l ->
  (toks = [] /\ exists l1, advance l = (true, l1) /\ holds [] l1) \/
  (exists l1, advance l = (false, l1) /\ at_word toks l1 /\ toks <> []).
Proof.
  destruct toks as [|w ws]; cbn [holds].
  - intros H. left. split; auto. destruct (advance l) as [b l1] eqn:E. simpl in H. subst b.
    exists l1. split; auto. cbn [holds]. now rewrite (advance_eos_again _ _ E).
  - intros (r & A & W & B & H). right. exists (w ++ r). split; auto. split; [|discriminate].
    exists w, ws, r. auto.
Qed.
Lemma at_word_holds toks l : at_word toks l -> holds toks l.
Proof. intros (w & ws & r & -> & -> & W & B & H). now apply holds_advanced. Qed.

Lemma starts_with_op_app w r : word w -> boundary r -> starts_with_op (w ++ r) = starts_with_op w.
Proof.
  intros [_ N0] B.
  assert (D : forall c r0, r = c :: r0 -> c <> 112 /\ ((65 <=? c) && (c <=? 90)) = false).
  { intros c r0 ->. simpl in B. unfold is_delim, c_space, c_semi, c_comma, c_lparen, c_rparen, c_tab, c_nl, c_cr in B.
    lia. }
  destruct w as [|a [|b [|c w]]]; cbn [app starts_with_op]; try congruence.
  - destruct r as [|x [|y r]]; auto. destruct (D x _ eq_refl) as [D1 _].
    replace (x =? 112) with false by lia. now rewrite andb_false_r.
  - destruct r as [|x r]; auto. destruct (D x _ eq_refl) as [_ D2].
    destruct (a =? 79), (b =? 112); auto.
Qed.

Lemma at_word_spec toks l : at_word toks l -> exists w ws r,
  toks = w :: ws /\ l = w ++ r /\ word w /\ holds ws r /\
  get_word l = (w, r) /\ starts_with_op l = starts_with_op w /\
  (exists c w', w = c :: w' /\ ~ special c \/ w = c :: w' /\ (c = 34 \/ c = 92)).
Proof.
  intros (w & ws & r & -> & -> & W & B & H). exists w, ws, r. split; auto. split; auto. split; auto. split; auto.
  split; [apply word_get; [apply W|exact B]|]. split; [now apply starts_with_op_app|].
  destruct W as [W N0]. destruct W as [|c w S W|c w S W|s w S W]; [congruence|..].
  - exists c, w. auto.
  - exists 92, (c :: w). auto.
  - exists 34, (s ++ 34 :: w). auto.
Qed.

(** *** The simulation *)
Section Sim.
Variable g : grammar.
Variable t : tables.
Notation T := token_reader.
Notation X := text_reader.

Definition same {A B} (P : A -> B -> Prop) (a : aout A) (b : aout B) : Prop :=
  match a, b with
  | AOk x, AOk y => P x y
  | AErr c, AErr d => c = d
  | AStuck, AStuck => True
  | _, _ => False
  end.

Ltac adv H := let L := fresh "L" in let E := fresh "E" in
  destruct (holds_advance _ _ H) as [[-> (L & E & ?)]|(L & E & ? & ?)].

Lemma sim_start toks l : at_word toks l -> start_of_new_inst X l = start_of_new_inst T toks.
Proof.
  intros A. unfold start_of_new_inst. cbn [rd_advance rd_op rd_word text_reader token_reader].
  destruct (at_word_spec _ _ A) as (w & ws & r & -> & -> & W & H & GW & SO & _).
  rewrite word_advance, SO, GW by auto. destruct (starts_with_op w); [reflexivity|].
  destruct w as [|ch w0]; [destruct W; congruence|].
  destruct (negb (ch =? c_percent)); [reflexivity|].
  destruct (holds_advance _ _ H) as [[-> (l1 & -> & _)]|(l1 & -> & A1 & N1)]; [reflexivity|].
  destruct (at_word_spec _ _ A1) as (w1 & ws1 & r1 & -> & -> & W1 & H1 & -> & _ & _).
  destruct (negb (name_eqb w1 [61])); [reflexivity|].
  destruct (holds_advance _ _ H1) as [[-> (l2 & -> & _)]|(l2 & -> & A2 & N2)]; [reflexivity|].
  destruct (at_word_spec _ _ A2) as (w2 & ws2 & r2 & -> & -> & W2 & H2 & _ & -> & _). reflexivity.
Qed.

Lemma asm_loop_eq (R : reader) rid w z x i p l :
  asm_loop g t R rid w z x i p l =
    match z with
    | O => AStuck
    | S z' =>
        match p with
        | [] => AOk (x, i, l, true)
        | ty :: p0 =>
            match expand_once ty p0 with
            | Some p' => asm_loop g t R rid w z' x i p' l
            | None =>
                if otype_eqb ty T_RESULT_ID && negb (match rid with [] => true | _ => false end) then
                  match encode_operand g t T_RESULT_ID rid x i p0 with
                  | AOk (x', i', _) => asm_loop g t R rid w z' x' i' p0 l
                  | AErr c => AErr c
                  | AStuck => AStuck
                  end
                else
                  let '(eos, l1) := rd_advance R l in
                  if eos then
                    if is_optional ty then AOk (x, i, l1, true) else AErr SPV_ERROR_INVALID_TEXT
                  else
                    match start_of_new_inst R l1 with
                    | None => AStuck
                    | Some true => if is_optional ty then AOk (x, i, l1, true) else AErr SPV_ERROR_INVALID_TEXT
                    | Some false =>
                        let '(text, next) := rd_word R l1 in
                        match encode_operand g t ty text x i p0 with
                        | AStuck => AStuck
                        | AErr c => if (c =? SPV_FAILED_MATCH)%Z && is_optional ty
                                    then AOk (x, i, l1, false) else AErr c
                        | AOk (x', i', p') =>
                            match w with
                            | O => AStuck
                            | S w' => asm_loop g t R rid w' (2 + length p') x' i' p' next
                            end
                        end
                    end
            end
        end
    end.
Proof. destruct w, z; reflexivity. Qed.

Definition rel1 (a : actx * ainst * list N * bool) (b : actx * ainst * list (list N) * bool) : Prop :=
  fst (fst a) = fst (fst b) /\ snd a = snd b /\ holds (snd (fst b)) (snd (fst a)).
Definition rel2 (a : actx * ainst * list N) (b : actx * ainst * list (list N)) : Prop :=
  fst a = fst b /\ holds (snd b) (snd a).

Lemma sim_loop rid : forall w z x i p toks l, holds toks l ->
  same rel1 (asm_loop g t X rid w z x i p l) (asm_loop g t T rid w z x i p toks).
Proof.
  induction w as [w IHw] using (well_founded_induction lt_wf).
  induction z as [|z IHz]; intros x i p toks l H; rewrite !asm_loop_eq; [exact I|].
  destruct p as [|ty p0]; [repeat split; exact H|].
  destruct (expand_once ty p0) as [p'|]; [now apply IHz|].
  destruct (otype_eqb ty T_RESULT_ID && _).
  - destruct (encode_operand g t T_RESULT_ID rid x i p0) as [[[x' i'] ?]|c|]; [now apply IHz|reflexivity|exact I].
  - cbn [rd_advance rd_word text_reader token_reader].
    destruct (holds_advance _ _ H) as [[-> (l1 & -> & H1)]|(l1 & -> & A1 & N1)].
    + destruct (is_optional ty); [repeat split; exact H1|reflexivity].
    + rewrite (sim_start _ _ A1).
      assert (TN : match toks with [] => true | _ => false end = false) by (destruct toks; congruence).
      rewrite TN.
      destruct (start_of_new_inst T toks) as [[|]|]; [|..|exact I].
      * destruct (is_optional ty); [repeat split; now apply at_word_holds|reflexivity].
      * destruct (at_word_spec _ _ A1) as (w1 & ws1 & r1 & -> & -> & W1 & H1 & -> & _ & _).
        destruct (encode_operand g t ty w1 x i p0) as [[[x' i'] p']|c|]; [|..|exact I].
        -- destruct w as [|w']; [exact I|]. apply IHw; [lia|exact H1].
        -- destruct (_ && _); [repeat split; now apply at_word_holds|reflexivity].
Qed.

Lemma sim_immediates : forall w x i toks l, holds toks l ->
  same rel2 (immediate_loop g t X w x i l) (immediate_loop g t T w x i toks).
Proof.
  induction w as [|w IH]; intros x i toks l H; cbn [immediate_loop rd_advance rd_word text_reader token_reader];
    (destruct (holds_advance _ _ H) as [[-> (l1 & -> & H1)]|(l1 & -> & A1 & N1)]; [split; auto|]);
    rewrite (sim_start _ _ A1);
    assert (TN : match toks with [] => true | _ => false end = false) by (destruct toks; congruence);
    rewrite TN; (destruct (start_of_new_inst T toks) as [[|]|]; [split; [auto|now apply at_word_holds]|..|exact I]);
    destruct (at_word_spec _ _ A1) as (w1 & ws1 & r1 & -> & -> & W1 & H1 & -> & _ & _);
    (destruct (name_eqb w1 [61]); [reflexivity|]);
    (destruct (encode_operand g t T_OPTIONAL_CIV w1 x i []) as [[[x' i'] p']|c|]; [|reflexivity|exact I]); [exact I|].
  now apply IH.
Qed.

Lemma sim_expect ch toks l : holds toks l -> special ch -> ch <> 34 -> ch <> 92 ->
  expect_char X ch l = AErr SPV_ERROR_INVALID_TEXT /\ expect_char T ch toks = AErr SPV_ERROR_INVALID_TEXT.
Proof.
  intros H S N1 N2. unfold expect_char. cbn [rd_advance rd_peek text_reader token_reader].
  destruct (holds_advance _ _ H) as [[-> (l1 & -> & H1)]|(l1 & -> & A1 & Nn)]; [auto|].
  destruct (at_word_spec _ _ A1) as (w1 & ws1 & r1 & -> & -> & W1 & H1 & _ & _ & (c & w' & C)).
  assert (E : (c =? ch) = false /\ w1 = c :: w').
  { destruct C as [[-> C]|[-> C]]; (split; [|auto]); apply N.eqb_neq; intros ->; intuition congruence. }
  destruct E as [E ->]. cbn [app]. rewrite E. auto.
Qed.

Lemma sim_unknown x i toks l : holds toks l ->
  same rel2 (encode_unknown_inst g t X x i l) (encode_unknown_inst g t T x i toks).
Proof.
  intros H. unfold encode_unknown_inst.
  destruct (sim_expect c_lparen _ _ H) as [-> ->]; try reflexivity; try discriminate.
  unfold special. vm_compute. tauto.
Qed.

Lemma sim_read_opcode toks l : at_word toks l ->
  same (fun a b => fst a = fst b /\ holds (snd b) (snd a)) (read_opcode X l) (read_opcode T toks).
Proof.
  intros A. unfold read_opcode. cbn [rd_advance rd_word rd_op text_reader token_reader].
  destruct (at_word_spec _ _ A) as (w & ws & r & -> & -> & W & H & GW & SO & _).
  rewrite SO, GW. destruct (starts_with_op w); [split; auto|].
  destruct w as [|ch w0]; [exact I|]. destruct (negb (ch =? c_percent)); [reflexivity|].
  destruct (holds_advance _ _ H) as [[-> (l1 & -> & _)]|(l1 & -> & A1 & N1)]; [reflexivity|].
  destruct (at_word_spec _ _ A1) as (w1 & ws1 & r1 & -> & -> & W1 & H1 & -> & _ & _).
  destruct (negb (name_eqb w1 [61])); [reflexivity|].
  destruct (holds_advance _ _ H1) as [[-> (l2 & -> & _)]|(l2 & -> & A2 & N2)]; [reflexivity|].
  destruct (at_word_spec _ _ A2) as (w2 & ws2 & r2 & -> & -> & W2 & H2 & -> & -> & _).
  destruct (negb (starts_with_op w2)); [reflexivity|]. split; auto.
Qed.

Lemma sim_opcode fuel iop x toks l : at_word toks l ->
  same rel2 (encode_opcode g t X fuel iop x l) (encode_opcode g t T fuel iop x toks).
Proof.
  intros A. unfold encode_opcode.
  assert (P : exists c, rd_peek X l = Some c /\ rd_peek T toks = Some c).
  { destruct (at_word_spec _ _ A) as (w & ws & r & -> & -> & W & H & GW & SO & _).
    destruct w as [|c w]; [destruct W; congruence|]. exists c. auto. }
  destruct P as (c & -> & ->). cbv zeta. destruct (c =? c_bang).
  - unfold encode_immediate_inst. cbn [rd_word text_reader token_reader].
    destruct (at_word_spec _ _ A) as (w & ws & r & -> & -> & W & H & GW & SO & _). rewrite GW.
    destruct (encode_immediate w _) as [i'|?|]; [|reflexivity|exact I]. now apply sim_immediates.
  - pose proof (sim_read_opcode _ _ A) as S. unfold same in S.
    destruct (read_opcode X l) as [[[rid name] nx]|c1|], (read_opcode T toks) as [[[rid' name'] nx']|c2|]; try contradiction;
      [|subst; reflexivity|exact I].
    cbn [fst snd] in S. destruct S as [E H]. injection E as <- <-.
    destruct (name_eqb name op_unknown).
    { destruct (negb _); [reflexivity|now apply sim_unknown]. }
    destruct (t_op_find t (skipn 2 name)) as [op|]; [|reflexivity].
    destruct (t_has_result t op && _); [reflexivity|]. destruct (negb (t_has_result t op) && _); [reflexivity|].
    destruct (g_opcode g op) as [ts|]; [|exact I].
    match goal with |- context [asm_loop g t X rid fuel ?z x ?i ts nx] =>
      pose proof (sim_loop rid fuel z x i ts _ _ H) as SL;
      destruct (asm_loop g t X rid fuel z x i ts nx) as [[[[x1 i1] l1] b1]|c1|],
               (asm_loop g t T rid fuel z x i ts nx') as [[[[x2 i2] l2] b2]|c2|] end;
      try contradiction; [|exact SL|exact I].
    destruct SL as (E1 & E2 & H2). cbn [fst snd] in *. injection E1 as <- <-. subst b2.
    destruct b1; [|split; auto].
    destruct (finish_opcode g t x1 i1) as [[x3 i3]|c3|]; [split; auto|reflexivity|exact I].
Qed.

Lemma sim_instructions iop opfuel : forall fuel x toks l acc, at_word toks l ->
  instructions_loop g t X fuel iop opfuel x l acc = instructions_loop g t T fuel iop opfuel x toks acc.
Proof.
  induction fuel as [|f IH]; intros x toks l acc A; cbn [instructions_loop]; [reflexivity|].
  pose proof (sim_opcode opfuel iop x _ _ A) as S.
  destruct (encode_opcode g t X opfuel iop x l) as [[[x1 i1] l1]|c1|],
           (encode_opcode g t T opfuel iop x toks) as [[[x2 i2] l2]|c2|]; try contradiction; [|simpl in S; congruence|reflexivity].
  destruct S as [E H]. cbn [fst snd] in *. injection E as <- <-.
  cbn [rd_advance text_reader token_reader].
  destruct (holds_advance _ _ H) as [[-> (l3 & -> & _)]|(l3 & -> & A3 & N3)]; [reflexivity|].
  rewrite (IH _ _ _ _ A3). destruct l2; [congruence|reflexivity].
Qed.

Lemma sim_run fuel iop keep toks l : toks <> [] -> holds toks l ->
  run g t X fuel iop keep l = run g t T fuel iop keep toks.
Proof.
  intros N0 H. unfold run. cbn [rd_advance rd_has_text text_reader token_reader].
  destruct (holds_advance _ _ H) as [[-> _]|(l1 & -> & A & _)]; [congruence|].
  rewrite (sim_instructions _ _ _ _ _ _ _ A).
  destruct (at_word_spec _ _ A) as (w & ws & r & -> & -> & W & _).
  destruct w; [destruct W; congruence|reflexivity].
Qed.

(** *** The fuel *)
Lemma fuel_loop rid : forall n w w' z x i p toks, (length toks <= n)%nat -> (n <= w)%nat -> (n <= w')%nat ->
  asm_loop g t T rid w z x i p toks = asm_loop g t T rid w' z x i p toks.
Proof.
  induction n as [n IHn] using (well_founded_induction lt_wf). intros w w'.
  induction z as [|z IHz]; intros x i p toks L1 L2 L3; rewrite !asm_loop_eq; [reflexivity|].
  destruct p as [|ty p0]; [reflexivity|].
  destruct (expand_once ty p0) as [p'|]; [apply IHz; lia|].
  destruct (otype_eqb ty T_RESULT_ID && _).
  - destruct (encode_operand g t T_RESULT_ID rid x i p0) as [[[x' i'] ?]|c|]; [apply IHz; lia|reflexivity..].
  - cbn [rd_advance rd_word token_reader]. destruct toks as [|w1 ws]; [reflexivity|].
    destruct (start_of_new_inst T (w1 :: ws)) as [[|]|]; [reflexivity| |reflexivity].
    destruct (encode_operand g t ty w1 x i p0) as [[[x' i'] p']|c|]; [|reflexivity..].
    cbn [length] in L1. destruct w as [|v]; [lia|]. destruct w' as [|v']; [lia|].
    apply (IHn (pred n)); lia.
Qed.
Lemma loop_shorter rid : forall w z x i p toks x' i' l b,
  asm_loop g t T rid w z x i p toks = AOk (x', i', l, b) -> (length l <= length toks)%nat.
Proof.
  induction w as [w IHw] using (well_founded_induction lt_wf).
  induction z as [|z IHz]; intros x i p toks x' i' l b; rewrite asm_loop_eq; [discriminate|].
  destruct p as [|ty p0]; [intros H; injection H; intros; subst; auto|].
  destruct (expand_once ty p0) as [p'|]; [apply IHz|].
  destruct (otype_eqb ty T_RESULT_ID && _).
  - destruct (encode_operand g t T_RESULT_ID rid x i p0) as [[[x1 i1] ?]|c|]; [apply IHz|discriminate..].
  - cbn [rd_advance rd_word token_reader]. destruct toks as [|w1 ws].
    + destruct (is_optional ty); [|discriminate]. intros H; injection H; intros; subst; auto.
    + destruct (start_of_new_inst T (w1 :: ws)) as [[|]|]; [destruct (is_optional ty)| |];
        [intros H; injection H; intros; subst; auto|discriminate| |discriminate].
      destruct (encode_operand g t ty w1 x i p0) as [[[x1 i1] p1]|c|].
      * destruct w as [|v]; [discriminate|]. intros H. apply IHw in H; [|lia]. simpl. lia.
      * destruct (_ && _); [|discriminate]. intros H; injection H; intros; subst; auto.
      * discriminate.
Qed.

Lemma fuel_immediate : forall n w w' x i toks, (length toks <= n)%nat -> (n <= w)%nat -> (n <= w')%nat ->
  immediate_loop g t T w x i toks = immediate_loop g t T w' x i toks.
Proof.
  induction n as [|n IH]; intros w w' x i toks L1 L2 L3.
  - destruct toks; [|simpl in L1; lia]. destruct w, w'; reflexivity.
  - destruct w as [|w]; [lia|]. destruct w' as [|w']; [lia|]. cbn [immediate_loop rd_advance rd_word token_reader].
    destruct toks as [|w1 ws]; [reflexivity|].
    destruct (start_of_new_inst T (w1 :: ws)) as [[|]|]; [reflexivity| |reflexivity].
    destruct (name_eqb w1 [61]); [reflexivity|].
    destruct (encode_operand g t T_OPTIONAL_CIV w1 x i []) as [[[x1 i1] p1]|c|]; [|reflexivity..].
    cbn [length] in L1. apply IH; lia.
Qed.
Lemma immediate_shorter : forall w x i toks x' i' l,
  immediate_loop g t T w x i toks = AOk (x', i', l) -> (length l <= length toks)%nat.
Proof.
  induction w as [|w IH]; intros x i toks x' i' l; cbn [immediate_loop rd_advance rd_word token_reader];
    (destruct toks as [|w1 ws]; [intros H; injection H; intros; subst; auto|]);
    (destruct (start_of_new_inst T (w1 :: ws)) as [[|]|]; [intros H; injection H; intros; subst; auto| |discriminate]);
    (destruct (name_eqb w1 [61]); [discriminate|]);
    (destruct (encode_operand g t T_OPTIONAL_CIV w1 x i []) as [[[x1 i1] p1]|c|]; try discriminate).
  intros H. apply IH in H. simpl. lia.
Qed.

Lemma read_opcode_shorter toks a b l : read_opcode T toks = AOk (a, b, l) -> (length l < length toks \/ toks = [])%nat.
Proof.
  unfold read_opcode. cbn [rd_advance rd_word rd_op token_reader].
  destruct toks as [|w ws]; [auto|]. destruct (starts_with_op w); [intros H; injection H; intros; subst; simpl; auto|].
  destruct w as [|ch w0]; [discriminate|]. destruct (negb (ch =? c_percent)); [discriminate|].
  destruct ws as [|w1 ws]; [discriminate|]. destruct (negb (name_eqb w1 [61])); [discriminate|].
  destruct ws as [|w2 ws]; [discriminate|]. destruct (negb (starts_with_op w2)); [discriminate|].
  intros H; injection H; intros; subst; simpl; left; lia.
Qed.
(** On words no instruction reads the parentheses of OpUnknown. *)
Lemma unknown_never x i toks : Forall (fun w => hd 0 w <> 40) toks ->
  exists c, encode_unknown_inst g t T x i toks = c /\ (c = AErr SPV_ERROR_INVALID_TEXT \/ c = AStuck).
Proof.
  intros F. unfold encode_unknown_inst, expect_char. cbn [rd_advance rd_peek token_reader].
  destruct toks as [|w ws]; [eauto|]. destruct w as [|c w]; [eauto|].
  inversion F as [|? ? E]; subst. simpl in E.
  replace (c =? c_lparen) with false by (symmetry; now apply N.eqb_neq). simpl. eauto.
Qed.

Definition plain_words (toks : list (list N)) : Prop := Forall (fun w => w <> [] /\ hd 0 w <> 40) toks.

Lemma fuel_opcode n fuel fuel' iop x toks : (length toks <= n)%nat -> (n <= fuel)%nat -> (n <= fuel')%nat ->
  encode_opcode g t T fuel iop x toks = encode_opcode g t T fuel' iop x toks.
Proof.
  intros L1 L2 L3. unfold encode_opcode. destruct toks as [|w ws]; [reflexivity|].
  destruct (rd_peek T (w :: ws)) as [c|]; [|reflexivity]. cbv zeta.
  destruct (c =? c_bang).
  - unfold encode_immediate_inst. cbn [rd_word token_reader].
    destruct (encode_immediate w _); [|reflexivity..]. apply (fuel_immediate n); simpl in *; lia.
  - destruct (read_opcode T (w :: ws)) as [[[rid name] nx]|c1|] eqn:RO; [|reflexivity..].
    apply read_opcode_shorter in RO. destruct RO as [RO|RO]; [|discriminate].
    destruct (name_eqb name op_unknown); [reflexivity|].
    destruct (t_op_find t (skipn 2 name)) as [op|]; [|reflexivity].
    destruct (t_has_result t op && _); [reflexivity|]. destruct (negb (t_has_result t op) && _); [reflexivity|].
    destruct (g_opcode g op) as [ts|]; [|reflexivity].
    rewrite (fuel_loop rid n fuel fuel'); [reflexivity|lia..].
Qed.

Lemma read_opcode_suffix toks a b l : read_opcode T toks = AOk (a, b, l) -> exists pre, toks = pre ++ l.
Proof.
  unfold read_opcode. cbn [rd_advance rd_word rd_op token_reader].
  destruct toks as [|w ws]; [discriminate|].
  destruct (starts_with_op w); [intros H; injection H; intros; subst; now exists [b]|].
  destruct w as [|ch w0]; [discriminate|]. destruct (negb (ch =? c_percent)); [discriminate|].
  destruct ws as [|w1 ws]; [discriminate|]. destruct (negb (name_eqb w1 [61])); [discriminate|].
  destruct ws as [|w2 ws]; [discriminate|]. destruct (negb (starts_with_op w2)); [discriminate|].
  intros H; injection H; intros; subst. now exists [ch :: w0; w1; b].
Qed.
Lemma loop_suffix rid : forall w z x i p toks x' i' l b,
  asm_loop g t T rid w z x i p toks = AOk (x', i', l, b) -> exists pre, toks = pre ++ l.
Proof.
  induction w as [w IHw] using (well_founded_induction lt_wf).
  induction z as [|z IHz]; intros x i p toks x' i' l b; rewrite asm_loop_eq; [discriminate|].
  destruct p as [|ty p0]; [intros H; injection H; intros; subst; now exists []|].
  destruct (expand_once ty p0) as [p'|]; [apply IHz|].
  destruct (otype_eqb ty T_RESULT_ID && _).
  - destruct (encode_operand g t T_RESULT_ID rid x i p0) as [[[x1 i1] ?]|c|]; [apply IHz|discriminate..].
  - cbn [rd_advance rd_word token_reader]. destruct toks as [|w1 ws].
    + destruct (is_optional ty); [|discriminate]. intros H; injection H; intros; subst; now exists [].
    + destruct (start_of_new_inst T (w1 :: ws)) as [[|]|]; [destruct (is_optional ty)| |];
        [intros H; injection H; intros; subst; now exists []|discriminate| |discriminate].
      destruct (encode_operand g t ty w1 x i p0) as [[[x1 i1] p1]|c|].
      * destruct w as [|v]; [discriminate|]. intros H. apply IHw in H; [|lia]. destruct H as [pre ->].
        now exists (w1 :: pre).
      * destruct (_ && _); [|discriminate]. intros H; injection H; intros; subst; now exists [].
      * discriminate.
Qed.
Lemma immediate_suffix : forall w x i toks x' i' l,
  immediate_loop g t T w x i toks = AOk (x', i', l) -> exists pre, toks = pre ++ l.
Proof.
  induction w as [|w IH]; intros x i toks x' i' l; cbn [immediate_loop rd_advance rd_word token_reader];
    (destruct toks as [|w1 ws]; [intros H; injection H; intros; subst; now exists []|]);
    (destruct (start_of_new_inst T (w1 :: ws)) as [[|]|]; [intros H; injection H; intros; subst; now exists []| |discriminate]);
    (destruct (name_eqb w1 [61]); [discriminate|]);
    (destruct (encode_operand g t T_OPTIONAL_CIV w1 x i []) as [[[x1 i1] p1]|c|]; try discriminate).
  intros H. apply IH in H. destruct H as [pre ->]. now exists (w1 :: pre).
Qed.

Lemma opcode_shorter fuel iop x toks x' i' l : plain_words toks ->
  encode_opcode g t T fuel iop x toks = AOk (x', i', l) ->
  (length l < length toks)%nat /\ plain_words l.
Proof.
  intros PW H.
  assert (G : exists pre, toks = pre ++ l /\ pre <> []).
  { revert H. unfold encode_opcode. destruct toks as [|w ws]; [discriminate|].
    destruct (rd_peek T (w :: ws)) as [c|]; [|discriminate]. cbv zeta. destruct (c =? c_bang).
    - unfold encode_immediate_inst. cbn [rd_word token_reader].
      destruct (encode_immediate w _); [|discriminate..]. intros H.
      apply immediate_suffix in H. destruct H as [pre ->]. exists (w :: pre). split; [reflexivity|discriminate].
    - destruct (read_opcode T (w :: ws)) as [[[rid name] nx]|c1|] eqn:RO; [|discriminate..].
      pose proof (read_opcode_shorter _ _ _ _ RO) as L. apply read_opcode_suffix in RO. destruct RO as [pre RO].
      assert (pre <> []) by (intros ->; simpl in RO; subst nx; destruct L; [lia|discriminate]).
      destruct (name_eqb name op_unknown).
      { destruct (negb _); [discriminate|]. intros H1. exfalso.
        match type of H1 with encode_unknown_inst g t T ?a ?b ?c = _ =>
          destruct (unknown_never a b c) as (r & E & [-> | ->]); [|congruence..] end.
        rewrite RO in PW. apply Forall_app in PW. destruct PW as [_ PW]. eapply Forall_impl; [|exact PW]. simpl. tauto. }
      destruct (t_op_find t (skipn 2 name)) as [op|]; [|discriminate].
      destruct (t_has_result t op && _); [discriminate|]. destruct (negb (t_has_result t op) && _); [discriminate|].
      destruct (g_opcode g op) as [ts|]; [|discriminate].
      match goal with |- context [asm_loop g t T rid fuel ?z x ?i ts nx] =>
        destruct (asm_loop g t T rid fuel z x i ts nx) as [[[[x1 i1] l1] b1]|c1|] eqn:AL; [|discriminate..] end.
      apply loop_suffix in AL. destruct AL as [pre1 ->].
      intros H1. assert (l1 = l).
      { destruct b1; [destruct (finish_opcode g t x1 i1) as [[x3 i3]|c3|]; [|discriminate..]|]; injection H1; auto. }
      subst l1. exists (pre ++ pre1). rewrite <- app_assoc. split; [exact RO|]. destruct pre; [congruence|discriminate]. }
  destruct G as (pre & -> & N0). split; [rewrite app_length; destruct pre; [congruence|simpl; lia]|].
  apply Forall_app in PW. apply PW.
Qed.

Lemma fuel_instructions iop : forall n f f' o o' x toks acc, plain_words toks -> toks <> [] -> (length toks <= n)%nat ->
  (n <= f)%nat -> (n <= f')%nat -> (n <= o)%nat -> (n <= o')%nat ->
  instructions_loop g t T f iop o x toks acc = instructions_loop g t T f' iop o' x toks acc.
Proof.
  induction n as [|n IH]; intros f f' o o' x toks acc PW N0 L L1 L2 L3 L4; [destruct toks; [congruence|simpl in L; lia]|].
  destruct f as [|f]; [lia|]. destruct f' as [|f']; [lia|]. cbn [instructions_loop].
  rewrite (fuel_opcode (S n) o o') by lia.
  destruct (encode_opcode g t T o' iop x toks) as [[[x1 i1] l1]|c1|] eqn:EO; [|reflexivity..].
  apply opcode_shorter in EO; auto. destruct EO as [L5 P5].
  cbn [rd_advance token_reader]. destruct l1 as [|w l1]; [reflexivity|].
  apply IH; auto; try lia. discriminate.
Qed.

Lemma fuel_run n f f' iop keep toks : plain_words toks -> (length toks <= n)%nat -> (n <= f)%nat -> (n <= f')%nat ->
  run g t T f iop keep toks = run g t T f' iop keep toks.
Proof.
  intros PW L L1 L2. unfold run. cbn [rd_advance rd_has_text token_reader]. destruct toks as [|w ws]; [reflexivity|].
  apply (fuel_instructions iop n); auto. discriminate.
Qed.

Lemma layout_length toks l : layout toks l -> (length toks <= length l)%nat.
Proof.
  induction 1 as [g0 E|g0 w e G W E|g0 w ws sep text G W S S0 W0 L IH]; cbn [length]; [lia|..];
    rewrite !app_length; destruct W as [_ W]; (destruct w; [congruence|]); cbn [length]; lia.
Qed.
Lemma layout_plain toks l : layout toks l -> plain_words toks.
Proof.
  assert (P : forall w, word w -> w <> [] /\ hd 0 w <> 40).
  { intros w [W N0]. split; [exact N0|]. destruct W as [|c w S W|c w S W|s w S W]; simpl; try discriminate.
    intros ->. apply S. unfold special. vm_compute. tauto. }
  induction 1; constructor; auto.
Qed.

(** The assembler's result is a function of the words of its text. *)
Theorem assemble_tokens keep toks text : toks <> [] -> layout toks text ->
  assemble g t keep text = assemble_with g t T (length toks) keep toks.
Proof.
  intros N0 L. pose proof (layout_length _ _ L) as LL. pose proof (layout_plain _ _ L) as LP.
  apply layout_holds in L. unfold assemble, assemble_with.
  assert (E : forall iop k, run g t X (S (length text)) iop k text = run g t T (length toks) iop k toks).
  { intros iop k. rewrite (sim_run _ _ _ _ _ N0 L). apply (fuel_run (length toks)); auto. }
  destruct keep; [rewrite E; destruct (run g t T (length toks) (g_op_max g) [] toks) as [[x ?]|?|]|]; auto; now rewrite E.
Qed.
End Sim.
