(** The assembler never gets stuck on a text whose words are all non-empty. *)
From Verif Require Import Base Words TextLex ParseNumber NamedIds NamedIdsProofs Assembler AssemblerSpec TokenReader.
Local Open Scope N_scope.

(** *** Fresh ids *)
Fixpoint iter32 (n : nat) (next : N) : N := match n with O => next | S n' => iter32 n' (succ32 next) end.
Lemma fresh_none : forall fuel next K, fresh_id fuel next K = None -> forall k, (k < fuel)%nat -> In (iter32 k next) K.
Proof.
  induction fuel as [|f IH]; intros next K H k L; [lia|]. cbn [fresh_id] in H. cbv zeta in H.
  destruct (mem next K) eqn:M; [|discriminate H]. destruct k as [|k]; [apply mem_In; exact M|]. cbn [iter32]. apply IH; [exact H|lia].
Qed.
Lemma iter32_mod : forall k next, next < 2 ^ 32 -> iter32 k next = (next + N.of_nat k) mod 2 ^ 32.
Proof.
  induction k as [|k IH]; intros next B; cbn [iter32]; [rewrite N.add_0_r, N.mod_small; lia|].
  rewrite IH by (unfold succ32; apply N.mod_lt; lia). unfold succ32. rewrite N.add_mod_idemp_l by lia. f_equal. lia.
Qed.
Lemma nodup_map_in {A B} (f : A -> B) (l : list A) : NoDup l ->
  (forall a b, In a l -> In b l -> f a = f b -> a = b) -> NoDup (map f l).
Proof.
  induction 1 as [|x l NI ND IH]; intros INJ; cbn [map]; constructor.
  - intros IN. apply in_map_iff in IN. destruct IN as (y & E & IN). apply NI.
    rewrite <- (INJ y x); [exact IN|right; exact IN|left; reflexivity|exact E].
  - apply IH. intros a b IA IB. apply INJ; right; assumption.
Qed.
Lemma fresh_total next K : next < 2 ^ 32 -> N.of_nat (length K) < 2 ^ 32 -> fresh_id (S (length K)) next K <> None.
Proof.
  intros B L H. pose proof (fresh_none _ _ _ H) as F.
  assert (ND : NoDup (map (fun k => iter32 k next) (seq 0 (S (length K))))).
  { apply nodup_map_in; [apply seq_NoDup|]. intros a b IA IB E. apply in_seq in IA. apply in_seq in IB.
    rewrite !iter32_mod in E by exact B. clear - E IA IB L B.
    assert (A : N.of_nat a < 2 ^ 32) by lia. assert (A' : N.of_nat b < 2 ^ 32) by lia.
    pose proof (N.div_mod (next + N.of_nat a) (2 ^ 32)) as Da. pose proof (N.div_mod (next + N.of_nat b) (2 ^ 32)) as Db.
    rewrite E in Da.
    assert (Qa : (next + N.of_nat a) / 2 ^ 32 < 2) by (apply N.div_lt_upper_bound; lia).
    assert (Qb : (next + N.of_nat b) / 2 ^ 32 < 2) by (apply N.div_lt_upper_bound; lia).
    lia. }
  assert (INC : incl (map (fun k => iter32 k next) (seq 0 (S (length K)))) K).
  { intros v IN. apply in_map_iff in IN. destruct IN as (k & <- & IN). apply in_seq in IN. apply F. lia. }
  pose proof (NoDup_incl_length ND INC) as LE. rewrite map_length, seq_length in LE. lia.
Qed.

(** *** Reading words *)
Lemma advance_mode_spec : forall l m e r, advance_mode m l = (e, r) ->
  (length r <= length l)%nat /\ (e = true -> ~ In 0 l -> r = []) /\
  (e = false -> r <> [] /\ advance r = (false, r)).
Proof.
  induction l as [|c l IH]; intros m e r H; cbn [advance_mode] in H.
  { injection H as <- <-. split; [auto|]. split; [auto|discriminate]. }
  destruct (c =? c_nul) eqn:EN.
  { injection H as <- <-. split; [auto|]. split; [|discriminate]. intros _ NI. exfalso. apply NI. left. apply N.eqb_eq in EN. exact EN. }
  assert (STEP : forall m', advance_mode m' l = (e, r) ->
    (length r <= length (c :: l))%nat /\ (e = true -> ~ In 0 (c :: l) -> r = []) /\ (e = false -> r <> [] /\ advance r = (false, r))).
  { intros m' H'. destruct (IH m' e r H') as (A & B & C). split; [cbn; lia|]. split; [|exact C].
    intros E NI. apply B; [exact E|]. intros IN. apply NI. right. exact IN. }
  destruct m; [destruct (c =? c_nl); eapply STEP; exact H|].
  destruct (c =? c_semi) eqn:ES; [eapply STEP; exact H|].
  destruct (_ || _) eqn:EW; [eapply STEP; exact H|]. injection H as <- <-.
  split; [auto|]. split; [discriminate|]. intros _. split; [discriminate|]. unfold advance. cbn [advance_mode]. rewrite EN, ES, EW. reflexivity.
Qed.
Lemma get_word_app : forall l q e w r, get_word_loop q e l = (w, r) -> l = w ++ r.
Proof.
  induction l as [|c l IH]; intros q e w r H; cbn [get_word_loop] in H; [injection H as <- <-; reflexivity|].
  destruct (c =? c_bslash).
  { destruct (get_word_loop q (negb e) l) as [w1 r1] eqn:E. injection H as <- <-. rewrite (IH _ _ _ _ E). reflexivity. }
  destruct (c =? c_nul); [injection H as <- <-; reflexivity|].
  destruct (_ && _); [injection H as <- <-; reflexivity|].
  destruct (get_word_loop _ false l) as [w1 r1] eqn:E. injection H as <- <-. rewrite (IH _ _ _ _ E). reflexivity.
Qed.

Lemma fresh_next fuel : forall next K id nx, fresh_id fuel next K = Some (id, nx) -> nx < 2 ^ 32.
Proof.
  induction fuel as [|f IH]; intros next K id nx H; [discriminate H|]. cbn [fresh_id] in H. cbv zeta in H.
  destruct (mem next K); [eapply IH; exact H|]. injection H as <- <-. unfold succ32. apply N.mod_lt. lia.
Qed.

Section Total.
Variable g : grammar.
Variable t : tables.
Hypothesis C : tables_complete g t.
(** The words of the text. *)
Variable W : list (list N).
Hypothesis W_nonempty : ~ In [] W.
Set Default Proof Using "Type".
Notation X := text_reader.

(** A position all of whose further words are among [W]. *)
Definition good (l : list N) : Prop := forall n, incl (words n l) W.

Lemma good_advance l r : good l -> advance l = (false, r) -> good r.
Proof.
  intros G A n w IN. apply (G n). destruct n as [|n]; [exact IN|]. cbn [words] in *. unfold next_word in *.
  destruct (advance_mode_spec _ _ _ _ A) as (_ & _ & S). destruct (S eq_refl) as (_ & A2). rewrite A2 in IN. rewrite A. exact IN.
Qed.
Lemma good_end l r : advance l = (true, r) -> good r.
Proof.
  intros A n v IN. destruct n as [|n]; [destruct IN|]. cbn [words] in IN. unfold next_word in IN.
  rewrite (advance_eos_again _ _ A) in IN. destruct IN.
Qed.
Lemma good_word l r w r2 : good l -> advance l = (false, r) -> get_word r = (w, r2) ->
  In w W /\ good r2 /\ exists c w', w = c :: w' /\ r = c :: w' ++ r2.
Proof using W_nonempty.
  intros G A E.
  assert (IW : In w W). { apply (G 1%nat). cbn [words]. unfold next_word. rewrite A, E. left. reflexivity. }
  split; [exact IW|]. split.
  - intros n v IN. apply (G (S n)). cbn [words]. unfold next_word. rewrite A, E. right. exact IN.
  - destruct w as [|c w']; [contradiction|]. exists c, w'. split; [reflexivity|]. exact (get_word_app _ _ _ _ _ E).
Qed.

(** *** The context *)
Definition ctx_ok (x : actx) : Prop :=
  next_id (x_ids x) < 2 ^ 32 /\ N.of_nat (length (preserve (x_ids x))) < 2 ^ 32 /\
  NoDup (map fst (named (x_ids x))) /\ (forall n, In n (map fst (named (x_ids x))) -> In (c_percent :: n) W).

Lemma assign_total c name : next_id c < 2 ^ 32 -> N.of_nat (length (preserve c)) < 2 ^ 32 -> NoDup (map fst (named c)) ->
  (forall n, In n (map fst (named c)) -> In (c_percent :: n) W) -> In (c_percent :: name) W ->
  exists c' id, assign_or_get c name = Some (c', id) /\ next_id c' < 2 ^ 32 /\ preserve c' = preserve c /\
    NoDup (map fst (named c')) /\ (forall n, In n (map fst (named c')) -> In (c_percent :: n) W).
Proof.
  intros B L ND IW NW. unfold assign_or_get. cbv zeta.
  match goal with |- context [match ?m with Some _ => _ | None => match find_name _ _ with _ => _ end end] => destruct m as [id|] end.
  { eexists. exists id. split; [reflexivity|]. cbn [next_id preserve named]. auto. }
  destruct (find_name (named c) name) as [id|] eqn:F. { exists c, id. auto. }
  destruct (fresh_id (S (length (preserve c))) (next_id c) (preserve c)) as [[id nx]|] eqn:FR.
  - eexists. exists id. split; [reflexivity|]. cbn [next_id preserve named]. split; [eapply fresh_next; exact FR|]. split; [reflexivity|].
    rewrite map_app. cbn [map fst]. split.
    + apply NoDup_snoc; [exact ND|]. apply find_name_None. exact F.
    + intros n IN. apply in_app_or in IN. destruct IN as [IN|[<-|[]]]; auto.
  - exfalso. exact (fresh_total _ _ B L FR).
Qed.

(** *** Operands *)
Definition mand (ty : otype) : bool := match ty with T_ID | T_TYPE_ID | T_RESULT_ID => true | _ => false end.
Definition post {A} (Q : A -> Prop) (r : aout A) : Prop :=
  match r with AStuck => False | AErr _ => True | AOk a => Q a end.
Lemma post_impl {A} (P Q : A -> Prop) r : (forall a, P a -> Q a) -> post P r -> post Q r.
Proof. destruct r; cbn; auto. Qed.

Lemma encode_number_post text code ty i :
  post (fun i' => a_opcode i' = a_opcode i /\ (length (a_words i) <= length (a_words i'))%nat) (encode_number t text code ty i).
Proof.
  assert (FIN : forall r, post (fun i' => a_opcode i' = a_opcode i /\ (length (a_words i) <= length (a_words i'))%nat)
    match r with Enc_success ws => AOk (add_words i ws) | Enc_unsupported => AErr SPV_ERROR_INTERNAL
               | Enc_invalid_usage => AErr SPV_ERROR_INVALID_TEXT | Enc_invalid_text => AErr code end).
  { intros []; cbn; auto. rewrite app_length. split; [reflexivity|lia]. }
  unfold encode_number. cbv zeta. destruct (it_class ty); try apply FIN; [|exact I].
  destruct (existsb _ text); [apply FIN|]. destruct (_ || _); apply FIN.
Qed.

Lemma encode_id_post ty text x i : ctx_ok x -> In text W ->
  post (fun r => ctx_ok (fst r) /\ a_opcode (snd r) = a_opcode i /\ length (a_words (snd r)) = S (length (a_words i)))
    (encode_id ty text x i).
Proof.
  intros (B & L & ND & IW) IN. unfold encode_id. destruct text as [|c name]; [exact I|].
  destruct (c =? c_percent) eqn:E; [|exact I]. apply N.eqb_eq in E. subst c. cbn [negb].
  destruct (negb (is_valid_id name)); [exact I|].
  destruct (assign_total (x_ids x) name B L ND IW IN) as (c' & id & -> & B' & P' & ND' & IW').
  cbv zeta. cbn [a_words a_opcode]. destruct (_ && _).
  - destruct (x_imports x _); [|exact I]. cbn [post fst snd a_opcode a_words]. split.
    + unfold ctx_ok, set_ids. cbn [x_ids]. rewrite P'. auto.
    + rewrite app_length. split; [reflexivity|cbn; lia].
  - cbn [post fst snd a_opcode a_words]. split.
    + unfold ctx_ok, set_ids. cbn [x_ids]. rewrite P'. auto.
    + rewrite app_length. split; [reflexivity|cbn; lia].
Qed.

Lemma encode_string_post code text x i : ctx_ok x -> (a_opcode i = OpExtInstImport -> (2 <= length (a_words i))%nat) ->
  post (fun r => ctx_ok (fst r) /\ a_opcode (snd r) = a_opcode i /\ (length (a_words i) <= length (a_words (snd r)))%nat)
    (encode_string code text x i).
Proof.
  intros CX SH. unfold encode_string. destruct (text_to_literal text) as [[s|?|?|?]| |]; try exact I. cbv zeta.
  assert (FIN : forall x', ctx_ok x' -> post (fun r => ctx_ok (fst r) /\ a_opcode (snd r) = a_opcode i /\ (length (a_words i) <= length (a_words (snd r)))%nat)
    (if 65535 <? N.of_nat (length (a_words i) + (length s / 4 + 1)) then AErr SPV_ERROR_INVALID_TEXT else AOk (x', add_words i (make_vector s)))).
  { intros x' CX'. destruct (65535 <? _); [exact I|]. cbn [post fst snd add_words a_opcode a_words]. rewrite app_length. split; [exact CX'|]. split; [reflexivity|lia]. }
  destruct (a_opcode i =? OpExtInstImport) eqn:E; [|apply FIN; exact CX].
  apply N.eqb_eq in E. specialize (SH E). destruct (_ =? 0); [exact I|].
  destruct (a_words i) as [|a [|b ws]] eqn:EW; [cbn in SH; lia..|]. destruct (x_imports x b); [exact I|]. rewrite <- EW in *. apply FIN. exact CX.
Qed.

Definition step_ok (ty : otype) (i : ainst) (p : pattern) (r : actx * ainst * pattern) : Prop :=
  let '(x', i', p') := r in
  ctx_ok x' /\ a_opcode i' = a_opcode i /\ (length (a_words i) <= length (a_words i'))%nat /\
  (mand ty = true -> length (a_words i') = S (length (a_words i)) /\ (p' = p \/ p' = alternate_pattern p)).
Definition short_ok (ty : otype) (i : ainst) : Prop :=
  a_opcode i = OpExtInstImport \/ a_opcode i = OpSwitch -> mand ty = true \/ (2 <= length (a_words i))%nat.

Lemma encode_operand_post ty text x i p : ctx_ok x -> In text W -> short_ok ty i ->
  post (step_ok ty i p) (encode_operand g t ty text x i p).
Proof using C.
  intros CX IN SH. unfold encode_operand. cbv zeta.
  destruct (match text with [] => false | c :: _ => c =? c_bang end).
  { unfold encode_immediate. destruct (parse_number_unsigned 32 (tl text)); [|exact I].
    cbn [post step_ok add_words a_opcode a_words]. rewrite app_length. cbn [length]. split; [exact CX|]. split; [reflexivity|]. split; [lia|].
    intros _. split; [lia|right; reflexivity]. }
  assert (LIFTID : forall ty' ty'', post (step_ok ty' i p)
     match encode_id ty'' text x i with AOk (x', i') => AOk (x', i', p) | AErr c => AErr c | AStuck => AStuck end).
  { intros ty' ty''. pose proof (encode_id_post ty'' text x i CX IN) as H. destruct (encode_id ty'' text x i) as [[x' i']|c|]; [|exact I|exact H].
    cbn [post fst snd step_ok] in *. destruct H as (H1 & H2 & H3). split; [exact H1|]. split; [exact H2|]. split; [lia|]. intros _. split; [exact H3|left; reflexivity]. }
  assert (NUM : forall ty' code ity, mand ty' = false -> post (step_ok ty' i p)
     match encode_number t text code ity i with AOk i' => AOk (x, i', p) | AErr c => AErr c | AStuck => AStuck end).
  { intros ty' code ity M. pose proof (encode_number_post text code ity i) as H. destruct (encode_number t text code ity i) as [i'|c|]; [|exact I|exact H].
    cbn [post step_ok] in *. destruct H as (H2 & H3). split; [exact CX|]. split; [exact H2|]. split; [lia|]. congruence. }
  assert (STR : forall ty' code, mand ty' = false -> (a_opcode i = OpExtInstImport -> (2 <= length (a_words i))%nat) -> post (step_ok ty' i p)
     match encode_string code text x i with AOk (x', i') => AOk (x', i', p) | AErr c => AErr c | AStuck => AStuck end).
  { intros ty' code M S2. pose proof (encode_string_post code text x i CX S2) as H. destruct (encode_string code text x i) as [[x' i']|c|]; [|exact I|exact H].
    cbn [post fst snd step_ok] in *. destruct H as (H1 & H2 & H3). split; [exact H1|]. split; [exact H2|]. split; [lia|]. congruence. }
  assert (ADD : forall ty' v p', mand ty' = false -> post (step_ok ty' i p) (AOk (x, add_words i [v], p'))).
  { intros ty' v p' M. cbn [post step_ok add_words a_opcode a_words]. rewrite app_length. split; [exact CX|]. split; [reflexivity|]. split; [lia|congruence]. }
  assert (S2 : mand ty = false -> a_opcode i = OpExtInstImport \/ a_opcode i = OpSwitch -> (2 <= length (a_words i))%nat).
  { intros M O. destruct (SH O) as [X0|X0]; [congruence|exact X0]. }
  assert (TYP : forall ty' code, mand ty' = false -> (a_opcode i = OpSwitch -> (2 <= length (a_words i))%nat) -> post (step_ok ty' i p)
    (if (a_opcode i =? OpConstant) || (a_opcode i =? OpSpecConstant) then
        match it_class (type_of_type_id x (a_rtype i)) with
        | IC_INT | IC_FLOAT => match encode_number t text code (type_of_type_id x (a_rtype i)) i with AOk i' => AOk (x, i', p) | AErr c => AErr c | AStuck => AStuck end
        | _ => AErr SPV_ERROR_INVALID_TEXT
        end
      else if a_opcode i =? OpSwitch then
        match a_words i with
        | _ :: selector :: _ =>
            match it_class (type_of_value x selector) with
            | IC_INT => match encode_number t text code (type_of_value x selector) i with AOk i' => AOk (x, i', p) | AErr c => AErr c | AStuck => AStuck end
            | _ => AErr SPV_ERROR_INVALID_TEXT
            end
        | _ => AStuck
        end
      else match encode_number t text code unknown_type i with AOk i' => AOk (x, i', p) | AErr c => AErr c | AStuck => AStuck end)).
  { intros ty' code M S3. destruct (_ || _).
    { destruct (it_class _); try exact I; apply NUM; exact M. }
    destruct (a_opcode i =? OpSwitch) eqn:E; [|apply NUM; exact M]. apply N.eqb_eq in E. specialize (S3 E).
    destruct (a_words i) as [|a [|b ws]] eqn:EW; [cbn in S3; lia..|]. destruct (it_class _); try exact I. apply NUM. exact M. }
  assert (DEF : forall ty', mand ty' = false -> post (step_ok ty' i p)
    (if asm_mask_case ty' then
       match parse_mask t ty' text with inr code => AErr code | inl v => AOk (x, add_words i [v], push_for_mask (g_operand g) ty' v p) end
     else match t_operand_find t ty' text with
          | None => AErr SPV_ERROR_INVALID_TEXT
          | Some v => match g_operand g ty' v with Some ts => AOk (x, add_words i [v], push_operand_types ts p) | None => AStuck end
          end)).
  { intros ty' M. destruct (asm_mask_case ty').
    - destruct (parse_mask t ty' text); [apply ADD; exact M|exact I].
    - destruct (t_operand_find t ty' text) as [v|] eqn:F; [|exact I]. pose proof (tc_operand _ _ C _ _ _ F) as G.
      destruct (g_operand g ty' v); [apply ADD; exact M|congruence]. }
  destruct ty; try (apply LIFTID); try (apply DEF; reflexivity); try (apply NUM; reflexivity);
    try (apply STR; [reflexivity|intros O; apply S2; [reflexivity|left; exact O]]);
    try (apply TYP; [reflexivity|intros O; apply S2; [reflexivity|right; exact O]]).
  - destruct (t_ext_find t (a_ext i) text) as [v|] eqn:F.
    + pose proof (tc_ext _ _ C _ _ _ F) as G. destruct (g_ext_inst g (a_ext i) v); [apply ADD; reflexivity|congruence].
    + destruct (negb _); [exact I|]. destruct (text_to_literal text) as [[?|?|?|v]| |]; try exact I.
      destruct (v <? 2 ^ 32); [apply ADD; reflexivity|exact I].
  - destruct (t_spec_find t text) as [op|] eqn:F; [|exact I]. destruct (negb _); [exact I|].
    destruct (tc_spec _ _ C _ _ F) as (a & b & ts & ->). apply ADD. reflexivity.
  - pose proof (NUM T_OPTIONAL_CIV SPV_FAILED_MATCH unknown_type eq_refl) as N1.
    pose proof (STR T_OPTIONAL_CIV SPV_FAILED_MATCH eq_refl (fun O => S2 eq_refl (or_introl O))) as N2.
    pose proof (LIFTID T_OPTIONAL_CIV T_OPTIONAL_ID) as N3. clear - N1 N2 N3.
    match type of N1 with post _ ?e => set (r1 := e) in * end. clearbody r1.
    match type of N2 with post _ ?e => set (r2 := e) in * end. clearbody r2.
    match type of N3 with post _ ?e => set (r3 := e) in * end. clearbody r3.
    assert (FIN : forall r, post (step_ok T_OPTIONAL_CIV i p) r ->
      post (step_ok T_OPTIONAL_CIV i p) match r with AOk (x', i', []) => AOk (x', i', [T_OPTIONAL_CIV]) | _ => r end).
    { intros [[[x' i'] p']|c|] H; [|exact H..]. destruct p'; [|exact H]. cbn in *.
      destruct H as (H1 & H2 & H3 & _). split; [exact H1|]. split; [exact H2|]. split; [exact H3|discriminate]. }
    apply FIN. destruct (is_error_code r1 SPV_FAILED_MATCH); [destruct (is_error_code r2 SPV_FAILED_MATCH)|destruct (is_error_code r1 SPV_FAILED_MATCH)]; assumption.
Qed.

(** *** The operand loop *)
Lemma start_total l r : good l -> advance l = (false, r) -> start_of_new_inst X r <> None.
Proof using W_nonempty.
  intros G A. unfold start_of_new_inst. cbn [rd_advance rd_word rd_op text_reader].
  destruct (advance_mode_spec _ _ _ _ A) as (_ & _ & S). destruct (S eq_refl) as (_ & A2). rewrite A2.
  destruct (starts_with_op r); [discriminate|]. destruct (get_word r) as [w r2] eqn:E.
  destruct (good_word _ _ _ _ G A E) as (_ & G2 & c & w' & -> & _).
  destruct (negb (c =? c_percent)); [discriminate|]. destruct (advance r2) as [e q] eqn:A3. destruct e; [discriminate|].
  destruct (get_word q) as [w3 r3]. destruct (negb _); [discriminate|]. destruct (advance r3) as [e4 q4]. destruct e4; discriminate.
Qed.

(** [need] words at least, or the missing ones come next. *)
Definition covered (need : nat) (p : pattern) (i : ainst) : Prop :=
  (need <= length (a_words i))%nat \/
  (need = S (length (a_words i)) /\ mand (hd T_NONE p) = true) \/
  (need = S (S (length (a_words i))) /\ exists p', p = T_TYPE_ID :: T_RESULT_ID :: p').
Definition need_ok (op : N) (need : nat) : Prop := op = OpExtInstImport \/ op = OpSwitch -> (2 <= need)%nat.

Lemma covered_short need p i : need_ok (a_opcode i) need -> covered need p i -> short_ok (hd T_NONE p) i.
Proof.
  intros N0 [H|[[H1 H2]|[H1 (p' & ->)]]] O; [right; specialize (N0 O); lia|left; exact H2|left; reflexivity].
Qed.
Lemma expand_head ty p0 p' : expand_once ty p0 = Some p' ->
  exists h p'', p' = h :: p'' /\ (forall q, expand_once h q = None) /\ h <> T_RESULT_ID /\ mand ty = false.
Proof. destruct ty; try discriminate; intros H; injection H as <-; eexists _, _; repeat split; discriminate. Qed.
Lemma covered_next need ty p0 i i' p' : covered need (ty :: p0) i -> (length (a_words i) <= length (a_words i'))%nat ->
  (mand ty = true -> length (a_words i') = S (length (a_words i)) /\ (p' = p0 \/ p' = alternate_pattern p0)) -> covered need p' i'.
Proof.
  intros [H|[[H1 H2]|[H1 (q & E)]]] LE M; [left; lia| |].
  - cbn [hd] in H2. destruct (M H2) as [M1 _]. left. lia.
  - injection E as -> ->. destruct (M eq_refl) as [M1 [M2|M2]]; subst p'.
    + right. left. split; [lia|reflexivity].
    + right. left. split; [lia|reflexivity].
Qed.

Definition loop_ok (op : N) (need : nat) (l : list N) (r : actx * ainst * list N * bool) : Prop :=
  let '(x', i', l', b) := r in
  ctx_ok x' /\ good l' /\ (length l' <= length l)%nat /\ a_opcode i' = op /\ (b = true -> (need <= length (a_words i'))%nat).

Lemma asm_loop_post rid op need : need_ok op need -> (rid <> [] -> In rid W) -> forall w z x i p l,
  ctx_ok x -> good l -> (length l <= w)%nat ->
  (length p < z \/ (1 <= z /\ (forall q, expand_once (hd T_NONE p) q = None) /\ hd T_NONE p <> T_RESULT_ID))%nat ->
  a_opcode i = op -> covered need p i ->
  post (loop_ok op need l) (asm_loop g t X rid w z x i p l).
Proof using C W_nonempty.
  intros NO RW. induction w as [w IHw] using (well_founded_induction lt_wf).
  induction z as [|z IHz]; intros x i p l CX G LW LZ OP CV; [exfalso; destruct LZ as [LZ|[LZ _]]; lia|].
  rewrite asm_loop_eq. destruct p as [|ty p0].
  { cbn [post loop_ok]. split; [exact CX|]. split; [exact G|]. split; [auto|]. split; [exact OP|]. intros _.
    destruct CV as [CV|[[_ CV]|[_ (q & CV)]]]; [exact CV|discriminate..]. }
  destruct (expand_once ty p0) as [p'|] eqn:EX.
  { destruct (expand_head _ _ _ EX) as (h & p'' & -> & H1 & H2 & H3). apply IHz; auto.
    - right. split; [|split; [exact H1|exact H2]]. destruct LZ as [LZ|(_ & LZ & _)]; [cbn in LZ; lia|]. cbn [hd] in LZ. rewrite LZ in EX. discriminate.
    - destruct CV as [CV|[[_ CV]|[_ (q & CV)]]]; [left; exact CV|cbn [hd] in CV; congruence|injection CV as -> _; discriminate]. }
  assert (SH : short_ok ty i) by (subst op; exact (covered_short _ _ _ NO CV)).
  destruct (otype_eqb ty T_RESULT_ID && negb _) eqn:ER.
  { apply andb_true_iff in ER. destruct ER as [ER EN]. apply otype_eqb_eq in ER. subst ty.
    assert (IR : In rid W) by (apply RW; destruct rid; [discriminate EN|discriminate]).
    pose proof (encode_operand_post T_RESULT_ID rid x i p0 CX IR SH) as H.
    destruct (encode_operand g t T_RESULT_ID rid x i p0) as [[[x' i'] p']|c|]; [|exact I|exact H].
    cbn [post step_ok] in H. destruct H as (H1 & H2 & H3 & H4). apply IHz; auto; [|congruence|].
    - destruct LZ as [LZ|(_ & _ & LZ)]; [left; cbn in LZ; lia|cbn in LZ; congruence].
    - apply (covered_next need T_RESULT_ID p0 i i' p0 CV H3). intros M. destruct (H4 M) as [H5 _]. auto. }
  cbn [rd_advance rd_word text_reader]. destruct (advance l) as [e l1] eqn:A.
  destruct (advance_mode_spec _ _ _ _ A) as (LL & _ & _).
  assert (DONE : forall l', good l' -> (length l' <= length l)%nat -> post (loop_ok op need l) (if is_optional ty then AOk (x, i, l', true) else AErr SPV_ERROR_INVALID_TEXT)).
  { intros l' G' L'. destruct (is_optional ty) eqn:IO; [|exact I]. cbn [post loop_ok]. split; [exact CX|]. split; [exact G'|]. split; [exact L'|]. split; [exact OP|].
    intros _. assert (M : mand ty = false) by (destruct ty; try reflexivity; discriminate IO).
    destruct CV as [CV|[[_ CV]|[_ (q & CV)]]]; [exact CV|cbn [hd] in CV; congruence|injection CV as -> _; discriminate]. }
  destruct e.
  { apply DONE; [exact (good_end _ _ A)|exact LL]. }
  destruct (start_of_new_inst X l1) as [[|]|] eqn:SN; [apply DONE; [exact (good_advance _ _ G A)|exact LL]| |destruct (start_total _ _ G A SN)].
  destruct (get_word l1) as [text next] eqn:GW. destruct (good_word _ _ _ _ G A GW) as (IT & G2 & c & w' & -> & ->).
  pose proof (encode_operand_post ty (c :: w') x i p0 CX IT SH) as H.
  destruct (encode_operand g t ty (c :: w') x i p0) as [[[x' i'] p']|c0|]; [| |exact H].
  - cbn [post step_ok] in H. destruct H as (H1 & H2 & H3 & H4). cbn [length] in LL. rewrite app_length in LL.
    destruct w as [|w]; [lia|].
    eapply post_impl; [|apply (IHw w); [lia|exact H1|exact G2|lia|left; lia|congruence|]].
    + intros [[[x2 i2] l2] b2]. cbn [loop_ok]. intros (B1 & B2 & B3 & B4 & B5). split; [exact B1|]. split; [exact B2|]. split; [lia|]. split; [exact B4|exact B5].
    + exact (covered_next need ty p0 i i' p' CV H3 H4).
  - destruct ((c0 =? SPV_FAILED_MATCH)%Z && is_optional ty); [|exact I]. cbn [post loop_ok]. split; [exact CX|]. split; [exact (good_advance _ _ G A)|]. split; [exact LL|]. split; [exact OP|discriminate].
Qed.

Definition plain_op (op : N) : Prop := op <> OpExtInstImport /\ op <> OpSwitch.
Definition inst_ok (l : list N) (r : actx * ainst * list N) : Prop :=
  ctx_ok (fst (fst r)) /\ good (snd r) /\ (length (snd r) <= length l)%nat.
Lemma immediate_loop_post : forall w x i l, ctx_ok x -> good l -> (length l <= w)%nat -> plain_op (a_opcode i) ->
  post (inst_ok l) (immediate_loop g t X w x i l).
Proof using C W_nonempty.
  induction w as [|w IH]; intros x i l CX G LW OP; cbn [immediate_loop rd_advance rd_word text_reader];
    destruct (advance l) as [e l1] eqn:A; destruct (advance_mode_spec _ _ _ _ A) as (LL & _ & S);
    (destruct e; [unfold inst_ok; cbn [post fst snd]; split; [exact CX|split; [exact (good_end _ _ A)|exact LL]]|]);
    destruct (start_of_new_inst X l1) as [[|]|] eqn:SN;
    try (unfold inst_ok; cbn [post fst snd]; split; [exact CX|split; [exact (good_advance _ _ G A)|exact LL]]); try (destruct (start_total _ _ G A SN));
    destruct (get_word l1) as [text next] eqn:GW; destruct (good_word _ _ _ _ G A GW) as (IT & G2 & c & w' & -> & ->).
  { exfalso. cbn in LL. lia. }
  destruct (name_eqb (c :: w') [61]); [exact I|].
  assert (SH : short_ok T_OPTIONAL_CIV i) by (intros [O|O]; destruct OP; contradiction).
  pose proof (encode_operand_post T_OPTIONAL_CIV (c :: w') x i [] CX IT SH) as H.
  destruct (encode_operand g t T_OPTIONAL_CIV (c :: w') x i []) as [[[x' i'] p']|c0|]; [|exact I|exact H].
  cbn [post step_ok] in H. destruct H as (H1 & H2 & H3 & H4). cbn [length] in LL. rewrite app_length in LL.
  eapply post_impl; [|apply IH; [exact H1|exact G2|lia|rewrite H2; exact OP]].
  intros r (B1 & B2 & B3). split; [exact B1|]. split; [exact B2|lia].
Qed.

Lemma read_opcode_post l r : good l -> advance l = (false, r) ->
  post (fun x => let '(rid, name, nx) := x in (rid <> [] -> In rid W) /\ good nx /\ (length nx < length r)%nat) (read_opcode X r).
Proof using W_nonempty.
  intros G A. unfold read_opcode. cbn [rd_advance rd_word rd_op text_reader].
  destruct (get_word r) as [w1 r1] eqn:G1. destruct (good_word _ _ _ _ G A G1) as (I1 & G2 & c & w' & -> & ER).
  assert (L1 : (length r1 < length r)%nat) by (rewrite ER; cbn; rewrite app_length; lia).
  destruct (starts_with_op r).
  { cbn [post]. split; [congruence|]. split; [exact G2|exact L1]. }
  destruct (negb (c =? c_percent)); [exact I|]. destruct (advance r1) as [e2 l2] eqn:A2.
  destruct e2; [exact I|]. destruct (advance_mode_spec _ _ _ _ A2) as (LL2 & _ & _).
  destruct (get_word l2) as [w3 r3] eqn:G3. destruct (good_word _ _ _ _ G2 A2 G3) as (I3 & G3' & c3 & w3' & -> & ER3).
  destruct (negb (name_eqb _ _)); [exact I|]. destruct (advance r3) as [e4 l4] eqn:A4. destruct e4; [exact I|].
  destruct (advance_mode_spec _ _ _ _ A4) as (LL4 & _ & _).
  destruct (get_word l4) as [w5 r5] eqn:G5. destruct (good_word _ _ _ _ G3' A4 G5) as (I5 & G5' & c5 & w5' & -> & ER5).
  destruct (negb (starts_with_op l4)); [exact I|]. cbn [post]. split; [intros _; exact I1|]. split; [exact G5'|].
  rewrite ER3 in LL2. rewrite ER5 in LL4. cbn in LL2, LL4. rewrite app_length in LL2, LL4. lia.
Qed.
Lemma unknown_post x i l : good l -> post (inst_ok l) (encode_unknown_inst g t X x i l).
Proof using W_nonempty.
  intros G. unfold encode_unknown_inst, expect_char at 1. cbn [rd_advance rd_peek text_reader].
  destruct (advance l) as [e r] eqn:A. destruct e; [exact I|].
  destruct (advance_mode_spec _ _ _ _ A) as (_ & _ & S). destruct (S eq_refl) as (S1 & _).
  destruct (get_word r) as [w1 r1] eqn:G1. destruct (good_word _ _ _ _ G A G1) as (_ & _ & c & w' & -> & ->).
  destruct (negb (c =? c_lparen)) eqn:E; [exact I|]. apply negb_false_iff, N.eqb_eq in E. subst c. discriminate G1.
Qed.

Lemma encode_opcode_post fuel iop x l r : ctx_ok x -> good l -> advance l = (false, r) -> (length r <= fuel)%nat -> plain_op iop ->
  post (fun y => ctx_ok (fst (fst y)) /\ good (snd y) /\ (length (snd y) < length r)%nat) (encode_opcode g t X fuel iop x r).
Proof using C W_nonempty.
  intros CX G A LF PO. unfold encode_opcode. cbv zeta. cbn [rd_peek text_reader].
  destruct (advance_mode_spec _ _ _ _ A) as (LL & _ & S). destruct (S eq_refl) as (NE & A2).
  assert (GR : good r) by exact (good_advance _ _ G A).
  destruct r as [|c0 r0]; [congruence|]. destruct (c0 =? c_bang).
  { unfold encode_immediate_inst. cbn [rd_word text_reader]. destruct (get_word (c0 :: r0)) as [w1 r1] eqn:G1.
    destruct (good_word _ _ _ _ G A G1) as (I1 & G2 & c & w' & -> & ER).
    assert (L1 : (length r1 < length (c0 :: r0))%nat) by (rewrite ER; cbn; rewrite app_length; lia).
    unfold encode_immediate. destruct (parse_number_unsigned 32 _); [|exact I].
    eapply post_impl; [|apply immediate_loop_post; [exact CX|exact G2|lia|exact PO]].
    intros y (B1 & B2 & B3). split; [exact B1|]. split; [exact B2|lia]. }
  pose proof (read_opcode_post _ _ G A) as RO. destruct (read_opcode X (c0 :: r0)) as [[[rid name] nx]|c1|]; [|exact I|exact RO].
  cbn [post] in RO. destruct RO as (IR & GN & LN).
  destruct (name_eqb name op_unknown).
  { destruct (negb _); [exact I|]. eapply post_impl; [|apply unknown_post; exact GN].
    intros y (B1 & B2 & B3). split; [exact B1|]. split; [exact B2|lia]. }
  destruct (t_op_find t (skipn 2 name)) as [op|] eqn:TF; [|exact I].
  pose proof (tc_op _ _ C _ _ TF) as GO.
  destruct (t_has_result t op && _); [exact I|]. destruct (negb (t_has_result t op) && _); [exact I|].
  destruct (g_opcode g op) as [ts|] eqn:GE; [|congruence]. clear GO.
  set (need := if t_has_type t op then 3%nat else if t_has_result t op || (op =? OpSwitch) then 2%nat else 1%nat).
  set (i := {| a_opcode := op; a_ext := 0; a_rtype := 0; a_words := [0] |}).
  assert (NO : need_ok op need).
  { intros [O|O]; subst op need.
    - destruct (tc_import _ _ C) as [-> ->]. cbn. lia.
    - destruct (tc_switch_plain _ _ C) as [-> ->]. cbn. lia. }
  assert (CV : covered need ts i).
  { subst need. destruct (t_has_type t op) eqn:HT.
    - destruct (tc_type _ _ C _ _ HT GE) as (tail & ->). right. right. split; [reflexivity|eauto].
    - destruct (t_has_result t op) eqn:HR; cbn [orb].
      + destruct (tc_result _ _ C _ _ HT HR GE) as (tail & ->). right. left. split; reflexivity.
      + destruct (op =? OpSwitch) eqn:EO; [|left; cbn; lia]. apply N.eqb_eq in EO. subst op.
        destruct (tc_switch _ _ C _ GE) as (tail & ->). right. left. split; reflexivity. }
  pose proof (asm_loop_post rid op need NO IR fuel (2 + length ts) x i ts nx CX GN ltac:(lia) ltac:(left; lia) eq_refl CV) as H.
  destruct (asm_loop g t X rid fuel (2 + length ts) x i ts nx) as [[[[x' i'] l'] b]|c1|]; [|exact I|exact H].
  cbn [post loop_ok] in H. destruct H as (H1 & H2 & H3 & H4 & H5).
  destruct b; [|cbn [post fst snd]; split; [exact H1|]; split; [exact H2|lia]]. specialize (H5 eq_refl).
  unfold finish_opcode. cbv zeta. rewrite H4.
  assert (REC : post (fun y => x_ids y = x_ids x')
    (if g_generates_type g op then record_type_definition g i' x' else if t_has_type t op then record_type_id_for_value i' x' else AOk x')).
  { destruct (g_generates_type g op) eqn:GT.
    - assert (L2 : (2 <= length (a_words i'))%nat).
      { subst need. rewrite (tc_generates _ _ C _ GT) in H5. destruct (t_has_type t op); cbn in H5; lia. }
      unfold record_type_definition. destruct (a_words i') as [|a [|v rest]]; [cbn in L2; lia..|].
      destruct (x_types x' v); [exact I|]. rewrite H4. cbv zeta.
      destruct (op =? OpTypeInt); [destruct rest as [|? [|? [|? ?]]]; try exact I; reflexivity|].
      destruct (op =? OpTypeFloat); [|reflexivity]. destruct rest as [|w0 [|e0 [|? ?]]]; try exact I; [reflexivity|].
      destruct (g_operand g T_FPENCODING e0); [|exact I]. destruct (valid_width_for_encoding _ _); [reflexivity|exact I].
    - destruct (t_has_type t op) eqn:HT; [|reflexivity]. subst need. unfold record_type_id_for_value.
      destruct (a_words i') as [|a [|v [|u rest]]]; [cbn in H5; lia..|]. destruct (x_values x' u); reflexivity. }
  match type of REC with post _ ?m => destruct m as [y|c2|]; [|exact I|exact REC] end.
  destruct (65535 <? _); [exact I|]. cbn [post fst snd] in *. split; [unfold ctx_ok in *; rewrite REC; exact H1|]. split; [exact H2|lia].
Qed.

Lemma instructions_loop_post iop : plain_op iop -> forall f o x l r acc, ctx_ok x -> good l -> advance l = (false, r) ->
  (length r <= f)%nat -> (length r <= o)%nat ->
  post (fun y => ctx_ok (fst y)) (instructions_loop g t X f iop o x r acc).
Proof using C W_nonempty.
  intros PO. induction f as [|f IH]; intros o x l r acc CX G A LF LO; destruct (advance_mode_spec _ _ _ _ A) as (_ & _ & S); destruct (S eq_refl) as (NE & _).
  { destruct r; [congruence|cbn in LF; lia]. }
  cbn [instructions_loop]. pose proof (encode_opcode_post o iop x l r CX G A LO PO) as H.
  destruct (encode_opcode g t X o iop x r) as [[[x' i'] l']|c1|]; [|exact I|exact H]. cbn [post fst snd] in H. destruct H as (H1 & H2 & H3).
  cbn [rd_advance text_reader]. destruct (advance l') as [e l1] eqn:A1. destruct (advance_mode_spec _ _ _ _ A1) as (L1 & _ & _).
  destruct e; [exact H1|]. apply (IH o x' l' l1); [exact H1|exact H2|exact A1|lia|lia].
Qed.
Lemma run_post fuel iop keep l : plain_op iop -> N.of_nat (length keep) < 2 ^ 32 -> good l -> ~ In 0 l -> (length l <= fuel)%nat ->
  post (fun y => ctx_ok (fst y)) (run g t X fuel iop keep l).
Proof using C W_nonempty.
  intros PO LK G NZ LF. unfold run. cbn [rd_advance rd_has_text text_reader]. destruct (advance l) as [e r] eqn:A.
  destruct (advance_mode_spec _ _ _ _ A) as (LL & E & _).
  assert (CI : ctx_ok (init_actx keep)).
  { unfold ctx_ok, init_actx, init_ctx. cbn. split; [reflexivity|]. split; [exact LK|]. split; [constructor|intros ? []]. }
  destruct e; [rewrite (E eq_refl NZ); exact CI|]. destruct r; [exact CI|].
  apply (instructions_loop_post iop PO fuel fuel _ l); [exact CI|exact G|exact A|lia|lia].
Qed.
Lemma assemble_post fuel keep l : N.of_nat (length W) < 2 ^ 32 -> good l -> ~ In 0 l -> (length l <= fuel)%nat ->
  assemble_with g t X fuel keep l <> AStuck.
Proof using C W_nonempty.
  intros LW G NZ LF. unfold assemble_with. cbv zeta.
  assert (K : post (fun k => N.of_nat (length k) < 2 ^ 32)
    (if keep then match run g t X fuel (g_op_max g) [] l with AOk (x, _) => AOk (numeric_ids (named (x_ids x)))
       | AErr _ => AErr SPV_ERROR_INVALID_TEXT | AStuck => AStuck end else AOk [])).
  { destruct keep; [|reflexivity]. pose proof (run_post fuel (g_op_max g) [] l (tc_max _ _ C) eq_refl G NZ LF) as H.
    destruct (run g t X fuel (g_op_max g) [] l) as [[x ?]|?|]; [|exact I|exact H]. cbn [post fst] in *.
    destruct H as (_ & _ & ND & IW). pose proof (numeric_ids_length (named (x_ids x))) as L1.
    assert (L2 : (length (map fst (named (x_ids x))) <= length W)%nat).
    { rewrite <- (map_length (cons c_percent) (map fst (named (x_ids x)))). apply NoDup_incl_length.
      - apply nodup_map_in; [exact ND|]. intros a b _ _ E. congruence.
      - intros v IN. apply in_map_iff in IN. destruct IN as (n & <- & IN). apply IW. exact IN. }
    rewrite map_length in L2. lia. }
  match type of K with post _ ?m => destruct m as [k|c2|]; [|discriminate|destruct K] end. cbn [post] in K.
  assert (P0 : plain_op 0) by (split; discriminate).
  pose proof (run_post fuel 0 k l P0 K G NZ LF) as H. destruct (run g t X fuel 0 k l) as [[x insts]|?|]; [discriminate..|destruct H].
Qed.
End Total.

Lemma words_incl : forall m n l, (forall n, ~ In [] (words n l)) -> (length l <= m)%nat -> incl (words n l) (words m l).
Proof.
  induction m as [|m IH]; intros [|n] l NE L v IN; try destruct IN; cbn [words] in *; unfold next_word in *.
  - destruct l; [destruct IN|cbn in L; lia].
  - destruct (advance l) as [e r] eqn:A. destruct e; [destruct IN|]. destruct (get_word r) as [w r2] eqn:G.
    destruct IN as [<-|IN]; [left; reflexivity|]. right.
    pose proof (NE 1%nat) as N1. cbn [words] in N1. unfold next_word in N1. rewrite A, G in N1.
    pose proof (get_word_app _ _ _ _ _ G) as E. destruct (advance_mode_spec _ _ _ _ A) as (LL & _ & _).
    destruct w as [|c w]; [exfalso; apply N1; left; reflexivity|]. rewrite E in LL. cbn in LL. rewrite app_length in LL.
    apply (IH n r2); [|lia|exact IN]. intros k IK. apply (NE (S k)). cbn [words]. unfold next_word. rewrite A, G. right. exact IK.
Qed.
Lemma words_length : forall n l, (length (words n l) <= n)%nat.
Proof.
  induction n as [|n IH]; intros l; cbn [words]; [auto|]. destruct (next_word l) as [[w r]|]; cbn; [specialize (IH r)|]; lia.
Qed.
Theorem assemble_total g t keep text : tables_complete g t -> ~ In 0 text -> (forall n, ~ In [] (words n text)) ->
  N.of_nat (length text) < 2 ^ 32 -> assemble g t keep text <> AStuck.
Proof.
  intros C NZ NE L. unfold assemble.
  apply (assemble_post g t C (words (length text) text)); [exact (NE _)| |intros n; apply words_incl; auto|exact NZ|lia].
  pose proof (words_length (length text) text). lia.
Qed.
