(** Simulation between parsing a module and parsing its byte-swapped image, and independence
    of the parse from the callbacks. *)
From Verif Require Import Base Words WordsProofs Operand OperandProofs BinaryParse ParseSpec BinaryParseProofs BinaryParseModule.
Local Open Scope N_scope.

(** *** string literals: the word count does not depend on the byte order *)
Lemma until_nul_length_le l : (length (until_nul l) <= length l)%nat.
Proof. induction l as [|b l IH]; simpl; auto. destruct (b =? 0); simpl; lia. Qed.
Lemma until_nul_app_nul a b : In 0 a -> until_nul (a ++ b) = until_nul a.
Proof.
  induction a as [|x a IH]; simpl; [contradiction|]. intros [->|I]; [reflexivity|].
  destruct (x =? 0); auto. f_equal. auto.
Qed.
Lemma until_nul_short a : In 0 a -> (length (until_nul a) < length a)%nat.
Proof.
  induction a as [|x a IH]; simpl; [contradiction|]. intros [->|I]; [simpl; lia|].
  destruct (x =? 0); simpl; [lia|]. specialize (IH I). lia.
Qed.
Lemma bytes_of_word_length w : length (bytes_of_word w) = 4%nat.
Proof. reflexivity. Qed.

Lemma string_words_swap ws : Forall word_ok ws ->
  let a := length (fst (make_string ws)) in
  let b := length (fst (make_string (map bswap ws))) in
  (a / 4 = b / 4)%nat /\ (a = length ws * 4 <-> b = length ws * 4)%nat.
Proof.
  intros F a b. unfold a, b.
  assert (F2 : Forall word_ok (map bswap ws)).
  { apply Forall_forall. intros x I. apply in_map_iff in I.
    destruct I as (y & <- & I). apply bswap_lt. rewrite Forall_forall in F. apply F, I. }
  rewrite (make_string_memory ws F), (make_string_memory _ F2). clear F2.
  cbn [fst]. clear a b. induction ws as [|w ws IH]; [split; [reflexivity|cbn; tauto]|].
  assert (M : forall x xs, memory (x :: xs) = bytes_of_word x ++ memory xs) by reflexivity.
  rewrite map_cons, !M. cbn [length].
  pose proof (Forall_inv F) as Fw. specialize (IH (Forall_inv_tail F)).
  rewrite (bswap_bytes w Fw).
  destruct (in_dec N.eq_dec 0 (bytes_of_word w)) as [I|NI].
  - rewrite !until_nul_app_nul by (auto; apply -> in_rev; exact I).
    pose proof (until_nul_short _ I). assert (I2 : In 0 (rev (bytes_of_word w))) by (apply -> in_rev; exact I).
    pose proof (until_nul_short _ I2). rewrite rev_length, bytes_of_word_length in *.
    split; [rewrite !Nat.div_small by lia; reflexivity|lia].
  - rewrite !until_nul_app_nonul by (auto; intro X; apply NI, in_rev; exact X).
    rewrite !app_length, rev_length, bytes_of_word_length.
    destruct IH as [IH1 IH2]. split; [|lia].
    set (x := length (until_nul (memory ws))) in *. set (y := length (until_nul (memory (map bswap ws)))) in *.
    replace (4 + x)%nat with (x + 1 * 4)%nat by lia. replace (4 + y)%nat with (y + 1 * 4)%nat by lia.
    rewrite !Nat.div_add by lia. lia.
Qed.

Section Swap.
Variable g : grammar.
Variable hu : bool.
Variable words : list N.
Hypothesis Wok : Forall word_ok words.
Notation swords := (map bswap words).

Lemma peek_swap i : peek_at swords Big i = peek_at words Little i.
Proof.
  unfold peek_at. rewrite nth_error_map. destruct (nth_error words i) as [w|] eqn:E; simpl; auto.
  f_equal. rewrite Forall_forall in Wok. apply bswap_invol. apply (Wok w). eapply nth_error_In; eassumption.
Qed.

Definition set_words (c : cur) (w : list N) : cur :=
  {| c_ext := c_ext c; c_type := c_type c; c_result := c_result c; c_words := w;
     c_ops := c_ops c; c_exp := c_exp c |}.
Definition map_switch (w : list N) (r : outcome (pstate * cur * poperand)) : outcome (pstate * cur * poperand) :=
  match r with Ok (st, c, o) => Ok (st, set_words c w, o) | Err a b => Err a b | Stuck => Stuck end.

Lemma Forall_skipn {A} (P : A -> Prop) n l : Forall P l -> Forall P (skipn n l).
Proof. intro F. rewrite <- (firstn_skipn n l) in F. apply Forall_app in F. tauto. Qed.
Lemma Forall_firstn {A} (P : A -> Prop) n l : Forall P l -> Forall P (firstn n l).
Proof. intro F. rewrite <- (firstn_skipn n l) in F. apply Forall_app in F. tauto. Qed.

Lemma string_swap_at i :
  let a := length (fst (make_string (firstn (length words - i) (skipn i words)))) in
  let b := length (fst (make_string (firstn (length words - i) (skipn i swords)))) in
  (a / 4 = b / 4)%nat /\ (a =? (length words - i) * 4)%nat = (b =? (length words - i) * 4)%nat.
Proof.
  cbv zeta. rewrite skipn_map, firstn_map.
  destruct (string_words_swap (firstn (length words - i) (skipn i words))) as [A B].
  { apply Forall_firstn, Forall_skipn, Wok. }
  assert (L : length (firstn (length words - i) (skipn i words)) = (length words - i)%nat)
    by (rewrite firstn_length, skipn_length; lia).
  rewrite L in B. split; [exact A|].
  match goal with |- (?x =? ?z)%nat = (?y =? ?z)%nat => destruct (Nat.eqb_spec x z), (Nat.eqb_spec y z); tauto end.
Qed.

Lemma switch_swap ms io op ty word st c w : op <> OpExtInstImport ->
  parse_operand_switch_with g hu swords Big ms io op ty word st (set_words c w) =
  map_switch w (parse_operand_switch_with g hu words Little ms io op ty word st c).
Proof.
  intro Ni. assert (E : (op =? OpExtInstImport) = false) by (apply N.eqb_neq; exact Ni).
  destruct (string_swap_at (word_index st)) as [S1 S2].
  destruct ty; unfold parse_operand_switch_with; cbv zeta; cbn [is_enum_case is_mask_case];
    cbn [c_ext c_type c_result c_words c_ops c_exp set_words];
    rewrite ?peek_swap, ?map_length, ?E, ?S1, ?S2;
    repeat match goal with
    | |- context [match ?x with _ => _ end] =>
        match x with
        | context [match _ with _ => _ end] => fail 1
        | _ => destruct x
        end
    end; reflexivity.
Qed.

Lemma slice_swap a b : host_words Big (slice swords a b) = slice words a b.
Proof.
  unfold host_words, slice. rewrite skipn_map, firstn_map, map_map.
  rewrite <- (map_id (firstn (b - a) (skipn a words))) at 2. apply map_ext_in.
  intros x I. cbn [fix_word]. apply bswap_invol.
  assert (F : Forall word_ok (firstn (b - a) (skipn a words))) by (apply Forall_firstn, Forall_skipn, Wok).
  rewrite Forall_forall in F. apply F, I.
Qed.

Lemma parse_op_swap io op ty st c : op <> OpExtInstImport -> (io <= word_index st)%nat ->
  parse_operand g hu swords Big io op ty st (set_words c (slice words io (word_index st))) =
  match parse_operand g hu words Little io op ty st c with
  | Ok (st1, c1) => Ok (st1, set_words c1 (slice words io (word_index st1)))
  | Err a b => Err a b
  | Stuck => Stuck
  end.
Proof.
  intros Ni L. unfold parse_operand. rewrite map_length, peek_swap.
  destruct (_ <=? _)%nat; auto. destruct (peek_at words Little (word_index st)) as [word|]; auto.
  unfold parse_operand_switch. rewrite switch_swap by exact Ni.
  destruct (parse_operand_switch_with g hu words Little _ io op ty word st c) as [[[st1 c1] o]| |] eqn:S; simpl; auto.
  pose proof (switch_ok _ _ _ _ _ _ _ _ _ _ _ _ _ _ S) as SO.
  destruct SO as ((Sw & _) & (Scw & _) & _). rewrite Sw.
  destruct (_ <? _)%nat; auto. cbn [word_index requires_conversion c_words set_words c_ext c_type c_result c_ops c_exp].
  unfold set_words. cbn [c_ext c_type c_result c_ops c_exp]. do 2 f_equal.
  pose proof (slice_swap (word_index st) (word_index st + N.to_nat (o_num_words o))) as SS.
  unfold host_words in SS. unfold slice in SS at 1. cbv zeta.
  cbn [fix_word] in SS. rewrite SS. rewrite slice_app by lia. reflexivity.
Qed.

Lemma with_exp_set_words c w p : with_exp (set_words c w) p = set_words (with_exp c p) w.
Proof. reflexivity. Qed.

Lemma loop_swap io op wc : op <> OpExtInstImport -> forall w z st c, (io < word_index st)%nat ->
  operand_loop g hu swords Big io op wc w z st (set_words c (slice words io (word_index st))) =
  match operand_loop g hu words Little io op wc w z st c with
  | LDone st1 c1 => LDone st1 (set_words c1 (slice words io (word_index st1)))
  | LErr a b st1 c1 => LErr a b st1 (set_words c1 (slice words io (word_index st1)))
  | LStuck => LStuck
  end.
Proof.
  intros Ni w. induction w as [w IHw] using (well_founded_induction lt_wf).
  intro z. induction z as [z IHz] using (well_founded_induction lt_wf).
  intros st c L. rewrite (operand_loop_eq g hu swords), (operand_loop_eq g hu words).
  destruct (_ <? _)%nat; auto. cbn [c_exp set_words].
  destruct (c_exp c) as [|t r] eqn:Ex; auto.
  destruct (take_first_matchable (t :: r)) as [[ty p]|]; auto.
  rewrite with_exp_set_words, parse_op_swap by (auto; lia).
  destruct (parse_operand g hu words Little io op ty st (with_exp c p)) as [[st1 c1]| |] eqn:P; auto.
  apply parse_op_ok in P; [|exact L]. destruct P as (? & ? & _ & _ & (P & _) & _).
  destruct (_ =? _)%nat.
  - destruct z; auto. apply IHz; lia.
  - destruct w; auto. cbn [c_exp set_words]. apply IHw; lia.
Qed.

Lemma record_swap io op n r st :
  record_number_type g swords Big io op n r st = record_number_type g words Little io op n r st.
Proof. unfold record_number_type. rewrite !peek_swap. reflexivity. Qed.

Variable cb : callbacks.
Definition flip (ev : event) : event :=
  match ev with
  | EHeader _ m v ge b s => EHeader Big m v ge b s
  | EInst i => EInst i
  end.
Hypothesis Cb : forall tr ev, cb (map flip tr) (flip ev) = cb tr ev.

Definition map_ires (r : ires) : ires :=
  match r with
  | IDone st tr => IDone st (map flip tr)
  | IStop c tr => IStop c (map flip tr)
  | IStuck => IStuck
  end.

Lemma call_swap tr i st : call cb (map flip tr) i st = map_ires (call cb tr i st).
Proof.
  unfold call. pose proof (Cb tr (EInst i)) as C. simpl in C. rewrite C. cbv zeta.
  destruct (_ =? _)%Z; simpl; rewrite map_app; reflexivity.
Qed.

Lemma peek_range_swap : forall n a, peek_range swords Big a n = peek_range words Little a n.
Proof. induction n; intro a; cbn [peek_range]; auto. rewrite peek_swap, IHn. reflexivity. Qed.

Lemma emit_swap io fw op wc st c w tr : peek_at words Little io = Some fw -> 1 <= wc ->
  emit_as_unknown cb swords Big io fw op wc st (set_words c w) (map flip tr) =
  map_ires (emit_as_unknown cb words Little io fw op wc st c tr).
Proof.
  intros Pk Wc. unfold emit_as_unknown. rewrite map_length.
  destruct (Nat.ltb_spec (length words) (io + N.to_nat wc)); [reflexivity|].
  cbn [requires_conversion]. rewrite peek_range_swap.
  destruct (peek_range words Little (S io) (N.to_nat wc - 1)) as [rest|] eqn:R.
  - cbv zeta. rewrite <- call_swap. f_equal. cbn [c_ext c_type c_result set_words]. f_equal.
    apply peek_range_slice in R. rewrite host_words_little in R by reflexivity. subst rest.
    replace (S io + (N.to_nat wc - 1))%nat with (io + N.to_nat wc)%nat by lia.
    unfold peek_at in Pk. destruct (nth_error words io) as [w0|] eqn:N0; [|discriminate].
    injection Pk as <-. cbn [fix_word]. transitivity ([w0] ++ slice words (S io) (io + N.to_nat wc)); [reflexivity|].
    rewrite <- (slice_one _ _ _ N0), slice_app by lia. unfold slice. f_equal. lia.
  - exfalso. eapply peek_range_some; [|eassumption]. lia.
Qed.

Lemma parse_instruction_swap st tr :
  (forall w, peek_at words Little (word_index st) = Some w -> snd (opcode_split w) <> OpExtInstImport) ->
  parse_instruction g hu cb swords Big st (map flip tr) =
  map_ires (parse_instruction g hu cb words Little st tr).
Proof.
  intro Ni. unfold parse_instruction. rewrite peek_swap.
  destruct (peek_at words Little (word_index st)) as [fw|] eqn:Pk; [|reflexivity].
  specialize (Ni fw eq_refl).
  destruct (opcode_split fw) as [wc op] eqn:Sp. cbn [snd] in Ni.
  destruct (N.ltb_spec wc 1) as [|Hwc]; [reflexivity|]. cbv zeta.
  set (c0 := {| c_ext := 0; c_type := 0; c_result := 0; c_words := [fw]; c_ops := []; c_exp := [] |}).
  destruct (g_opcode g op) as [types|].
  2:{ destruct (negb hu); [reflexivity|].
      change c0 with (set_words c0 [fw]) at 1. apply emit_swap; auto. }
  match goal with |- context [operand_loop g hu words Little ?io ?o ?wc ?n ?m ?s ?cc] =>
    pose proof (loop_swap io o wc Ni n m s cc) as LS; set (s0 := s) in *; set (cc0 := cc) in * end.
  assert (C0 : set_words cc0 (slice words (word_index st) (word_index s0)) = cc0).
  { unfold cc0, set_words, s0, with_exp, c0. cbn [word_index c_ext c_type c_result c_ops c_exp c_words]. f_equal.
    unfold peek_at in Pk. destruct (nth_error words (word_index st)) as [w0|] eqn:N0; [|discriminate].
    injection Pk as <-. rewrite (slice_one _ _ _ N0). reflexivity. }
  rewrite C0 in LS. rewrite LS by (unfold s0; cbn [word_index]; lia). clear LS.
  pose proof (operand_loop_inv g hu words Little (word_index st) op wc
    (linv words Little (word_index st) (id_to_type_id s0))) as LI.
  specialize (LI (fun s c ty p s' c' HI Hlt _ Hp => linv_step g hu words Little (word_index st) op wc _ s c ty p s' c' (split_wc _ _ _ Sp) HI Hlt Hp)).
  assert (I0 : linv words Little (word_index st) (id_to_type_id s0) s0 cc0).
    { assert (IoL : (word_index st < length words)%nat).
      { unfold peek_at in Pk. destruct (nth_error words (word_index st)) eqn:N0; [|discriminate].
        apply nth_error_Some. congruence. }
      unfold linv, good_ops. unfold s0, cc0. cbn [word_index c_ops c_words c_result with_exp id_to_type_id c0].
      repeat match goal with |- _ /\ _ => split end; auto; try lia; try constructor.
      - change (1 = N.of_nat (S (word_index st) - word_index st)). lia.
      - unfold peek_at in Pk. destruct (nth_error words (word_index st)) as [w0|] eqn:N0; [|discriminate].
        injection Pk as <-. rewrite (slice_one _ _ _ N0). reflexivity.
      - intros k v H. congruence.
      - contradiction.
      - contradiction. }
  specialize (LI (N.to_nat wc) (length (push_operand_types types [])) s0 cc0 I0).
  destruct (operand_loop g hu words Little (word_index st) op wc (N.to_nat wc)
              (length (push_operand_types types [])) s0 cc0) as [st1 c1|code retry st1 c1|]; [| |reflexivity].
  - cbn [c_exp set_words]. destruct (match c_exp c1 with [] => false | t :: _ => negb (is_optional t) end); [reflexivity|].
    destruct (Nat.eqb_spec (word_index st + N.to_nat wc) (word_index st1)) as [Eq|]; simpl negb; cbv iota; [|reflexivity].
    cbn [c_result set_words]. rewrite record_swap.
    destruct (record_number_type g words Little (word_index st) op wc (c_result c1) st1); [|reflexivity].
    rewrite <- call_swap. f_equal. cbn [requires_conversion c_words set_words c_ext c_type c_result c_ops].
    f_equal. unfold slice. f_equal. lia.
  - destruct retry; [|reflexivity]. apply emit_swap; auto.
Qed.
End Swap.

(** *** the callbacks do not influence what is parsed *)
Lemma parse_instruction_cb g hu cb1 cb2 words e st tr :
  (parse_instruction g hu cb1 words e st tr = IStuck /\ parse_instruction g hu cb2 words e st tr = IStuck) \/
  (exists c, parse_instruction g hu cb1 words e st tr = IStop c tr /\ parse_instruction g hu cb2 words e st tr = IStop c tr) \/
  (exists i st', parse_instruction g hu cb1 words e st tr = call cb1 tr i st' /\
                 parse_instruction g hu cb2 words e st tr = call cb2 tr i st').
Proof.
  assert (EU : forall io fw op wc s c,
    (emit_as_unknown cb1 words e io fw op wc s c tr = IStuck /\ emit_as_unknown cb2 words e io fw op wc s c tr = IStuck) \/
    (exists k, emit_as_unknown cb1 words e io fw op wc s c tr = IStop k tr /\ emit_as_unknown cb2 words e io fw op wc s c tr = IStop k tr) \/
    (exists i st', emit_as_unknown cb1 words e io fw op wc s c tr = call cb1 tr i st' /\
                   emit_as_unknown cb2 words e io fw op wc s c tr = call cb2 tr i st')).
  { intros. unfold emit_as_unknown. destruct (_ <? _)%nat; [eauto|].
    destruct (if requires_conversion e then _ else _); [|auto]. cbv zeta. right; right. eexists _, _; split; reflexivity. }
  unfold parse_instruction.
  destruct (peek_at words e (word_index st)) as [fw|]; [|auto].
  destruct (opcode_split fw) as [wc op]. destruct (wc <? 1); [eauto|]. cbv zeta.
  destruct (g_opcode g op) as [types|]; [|destruct (negb hu); [eauto|apply EU]].
  destruct (operand_loop _ _ _ _ _ _ _ _ _ _ _) as [st1 c1|code retry st1 c1|]; [| |auto].
  - destruct (match c_exp c1 with [] => false | t :: _ => _ end); [eauto|].
    destruct (negb _); [eauto|]. destruct (record_number_type _ _ _ _ _ _ _ _); [|auto].
    right; right. eexists _, _; split; reflexivity.
  - destruct retry; [apply EU|eauto].
Qed.

Section SwapModule.
Variable g : grammar.
Variable hu : bool.
Variable words : list N.
Variable cb : callbacks.
Hypothesis Wok : Forall word_ok words.
Hypothesis Cb : forall tr ev, cb (map flip tr) (flip ev) = cb tr ev.
Hypothesis NoImport : forall p w, inst_start words p -> nth_error words p = Some w -> w mod 2 ^ 16 <> 11.

Lemma opcode_split_arith w : w < 2 ^ 32 -> opcode_split w = (w / 2 ^ 16, w mod 2 ^ 16).
Proof.
  intro H. pose proof (make_split w H) as M. destruct (opcode_split w) as [wc op] eqn:S.
  unfold opcode_split in S. cbn [fst snd] in M.
  assert (Hop : op < 2 ^ 16) by (injection S as _ <-; apply N.mod_lt; discriminate).
  assert (Hwc : wc < 2 ^ 16) by (injection S as <- _; apply N.mod_lt; discriminate).
  clear S. assert (E : w = op + wc * 2 ^ 16).
  { rewrite <- M. unfold opcode_make. apply lor_shift_add, Hop. }
  f_equal.
  - rewrite E, N.div_add by discriminate. rewrite N.div_small by exact Hop. reflexivity.
  - rewrite E, N.mod_add by discriminate. symmetry. apply N.mod_small, Hop.
Qed.

Definition map_res (r : option (Z * list event)) : option (Z * list event) :=
  match r with Some (c, tr) => Some (c, map flip tr) | None => None end.

Lemma module_loop_swap : forall fuel st tr, inst_start words (word_index st) ->
  module_loop g hu cb (map bswap words) Big fuel st (map flip tr) =
  map_res (module_loop g hu cb words Little fuel st tr).
Proof.
  induction fuel as [|f IH]; intros st tr S; cbn [module_loop]; rewrite map_length;
    destruct (_ <? _)%nat; auto.
  rewrite parse_instruction_swap; auto.
  2:{ intros w P. unfold peek_at in P. destruct (nth_error words (word_index st)) as [w0|] eqn:N0; [|discriminate].
      injection P as <-. cbn [fix_word]. rewrite opcode_split_arith; [exact (NoImport _ _ S N0)|].
      rewrite Forall_forall in Wok. apply (Wok w0). eapply nth_error_In; eauto. }
  pose proof (parse_instruction_ok g hu cb words Little st tr) as P. cbv zeta in P.
  destruct P as [P|[(c & Hc & P)|(i & st' & Gi & Ids & W' & P)]]; rewrite P; auto.
  unfold call. cbv zeta. destruct (_ =? _)%Z; [|reflexivity]. cbn [map_ires]. apply IH.
  rewrite W'. destruct Gi as ((fw & Pk & Sp) & _). unfold peek_at in Pk.
  destruct (nth_error words (word_index st)) as [w0|] eqn:N0; [|discriminate]. injection Pk as <-.
  cbn [fix_word] in Sp. rewrite opcode_split_arith in Sp.
  2:{ rewrite Forall_forall in Wok. apply (Wok w0). eapply nth_error_In; eauto. }
  injection Sp as <- _. apply start_next; auto.
Qed.

Lemma binary_parse_swap : hd 0 words <> bswap 0x07230203 ->
  binary_parse g hu cb (map bswap words) = map_res (binary_parse g hu cb words).
Proof.
  intro NB. unfold binary_parse. rewrite map_length.
  destruct (Nat.ltb_spec (length words) 5) as [|L5]; [reflexivity|].
  pose proof module_loop_swap as MLS.
  destruct words as [|w0 ws]; [simpl in L5; lia|]. cbn [hd] in NB.
  pose proof (Forall_inv Wok) as W0.
  destruct (binary_endianness_spec w0 ws W0) as [LE BE].
  assert (W0' : word_ok (bswap w0)) by (apply bswap_lt; exact W0).
  destruct (binary_endianness_spec (bswap w0) (map bswap ws) W0') as [LE' BE'].
  cbn [map]. destruct (binary_endianness (w0 :: ws)) as [[|]|] eqn:E1.
  - assert (w0 = 0x07230203) by (apply LE; reflexivity). subst w0.
    assert (binary_endianness (bswap 0x07230203 :: map bswap ws) = Some Big) as -> by (apply BE'; reflexivity).
    assert (HG : header_get g (bswap 0x07230203 :: map bswap ws) Big = header_get g (0x07230203 :: ws) Little).
    { rewrite Forall_forall in Wok. unfold header_get.
      destruct ws as [|v [|ge [|b [|s r]]]]; auto. cbn [map fix_word].
      rewrite !bswap_invol by (apply Wok; simpl; auto 8). reflexivity. }
    rewrite HG. destruct (header_get g (0x07230203 :: ws) Little) as [[[[[m v] ge] b] s]|]; [|reflexivity].
    cbv zeta. change (EHeader Big m v ge b s) with (flip (EHeader Little m v ge b s)).
    pose proof (Cb [] (EHeader Little m v ge b s)) as C. simpl in C. cbn [flip]. rewrite C.
    destruct (negb _); [reflexivity|].
    change [EHeader Big m v ge b s] with (map flip [EHeader Little m v ge b s]).
    change (bswap 0x07230203 :: map bswap ws) with (map bswap (0x07230203 :: ws)).
    rewrite <- MLS; [reflexivity|]. cbn [word_index]. constructor.
  - exfalso. apply NB. apply BE. reflexivity.
  - destruct (binary_endianness (bswap w0 :: map bswap ws)) as [[|]|] eqn:E2; [| |reflexivity].
    + exfalso. apply NB. rewrite <- (bswap_invol w0 W0). f_equal. apply LE'. reflexivity.
    + exfalso. assert (bswap w0 = bswap 0x07230203) as X by (apply BE'; reflexivity).
      assert (M : w0 = 0x07230203) by (rewrite <- (bswap_invol w0 W0), X; apply bswap_invol; reflexivity).
      apply LE in M. discriminate.
Qed.
End SwapModule.

(** *** the trace with any callbacks is a prefix of the trace with successful callbacks *)
Definition yes : callbacks := fun _ _ => SPV_SUCCESS.
Lemma module_loop_trace g hu cb words e : forall fuel st tr code tr', 
  module_loop g hu cb words e fuel st tr = Some (code, tr') -> exists s, tr' = tr ++ s.
Proof.
  induction fuel as [|f IH]; intros st tr code tr' H; cbn [module_loop] in H;
    destruct (_ <? _)%nat; try discriminate; try (injection H as <- <-; exists []; rewrite app_nil_r; reflexivity).
  pose proof (parse_instruction_ok g hu cb words e st tr) as P. cbv zeta in P.
  destruct P as [P|[(c & Hc & P)|(i & st' & Gi & Ids & W' & P)]]; rewrite P in H; try discriminate.
  - injection H as <- <-. exists []. rewrite app_nil_r. reflexivity.
  - unfold call in H. cbv zeta in H. destruct (_ =? _)%Z.
    + apply IH in H. destruct H as [s ->]. rewrite <- app_assoc. eauto.
    + injection H as <- <-. eauto.
Qed.
Lemma module_loop_prefix g hu cb words e : forall fuel st tr code1 tr1 code2 tr2,
  module_loop g hu cb words e fuel st tr = Some (code1, tr1) ->
  module_loop g hu yes words e fuel st tr = Some (code2, tr2) ->
  (code1 = code2 /\ tr1 = tr2) \/ 
  (exists tr0 ev, tr1 = tr0 ++ [ev] /\ code1 = cb tr0 ev /\ code1 <> SPV_SUCCESS /\ exists s, tr2 = tr1 ++ s).
Proof.
  induction fuel as [|f IH]; intros st tr c1 t1 c2 t2 H1 H2; cbn [module_loop] in H1, H2;
    destruct (_ <? _)%nat; try discriminate; try (left; split; congruence).
  destruct (parse_instruction_cb g hu cb yes words e st tr) as [[P1 P2]|[(c & P1 & P2)|(i & st' & P1 & P2)]];
    rewrite P1 in H1; rewrite P2 in H2; try discriminate.
  - left; split; congruence.
  - unfold call in H1, H2. cbv zeta in H1, H2.
    unfold yes at 1 in H2. change (SPV_SUCCESS =? SPV_SUCCESS)%Z with true in H2. cbv iota in H2.
    destruct (Z.eqb_spec (cb tr (EInst i)) SPV_SUCCESS) as [Z|NZ].
    + eapply IH; eauto.
    + injection H1 as <- <-. right. exists tr, (EInst i). repeat split; auto.
      eapply module_loop_trace; eauto.
Qed.
Lemma binary_parse_prefix g hu cb words code1 tr1 code2 tr2 :
  binary_parse g hu cb words = Some (code1, tr1) ->
  binary_parse g hu yes words = Some (code2, tr2) ->
  (code1 = code2 /\ tr1 = tr2) \/ 
  (exists tr0 ev, tr1 = tr0 ++ [ev] /\ code1 = cb tr0 ev /\ code1 <> SPV_SUCCESS /\ exists s, tr2 = tr1 ++ s).
Proof.
  unfold binary_parse. destruct (_ <? _)%nat; [intros; left; split; congruence|].
  destruct (binary_endianness words) as [e|]; [|intros; left; split; congruence].
  destruct (header_get g words e) as [[[[[m v] ge] b] s]|]; [|intros; left; split; congruence].
  cbv zeta. unfold yes at 1. change (SPV_SUCCESS =? SPV_SUCCESS)%Z with true. cbn [negb]. cbv iota.
  destruct (Z.eqb_spec (cb [] (EHeader e m v ge b s)) SPV_SUCCESS) as [Z|NZ]; cbn [negb]; cbv iota.
  - apply module_loop_prefix.
  - intros H1 H2. injection H1 as <- <-. right. exists [], (EHeader e m v ge b s). repeat split; auto.
    eapply module_loop_trace; eauto.
Qed.
