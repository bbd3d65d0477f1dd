(** Proofs about the binary parser model. *)
From Verif Require Import Base Words WordsProofs Operand OperandProofs BinaryParse ParseSpec.
Local Open Scope N_scope.

Ltac brk H :=
  repeat match type of H with
  | (match ?x with _ => _ end) = _ => let E := fresh "E" in destruct x eqn:E; try discriminate H
  end.

Section Proofs.
Variable g : grammar.
Variable hu : bool.
Variable cb : callbacks.
Variable words : list N.
Variable e : endianness.
Hypothesis Wok : Forall word_ok words.

Notation switch_with := (parse_operand_switch_with g hu words e).
Notation switch := (parse_operand_switch g hu words e).
Notation parse_op := (parse_operand g hu words e).

Lemma set_numeric_lt st t info n : set_numeric_type_info st t = Some (info, n) -> n < 2 ^ 16.
Proof. unfold set_numeric_type_info. intro H. brk H; injection H as <- <-; apply N.mod_lt; discriminate. Qed.

Lemma switch_ok ms io op ty word st c st1 c1 o :
  switch_with ms io op ty word st c = Ok (st1, c1, o) ->
  (word_index st1 = word_index st /\ number_info st1 = number_info st) /\
  (c_words c1 = c_words c /\ c_ops c1 = c_ops c) /\
  o_offset o = N.of_nat (word_index st - io) mod 2 ^ 16 /\
  is_concrete (o_type o) = true /\
  o_num_words o < 2 ^ 16 /\
  (o_num_words o = 0 -> (ty = T_TYPED_LITERAL_NUMBER \/ ty = T_OPTIONAL_TYPED_LITERAL_INTEGER) /\
                        c_exp c1 = c_exp c) /\
  ((otype_eqb (o_type o) T_RESULT_ID = false /\ id_to_type_id st1 = id_to_type_id st /\ c_result c1 = c_result c) \/
   (otype_eqb (o_type o) T_RESULT_ID = true /\ word <> 0 /\ id_to_type_id st word = None /\ c_result c1 = word /\
    exists t, id_to_type_id st1 = upd (id_to_type_id st) word t)) /\
  (is_id_type (o_type o) = true -> word <> 0 /\ o_num_words o = 1) /\
  c_type c1 = (if otype_eqb (o_type o) T_TYPE_ID then word else c_type c).
Proof.
  intro H.
  assert (P16 : 0 < 2 ^ 16) by reflexivity.
  destruct ty; unfold parse_operand_switch_with in H; cbv zeta in H;
    cbn [is_enum_case is_mask_case] in H; try discriminate H;
    brk H; injection H as <- <- <-;
    cbn [word_index number_info id_to_type_id c_words c_ops c_exp c_result c_type with_exp
         o_offset o_num_words o_type enum_concrete];
    repeat match goal with |- _ /\ _ => split end; try reflexivity; auto;
    try (intro; discriminate); try (intro X; vm_compute in X; discriminate X);
    try (apply N.mod_lt; lia); try tauto;
    try (left; split; [reflexivity|split; reflexivity]).
  all: try (intro; split; [assumption|reflexivity]).
  all: try (intros _; split; [|reflexivity]; apply N.eqb_neq; assumption).
  all: try (right; split; [reflexivity|]; split; [apply N.eqb_neq; assumption|]; split; [first [assumption|reflexivity]|];
            split; [reflexivity|eexists; reflexivity]).
  all: try (eapply set_numeric_lt; eassumption).
  all: try (intro X; exfalso; rewrite N.mod_small in X by (apply N.ltb_ge in E0; lia); lia).
Qed.

Lemma mask_loop_not_stuck ty : forall bits r p, r < 2 ^ N.of_nat bits -> mask_loop g ty bits r p <> Stuck.
Proof.
  induction bits as [|b IH]; intros r p L; cbn [mask_loop].
  - replace (N.of_nat 0) with 0 in L by reflexivity. change (2 ^ 0) with 1 in L.
    replace (r =? 0) with true by (symmetry; apply N.eqb_eq; lia). discriminate.
  - destruct (r =? 0); [discriminate|]. cbv zeta.
    assert (B : forall k, N.of_nat b < k -> N.testbit r k = false).
    { apply N_lt_pow2_bits in L || idtac. intros k Hk. destruct (N_lt_pow2_bits r (N.of_nat (S b))) as [A _].
      apply A; lia. }
    destruct (N.land r (2 ^ N.of_nat b) =? 0) eqn:Z; simpl negb; cbv iota.
    + apply IH. apply N_lt_pow2_bits. intros k Hk.
      destruct (N.eq_dec k (N.of_nat b)) as [->|]; [|apply B; lia].
      apply N.eqb_eq in Z. assert (X := f_equal (fun x => N.testbit x (N.of_nat b)) Z). cbv beta in X.
      rewrite N.land_spec, N.pow2_bits_true, N.bits_0, andb_true_r in X. exact X.
    + destruct (g_operand g ty (2 ^ N.of_nat b)); [|discriminate]. apply IH.
      apply N_lt_pow2_bits. intros k Hk. rewrite N.lxor_spec, N.pow2_bits_eqb.
      destruct (N.eqb_spec (N.of_nat b) k) as [<-|].
      * destruct (N.testbit r (N.of_nat b)) eqn:T; [reflexivity|]. exfalso.
        apply N.eqb_neq in Z. apply Z. apply N.bits_inj. intro j. rewrite N.land_spec, N.bits_0, N.pow2_bits_eqb.
        destruct (N.eqb_spec (N.of_nat b) j) as [<-|]; [rewrite T|]; auto using andb_false_r.
      * rewrite (B k) by lia. reflexivity.
Qed.
Lemma mask_loop_not_err ty : forall bits r p c t, mask_loop g ty bits r p <> Err c t.
Proof.
  induction bits; intros; cbn [mask_loop]; destruct (r =? 0); try discriminate.
  cbv zeta. destruct (negb _); auto. destruct (g_operand g ty _); auto. discriminate.
Qed.

Lemma peek_some i : (i < length words)%nat -> exists w, peek_at words e i = Some w /\ word_ok w.
Proof.
  intro H. unfold peek_at. destruct (nth_error words i) as [w|] eqn:E.
  - exists (fix_word w e). split; auto. apply nth_error_In in E. rewrite Forall_forall in Wok. apply Wok in E.
    destruct e; [exact E|apply bswap_lt; exact E].
  - apply nth_error_None in E. lia.
Qed.

Lemma switch_with_not_stuck ms io op ty word st c : grammar_ok g -> word_ok word ->
  (forall t p, ms t word p <> Stuck) ->
  (S io < length words)%nat -> switch_with ms io op ty word st c <> Stuck.
Proof.
  intros G Wd Ms L H.
  destruct ty; unfold parse_operand_switch_with in H; cbv zeta in H;
    cbn [is_enum_case is_mask_case] in H; try discriminate H; brk H.
  all: try (eapply Ms; eassumption).
  all: try (destruct (peek_some (io + 1)) as [w' [X _]]; [lia|congruence]).
  all: destruct G as [G1 _]; apply Bool.orb_false_iff in E; destruct E as [_ E];
       apply Bool.negb_false_iff in E; specialize (G1 _ _ E E0); simpl in G1; lia.
Qed.

Lemma switch_not_stuck io op ty word st c : grammar_ok g -> word_ok word ->
  (S io < length words)%nat -> switch io op ty word st c <> Stuck.
Proof.
  intros G Wd L. apply switch_with_not_stuck; auto. intros t p. apply mask_loop_not_stuck. exact Wd.
Qed.
(** The only error that asks for a retry is raised when unknown values are tolerated, and no
    error carries the success code. *)
Lemma switch_with_err ms io op ty word st c code r :
  (forall t p x y, ms t word p <> Err x y) ->
  switch_with ms io op ty word st c = Err code r -> (r = true -> hu = true) /\ code <> SPV_SUCCESS.
Proof.
  intros Ms S.
  destruct ty; unfold parse_operand_switch_with in S; cbv zeta in S;
    cbn [is_enum_case is_mask_case] in S; try discriminate S; brk S;
    try (exfalso; eapply Ms; eassumption); injection S as <- <-; (split; [intro; congruence|discriminate]).
Qed.
Lemma parse_op_err io op ty st c code r :
  parse_op io op ty st c = Err code r -> (r = true -> hu = true) /\ code <> SPV_SUCCESS.
Proof.
  intro Po. unfold parse_operand in Po.
  destruct (_ <=? _)%nat; [injection Po as <- <-; (split; [intro; congruence|discriminate])|].
  destruct (peek_at _ _ _); [|discriminate].
  destruct (switch io op ty n st c) as [[[? ?] ?]|?|] eqn:S; try discriminate.
  - cbv zeta in Po. destruct (_ <? _)%nat; [injection Po as <- <-; (split; [intro; congruence|discriminate])|discriminate].
  - injection Po as -> ->. eapply switch_with_err; [|exact S]. intros. apply mask_loop_not_err.
Qed.

Lemma skipn_skipn_add {A} (l : list A) : forall a b, skipn b (skipn a l) = skipn (a + b) l.
Proof. induction l; intros [|a0] b; simpl; auto. - destruct b; reflexivity. Qed.

(** parseOperand *)
Definition slice (a b : nat) : list N := firstn (b - a) (skipn a words).
Lemma slice_app a b c : (a <= b)%nat -> (b <= c)%nat -> slice a b ++ slice b c = slice a c.
Proof.
  intros H1 H2. unfold slice.
  replace (skipn b words) with (skipn (b - a) (skipn a words)) by (rewrite skipn_skipn_add; f_equal; lia).
  generalize (skipn a words). intro l.
  replace (c - a)%nat with ((b - a) + (c - b))%nat by lia. generalize (b - a)%nat (c - b)%nat. clear.
  intros n m. revert l. induction n; intro l; simpl; auto. destruct l; simpl; [destruct m; auto|]. f_equal. apply IHn.
Qed.
Lemma slice_length a b : (a <= b)%nat -> (b <= length words)%nat -> length (slice a b) = (b - a)%nat.
Proof. intros. unfold slice. rewrite firstn_length, skipn_length. lia. Qed.
Lemma slice_one a w : nth_error words a = Some w -> slice a (S a) = [w].
Proof.
  intro H. unfold slice. replace (S a - a)%nat with 1%nat by lia.
  rewrite (nth_error_split_eq _ _ _ H) at 1.
  assert (a < length words)%nat by (apply nth_error_Some; congruence).
  rewrite skipn_app, skipn_firstn_comm, firstn_length_le by lia.
  replace (a - a)%nat with O by lia. reflexivity.
Qed.

Lemma parse_op_ok io op ty st c st' c' : (io < word_index st)%nat ->
  parse_op io op ty st c = Ok (st', c') ->
  exists word o,
    peek_at words e (word_index st) = Some word /\
    (word_index st < length words)%nat /\
    (word_index st' = word_index st + N.to_nat (o_num_words o) /\ word_index st' <= length words)%nat /\
    number_info st' = number_info st /\
    c_ops c' = c_ops c ++ [o] /\
    c_words c' = (if requires_conversion e
                  then c_words c ++ host_words e (slice (word_index st) (word_index st')) else c_words c) /\
    o_offset o = N.of_nat (word_index st - io) mod 2 ^ 16 /\
    is_concrete (o_type o) = true /\ o_num_words o < 2 ^ 16 /\
    (o_num_words o = 0 -> (ty = T_TYPED_LITERAL_NUMBER \/ ty = T_OPTIONAL_TYPED_LITERAL_INTEGER) /\
                          c_exp c' = c_exp c) /\
    ((otype_eqb (o_type o) T_RESULT_ID = false /\ id_to_type_id st' = id_to_type_id st /\ c_result c' = c_result c) \/
     (otype_eqb (o_type o) T_RESULT_ID = true /\ word <> 0 /\ id_to_type_id st word = None /\ c_result c' = word /\
      exists t, id_to_type_id st' = upd (id_to_type_id st) word t)) /\
    (is_id_type (o_type o) = true -> word <> 0 /\ o_num_words o = 1) /\
    c_type c' = (if otype_eqb (o_type o) T_TYPE_ID then word else c_type c).
Proof.
  intros L H. unfold parse_operand in H.
  destruct (Nat.leb_spec (length words) (word_index st)); [discriminate|].
  destruct (peek_at words e (word_index st)) as [word|] eqn:Pk; [|discriminate].
  destruct (switch io op ty word st c) as [[[st1 c1] o]|?|] eqn:S; try discriminate.
  cbv zeta in H.
  destruct (Nat.ltb_spec (length words) (word_index st1 + N.to_nat (o_num_words o))); [discriminate|].
  injection H as <- <-. apply switch_ok in S.
  destruct S as ((Swi & Sni) & (Scw & Sco) & Soff & Sconc & Snw & Sz & Sid & Sidt & Sty).
  exists word, o. cbn [word_index number_info id_to_type_id c_words c_ops c_exp c_result c_type].
  rewrite Swi in *. rewrite Scw, Sco, Sni.
  repeat match goal with |- _ /\ _ => split end; auto; try lia.
Qed.

Lemma parse_op_not_stuck io op ty st c : grammar_ok g -> (io < word_index st)%nat ->
  parse_op io op ty st c <> Stuck.
Proof.
  intros G L H. unfold parse_operand in H.
  destruct (Nat.leb_spec (length words) (word_index st)); [discriminate|].
  destruct (peek_some (word_index st)) as [w [Pk Wd]]; [lia|]. rewrite Pk in H.
  destruct (switch io op ty w st c) as [[[st1 c1] o]|?|] eqn:S; try discriminate.
  - cbv zeta in H. destruct (_ <? _)%nat; discriminate.
  - eapply switch_not_stuck; eauto. lia.
Qed.

(** Zero-word operands in a row. *)
Fixpoint lead (p : pattern) : nat :=
  match p with
  | T_TYPED_LITERAL_NUMBER :: r | T_OPTIONAL_TYPED_LITERAL_INTEGER :: r => S (lead r)
  | T_VARIABLE_LITERAL_INTEGER_ID :: _ => 1
  | _ => 0
  end.
Lemma lead_le p : (lead p <= length p)%nat.
Proof. induction p as [|t r IH]; simpl; auto. destruct t; simpl; lia. Qed.
Lemma lead_take p ty q : take_first_matchable p = Some (ty, q) ->
  ty = T_TYPED_LITERAL_NUMBER \/ ty = T_OPTIONAL_TYPED_LITERAL_INTEGER -> (lead q < lead p)%nat.
Proof.
  intros H [->| ->]; destruct p as [|t r]; try discriminate;
    destruct t; vm_compute in H; try discriminate; injection H as <-; simpl; lia.
Qed.

Lemma operand_loop_eq io op wc w z st c :
  operand_loop g hu words e io op wc w z st c =
    if (word_index st <? io + N.to_nat wc)%nat then
      match c_exp c with
      | [] => LErr SPV_ERROR_INVALID_BINARY false st c
      | _ =>
          match take_first_matchable (c_exp c) with
          | None => LStuck
          | Some (ty, p) =>
              match parse_op io op ty st (with_exp c p) with
              | Stuck => LStuck
              | Err e r => LErr e r st (with_exp c p)
              | Ok (st', c') =>
                  if (word_index st' =? word_index st)%nat then
                    match z with
                    | O => LStuck
                    | S z' => operand_loop g hu words e io op wc w z' st' c'
                    end
                  else
                    match w with
                    | O => LStuck
                    | S w' => operand_loop g hu words e io op wc w' (List.length (c_exp c')) st' c'
                    end
              end
          end
      end
    else LDone st c.
Proof. destruct w, z; reflexivity. Qed.

Lemma operand_loop_not_stuck io op wc : grammar_ok g ->
  forall w z st c, (io < word_index st)%nat -> (io + N.to_nat wc - word_index st <= w)%nat ->
  (lead (c_exp c) <= z)%nat -> operand_loop g hu words e io op wc w z st c <> LStuck.
Proof.
  intros G w. induction w as [w IHw] using (well_founded_induction lt_wf).
  intro z. induction z as [z IHz] using (well_founded_induction lt_wf).
  intros st c L Hw Hz. rewrite operand_loop_eq.
  destruct (Nat.ltb_spec (word_index st) (io + N.to_nat wc)) as [Hlt|]; [|discriminate].
  destruct (c_exp c) as [|t r] eqn:Ex; [discriminate|].
  destruct (take_first_total t r) as (ty & q & T & _). rewrite T.
  destruct (parse_op io op ty st (with_exp c q)) as [[st' c']|?|] eqn:P; try discriminate.
  2:{ intro. eapply parse_op_not_stuck; eauto. }
  apply parse_op_ok in P; [|exact L].
  destruct P as (word & o & Pk & Pl & (Pw & Pw') & _ & _ & _ & _ & _ & _ & Pz & _).
  destruct (Nat.eqb_spec (word_index st') (word_index st)) as [Eq|Ne].
  - assert (Z : o_num_words o = 0) by lia. destruct (Pz Z) as [Ty Ce]. cbn [c_exp with_exp] in Ce.
    pose proof (lead_take _ _ _ T Ty) as LT.
    destruct z as [|z']; [lia|]. apply IHz; try lia. rewrite Ce. lia.
  - destruct w as [|w']; [lia|]. apply IHw; try lia. apply lead_le.
Qed.

(** Induction over the operand loop. *)
Lemma operand_loop_inv io op wc (P : pstate -> cur -> Prop) :
  (forall st c ty p st' c', P st c -> (word_index st < io + N.to_nat wc)%nat ->
     take_first_matchable (c_exp c) = Some (ty, p) ->
     parse_op io op ty st (with_exp c p) = Ok (st', c') -> P st' c') ->
  forall w z st c, P st c ->
  match operand_loop g hu words e io op wc w z st c with
  | LStuck => True
  | LDone st' c' => P st' c' /\ (io + N.to_nat wc <= word_index st')%nat
  | LErr _ r st' c' => (exists c0 p, P st' c0 /\ c' = with_exp c0 p) /\ (r = true -> hu = true)
  end.
Proof.
  intros Step w. induction w as [w IHw] using (well_founded_induction lt_wf).
  intro z. induction z as [z IHz] using (well_founded_induction lt_wf).
  intros st c HP. rewrite operand_loop_eq.
  destruct (Nat.ltb_spec (word_index st) (io + N.to_nat wc)) as [Hlt|]; [|auto].
  destruct (c_exp c) as [|t r] eqn:Ex.
  { split; [|discriminate]. exists c, (c_exp c). split; auto. destruct c; reflexivity. }
  destruct (take_first_total t r) as (ty & q & T & _). rewrite T.
  destruct (parse_op io op ty st (with_exp c q)) as [[st' c']|code rr|] eqn:Po; auto.
  - rewrite <- Ex in T. pose proof (Step _ _ _ _ _ _ HP Hlt T Po) as HP'.
    destruct (Nat.eqb (word_index st') (word_index st)).
    + destruct z as [|z']; [exact I|apply IHz; [lia|exact HP']].
    + destruct w as [|w']; [exact I|apply IHw; [lia|exact HP']].
  - split; [exists c, q; auto|]. apply (proj1 (parse_op_err _ _ _ _ _ _ _ Po)).
Qed.

(** The invariant of the operand loop. *)
Lemma tiles_app a ops b o : tiles a ops b -> o_offset o = b -> tiles a (ops ++ [o]) (b + o_num_words o).
Proof. revert a. induction ops as [|p r IH]; simpl; intros a T Ho. - subst. auto. - destruct T. auto. Qed.

Definition good_ops (io : nat) (ops : list poperand) (stop : nat) : Prop :=
  tiles 1 ops (N.of_nat stop) /\ Forall (fun o => is_concrete (o_type o) = true) ops /\
  Forall (fun o => is_id_type (o_type o) = true ->
            exists w, peek_at words e (io + N.to_nat (o_offset o)) = Some w /\ w <> 0 /\ o_num_words o = 1) ops.

(** The words of the operands of one type, read from the buffer. *)
Definition wat (io : nat) (o : poperand) : N :=
  match peek_at words e (io + N.to_nat (o_offset o)) with Some w => w | None => 0 end.
Definition wats (io : nat) (t : otype) (ops : list poperand) : list N :=
  map (wat io) (filter (fun o => otype_eqb (o_type o) t) ops).
Lemma wats_snoc io t ops o : wats io t (ops ++ [o]) = wats io t ops ++ (if otype_eqb (o_type o) t then [wat io o] else []).
Proof. unfold wats. rewrite filter_app, map_app. simpl. destruct (otype_eqb (o_type o) t); reflexivity. Qed.
Lemma last_snoc {A} (l : list A) x d : last (l ++ [x]) d = x.
Proof. induction l as [|a l IH]; [reflexivity|]. simpl. destruct (l ++ [x]) eqn:E; [destruct l; discriminate|exact IH]. Qed.
Lemma NoDup_snoc {A} (l : list A) x : NoDup l -> ~ In x l -> NoDup (l ++ [x]).
Proof.
  intros N H. induction l as [|y l IH]; simpl; [constructor; auto; constructor|].
  inversion N; subst. constructor.
  - intro I. apply in_app_or in I. destruct I as [I|[->|[]]]; [auto|apply H; left; reflexivity].
  - apply IH; auto. intro; apply H; right; auto.
Qed.

Definition linv (io : nat) (ids0 : N -> option N) (st : pstate) (c : cur) : Prop :=
  (io < word_index st <= length words)%nat /\
  good_ops io (c_ops c) (word_index st - io) /\
  c_words c = (if requires_conversion e then host_words e (slice io (word_index st))
               else host_words e (slice io (S io))) /\
  (forall k v, ids0 k = Some v -> id_to_type_id st k <> None) /\
  (c_result c = 0 \/ (ids0 (c_result c) = None /\ id_to_type_id st (c_result c) <> None)) /\
  (NoDup (wats io T_RESULT_ID (c_ops c)) /\
   (forall r, In r (wats io T_RESULT_ID (c_ops c)) -> ids0 r = None /\ id_to_type_id st r <> None) /\
   c_result c = last (wats io T_RESULT_ID (c_ops c)) 0 /\
   c_type c = last (wats io T_TYPE_ID (c_ops c)) 0).

Lemma linv_step io op wc ids0 st c ty p st' c' : wc < 2 ^ 16 ->
  linv io ids0 st c -> (word_index st < io + N.to_nat wc)%nat ->
  parse_op io op ty st (with_exp c p) = Ok (st', c') -> linv io ids0 st' c'.
Proof.
  intros Hwc (L & (T & Cc & Idn) & Wd & Mono & Res & (Nd & Fresh & Rl & Tl)) Lt P.
  apply parse_op_ok in P; [|lia].
  destruct P as (word & o & Pk & Pl & (Pw & Pw') & Pni & Pops & Pcw & Poff & Pcon & Pnw & Pz & Pid & Pidt & Pty).
  cbn [c_ops c_words c_result c_type with_exp] in *.
  assert (Off : o_offset o = N.of_nat (word_index st - io)).
  { rewrite Poff. apply N.mod_small. change (2^16) with 65536 in *. lia. }
  assert (Wat : wat io o = word).
  { unfold wat. rewrite Off. replace (io + N.to_nat (N.of_nat (word_index st - io)))%nat with (word_index st) by lia.
    rewrite Pk. reflexivity. }
  unfold linv, good_ops. rewrite Pops, !wats_snoc, Wat. repeat match goal with |- _ /\ _ => split end.
  - lia.
  - lia.
  - replace (N.of_nat (word_index st' - io)) with (N.of_nat (word_index st - io) + o_num_words o) by lia.
    apply tiles_app; auto.
  - apply Forall_app; auto.
  - apply Forall_app; split; auto. constructor; auto. intro I. destruct (Pidt I).
    exists word. split; auto. rewrite Off. replace (io + N.to_nat (N.of_nat (word_index st - io)))%nat with (word_index st) by lia.
    exact Pk.
  - rewrite Pcw, Wd. destruct (requires_conversion e); auto.
    unfold host_words. rewrite <- map_app. f_equal. apply slice_app; lia.
  - intros k v Hk. destruct Pid as [(_ & -> & _)|(_ & _ & _ & _ & t & ->)]; [eapply Mono; eauto|].
    unfold upd. destruct (k =? word); [discriminate|eapply Mono; eauto].
  - destruct Pid as [(_ & -> & ->)|(_ & Nz & Un & -> & t & ->)]; [exact Res|].
    right. split.
    + destruct (ids0 word) eqn:I; auto. exfalso. eapply Mono; eauto.
    + unfold upd. rewrite N.eqb_refl. discriminate.
  - destruct Pid as [(-> & _ & _)|(-> & Nz & Un & _ & t & _)]; [rewrite app_nil_r; exact Nd|].
    apply NoDup_snoc; auto. intro I. apply Fresh in I. tauto.
  - intros r I. destruct Pid as [(X & -> & _)|(X & Nz & Un & _ & t & ->)]; rewrite X in I.
    + rewrite app_nil_r in I. auto.
    + apply in_app_or in I. unfold upd. destruct I as [I|[<-|[]]].
      * destruct (Fresh r I) as [F1 F2]. split; auto. destruct (r =? word); [discriminate|exact F2].
      * rewrite N.eqb_refl. split; [|discriminate].
        destruct (ids0 word) eqn:I; auto. exfalso. eapply Mono; eauto.
  - destruct Pid as [(-> & _ & ->)|(-> & Nz & Un & -> & t & _)].
    + rewrite app_nil_r. exact Rl.
    + symmetry. apply last_snoc.
  - rewrite Pty. destruct (otype_eqb (o_type o) T_TYPE_ID); [symmetry; apply last_snoc|rewrite app_nil_r; exact Tl].
Qed.

Lemma tiles_in o : forall ops a b, tiles a ops b -> In o ops -> a <= o_offset o /\ o_offset o + o_num_words o <= b.
Proof.
  assert (Le : forall ops a b, tiles a ops b -> a <= b).
  { induction ops as [|p r IH]; simpl; intros a b T; [lia|]. destruct T as [_ T]. apply IH in T. lia. }
  induction ops as [|p r IH]; simpl; intros a b T I; [contradiction|]. destruct T as [Po T].
  destruct I as [->|I].
  - split; [lia|]. rewrite Po. eapply Le; eauto.
  - apply (IH _ _ T) in I. lia.
Qed.

Lemma nth_error_firstn' {A} (l : list A) : forall n k, (k < n)%nat -> nth_error (firstn n l) k = nth_error l k.
Proof. induction l as [|x l IH]; intros [|n] k H; try lia; destruct k; simpl; auto. apply IH. lia. Qed.
Lemma nth_error_skipn' {A} (l : list A) : forall n k, nth_error (skipn n l) k = nth_error l (n + k).
Proof. induction l as [|x l IH]; intros [|n] k; simpl; auto. destruct k; reflexivity. Qed.

(** On a reported instruction, reading an id operand from its words is reading it from the buffer. *)
Lemma words_of_type_wats io t i : is_id_type t = true ->
  (io + N.to_nat (i_num_words i) <= length words)%nat ->
  good_ops io (i_operands i) (N.to_nat (i_num_words i)) ->
  i_words i = host_words e (slice io (io + N.to_nat (i_num_words i))) ->
  words_of_type t i = wats io t (i_operands i).
Proof.
  intros It L (T & _ & Idn) W. unfold words_of_type, wats. apply map_ext_in. intros o Io.
  apply filter_In in Io. destruct Io as [Io Ot]. apply otype_eqb_eq in Ot.
  rewrite Forall_forall in Idn. destruct (Idn o Io) as (w & Pk & _ & Nw); [rewrite Ot; exact It|].
  destruct (tiles_in o _ _ _ T Io) as [_ Ob].
  unfold operand_word, wat. rewrite Pk, W. unfold peek_at in Pk.
  destruct (nth_error words (io + N.to_nat (o_offset o))) as [w0|] eqn:N0; [|discriminate]. injection Pk as <-.
  apply nth_error_nth. unfold host_words. rewrite nth_error_map. unfold slice.
  replace (io + N.to_nat (i_num_words i) - io)%nat with (N.to_nat (i_num_words i)) by lia.
  rewrite nth_error_firstn' by lia. rewrite nth_error_skipn', N0. reflexivity.
Qed.

(** What is reported for one instruction starting at word [io]. *)
Definition good_inst (io : nat) (i : pinst) : Prop :=
  (exists fw, peek_at words e io = Some fw /\ opcode_split fw = (i_num_words i, i_opcode i)) /\
  1 <= i_num_words i /\ (io + N.to_nat (i_num_words i) <= length words)%nat /\
  i_words i = host_words e (slice io (io + N.to_nat (i_num_words i))) /\
  ((good_ops io (i_operands i) (N.to_nat (i_num_words i)) /\
    i_result_id i = last (words_of_type T_RESULT_ID i) 0 /\
    i_type_id i = last (words_of_type T_TYPE_ID i) 0) \/ (hu = true /\ i_operands i = [])) /\
  i_num_operands i = N.of_nat (length (i_operands i)) mod 2 ^ 16.

Definition ids_step (st st' : pstate) (i : pinst) : Prop :=
  (forall k, id_to_type_id st k <> None -> id_to_type_id st' k <> None) /\
  (i_result_id i = 0 \/ (id_to_type_id st (i_result_id i) = None /\ id_to_type_id st' (i_result_id i) <> None)) /\
  NoDup (words_of_type T_RESULT_ID i) /\
  (forall r, In r (words_of_type T_RESULT_ID i) -> id_to_type_id st r = None /\ id_to_type_id st' r <> None).

Lemma peek_range_slice : forall n a l, peek_range words e a n = Some l -> l = host_words e (slice a (a + n)).
Proof.
  induction n as [|n IH]; intros a l H; cbn [peek_range] in H.
  - injection H as <-. unfold slice. replace (a + 0 - a)%nat with O by lia. reflexivity.
  - destruct (peek_at words e a) as [w|] eqn:P; [|discriminate].
    destruct (peek_range words e (S a) n) as [l'|] eqn:R; [|discriminate]. injection H as <-.
    apply IH in R. unfold peek_at in P. destruct (nth_error words a) as [w0|] eqn:N; [|discriminate].
    injection P as <-. rewrite R. replace (S a + n)%nat with (a + S n)%nat by lia.
    rewrite <- (slice_app a (S a) (a + S n)) by lia. rewrite (slice_one _ _ N). reflexivity.
Qed.
Lemma peek_range_some : forall n a, (a + n <= length words)%nat -> peek_range words e a n <> None.
Proof.
  induction n as [|n IH]; intros a H; cbn [peek_range]; [discriminate|].
  unfold peek_at at 1. destruct (nth_error words a) eqn:N0; [|apply nth_error_None in N0; lia].
  destruct (peek_range words e (S a) n) eqn:R; [discriminate|]. exfalso. eapply IH; eauto. lia.
Qed.

Lemma host_words_little l : requires_conversion e = false -> host_words e l = l.
Proof. unfold requires_conversion, host_words. destruct e; [|discriminate]. intros _. apply map_id. Qed.

Definition is_call (io : nat) (st : pstate) (trace : list event) (r : ires) : Prop :=
  exists i st', good_inst io i /\ ids_step st st' i /\
    word_index st' = (io + N.to_nat (i_num_words i))%nat /\ r = call cb trace i st'.
Definition is_error (trace : list event) (r : ires) : Prop :=
  exists code, code <> SPV_SUCCESS /\ r = IStop code trace.

Lemma emit_as_unknown_ok io fw op wc st0 st c trace : hu = true ->
  peek_at words e io = Some fw -> opcode_split fw = (wc, op) -> 1 <= wc ->
  (forall k, id_to_type_id st0 k <> None -> id_to_type_id st k <> None) ->
  (c_result c = 0 \/ (id_to_type_id st0 (c_result c) = None /\ id_to_type_id st (c_result c) <> None)) ->
  let r := emit_as_unknown cb words e io fw op wc st c trace in
  is_error trace r \/ is_call io st0 trace r.
Proof.
  intros Hu Pk Sp Wc Mono Res r. unfold r, emit_as_unknown.
  destruct (Nat.ltb_spec (length words) (io + N.to_nat wc)).
  { left. exists SPV_ERROR_INVALID_BINARY. split; [discriminate|reflexivity]. }
  right.
  destruct (if requires_conversion e then peek_range words e (S io) (N.to_nat wc - 1) else Some []) as [rest|] eqn:R.
  2:{ exfalso. destruct (requires_conversion e); [|discriminate]. eapply peek_range_some; [|eassumption]. lia. }
  cbv zeta. unfold is_call. do 2 eexists. repeat split; try reflexivity.
  all: cbn [i_num_words i_opcode i_words i_operands i_num_operands i_result_id id_to_type_id word_index].
  - exists fw. auto.
  - exact Wc.
  - lia.
  - destruct (requires_conversion e) eqn:RC.
    + apply peek_range_slice in R. subst rest.
      replace (S io + (N.to_nat wc - 1))%nat with (io + N.to_nat wc)%nat by lia.
      rewrite <- (slice_app io (S io) (io + N.to_nat wc)) by lia.
      unfold peek_at in Pk. destruct (nth_error words io) as [w0|] eqn:N0; [|discriminate].
      injection Pk as <-. rewrite (slice_one _ _ N0). reflexivity.
    + rewrite host_words_little by exact RC. unfold slice.
      replace (io + N.to_nat wc - io)%nat with (N.to_nat wc) by lia. reflexivity.
  - right. auto.
  - exact Mono.
  - exact Res.
  - constructor.
  - contradiction.
  - contradiction.
Qed.

Lemma split_wc fw wc op : opcode_split fw = (wc, op) -> wc < 2 ^ 16.
Proof. unfold opcode_split. intro H. injection H as <- _. apply N.mod_lt. discriminate. Qed.

(** One instruction: either an error is reported without a callback, or exactly one callback
    is made, for the words of this instruction; or the parser is stuck. *)
Lemma parse_instruction_ok st trace :
  let r := parse_instruction g hu cb words e st trace in
  r = IStuck \/ is_error trace r \/ is_call (word_index st) st trace r.
Proof.
  intro r. unfold r, parse_instruction. clear r.
  destruct (peek_at words e (word_index st)) as [fw|] eqn:Pk; [|left; reflexivity].
  destruct (opcode_split fw) as [wc op] eqn:Sp.
  assert (E1 : forall code, code <> SPV_SUCCESS -> is_error trace (IStop code trace)).
  { intros code H. exists code. auto. }
  destruct (N.ltb_spec wc 1) as [|Hwc]; [right; left; apply E1; discriminate|].
  assert (IoL : (word_index st < length words)%nat).
  { unfold peek_at in Pk. destruct (nth_error words (word_index st)) eqn:N0; [|discriminate].
    apply nth_error_Some. congruence. }
  set (io := word_index st) in *.
  set (c0 := {| c_ext := 0; c_type := 0; c_result := 0; c_words := [fw]; c_ops := []; c_exp := [] |}).
  set (st0 := {| word_index := S io; id_to_type_id := id_to_type_id st;
                 number_info := number_info st; imports := imports st |}).
  destruct (g_opcode g op) as [types|] eqn:Go.
  2:{ destruct hu eqn:Hu; simpl negb; cbv iota; [|right; left; apply E1; discriminate].
      right. eapply emit_as_unknown_ok; eauto. }
  cbv zeta.
  assert (I0 : linv io (id_to_type_id st) st0 (with_exp c0 (push_operand_types types []))).
  { unfold linv, good_ops. cbn [st0 word_index c_ops c_words c_result with_exp c0 id_to_type_id].
    repeat match goal with |- _ /\ _ => split end; auto; try lia; try constructor.
    - change (1 = N.of_nat (S io - io)). lia.
    - unfold peek_at in Pk. destruct (nth_error words io) as [w0|] eqn:N0; [|discriminate].
      injection Pk as <-. rewrite (slice_one _ _ N0). destruct (requires_conversion e); reflexivity.
    - intros k v H. congruence.
    - contradiction.
    - contradiction. }
  pose proof (operand_loop_inv io op wc (linv io (id_to_type_id st))) as LI.
  specialize (LI (fun s c ty p s' c' HI Hlt _ Hp => linv_step io op wc _ s c ty p s' c' (split_wc _ _ _ Sp) HI Hlt Hp)).
  specialize (LI (N.to_nat wc) (length (push_operand_types types [])) st0 _ I0).
  fold io. fold st0. fold c0.
  destruct (operand_loop g hu words e io op wc (N.to_nat wc) (length (push_operand_types types [])) st0
             (with_exp c0 (push_operand_types types []))) as [st1 c1|code retry st1 c1|] eqn:OL.
  - destruct LI as [(L & (T & Cc & Idn) & Wd & Mono & Res & (Nd & Fresh & Rl & Tl)) Hend].
    destruct (match c_exp c1 with [] => false | t :: _ => negb (is_optional t) end);
      [right; left; apply E1; discriminate|].
    destruct (Nat.eqb_spec (io + N.to_nat wc) (word_index st1)) as [Eq|]; simpl negb; cbv iota;
      [|right; left; apply E1; discriminate].
    destruct (record_number_type g words e io op wc (c_result c1) st1) as [st2|] eqn:RN; [|left; reflexivity].
    assert (R2 : word_index st2 = word_index st1 /\ id_to_type_id st2 = id_to_type_id st1).
    { unfold record_number_type in RN. cbv zeta in RN. brk RN; injection RN as <-; split; reflexivity. }
    destruct R2 as [R2w R2i].
    right; right. unfold is_call.
    set (i := {| i_words := if requires_conversion e then c_words c1 else firstn (N.to_nat wc) (skipn io words);
                 i_num_words := wc; i_opcode := op; i_ext_type := c_ext c1; i_type_id := c_type c1;
                 i_result_id := c_result c1; i_operands := c_ops c1;
                 i_num_operands := N.of_nat (length (c_ops c1)) mod 2 ^ 16 |}).
    assert (Go' : good_ops io (i_operands i) (N.to_nat (i_num_words i))).
    { cbn [i i_operands i_num_words]. unfold good_ops.
      replace (N.to_nat wc) with (word_index st1 - io)%nat by lia. auto. }
    assert (Iw : i_words i = host_words e (slice io (io + N.to_nat (i_num_words i)))).
    { cbn [i i_words i_num_words]. rewrite Eq. destruct (requires_conversion e) eqn:RC.
      * exact Wd.
      * rewrite host_words_little by exact RC. unfold slice. f_equal. lia. }
    assert (Bd : (io + N.to_nat (i_num_words i) <= length words)%nat) by (cbn [i i_num_words]; lia).
    pose proof (words_of_type_wats io T_RESULT_ID i eq_refl Bd Go' Iw) as WR.
    pose proof (words_of_type_wats io T_TYPE_ID i eq_refl Bd Go' Iw) as WT.
    exists i, st2. unfold good_inst, ids_step. rewrite WR, WT, R2w, R2i.
    repeat match goal with |- _ /\ _ => split end; auto.
    + exists fw. auto.
    + intros k Hk. destruct (id_to_type_id st k) eqn:K; [eapply Mono; eauto|congruence].
  - destruct retry.
    + destruct LI as [(c' & p & (L & _ & _ & Mono & Res & _) & ->) Hu]. right.
      eapply emit_as_unknown_ok; eauto.
      intros k Hk. destruct (id_to_type_id st k) eqn:K; [eapply Mono; eauto|congruence].
    + destruct (Z.eq_dec code SPV_SUCCESS) as [->|]; [|right; left; auto].
      (* no error carries the success code *)
      exfalso. clear - OL. revert OL. generalize (N.to_nat wc) (length (push_operand_types types [])) st0
        (with_exp c0 (push_operand_types types [])).
      intro w. induction w as [w IHw] using (well_founded_induction lt_wf).
      intro z. induction z as [z IHz] using (well_founded_induction lt_wf).
      intros s c H. rewrite operand_loop_eq in H.
      destruct (_ <? _)%nat; [|discriminate]. destruct (c_exp c); [discriminate|].
      destruct (take_first_matchable _) as [[ty q]|]; [|discriminate].
      destruct (parse_op io op ty s (with_exp c q)) as [[s' c']|code rr|] eqn:Po; try discriminate.
      * destruct (_ =? _)%nat; [destruct z; [discriminate|]|destruct w; [discriminate|]].
        -- eapply IHz; [|exact H]; lia.
        -- eapply IHw; [|exact H]; lia.
      * injection H as -> -> _ _. apply (proj2 (parse_op_err _ _ _ _ _ _ _ Po)). reflexivity.
  - left. reflexivity.
Qed.
End Proofs.
