(** Round trip of one operand inside its instruction: the state of the assembler follows the
    state of the parser. *)
From Verif Require Import Base Words WordsProofs Operand OperandProofs BinaryParse ParseSpec BinaryParseProofs.
From Verif Require Import TextLex TextSpec TextProofs ParseNumber NumberSpec NumberProofs NamedIds NamedIdsProofs.
From Verif Require Import Assembler Disassembler RoundTripSpec TokenReader RoundTripOperand RoundTripPattern RoundTripToken.
Local Open Scope N_scope.
Set Default Proof Using "Type".
Notation lead := RoundTripSpec.lead.

(** *** Shape of the fixed operands *)
Section Lead.
Variable t : tables.
Variable op : N.
Lemma lead_before j k : nth_error (lead t op) j = Some T_RESULT_ID -> (k <= j)%nat ->
  (k = j \/ (k = 0 /\ j = 1)%nat /\ nth_error (lead t op) 0 = Some T_TYPE_ID).
Proof.
  unfold lead.
  destruct (_ || _); [destruct j as [|[|[|[|[|j]]]]]; intros H L; try discriminate H; try lia;
    (destruct k as [|[|k]]; try lia; auto)|].
  destruct (_ || _); [destruct j as [|[|[|[|[|j]]]]]; intros H L; try discriminate H; try lia;
    (destruct k as [|[|k]]; try lia; auto)|].
  destruct (op =? OpSwitch); [destruct j as [|[|[|[|[|j]]]]]; intros H L; try discriminate H|].
  destruct (op =? OpExtInstImport); [destruct j as [|[|[|[|[|j]]]]]; intros H L; try discriminate H; lia|].
  destruct (op =? OpTypeInt); [destruct j as [|[|[|[|[|j]]]]]; intros H L; try discriminate H; lia|].
  destruct (op =? OpTypeFloat); [destruct j as [|[|[|[|[|j]]]]]; intros H L; try discriminate H; lia|].
  destruct (t_has_type t op), (t_has_result t op); destruct j as [|[|j]]; intros H L; cbn in H; try discriminate H;
    try (destruct j; discriminate H); try lia; destruct k as [|[|k]]; try lia; auto.
Qed.
Lemma lead_result_unique j k : nth_error (lead t op) j = Some T_RESULT_ID -> nth_error (lead t op) k = Some T_RESULT_ID -> j = k.
Proof.
  intros A B. destruct (Nat.le_ge_cases j k) as [L|L].
  - destruct (lead_before _ _ B L) as [->|[[-> ->] C]]; [reflexivity|congruence].
  - destruct (lead_before _ _ A L) as [->|[[-> ->] C]]; [reflexivity|congruence].
Qed.
Lemma lead_result_le j : nth_error (lead t op) j = Some T_RESULT_ID -> (j <= 1)%nat.
Proof.
  intros A. destruct (lead_before _ 0 A) as [<-|[[_ ->] _]]; lia.
Qed.
Lemma lead_type j : nth_error (lead t op) j = Some T_TYPE_ID -> j = 0%nat.
Proof.
  unfold lead.
  destruct (_ || _); [destruct j as [|[|[|[|[|j]]]]]; intros H; try discriminate H; reflexivity|].
  destruct (_ || _); [destruct j as [|[|[|[|[|j]]]]]; intros H; try discriminate H; reflexivity|].
  destruct (op =? OpSwitch); [destruct j as [|[|[|[|[|j]]]]]; intros H; try discriminate H|].
  destruct (op =? OpExtInstImport); [destruct j as [|[|[|[|[|j]]]]]; intros H; try discriminate H|].
  destruct (op =? OpTypeInt); [destruct j as [|[|[|[|[|j]]]]]; intros H; try discriminate H|].
  destruct (op =? OpTypeFloat); [destruct j as [|[|[|[|[|j]]]]]; intros H; try discriminate H|].
  destruct (t_has_type t op), (t_has_result t op); destruct j as [|[|j]]; intros H; cbn in H; try discriminate H;
    try (destruct j; discriminate H); reflexivity.
Qed.
Lemma lead_ext : is_extended_instruction op = true ->
  lead t op = [T_TYPE_ID; T_RESULT_ID; T_ID; T_EXTENSION_INSTRUCTION_NUMBER].
Proof. unfold lead, is_extended_instruction. intros ->. reflexivity. Qed.
Lemma lead_switch : op = OpSwitch -> lead t op = [T_ID; T_ID; T_VARIABLE_LITERAL_INTEGER_ID].
Proof. intros ->. reflexivity. Qed.
Lemma lead_import : op = OpExtInstImport -> lead t op = [T_RESULT_ID; T_LITERAL_STRING].
Proof. intros ->. reflexivity. Qed.

Lemma loc_at ts off ty k ty0 : loc t op ts off ty -> nth_error (lead t op) k = Some ty0 -> off = S k ->
  ty0 <> T_VARIABLE_LITERAL_INTEGER_ID -> ty = ty0.
Proof.
  intros L E ->  NV. destruct L as [_ L|OS L _|L _ _].
  - replace (S k - 1)%nat with k in L by lia. congruence.
  - exfalso. rewrite (lead_switch OS) in E. destruct k as [|[|[|k]]]; try lia; [cbn in E; congruence|destruct k; discriminate].
  - exfalso. assert (k < length (lead t op))%nat by (apply nth_error_Some; congruence). lia.
Qed.
Lemma loc_pos ts off ty : loc t op ts off ty -> (1 <= off)%nat.
Proof. intros []; lia. Qed.
Lemma loc_type ts off : loc t op ts off T_TYPE_ID -> off = 1%nat /\ nth_error (lead t op) 0 = Some T_TYPE_ID.
Proof.
  intros [P L|_ _ [|]|_ [L _] _]; try discriminate. pose proof (lead_type _ L) as Z. rewrite Z in L. split; [lia|exact L].
Qed.
Lemma loc_result ts off : loc t op ts off T_RESULT_ID -> nth_error (lead t op) (off - 1) = Some T_RESULT_ID.
Proof. intros [P L|_ _ [|]|_ [L _] _]; try discriminate. exact L. Qed.
Lemma loc_number ts off : loc t op ts off T_EXTENSION_INSTRUCTION_NUMBER -> is_extended_instruction op = true /\ off = 4%nat.
Proof.
  intros [P L|_ _ [|]|_ [L _] _]; try discriminate. revert L. unfold lead, is_extended_instruction.
  destruct (_ || _).
  { destruct off as [|[|[|[|[|off]]]]]; cbn; intros L; try discriminate L; auto. destruct off; discriminate L. }
  destruct (_ || _); [destruct (off - 1)%nat as [|[|[|[|k]]]]; cbn; intros L; discriminate L|].
  destruct (op =? OpSwitch); [destruct (off - 1)%nat as [|[|[|[|k]]]]; cbn; intros L; discriminate L|].
  destruct (op =? OpExtInstImport); [destruct (off - 1)%nat as [|[|[|[|k]]]]; cbn; intros L; discriminate L|].
  destruct (op =? OpTypeInt); [destruct (off - 1)%nat as [|[|[|[|k]]]]; cbn; intros L; discriminate L|].
  destruct (op =? OpTypeFloat); [destruct (off - 1)%nat as [|[|[|[|k]]]]; cbn; intros L; discriminate L|].
  destruct (t_has_type t op), (t_has_result t op); destruct (off - 1)%nat as [|[|[|k]]]; cbn; intros L; discriminate L.
Qed.
Lemma loc_typed ts off ty : loc t op ts off ty -> ty = T_TYPED_LITERAL_NUMBER \/ ty = T_OPTIONAL_TYPED_LITERAL_INTEGER ->
  ((op = OpConstant \/ op = OpSpecConstant) /\ off = 3%nat) \/ (op = OpSwitch /\ (3 <= off)%nat).
Proof.
  intros [P L|OS G _|_ [L _] _] T; [|auto|destruct T as [-> | ->]; discriminate L]. left. revert L. unfold lead.
  destruct (_ || _); [destruct (off - 1)%nat as [|[|[|[|[|k]]]]]; cbn; intros L; try discriminate L; injection L as <-; destruct T; discriminate|].
  destruct (N.eqb_spec op OpConstant).
  { cbn [orb]. destruct (off - 1)%nat as [|[|[|[|k]]]] eqn:E; cbn; intros L; try discriminate L; try (injection L as <-; destruct T; discriminate).
    split; [auto|lia]. }
  destruct (N.eqb_spec op OpSpecConstant).
  { cbn [orb]. destruct (off - 1)%nat as [|[|[|[|k]]]] eqn:E; cbn; intros L; try discriminate L; try (injection L as <-; destruct T; discriminate).
    split; [auto|lia]. }
  cbn [orb].
  destruct (op =? OpSwitch); [destruct (off - 1)%nat as [|[|[|[|k]]]]; cbn; intros L; try discriminate L; injection L as <-; destruct T; discriminate|].
  destruct (op =? OpExtInstImport); [destruct (off - 1)%nat as [|[|[|[|k]]]]; cbn; intros L; try discriminate L; injection L as <-; destruct T; discriminate|].
  destruct (op =? OpTypeInt); [destruct (off - 1)%nat as [|[|[|[|k]]]]; cbn; intros L; try discriminate L; injection L as <-; destruct T; discriminate|].
  destruct (op =? OpTypeFloat); [destruct (off - 1)%nat as [|[|[|[|k]]]]; cbn; intros L; try discriminate L; injection L as <-; destruct T; discriminate|].
  destruct (t_has_type t op), (t_has_result t op); destruct (off - 1)%nat as [|[|[|k]]]; cbn; intros L; try discriminate L; injection L as <-; destruct T; discriminate.
Qed.
Lemma loc_string ts off ty : loc t op ts off ty -> op = OpExtInstImport ->
  ty = T_LITERAL_STRING \/ ty = T_OPTIONAL_LITERAL_STRING -> off = 2%nat.
Proof.
  intros [P L|OS _ _|L _ OL] E T; [|rewrite E in OS; discriminate OS|rewrite E in OL; discriminate OL].
  rewrite (lead_import E) in L. destruct off as [|[|[|[|k]]]]; cbn in L; try discriminate L; try lia.
  destruct T as [-> | ->]; discriminate L.
Qed.
Lemma loc_import ts off ty : loc t op ts off ty -> ty <> T_RESULT_ID -> ty <> T_LITERAL_STRING -> op <> OpExtInstImport.
Proof.
  intros LC NR NS E. destruct LC as [P L|OS _ _|_ _ OL]; [|rewrite E in OS; discriminate OS|rewrite E in OL; discriminate OL].
  rewrite (lead_import E) in L. destruct (off - 1)%nat as [|[|k]]; cbn in L; [congruence|congruence|]. destruct k; discriminate L.
Qed.
Lemma loc_ext_set ts off ty : loc t op ts off ty -> is_extended_instruction op = true -> off = 3%nat -> ty = T_ID.
Proof.
  intros L E ->. apply (loc_at ts 3 ty 2 T_ID L); [rewrite (lead_ext E); reflexivity|reflexivity|discriminate].
Qed.
Lemma loc_strict ts off ty : loc t op ts off ty -> strict_mask ty = true -> In ty ts.
Proof.
  intros [P L|OS _ [T|T]|_ [_ H] _] S; [|rewrite T in S; discriminate S|rewrite T in S; discriminate S|exact (H S)]. exfalso. revert L. unfold lead.
  destruct (_ || _); [destruct (off - 1)%nat as [|[|[|[|[|k]]]]]; cbn; intros L; try discriminate L; injection L as <-; discriminate|].
  destruct (_ || _); [destruct (off - 1)%nat as [|[|[|[|[|k]]]]]; cbn; intros L; try discriminate L; injection L as <-; discriminate|].
  destruct (op =? OpSwitch); [destruct (off - 1)%nat as [|[|[|[|k]]]]; cbn; intros L; try discriminate L; injection L as <-; discriminate|].
  destruct (op =? OpExtInstImport); [destruct (off - 1)%nat as [|[|[|[|k]]]]; cbn; intros L; try discriminate L; injection L as <-; discriminate|].
  destruct (op =? OpTypeInt); [destruct (off - 1)%nat as [|[|[|[|k]]]]; cbn; intros L; try discriminate L; injection L as <-; discriminate|].
  destruct (op =? OpTypeFloat); [destruct (off - 1)%nat as [|[|[|[|k]]]]; cbn; intros L; try discriminate L; injection L as <-; discriminate|].
  destruct (t_has_type t op), (t_has_result t op); destruct (off - 1)%nat as [|[|[|k]]]; cbn; intros L; try discriminate L; injection L as <-; discriminate.
Qed.
End Lead.

(** *** The correspondence of states *)
Section Step.
Set Default Proof Using "All".
Variable g : grammar.
Variable t : tables.
Hypothesis K : tables_ok g t.
Variable nm : N -> list N.
Variable words : list N.
Hypothesis WOK : Forall word_ok words.
Variable D : N -> Prop.                  (* the ids of the module *)
Variable r : N -> N.                     (* what they are renamed to *)
Hypothesis NV : forall id, D id -> is_valid_id (nm id) = true.

(** between instructions *)
Record mrel (st : pstate) (x : actx) : Prop := {
  m_types : forall id, D id -> x_types x (r id) = option_map conv (number_info st id);
  m_values_none : forall id, D id -> id_to_type_id st id = None -> x_values x (r id) = None;
  m_values : forall id ty, D id -> id_to_type_id st id = Some ty -> ty <> 0 -> ty <> id ->
               D ty /\ x_values x (r id) = Some (r ty);
  m_imports : forall id, D id -> x_imports x (r id) = imports st id;
  m_def : forall id, number_info st id <> None \/ imports st id <> None -> id_to_type_id st id <> None
}.

(** inside the instruction [i] at word [io] *)
Variable io : nat.
Variable wc op : N.
Variable ts : list otype.
Variable i : pinst.
Variable st0 : pstate.
Variable x0 : actx.
Hypothesis G : g_opcode g op = Some ts.
Hypothesis WC : wc < 2 ^ 16.
Hypothesis FIT : (io + N.to_nat wc <= length words)%nat.
Hypothesis IW : i_words i = firstn (N.to_nat wc) (skipn io words).
Hypothesis IOP : i_opcode i = op.
Hypothesis M0 : mrel st0 x0.

Definition ren (o : poperand) : list N :=
  if is_id_type (o_type o) then map r (operand_words i o) else operand_words i o.

Notation off st := (word_index st - io)%nat.
Record lrel (st : pstate) (c : cur) (x : actx) (ai : ainst) : Prop := {
  l_pos : (io < word_index st)%nat;
  l_op : a_opcode ai = op;
  l_ext : a_ext ai = c_ext c;
  l_words : a_words ai = 0 :: flat_map ren (c_ops c);
  l_len : length (a_words ai) = off st;
  l_type : nth_error (lead t op) 0 = Some T_TYPE_ID -> (2 <= off st)%nat ->
    c_type c <> 0 /\ D (c_type c) /\ a_rtype ai = r (c_type c) /\ nth 1 (a_words ai) 0 = r (c_type c);
  l_type0 : nth_error (lead t op) 0 <> Some T_TYPE_ID -> c_type c = 0;
  l_res : forall j, nth_error (lead t op) j = Some T_RESULT_ID -> (j + 2 <= off st)%nat ->
    D (c_result c) /\ c_result c <> 0 /\ nth (S j) (a_words ai) 0 = r (c_result c) /\
    id_to_type_id st0 (c_result c) = None /\
    id_to_type_id st = upd (id_to_type_id st0) (c_result c) (if g_generates_type g op then c_result c else c_type c);
  l_res0 : (forall j, nth_error (lead t op) j <> Some T_RESULT_ID) -> c_result c = 0;
  l_unres : (forall j, nth_error (lead t op) j = Some T_RESULT_ID -> (off st < j + 2)%nat) -> id_to_type_id st = id_to_type_id st0;
  l_sel : op = OpSwitch -> (2 <= off st)%nat ->
    exists sel, nth_error words (io + 1) = Some sel /\ D sel /\ nth 1 (a_words ai) 0 = r sel;
  l_types : x_types x = x_types x0;
  l_values : x_values x = x_values x0;
  l_info : number_info st = number_info st0;
  l_imports : op <> OpExtInstImport \/ (off st <= 2)%nat -> x_imports x = x_imports x0 /\ imports st = imports st0;
  l_import : op = OpExtInstImport -> (2 < off st)%nat -> exists ty,
    x_imports x = upd (x_imports x0) (r (c_result c)) ty /\ imports st = upd (imports st0) (c_result c) ty
}.

Definition bump (st : pstate) (nw : nat) : pstate :=
  {| word_index := word_index st + nw; id_to_type_id := id_to_type_id st; number_info := number_info st; imports := imports st |}.
Definition with_op (c : cur) (o : poperand) : cur :=
  {| c_ext := c_ext c; c_type := c_type c; c_result := c_result c; c_words := c_words c; c_ops := c_ops c ++ [o]; c_exp := c_exp c |}.

Lemma nth_app_old (l m : list N) k : (k < length l)%nat -> nth k (l ++ m) 0 = nth k l 0.
Proof. intros L. apply app_nth1. exact L. Qed.

(** An operand that is neither the type nor the result of the instruction *)
Lemma lrel_plain st c x ai o nw ids ai' c' ty :
  lrel st c x ai -> loc t op ts (off st) ty -> ty <> T_TYPE_ID -> ty <> T_RESULT_ID ->
  op <> OpExtInstImport ->
  (1 <= nw)%nat -> length (ren o) = nw ->
  (op = OpSwitch -> off st = 1%nat -> exists w, nth_error words (io + 1) = Some w /\ D w /\ ren o = [r w]) ->
  a_opcode ai' = a_opcode ai -> a_rtype ai' = a_rtype ai -> a_words ai' = a_words ai ++ ren o ->
  a_ext ai' = c_ext c' -> c_type c' = c_type c -> c_result c' = c_result c -> c_ops c' = c_ops c ->
  lrel (bump st nw) (with_op c' o) (set_ids x ids) ai'.
Proof.
  intros L LC NT NR IMP GE LN SW A1 A2 A3 A4 C1 C2 C3. pose proof (loc_pos _ _ _ _ _ LC) as P1.
  assert (NB : forall j, nth_error (lead t op) j = Some T_RESULT_ID -> (j + 2 <= off st + nw)%nat -> (j + 2 <= off st)%nat).
  { intros j E LE. destruct (Nat.le_gt_cases (j + 2) (off st)) as [X|X]; [exact X|]. exfalso.
    destruct (lead_before t op j (off st - 1) E ltac:(lia)) as [EQ|[[EQ _] ET]].
    - apply NR. apply (loc_at t op ts (off st) ty j T_RESULT_ID LC E); [lia|discriminate].
    - apply NT. apply (loc_at t op ts (off st) ty 0 T_TYPE_ID LC ET); [lia|discriminate]. }
  assert (LW : forall k, (k < off st)%nat -> nth k (a_words ai') 0 = nth k (a_words ai) 0).
  { intros k LK. rewrite A3. apply nth_app_old. rewrite (l_len _ _ _ _ L). exact LK. }
  constructor; cbn [word_index bump c_ext c_type c_result c_ops with_op id_to_type_id number_info imports
                    x_types x_values x_imports set_ids]; rewrite ?C1, ?C2, ?C3.
  - pose proof (l_pos _ _ _ _ L). lia.
  - rewrite A1. apply (l_op _ _ _ _ L).
  - exact A4.
  - rewrite A3, (l_words _ _ _ _ L), flat_map_app. cbn [flat_map]. rewrite app_nil_r. reflexivity.
  - rewrite A3, app_length, (l_len _ _ _ _ L), LN. lia.
  - intros E LE. rewrite A2. assert (G2 : (2 <= off st)%nat).
    { destruct (Nat.le_gt_cases 2 (off st)) as [X|X]; [exact X|]. exfalso. apply NT.
      apply (loc_at t op ts (off st) ty 0 T_TYPE_ID LC E); [lia|discriminate]. }
    rewrite LW by lia. apply (l_type _ _ _ _ L E G2).
  - apply (l_type0 _ _ _ _ L).
  - intros j E LE. pose proof (NB j E ltac:(lia)) as LE2. rewrite LW by lia. apply (l_res _ _ _ _ L j E LE2).
  - apply (l_res0 _ _ _ _ L).
  - intros H. apply (l_unres _ _ _ _ L). intros j E. specialize (H j E). lia.
  - intros OS LE. destruct (Nat.le_gt_cases 2 (off st)) as [X|X].
    + rewrite LW by lia. apply (l_sel _ _ _ _ L OS X).
    + destruct (SW OS ltac:(lia)) as (w & NE & DW & RW). exists w. split; [exact NE|]. split; [exact DW|].
      rewrite A3, RW. rewrite app_nth2; rewrite (l_len _ _ _ _ L); [|lia]. replace (1 - off st)%nat with 0%nat by lia. reflexivity.
  - apply (l_types _ _ _ _ L).
  - apply (l_values _ _ _ _ L).
  - apply (l_info _ _ _ _ L).
  - intros _. apply (l_imports _ _ _ _ L). left. exact IMP.
  - congruence.
Qed.

(** The words of the operand *)
Lemma operand_words_at st o nw : (io < word_index st)%nat -> o_offset o = N.of_nat (off st) -> o_num_words o = N.of_nat nw ->
  (word_index st + nw <= io + N.to_nat wc)%nat ->
  operand_words i o = firstn nw (skipn (word_index st) words).
Proof.
  intros P O W L. unfold operand_words. rewrite IW, O, W, !Nat2N.id.
  rewrite skipn_firstn_comm, firstn_firstn, skipn_skipn_add. f_equal; [lia|f_equal; lia].
Qed.
Lemma operand_word_at st o w : (io < word_index st)%nat -> o_offset o = N.of_nat (off st) ->
  nth_error words (word_index st) = Some w -> (word_index st < io + N.to_nat wc)%nat -> operand_word i o = w.
Proof.
  intros P O NE L. unfold operand_word. rewrite IW, O, Nat2N.id.
  apply nth_error_nth. rewrite nth_error_firstn' by lia. rewrite nth_error_skipn'.
  replace (io + off st)%nat with (word_index st) by lia. exact NE.
Qed.
Lemma firstn_one (k : nat) w : nth_error words k = Some w -> firstn 1 (skipn k words) = [w].
Proof.
  intros H. rewrite (nth_error_split_eq _ _ _ H) at 1. rewrite skipn_app.
  rewrite skipn_all2 by (rewrite firstn_length; lia). cbn [app].
  assert (L : (k < length words)%nat) by (apply nth_error_Some; congruence).
  replace (k - length (firstn k words))%nat with 0%nat by (rewrite firstn_length; lia). reflexivity.
Qed.
Lemma word_lt k w : nth_error words k = Some w -> w < 2 ^ 32.
Proof. intros H. rewrite Forall_forall in WOK. apply WOK. eapply nth_error_In; eauto. Qed.
Lemma token_bang w : operand_token w -> match w with c :: _ => c =? c_bang | [] => false end = false.
Proof.
  intros (_ & _ & _ & H). destruct w as [|c w]; [reflexivity|]. cbn in H. apply N.eqb_neq. exact H.
Qed.

(** Reading an id *)
Lemma encode_id_ok ty word x ai ids' : D word -> assign_or_get (x_ids x) (nm word) = Some (ids', r word) ->
  a_opcode ai = op -> is_extended_instruction op && (N.of_nat (length (a_words ai)) =? 3) = false ->
  encode_id ty (c_percent :: nm word) x ai =
  AOk (set_ids x ids', {| a_opcode := a_opcode ai; a_ext := a_ext ai;
    a_rtype := if otype_eqb ty T_TYPE_ID then r word else a_rtype ai; a_words := a_words ai ++ [r word] |}).
Proof.
  intros DW AG OP NX. unfold encode_id. change (c_percent =? c_percent) with true. cbn [negb].
  rewrite (NV _ DW), AG. cbn [negb a_opcode a_words]. rewrite OP, app_length. cbn [length].
  replace (length (a_words ai) + 1 =? 4)%nat with (N.of_nat (length (a_words ai)) =? 3).
  { rewrite NX. reflexivity. }
  destruct (N.eqb_spec (N.of_nat (length (a_words ai))) 3), (Nat.eqb_spec (length (a_words ai) + 1) 4); try reflexivity; lia.
Qed.
Lemma encode_set_ok ty word x ai ids' s : D word -> assign_or_get (x_ids x) (nm word) = Some (ids', r word) ->
  a_opcode ai = op -> is_extended_instruction op = true -> length (a_words ai) = 3%nat -> x_imports x (r word) = Some s ->
  encode_id ty (c_percent :: nm word) x ai =
  AOk (set_ids x ids', {| a_opcode := a_opcode ai; a_ext := s;
    a_rtype := if otype_eqb ty T_TYPE_ID then r word else a_rtype ai; a_words := a_words ai ++ [r word] |}).
Proof.
  intros DW AG OP EX LN XI. unfold encode_id. change (c_percent =? c_percent) with true. cbn [negb].
  rewrite (NV _ DW), AG. cbn [negb a_opcode a_words a_ext a_rtype]. rewrite OP, EX, app_length, LN. cbn [length Nat.add Nat.eqb andb].
  rewrite app_nth2 by lia. rewrite LN. cbn [Nat.sub nth]. rewrite XI. reflexivity.
Qed.

(** Reading names *)
Lemma encode_enum ty text x ai p : is_enum_case ty = true \/ ty = T_SOURCE_LANGUAGE ->
  match text with c :: _ => c =? c_bang | [] => false end = false ->
  encode_operand g t ty text x ai p =
  match t_operand_find t ty text with
  | None => AErr SPV_ERROR_INVALID_TEXT
  | Some v => match g_operand g ty v with
              | Some ts => AOk (x, add_words ai [v], push_operand_types ts p)
              | None => AStuck
              end
  end.
Proof.
  intros E B. unfold encode_operand. rewrite B. destruct E as [E| ->]; [destruct ty; try discriminate E; reflexivity|reflexivity].
Qed.
Lemma encode_mask ty text x ai p : is_mask_case ty = true ->
  match text with c :: _ => c =? c_bang | [] => false end = false ->
  encode_operand g t ty text x ai p =
  if strict_mask ty then
    match t_operand_find t ty text with
    | None => AErr SPV_ERROR_INVALID_TEXT
    | Some v => match g_operand g ty v with
                | Some ts => AOk (x, add_words ai [v], push_operand_types ts p)
                | None => AStuck
                end
    end
  else match parse_mask t ty text with
       | inr code => AErr code
       | inl v => AOk (x, add_words ai [v], push_for_mask (g_operand g) ty v p)
       end.
Proof.
  intros E B. unfold encode_operand. rewrite B. destruct ty; try discriminate E; reflexivity.
Qed.
Lemma emit_enum o : is_id_type (o_type o) = false -> is_concrete_mask (o_type o) = false ->
  (exists ty, (is_enum_case ty = true \/ ty = T_SOURCE_LANGUAGE) /\ o_type o = enum_concrete ty) ->
  emit_operand g t nm i o = t_operand_name t (o_type o) (operand_word i o).
Proof.
  intros _ _ (ty & E & EQ). unfold emit_operand. fold (operand_word i o). rewrite EQ.
  destruct E as [E| ->]; [destruct ty; try discriminate E; reflexivity|reflexivity].
Qed.
Lemma emit_mask_operand o ty : is_mask_case ty = true -> o_type o = enum_concrete ty ->
  emit_operand g t nm i o = emit_mask g t (enum_concrete ty) (operand_word i o).
Proof.
  intros E EQ. unfold emit_operand. fold (operand_word i o). rewrite EQ. destruct ty; try discriminate E; reflexivity.
Qed.
Lemma printable_mask o ty : is_mask_case ty = true -> o_type o = enum_concrete ty -> printable_operand g t i o ->
  (operand_word i o = 0 -> g_operand g (enum_concrete ty) 0 <> None) /\
  (strict_mask ty = true -> In ty ts -> operand_word i o = 0 \/ exists k, operand_word i o = 2 ^ k).
Proof.
  intros E EQ P. unfold printable_operand in P. rewrite EQ in P.
  assert (Q : is_concrete_mask (enum_concrete ty) = true ->
      (operand_word i o = 0 -> g_operand g (enum_concrete ty) 0 <> None) /\
      (strict_mask (enum_concrete ty) = true -> (exists ts, g_opcode g (i_opcode i) = Some ts /\ In (enum_concrete ty) ts) ->
       operand_word i o = 0 \/ exists k, operand_word i o = 2 ^ k)).
  { destruct ty; try discriminate E; exact P. }
  destruct (Q (mask_concrete ty E)) as [A B]. split; [exact A|]. intros S I.
  assert (X : enum_concrete ty = ty) by (destruct ty; try discriminate S; reflexivity).
  rewrite X in B. apply B; [exact S|]. exists ts. rewrite IOP. auto.
Qed.

Lemma set_ids_same x : set_ids x (x_ids x) = x.
Proof. destruct x; reflexivity. Qed.

Lemma string_read st nw s s' : (io < word_index st)%nat -> Forall (fun b => b <> 0 /\ b < 256) s' ->
  firstn nw (skipn (word_index st) words) = make_vector s' ->
  s = fst (make_string (firstn (length words - word_index st) (skipn (word_index st) words))) ->
  N.of_nat (length s / 4 + 1) = N.of_nat nw -> (word_index st + nw <= io + N.to_nat wc)%nat ->
  s = s' /\ N.of_nat (off st + (length s' / 4 + 1)) <= 65535 /\ text_to_literal (print_string s') = Lit_ok (Lit_string s') /\
  operand_token (print_string s') /\ fst (make_string (make_vector s')) = s'.
Proof.
  intros LP SB SW ES NW FT.
  assert (BO : Forall byte_ok s') by (eapply Forall_impl; [|exact SB]; intros c [_ H]; exact H).
  assert (N0 : ~ In 0 s') by (intros I; rewrite Forall_forall in SB; destruct (SB _ I); congruence).
  assert (E : s = s').
  { rewrite ES, (firstn_all2 (skipn _ _)) by (rewrite skipn_length; lia).
    rewrite <- (firstn_skipn nw (skipn (word_index st) words)), SW, (make_string_vector _ _ BO). cbn [fst]. apply until_nul_id. exact N0. }
  rewrite E in NW. clear ES. split; [exact E|].
  assert (B : N.of_nat (off st + (length s' / 4 + 1)) <= 65535) by (change (2 ^ 16) with 65536 in WC; lia).
  split; [exact B|]. assert (F0 : Forall (fun c => c <> 0) s') by (eapply Forall_impl; [|exact SB]; intros c [H _]; exact H).
  split; [|split].
  - apply print_string_read; [exact F0|]. change literal_string_bytes_max with 262140.
    pose proof (Nat.div_mod (length s') 4 ltac:(lia)). pose proof (Nat.mod_upper_bound (length s') 4 ltac:(lia)). lia.
  - split; [apply printed_string_word; exact F0|]. split; [unfold print_string; destruct (flat_map escape_char s') as [|c0 [|c1 l0]]; reflexivity|]. split; [discriminate|cbn; discriminate].
  - rewrite <- (app_nil_r (make_vector s')), (make_string_vector _ _ BO). cbn [fst]. apply until_nul_id. exact N0.
Qed.

Tactic Notation "plain_case" constr(L) constr(LC) constr(RN) tactic3(sw) :=
  match type of LC with loc _ _ _ _ ?ty => match type of L with lrel ?st ?c ?x ?ai =>
  eapply (lrel_plain st c x ai _ _ _ _ _ ty L LC) end end;
  [solve [assumption|discriminate] | solve [assumption|discriminate] | solve [assumption|congruence] | lia
  |rewrite RN; solve [reflexivity|assumption] |sw |reflexivity
  |solve [reflexivity|assumption|cbn [a_rtype]; match goal with H : otype_eqb _ T_TYPE_ID = false |- _ => rewrite H end; reflexivity]
  |cbn [add_words a_words]; rewrite RN; solve [reflexivity|assumption]
  |solve [exact (l_ext _ _ _ _ L)|reflexivity] |reflexivity |reflexivity |reflexivity].
Lemma encode_step ty p word st c x ai st1 c1 o nw ids' :
  lrel st c x ai -> loc t op ts (off st) ty ->
  pcase g words io op ty word (N.of_nat (off st)) st (with_exp c p) st1 c1 o ->
  nth_error words (word_index st) = Some word ->
  o_num_words o = N.of_nat nw -> (word_index st < io + N.to_nat wc)%nat -> (word_index st + nw <= io + N.to_nat wc)%nat ->
  printable_operand g t i o ->
  (ty = T_EXTENSION_INSTRUCTION_NUMBER -> i_ext_type i = c_ext c) ->
  (if is_id_type (o_type o) then D word /\ assign_or_get (x_ids x) (nm word) = Some (ids', r word) else ids' = x_ids x) ->
  exists x' ai', encode_operand g t ty (emit_operand g t nm i o) x ai p = AOk (x', ai', c_exp c1) /\ x_ids x' = ids' /\
    operand_token (emit_operand g t nm i o) /\ (1 <= nw)%nat /\
    lrel (bump st1 nw) (with_op c1 o) x' ai' /\ (c_type c1 = c_type c \/ ty = T_TYPE_ID) /\
    (ty = T_RESULT_ID -> c_result c1 = word) /\ (ty <> T_RESULT_ID -> c_result c1 = c_result c).
Proof.
  intros L LC PC NE NW LT FT PR EXT ID.
  pose proof (loc_pos _ _ _ _ _ LC) as P1. pose proof (l_pos _ _ _ _ L) as LP.
  assert (OFF : o_offset o = N.of_nat (off st)) by (destruct PC; reflexivity).
  pose proof (operand_words_at st o nw LP OFF NW FT) as OW.
  pose proof (operand_word_at st o word LP OFF NE LT) as OV.
  pose proof (word_lt _ _ NE) as WL.
  assert (ONE : o_num_words o = 1 -> nw = 1%nat /\ operand_words i o = [word]).
  { intros E. assert (nw = 1%nat) by lia. subst nw. split; [reflexivity|]. rewrite OW. apply firstn_one. exact NE. }
  assert (LN : N.of_nat (length (a_words ai)) = N.of_nat (off st)) by (rewrite (l_len _ _ _ _ L); reflexivity).
  destruct PC as [ -> NZ| -> NZ FR|T NZ NX|s T NZ EX O3 IM|T NZ|ts' -> GE| -> GE NS|a b ts' -> SP GO|T| -> |info nw' tid T SI TC
                 |s T ES NI LS|s T ES EI NT LS|ts' T GO|p' T ML];
    cbn [o_type o_num_words plain_op is_id_type] in *.
  - (* type *)
    destruct ID as [DW AG]. destruct (ONE eq_refl) as [ -> OWS]. destruct (loc_type _ _ _ _ LC) as [O1 LT0].
    assert (EM : emit_operand g t nm i (plain_op (N.of_nat (off st)) T_TYPE_ID) = c_percent :: nm word).
    { unfold emit_operand. fold (operand_word i (plain_op (N.of_nat (off st)) T_TYPE_ID)). rewrite OV. reflexivity. }
    pose proof (id_token _ (NV _ DW)) as TK. rewrite EM.
    assert (NX : is_extended_instruction op && (N.of_nat (length (a_words ai)) =? 3) = false).
    { rewrite LN, O1. apply andb_false_r. }
    do 2 eexists. split; [|split; [|split; [exact TK|split; [lia|split; [|split; [|split]]]]]].
    + unfold encode_operand. rewrite (token_bang _ TK).
      rewrite (encode_id_ok T_TYPE_ID word x ai ids' DW AG (l_op _ _ _ _ L) NX). reflexivity.
    + reflexivity.
    + constructor; cbn [word_index bump c_ext c_type c_result c_ops with_op with_type with_exp id_to_type_id number_info imports
                    x_types x_values x_imports set_ids a_opcode a_ext a_rtype a_words otype_eqb].
      * lia.
      * apply (l_op _ _ _ _ L).
      * apply (l_ext _ _ _ _ L).
      * rewrite (l_words _ _ _ _ L), flat_map_app. cbn [flat_map]. unfold ren at 3. cbn [plain_op o_type is_id_type].
        change {| o_offset := N.of_nat (off st); o_num_words := 1; o_type := T_TYPE_ID; o_kind := NK_NONE;
                  o_bit_width := 0; o_encoding := 0 |} with (plain_op (N.of_nat (off st)) T_TYPE_ID).
        rewrite OWS. reflexivity.
      * rewrite app_length, (l_len _ _ _ _ L). cbn. lia.
      * intros _ _. split; [exact NZ|]. split; [exact DW|]. split; [reflexivity|].
        rewrite app_nth2; rewrite (l_len _ _ _ _ L), O1; [reflexivity|lia].
      * congruence.
      * intros j E LE. exfalso. assert (j = 0)%nat by lia. subst j. congruence.
      * apply (l_res0 _ _ _ _ L).
      * intros H. apply (l_unres _ _ _ _ L). intros j E. specialize (H j E). lia.
      * intros OS. exfalso. rewrite (lead_switch t op OS) in LT0. discriminate LT0.
      * apply (l_types _ _ _ _ L).
      * apply (l_values _ _ _ _ L).
      * apply (l_info _ _ _ _ L).
      * intros _. apply (l_imports _ _ _ _ L). right. lia.
      * intros OS. exfalso. rewrite (lead_import t op OS) in LT0. discriminate LT0.
    + auto.
    + discriminate.
    + reflexivity.
  - (* result *)
    destruct ID as [DW AG]. destruct (ONE eq_refl) as [-> OWS]. pose proof (loc_result _ _ _ _ LC) as LR.
    pose proof (lead_result_le _ _ _ LR) as LE1.
    assert (EM : emit_operand g t nm i (plain_op (N.of_nat (off st)) T_RESULT_ID) = c_percent :: nm word).
    { unfold emit_operand. fold (operand_word i (plain_op (N.of_nat (off st)) T_RESULT_ID)). rewrite OV. reflexivity. }
    pose proof (id_token _ (NV _ DW)) as TK. rewrite EM.
    assert (NX : is_extended_instruction op && (N.of_nat (length (a_words ai)) =? 3) = false).
    { rewrite LN. destruct (N.eqb_spec (N.of_nat (off st)) 3); [lia|]. apply andb_false_r. }
    assert (FR0 : id_to_type_id st = id_to_type_id st0).
    { apply (l_unres _ _ _ _ L). intros j E. rewrite (lead_result_unique t op j (off st - 1) E LR). lia. }
    assert (O12 : off st = 1%nat \/ off st = 2%nat) by lia.
    do 2 eexists. split; [|split; [|split; [exact TK|split; [lia|split; [|split; [|split]]]]]].
    + unfold encode_operand. rewrite (token_bang _ TK).
      rewrite (encode_id_ok T_RESULT_ID word x ai ids' DW AG (l_op _ _ _ _ L) NX). reflexivity.
    + reflexivity.
    + constructor; cbn [word_index bump c_ext c_type c_result c_ops with_op with_result with_exp id_to_type_id number_info imports
                    x_types x_values x_imports set_ids a_opcode a_ext a_rtype a_words otype_eqb].
      * lia.
      * apply (l_op _ _ _ _ L).
      * apply (l_ext _ _ _ _ L).
      * rewrite (l_words _ _ _ _ L), flat_map_app. cbn [flat_map]. unfold ren at 3. cbn [plain_op o_type is_id_type].
        change {| o_offset := N.of_nat (off st); o_num_words := 1; o_type := T_RESULT_ID; o_kind := NK_NONE;
                  o_bit_width := 0; o_encoding := 0 |} with (plain_op (N.of_nat (off st)) T_RESULT_ID).
        rewrite OWS. reflexivity.
      * rewrite app_length, (l_len _ _ _ _ L). cbn. lia.
      * intros E LE. assert (G2 : (2 <= off st)%nat).
        { destruct O12 as [O1|O2]; [|lia]. exfalso. rewrite O1 in LR. change (nth_error (lead t op) 0 = Some T_RESULT_ID) in LR. rewrite LR in E. discriminate E. }
        destruct (l_type _ _ _ _ L E G2) as (A & B & C & E2). split; [exact A|]. split; [exact B|]. split; [exact C|].
        rewrite nth_app_old by (rewrite (l_len _ _ _ _ L); lia). exact E2.
      * apply (l_type0 _ _ _ _ L).
      * intros j E LE. rewrite (lead_result_unique t op j (off st - 1) E LR).
        split; [exact DW|]. split; [exact NZ|]. split; [|split].
        { rewrite app_nth2; rewrite (l_len _ _ _ _ L); [|lia]. replace (S (off st - 1) - off st)%nat with 0%nat by lia. reflexivity. }
        { rewrite <- FR0. exact FR. }
        { rewrite FR0. reflexivity. }
      * intros H. exfalso. exact (H _ LR).
      * intros H. exfalso. specialize (H _ LR). lia.
      * intros OS. exfalso. rewrite (lead_switch t op OS) in LR. destruct O12 as [E|E]; rewrite E in LR; discriminate LR.
      * apply (l_types _ _ _ _ L).
      * apply (l_values _ _ _ _ L).
      * apply (l_info _ _ _ _ L).
      * intros H. apply (l_imports _ _ _ _ L). right. lia.
      * intros OS H. exfalso. rewrite (lead_import t op OS) in LR. destruct O12 as [E|E]; [lia|rewrite E in LR; discriminate LR].
    + auto.
    + reflexivity.
    + congruence.
  - (* id *)
    destruct ID as [DW AG]. destruct (ONE eq_refl) as [-> OWS].
    assert (EM : emit_operand g t nm i (plain_op (N.of_nat (off st)) T_ID) = c_percent :: nm word).
    { unfold emit_operand. fold (operand_word i (plain_op (N.of_nat (off st)) T_ID)). rewrite OV. reflexivity. }
    pose proof (id_token _ (NV _ DW)) as TK. rewrite EM. rewrite <- LN in NX.
    assert (TT : ty <> T_TYPE_ID /\ ty <> T_RESULT_ID /\ ty <> T_LITERAL_STRING) by (destruct T as [-> | ->]; repeat split; discriminate).
    destruct TT as (TT1 & TT2 & TT3).
    assert (OT : otype_eqb ty T_TYPE_ID = false) by (destruct T as [-> | ->]; reflexivity).
    assert (NI : op <> OpExtInstImport) by (apply (loc_import t op ts (off st) _ LC); assumption).
    assert (RN : ren (plain_op (N.of_nat (off st)) T_ID) = [r word]) by (unfold ren; cbn [o_type plain_op is_id_type]; rewrite OWS; reflexivity).
    do 2 eexists. split; [|split; [|split; [exact TK|split; [lia|split; [|split; [|split]]]]]].
    + unfold encode_operand. rewrite (token_bang _ TK).
      destruct T as [-> | ->]; rewrite (encode_id_ok _ word x ai ids' DW AG (l_op _ _ _ _ L) NX); reflexivity.
    + reflexivity.
    + plain_case L LC RN (intros OS O1; exists word; rewrite RN; replace (io + 1)%nat with (word_index st) by lia; auto).
    + auto.
    + intros ->. congruence.
    + reflexivity.
  - (* set of an extended instruction *)
    destruct ID as [DW AG]. destruct (ONE eq_refl) as [-> OWS].
    assert (EM : emit_operand g t nm i (plain_op (N.of_nat (off st)) T_ID) = c_percent :: nm word).
    { unfold emit_operand. fold (operand_word i (plain_op (N.of_nat (off st)) T_ID)). rewrite OV. reflexivity. }
    pose proof (id_token _ (NV _ DW)) as TK. rewrite EM.
    assert (TT : ty <> T_TYPE_ID /\ ty <> T_RESULT_ID /\ ty <> T_LITERAL_STRING) by (destruct T as [-> | ->]; repeat split; discriminate).
    destruct TT as (TT1 & TT2 & TT3).
    assert (OT : otype_eqb ty T_TYPE_ID = false) by (destruct T as [-> | ->]; reflexivity).
    assert (NI : op <> OpExtInstImport) by (apply (loc_import t op ts (off st) _ LC); assumption).
    assert (RN : ren (plain_op (N.of_nat (off st)) T_ID) = [r word]) by (unfold ren; cbn [o_type plain_op is_id_type]; rewrite OWS; reflexivity).
    assert (O3' : off st = 3%nat) by lia.
    destruct (l_imports _ _ _ _ L (or_introl NI)) as [XI SI].
    assert (XW : x_imports x (r word) = Some s).
    { rewrite XI, (m_imports _ _ M0 _ DW), <- SI. exact IM. }
    do 2 eexists. split; [|split; [|split; [exact TK|split; [lia|split; [|split; [|split]]]]]].
    + unfold encode_operand. rewrite (token_bang _ TK).
      assert (L3 : length (a_words ai) = 3%nat) by (rewrite (l_len _ _ _ _ L); exact O3').
      destruct T as [-> | ->]; rewrite (encode_set_ok _ word x ai ids' s DW AG (l_op _ _ _ _ L) EX L3 XW); reflexivity.
    + reflexivity.
    + plain_case L LC RN (intros OS; rewrite OS in EX; discriminate EX).
    + auto.
    + intros ->. congruence.
    + reflexivity.
  - (* scope, memory semantics *)
    assert (IDT : is_id_type ty = true) by (destruct T as [-> | ->]; reflexivity). rewrite IDT in ID.
    destruct ID as [DW AG]. destruct (ONE eq_refl) as [-> OWS].
    assert (EM : emit_operand g t nm i (plain_op (N.of_nat (off st)) ty) = c_percent :: nm word).
    { unfold emit_operand. fold (operand_word i (plain_op (N.of_nat (off st)) ty)). rewrite OV.
      destruct T as [-> | ->]; reflexivity. }
    pose proof (id_token _ (NV _ DW)) as TK. rewrite EM.
    assert (TT : ty <> T_TYPE_ID /\ ty <> T_RESULT_ID /\ ty <> T_LITERAL_STRING) by (destruct T as [-> | ->]; repeat split; discriminate).
    destruct TT as (TT1 & TT2 & TT3).
    assert (OT : otype_eqb ty T_TYPE_ID = false) by (destruct T as [-> | ->]; reflexivity).
    assert (NI : op <> OpExtInstImport) by (apply (loc_import t op ts (off st) _ LC); assumption).
    assert (RN : ren (plain_op (N.of_nat (off st)) ty) = [r word]) by (unfold ren; cbn [o_type plain_op]; rewrite IDT, OWS; reflexivity).
    assert (NX : is_extended_instruction op && (N.of_nat (length (a_words ai)) =? 3) = false).
    { rewrite LN. destruct (is_extended_instruction op) eqn:EX; [|reflexivity].
      destruct (N.eqb_spec (N.of_nat (off st)) 3) as [O3|]; [|reflexivity]. exfalso.
      assert (Q : ty = T_ID) by (apply (loc_ext_set t op ts (off st) ty LC EX); lia). destruct T; congruence. }
    do 2 eexists. split; [|split; [|split; [exact TK|split; [lia|split; [|split; [|split]]]]]].
    + unfold encode_operand. rewrite (token_bang _ TK).
      destruct T as [-> | ->]; rewrite (encode_id_ok _ word x ai ids' DW AG (l_op _ _ _ _ L) NX); reflexivity.
    + reflexivity.
    + plain_case L LC RN (intros OS O1; exists word; rewrite RN; replace (io + 1)%nat with (word_index st) by lia; auto).
    + auto.
    + intros ->. congruence.
    + reflexivity.
  - (* known extended instruction *)
    destruct (ONE eq_refl) as [-> OWS]. subst ids'. destruct (loc_number _ _ _ _ LC) as [EX O4].
    assert (NI : op <> OpExtInstImport) by (intros E; rewrite E in EX; discriminate EX).
    cbn [with_exp c_ext c_exp] in GE. specialize (EXT eq_refl).
    assert (RN : ren (plain_op (N.of_nat (off st)) T_EXTENSION_INSTRUCTION_NUMBER) = [word]) by (unfold ren; cbn [plain_op o_type is_id_type]; exact OWS).
    assert (EM : emit_operand g t nm i (plain_op (N.of_nat (off st)) T_EXTENSION_INSTRUCTION_NUMBER) = t_ext_name t (c_ext c) word).
    { unfold emit_operand. fold (operand_word i (plain_op (N.of_nat (off st)) T_EXTENSION_INSTRUCTION_NUMBER)). rewrite OV, EXT.
      cbn [plain_op o_type]. rewrite GE. reflexivity. }
    destruct (tk_ext_name _ _ K _ _ _ GE) as (T1 & T2 & T3).
    pose proof (name_operand_token _ T1 T2) as TK. rewrite EM.
    exists x, (add_words ai [word]). split; [|split; [|split; [exact TK|split; [lia|split; [|split; [|split]]]]]].
    + unfold encode_operand. rewrite (token_bang _ TK). rewrite (l_ext _ _ _ _ L), T3, GE. reflexivity.
    + reflexivity.
    + rewrite <- (set_ids_same x) at 1.
      plain_case L LC RN (intros OS; rewrite OS in EX; discriminate EX).
    + auto.
    + discriminate.
    + reflexivity.
  - (* unknown non-semantic instruction *)
    destruct (ONE eq_refl) as [-> OWS]. subst ids'. destruct (loc_number _ _ _ _ LC) as [EX O4].
    assert (NI : op <> OpExtInstImport) by (intros E; rewrite E in EX; discriminate EX).
    cbn [with_exp c_ext c_exp] in GE, NS. specialize (EXT eq_refl).
    assert (RN : ren (plain_op (N.of_nat (off st)) T_EXTENSION_INSTRUCTION_NUMBER) = [word]) by (unfold ren; cbn [plain_op o_type is_id_type]; exact OWS).
    assert (EM : emit_operand g t nm i (plain_op (N.of_nat (off st)) T_EXTENSION_INSTRUCTION_NUMBER) = print_nat word).
    { unfold emit_operand. fold (operand_word i (plain_op (N.of_nat (off st)) T_EXTENSION_INSTRUCTION_NUMBER)). rewrite OV, EXT.
      cbn [plain_op o_type]. rewrite GE. reflexivity. }
    pose proof (print_nat_token word) as TK. rewrite EM.
    assert (FN : t_ext_find t (c_ext c) (print_nat word) = None).
    { destruct (t_ext_find t (c_ext c) (print_nat word)) eqn:E; [|reflexivity]. exfalso.
      apply (tk_ext_digit _ _ K _ _ _ E).
      destruct (print_nat_digits word) as (F & NEN & _). destruct (print_nat word) as [|d l]; [congruence|]. inversion F; assumption. }
    exists x, (add_words ai [word]). split; [|split; [|split; [exact TK|split; [lia|split; [|split; [|split]]]]]].
    + unfold encode_operand. rewrite (token_bang _ TK). rewrite (l_ext _ _ _ _ L), FN, NS, (print_nat_literal _ WL).
      cbn [negb]. destruct (N.ltb_spec word (2 ^ 32)); [reflexivity|lia].
    + reflexivity.
    + rewrite <- (set_ids_same x) at 1.
      plain_case L LC RN (intros OS; rewrite OS in EX; discriminate EX).
    + auto.
    + discriminate.
    + reflexivity.
  - (* opcode inside OpSpecConstantOp *)
    destruct (ONE eq_refl) as [-> OWS]. subst ids'.
    assert (RN : ren (plain_op (N.of_nat (off st)) T_SPEC_CONSTANT_OP_NUMBER) = [word]) by (unfold ren; cbn [plain_op o_type is_id_type]; exact OWS).
    assert (EM : emit_operand g t nm i (plain_op (N.of_nat (off st)) T_SPEC_CONSTANT_OP_NUMBER) = t_op_name t word).
    { unfold emit_operand. fold (operand_word i (plain_op (N.of_nat (off st)) T_SPEC_CONSTANT_OP_NUMBER)). rewrite OV. reflexivity. }
    unfold printable_operand in PR. cbn [plain_op o_type] in PR. rewrite OV in PR.
    destruct (tk_op_name _ _ K _ _ GO) as (T1 & _ & _).
    pose proof (name_operand_token _ T1 (tk_op_token _ _ K _ SP)) as TK. rewrite EM.
    assert (NI : op <> OpExtInstImport) by (apply (loc_import t op ts (off st) _ LC); discriminate).
    exists x, (add_words ai [word]). split; [|split; [|split; [exact TK|split; [lia|split; [|split; [|split]]]]]].
    + unfold encode_operand. rewrite (token_bang _ TK). rewrite (tk_spec_name _ _ K _ SP), PR, GO. reflexivity.
    + reflexivity.
    + rewrite <- (set_ids_same x) at 1.
      plain_case L LC RN (intros OS O1; exfalso; first [apply TT4 | absurd (T_SPEC_CONSTANT_OP_NUMBER = T_ID); [discriminate|] | absurd (T_LITERAL_FLOAT = T_ID); [discriminate|]];
         apply (loc_at t op ts (off st) _ 0 T_ID LC); [rewrite (lead_switch t op OS); reflexivity|exact O1|discriminate]).
    + auto.
    + discriminate.
    + reflexivity.
  - (* integer *)
    destruct (ONE eq_refl) as [-> OWS]. subst ids'.
    match type of OWS with operand_words i ?o = _ => set (oo := o) in * end.
    assert (RN : ren oo = [word]) by (unfold ren; cbn [oo o_type is_id_type]; exact OWS).
    assert (EM : emit_operand g t nm i oo = print_nat word).
    { unfold emit_operand. fold (operand_word i oo). rewrite OWS. unfold emit_number. cbn. reflexivity. }
    pose proof (print_nat_token word) as TK. rewrite EM.
    assert (TT : ty <> T_TYPE_ID /\ ty <> T_RESULT_ID /\ ty <> T_LITERAL_STRING /\ ty <> T_ID) by (destruct T as [-> | ->]; repeat split; discriminate).
    destruct TT as (TT1 & TT2 & TT3 & TT4).
    assert (NI : op <> OpExtInstImport) by (apply (loc_import t op ts (off st) _ LC); assumption).
    exists x, (add_words ai [word]). split; [|split; [|split; [exact TK|split; [lia|split; [|split; [|split]]]]]].
    + unfold encode_operand. rewrite (token_bang _ TK). destruct T as [-> | ->]; rewrite (word_read t word _ ai WL); reflexivity.
    + reflexivity.
    + rewrite <- (set_ids_same x) at 1.
      plain_case L LC RN (intros OS O1; exfalso; first [apply TT4 | absurd (T_SPEC_CONSTANT_OP_NUMBER = T_ID); [discriminate|] | absurd (T_LITERAL_FLOAT = T_ID); [discriminate|]];
         apply (loc_at t op ts (off st) _ 0 T_ID LC); [rewrite (lead_switch t op OS); reflexivity|exact O1|discriminate]).
    + auto.
    + intros ->. congruence.
    + reflexivity.
  - (* float *)
    destruct (ONE eq_refl) as [-> OWS]. subst ids'.
    match type of OWS with operand_words i ?o = _ => set (oo := o) in * end.
    assert (RN : ren oo = [word]) by (unfold ren; cbn [oo o_type is_id_type]; exact OWS).
    assert (EM : emit_operand g t nm i oo = emit_number t oo [word]).
    { unfold emit_operand. rewrite OWS. reflexivity. }
    unfold printable_operand in PR. cbn [oo o_type] in PR. rewrite OWS in PR.
    destruct (number_read t oo [word] SPV_ERROR_INVALID_TEXT ai PR eq_refl) as (EN & TK & _). rewrite EM.
    assert (NI : op <> OpExtInstImport) by (apply (loc_import t op ts (off st) _ LC); discriminate).
    exists x, (add_words ai [word]). split; [|split; [|split; [exact TK|split; [lia|split; [|split; [|split]]]]]].
    + unfold encode_operand. rewrite (token_bang _ TK).
      change {| it_width := 32; it_signed := false; it_class := IC_FLOAT; it_enc := 0 |} with
        (conv {| n_kind := o_kind oo; n_width := o_bit_width oo; n_encoding := o_encoding oo |}).
      change (if is_optional T_LITERAL_FLOAT then SPV_FAILED_MATCH else SPV_ERROR_INVALID_TEXT) with SPV_ERROR_INVALID_TEXT.
      rewrite EN. reflexivity.
    + reflexivity.
    + rewrite <- (set_ids_same x) at 1.
      plain_case L LC RN (intros OS O1; exfalso; first [apply TT4 | absurd (T_LITERAL_FLOAT = T_ID); [discriminate|]];
         apply (loc_at t op ts (off st) _ 0 T_ID LC); [rewrite (lead_switch t op OS); reflexivity|exact O1|discriminate]).
    + auto.
    + discriminate.
    + reflexivity.
  - (* number of the type of the instruction *)
    subst ids'. match type of OW with operand_words i ?o = _ => set (oo := o) in * end.
    assert (RN : ren oo = operand_words i oo) by reflexivity.
    assert (EM : emit_operand g t nm i oo = emit_number t oo (operand_words i oo)) by reflexivity.
    unfold printable_operand in PR. cbn [oo o_type] in PR.
    assert (LW : length (operand_words i oo) = nw).
    { rewrite OW, firstn_length, skipn_length. lia. }
    assert (NW' : o_num_words oo = N.of_nat (length (operand_words i oo))) by (rewrite LW; exact NW).
    set (err := if is_optional ty then SPV_FAILED_MATCH else SPV_ERROR_INVALID_TEXT).
    destruct (number_read t oo _ err ai PR NW') as (EN & TK & G1). rewrite EM.
    assert (CV : {| n_kind := o_kind oo; n_width := o_bit_width oo; n_encoding := o_encoding oo |} = info) by (destruct info; reflexivity).
    rewrite CV in EN. clear CV.
    assert (TT : ty <> T_TYPE_ID /\ ty <> T_RESULT_ID /\ ty <> T_LITERAL_STRING /\ ty <> T_ID) by (destruct T as [-> | ->]; repeat split; discriminate).
    destruct TT as (TT1 & TT2 & TT3 & TT4).
    assert (NI : op <> OpExtInstImport) by (apply (loc_import t op ts (off st) _ LC); assumption).
    assert (IN : number_info st tid = Some info /\ (n_kind info <> NK_NONE)).
    { unfold set_numeric_type_info in SI. destruct (number_info st tid) as [inf|]; [|discriminate SI].
      destruct (n_kind inf) eqn:NK; try discriminate SI; injection SI as <- _; split; try reflexivity; rewrite NK; discriminate. }
    destruct IN as [IN NKN].
    exists x, (add_words ai (operand_words i oo)). split; [|split; [|split; [exact TK|split; [lia|split; [|split; [|split]]]]]].
    + unfold encode_operand. rewrite (token_bang _ TK).
      assert (EQ : (if (a_opcode ai =? OpConstant) || (a_opcode ai =? OpSpecConstant) then
        match it_class (type_of_type_id x (a_rtype ai)) with
        | IC_INT | IC_FLOAT => match encode_number t (emit_number t oo (operand_words i oo)) err (type_of_type_id x (a_rtype ai)) ai with AOk i' => AOk (x, i', p) | AErr c => AErr c | AStuck => AStuck end
        | _ => AErr SPV_ERROR_INVALID_TEXT
        end
      else if a_opcode ai =? OpSwitch then
        match a_words ai with
        | _ :: selector :: _ =>
            match it_class (type_of_value x selector) with
            | IC_INT => match encode_number t (emit_number t oo (operand_words i oo)) err (type_of_value x selector) ai with AOk i' => AOk (x, i', p) | AErr c => AErr c | AStuck => AStuck end
            | _ => AErr SPV_ERROR_INVALID_TEXT
            end
        | _ => AStuck
        end
      else match encode_number t (emit_number t oo (operand_words i oo)) err unknown_type ai with AOk i' => AOk (x, i', p) | AErr c => AErr c | AStuck => AStuck end)
      = AOk (x, add_words ai (operand_words i oo), p)).
      { rewrite (l_op _ _ _ _ L).
        destruct (loc_typed t op ts (off st) ty LC T) as [[OC O3]|[OS O3]].
        - assert (B : (op =? OpConstant) || (op =? OpSpecConstant) = true) by (destruct OC as [-> | ->]; reflexivity).
          rewrite B. destruct TC as [[OS _]|[_ TID]]; [destruct OC as [OC|OC]; rewrite OC in OS; discriminate OS|].
          cbn [with_exp c_type] in TID. subst tid.
          assert (LT0 : nth_error (lead t op) 0 = Some T_TYPE_ID) by (destruct OC as [-> | ->]; reflexivity).
          destruct (l_type _ _ _ _ L LT0 ltac:(lia)) as (_ & DT & RT & _).
          unfold type_of_type_id. rewrite RT, (l_types _ _ _ _ L), (m_types _ _ M0 _ DT), <- (l_info _ _ _ _ L), IN. cbn [option_map].
          rewrite EN. unfold conv. destruct (n_kind info) eqn:NK; try congruence; reflexivity.
        - assert (B : (op =? OpConstant) || (op =? OpSpecConstant) = false) by (rewrite OS; reflexivity).
          rewrite B, OS. change (OpSwitch =? OpSwitch) with true. cbv iota.
          destruct TC as [[_ [(sel & PS & SI1 & NZ & NS) KI]]|[X _]]; [|congruence].
          destruct (l_sel _ _ _ _ L OS ltac:(lia)) as (sel' & NS' & DS & N1).
          assert (sel' = sel).
          { unfold peek_at, fix_word in PS. rewrite NS' in PS. cbn in PS. congruence. }
          subst sel'. rewrite (l_words _ _ _ _ L). pose proof (l_len _ _ _ _ L) as LL. rewrite (l_words _ _ _ _ L) in LL, N1.
          destruct (flat_map ren (c_ops c)) as [|s' rest] eqn:FM; [cbn in LL; lia|]. cbn in N1. subst s'.
          assert (UN : id_to_type_id st = id_to_type_id st0).
          { apply (l_unres _ _ _ _ L). intros j E. rewrite (lead_switch t op OS) in E. destruct j as [|[|[|j]]]; try discriminate E. destruct j; discriminate E. }
          rewrite UN in SI1. destruct (m_values _ _ M0 _ _ DS SI1 NZ NS) as [DT VT].
          unfold type_of_value, type_of_type_id. rewrite (l_values _ _ _ _ L), VT, (l_types _ _ _ _ L), (m_types _ _ M0 _ DT), <- (l_info _ _ _ _ L), IN.
          cbn [option_map]. rewrite EN. unfold conv. destruct (n_kind info) eqn:NK; try reflexivity; destruct KI; discriminate. }
      fold err. destruct T as [-> | ->]; exact EQ.
    + reflexivity.
    + rewrite <- (set_ids_same x) at 1.
      plain_case L LC RN (intros OS O1; exfalso; first [apply TT4 | absurd (T_SPEC_CONSTANT_OP_NUMBER = T_ID); [discriminate|] | absurd (T_LITERAL_FLOAT = T_ID); [discriminate|]];
         apply (loc_at t op ts (off st) _ 0 T_ID LC); [rewrite (lead_switch t op OS); reflexivity|exact O1|discriminate]).
    + auto.
    + intros ->. congruence.
    + reflexivity.
  - (* string *)
    subst ids'. match type of OW with operand_words i ?o = _ => set (oo := o) in * end.
    unfold printable_operand in PR. cbn [oo o_type] in PR. destruct PR as (s' & SB & SW).
    destruct (string_read st nw s s' LP SB ltac:(rewrite <- OW; exact SW) ES NW FT) as (-> & LNS & TL & TK & FS).
    assert (RN : ren oo = make_vector s') by (unfold ren; cbn [oo o_type is_id_type]; exact SW).
    assert (LV : length (make_vector s') = nw) by (rewrite <- SW, OW, firstn_length, skipn_length; lia).
    assert (EM : emit_operand g t nm i oo = print_string s').
    { unfold emit_operand. cbn [oo o_type]. fold oo. rewrite SW, FS. reflexivity. }
    rewrite EM.
    assert (TT : ty <> T_TYPE_ID /\ ty <> T_RESULT_ID /\ ty <> T_ID) by (destruct T as [-> | ->]; repeat split; discriminate).
    destruct TT as (TT1 & TT2 & TT4).
    exists x, (add_words ai (make_vector s')). split; [|split; [|split; [exact TK|split; [lia|split; [|split; [|split]]]]]].
    + unfold encode_operand. rewrite (token_bang _ TK).
      assert (ST : forall e, encode_string e (print_string s') x ai = AOk (x, add_words ai (make_vector s'))).
      { intros e. unfold encode_string. rewrite TL, (l_op _ _ _ _ L). destruct (N.eqb_spec op OpExtInstImport); [congruence|].
        rewrite (l_len _ _ _ _ L). destruct (N.ltb_spec 65535 (N.of_nat (off st + (length s' / 4 + 1)))); [exfalso; lia|reflexivity]. }
      destruct T as [-> | ->]; rewrite ST; reflexivity.
    + reflexivity.
    + rewrite <- (set_ids_same x) at 1.
      plain_case L LC RN (intros OS O1; exfalso; first [apply TT4 | absurd (T_SPEC_CONSTANT_OP_NUMBER = T_ID); [discriminate|] | absurd (T_LITERAL_FLOAT = T_ID); [discriminate|]];
         apply (loc_at t op ts (off st) _ 0 T_ID LC); [rewrite (lead_switch t op OS); reflexivity|exact O1|discriminate]).
    + auto.
    + intros ->. congruence.
    + reflexivity.
  - (* name of an extended instruction set *)
    subst ids'. match type of OW with operand_words i ?o = _ => set (oo := o) in * end.
    unfold printable_operand in PR. cbn [oo o_type] in PR. destruct PR as (s' & SB & SW).
    destruct (string_read st nw s s' LP SB ltac:(rewrite <- OW; exact SW) ES NW FT) as (-> & LNS & TL & TK & FS).
    assert (EM : emit_operand g t nm i oo = print_string s').
    { unfold emit_operand. cbn [oo o_type]. fold oo. rewrite SW, FS. reflexivity. }
    rewrite EM.
    pose proof (loc_string t op ts (off st) ty LC EI T) as O2.
    assert (LR : nth_error (lead t op) 0 = Some T_RESULT_ID) by (rewrite (lead_import t op EI); reflexivity).
    destruct (l_res _ _ _ _ L 0 LR ltac:(lia)) as (DR & RZ & N1 & FR & UP).
    assert (OLE : (off st <= 2)%nat) by lia.
    destruct (l_imports _ _ _ _ L (or_intror OLE)) as [XI SI].
    assert (XN : x_imports x (r (c_result c)) = None).
    { rewrite XI, (m_imports _ _ M0 _ DR). destruct (imports st0 (c_result c)) eqn:E; [|reflexivity]. exfalso.
      apply (m_def _ _ M0 (c_result c)); [right; congruence|exact FR]. }
    set (x' := {| x_ids := x_ids x; x_types := x_types x; x_values := x_values x;
                  x_imports := upd (x_imports x) (r (c_result c)) (ext_import_type s') |}).
    assert (WS : exists a rest, a_words ai = a :: r (c_result c) :: rest).
    { pose proof (l_len _ _ _ _ L) as LL. rewrite O2 in LL. destruct (a_words ai) as [|a [|b rest]]; try discriminate LL. cbn in N1. subst b. eauto. }
    destruct WS as (a & rest & WS).
    exists x', (add_words ai (make_vector s')). split; [|split; [|split; [exact TK|split; [lia|split; [|split; [|split]]]]]].
    + unfold encode_operand. rewrite (token_bang _ TK).
      assert (ST : forall e, encode_string e (print_string s') x ai = AOk (x', add_words ai (make_vector s'))).
      { intros e. unfold encode_string. rewrite TL, (l_op _ _ _ _ L), EI. change (OpExtInstImport =? OpExtInstImport) with true. cbv iota.
        destruct (N.eqb_spec (ext_import_type s') 0); [congruence|]. rewrite WS, XN. rewrite <- WS.
        rewrite (l_len _ _ _ _ L). destruct (N.ltb_spec 65535 (N.of_nat (off st + (length s' / 4 + 1)))); [exfalso; lia|reflexivity]. }
      destruct T as [-> | ->]; rewrite ST; reflexivity.
    + reflexivity.
    + assert (RN : ren oo = make_vector s') by (unfold ren; cbn [oo o_type is_id_type]; exact SW).
      constructor; cbn [word_index bump c_ext c_type c_result c_ops with_op with_exp id_to_type_id number_info imports
                    x' x_types x_values x_imports a_opcode a_ext a_rtype a_words add_words].
      * lia.
      * apply (l_op _ _ _ _ L).
      * apply (l_ext _ _ _ _ L).
      * rewrite (l_words _ _ _ _ L), flat_map_app. cbn [flat_map]. rewrite RN, app_nil_r. reflexivity.
      * rewrite app_length, (l_len _ _ _ _ L), <- SW, OW, firstn_length, skipn_length. lia.
      * rewrite (lead_import t op EI). discriminate.
      * intros _. apply (l_type0 _ _ _ _ L). rewrite (lead_import t op EI). discriminate.
      * intros j E _. rewrite (lead_result_unique t op j 0 E LR). rewrite nth_app_old by (rewrite (l_len _ _ _ _ L); lia).
        split; [exact DR|]. split; [exact RZ|]. split; [exact N1|]. split; [exact FR|exact UP].
      * intros H. exfalso. exact (H 0%nat LR).
      * intros H. exfalso. specialize (H 0%nat LR). lia.
      * intros OS. rewrite EI in OS. discriminate OS.
      * apply (l_types _ _ _ _ L).
      * apply (l_values _ _ _ _ L).
      * apply (l_info _ _ _ _ L).
      * intros [H|H]; [congruence|lia].
      * intros _ _. exists (ext_import_type s'). rewrite XI, SI. auto.
    + auto.
    + intros ->. destruct T; discriminate.
    + reflexivity.
  - (* enumerant *)
    destruct (ONE eq_refl) as [-> OWS].
    assert (TT : ty <> T_TYPE_ID /\ ty <> T_RESULT_ID /\ ty <> T_LITERAL_STRING /\ ty <> T_ID /\ is_id_type (enum_concrete ty) = false).
    { destruct T as [T| ->]; [destruct ty; try discriminate T; repeat split; discriminate|repeat split; discriminate]. }
    destruct TT as (TT1 & TT2 & TT3 & TT4 & TT5). rewrite TT5 in ID. subst ids'.
    assert (EM : emit_operand g t nm i (plain_op (N.of_nat (off st)) (enum_concrete ty)) = t_operand_name t (enum_concrete ty) word).
    { rewrite emit_enum; cbn [plain_op o_type]; [rewrite OV; reflexivity|exact TT5|exact (enum_not_mask ty T)|exists ty; auto]. }
    destruct (tk_operand_name _ _ K _ _ _ GO) as (T1 & T2 & T3).
    pose proof (name_operand_token _ T1 T2) as TK. rewrite EM.
    assert (NI : op <> OpExtInstImport) by (apply (loc_import t op ts (off st) _ LC); assumption).
    assert (RN : ren (plain_op (N.of_nat (off st)) (enum_concrete ty)) = [word]) by (unfold ren; cbn [plain_op o_type]; rewrite TT5; exact OWS).
    exists x, (add_words ai [word]). split; [|split; [|split; [exact TK|split; [lia|split; [|split; [|split]]]]]].
    + rewrite (encode_enum ty _ x ai p T (token_bang _ TK)), T3, GO. reflexivity.
    + reflexivity.
    + rewrite <- (set_ids_same x) at 1.
      plain_case L LC RN (intros OS O1; exfalso; first [apply TT4 | absurd (T_SPEC_CONSTANT_OP_NUMBER = T_ID); [discriminate|] | absurd (T_LITERAL_FLOAT = T_ID); [discriminate|]];
         apply (loc_at t op ts (off st) _ 0 T_ID LC); [rewrite (lead_switch t op OS); reflexivity|exact O1|discriminate]).
    + auto.
    + intros ->. congruence.
    + reflexivity.
  - (* mask *)
    destruct (ONE eq_refl) as [-> OWS].
    assert (TT : ty <> T_TYPE_ID /\ ty <> T_RESULT_ID /\ ty <> T_LITERAL_STRING /\ ty <> T_ID /\ is_id_type (enum_concrete ty) = false).
    { destruct ty; try discriminate T; repeat split; discriminate. }
    destruct TT as (TT1 & TT2 & TT3 & TT4 & TT5). rewrite TT5 in ID. subst ids'.
    pose proof (emit_mask_operand (plain_op (N.of_nat (off st)) (enum_concrete ty)) ty T eq_refl) as EM. rewrite OV in EM.
    destruct (printable_mask (plain_op (N.of_nat (off st)) (enum_concrete ty)) ty T eq_refl PR) as [PZ PS]. rewrite OV in PZ, PS.
    cbn [with_exp c_exp] in ML |- *.
    destruct (mask_read g t K ty word p p' T ML PZ) as (PM & PP & TK). rewrite EM.
    assert (NI : op <> OpExtInstImport) by (apply (loc_import t op ts (off st) _ LC); assumption).
    assert (RN : ren (plain_op (N.of_nat (off st)) (enum_concrete ty)) = [word]) by (unfold ren; cbn [plain_op o_type]; rewrite TT5; exact OWS).
    exists x, (add_words ai [word]). split; [|split; [|split; [exact TK|split; [lia|split; [|split; [|split]]]]]].
    + rewrite (encode_mask ty _ x ai p T (token_bang _ TK)). destruct (strict_mask ty) eqn:SM.
      * pose proof (PS eq_refl (loc_strict _ _ _ _ _ LC SM)) as SG.
        destruct (mask_single g t K ty word p p' T ML PZ SG) as (tt & F1 & F2 & F3). rewrite F1, F2, F3. reflexivity.
      * rewrite PM, PP. reflexivity.
    + reflexivity.
    + rewrite <- (set_ids_same x) at 1.
      plain_case L LC RN (intros OS O1; exfalso; first [apply TT4 | absurd (T_SPEC_CONSTANT_OP_NUMBER = T_ID); [discriminate|] | absurd (T_LITERAL_FLOAT = T_ID); [discriminate|]];
         apply (loc_at t op ts (off st) _ 0 T_ID LC); [rewrite (lead_switch t op OS); reflexivity|exact O1|discriminate]).
    + auto.
    + intros ->. congruence.
    + reflexivity.
Qed.
End Step.
