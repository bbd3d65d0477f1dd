(** Property C32: disassembling a module and assembling the text gives the module back.
    Property C11 at the level of the assembler: only the words of the text matter. *)
From Coq Require Import String.
From Verif Require Import Base Words Operand BinaryParse TextLex TextSpec ParseNumber NumberSpec NamedIds IdSpec.
From Verif Require Import Assembler Disassembler RoundTripSpec TokenReader RoundTripInst RoundTripProofs.
From Verif Require P_NameMapper.
Local Open Scope N_scope.
Local Open Scope list_scope.

(** The callbacks of the disassembler never stop the parser. *)
Notation quiet := (fun (_ : list event) (_ : event) => SPV_SUCCESS).

(** With numeric names and the option to preserve numeric ids, the assembler gives back the
    instructions word for word.  The header is the assembler's own: its version and
    generator, and a bound one above the largest id. *)
Theorem round_trip_partial : forall g t words hdr l header indent,
  tables_ok g t -> Forall word_ok words -> hd 0 words = 0x07230203 -> N.of_nat (length words) < 2 ^ 32 ->
  binary_parse g false quiet words = Some (SPV_SUCCESS, hdr :: map EInst l) ->
  Forall (printable_inst g t) l -> (forall id, In id (module_ids l) -> id <> 2 ^ 32 - 1) ->
  exists text, disassemble g t print_nat header indent words = Some (inl text) /\
    assemble g t true text =
    AOk ([0x07230203; t_version t; 0x00070000; 1 + max_id (module_ids l); 0] ++ skipn 5 words).
Proof.
  intros g t words hdr l header indent K W MG LW BP PR TOP.
  assert (BE : binary_endianness words = Some Little) by (destruct words; [discriminate MG|]; cbn in MG; subst n; reflexivity).
  destruct (parse_insts g words hdr l BE BP) as (v & ge & b & s & L5 & (m & ->) & IN).
  eexists. split; [apply (disassemble_text _ _ _ _ _ _ m _ _ _ _ _ BP)|].
  pose proof (module_ids_length g t K words W _ _ IN PR L5) as LI. cbn [st_start word_index] in LI.
  rewrite (module_preserved g t K words W l IN PR indent); [|exact TOP|lia|destruct header; [apply (header_gap g t K words W)|apply gap_nil]].
  rewrite (insts_words g t K words W _ _ IN L5). reflexivity.
Qed.

(** With any names that are valid and tell the ids apart (the friendly names are such), the
    assembler gives back the instructions with the ids numbered 1, 2, ... in the order of
    their first appearance. *)
Theorem round_trip_names_partial : forall g t nm words hdr l header indent,
  tables_ok g t -> Forall word_ok words -> hd 0 words = 0x07230203 -> N.of_nat (length words) < 2 ^ 32 ->
  binary_parse g false quiet words = Some (SPV_SUCCESS, hdr :: map EInst l) ->
  Forall (printable_inst g t) l ->
  (forall id, In id (module_ids l) -> is_valid_id (nm id) = true) ->
  (forall a b, In a (module_ids l) -> In b (module_ids l) -> nm a = nm b -> a = b) ->
  exists text r, disassemble g t nm header indent words = Some (inl text) /\
    (forall id, In id (module_ids l) -> exists k,
       position (first_appearances [] (map nm (module_ids l))) (nm id) k /\ r id = 1 + N.of_nat k) /\
    assemble g t false text =
    AOk ([0x07230203; t_version t; 0x00070000;
          1 + N.of_nat (length (first_appearances [] (map nm (module_ids l)))); 0] ++ flat_map (renamed r) l).
Proof.
  intros g t nm words hdr l header indent K W MG LW BP PR NV INJ.
  assert (BE : binary_endianness words = Some Little) by (destruct words; [discriminate MG|]; cbn in MG; subst n; reflexivity).
  destruct (parse_insts g words hdr l BE BP) as (v & ge & b & s & L5 & (m & ->) & IN).
  pose proof (module_ids_length g t K words W _ _ IN PR L5) as LI. cbn [st_start word_index] in LI.
  destruct (module_named g t K words W l IN PR nm indent (if header then emit_header t v ge b s else []) NV INJ) as (r & RP & A);
    [lia|destruct header; [apply (header_gap g t K words W)|apply gap_nil]|].
  eexists. exists r. split; [apply (disassemble_text _ _ _ _ _ _ m _ _ _ _ _ BP)|]. split; [exact RP|exact A].
Qed.

(** In particular with the friendly names of a module all of whose ids are defined
    (NameMapper.v; [is] are the instructions the names were collected from). *)
Corollary round_trip_friendly_names_partial : forall g t words hdr l header indent nt is m,
  tables_ok g t -> Forall word_ok words -> hd 0 words = 0x07230203 -> N.of_nat (length words) < 2 ^ 32 ->
  binary_parse g false quiet words = Some (SPV_SUCCESS, hdr :: map EInst l) ->
  Forall (printable_inst g t) l ->
  Forall P_NameMapper.words_are_32_bits is -> N.of_nat (length is) < 2 ^ 32 ->
  P_NameMapper.mapper_of nt is = Some m ->
  (forall id, In id (module_ids l) -> exists i, In i is /\ P_NameMapper.defines i id) ->
  exists text r, disassemble g t (NameMapper.name_of m) header indent words = Some (inl text) /\
    (forall a b, In a (module_ids l) -> In b (module_ids l) -> r a = r b -> a = b) /\
    exists bound, assemble g t false text =
      AOk ([0x07230203; t_version t; 0x00070000; bound; 0] ++ flat_map (renamed r) l).
Proof.
  intros g t words hdr l header indent nt is m K W MG LW BP PR IW IL MP DEF.
  destruct (P_NameMapper.friendly_names_valid_and_unique nt is IW IL) as (m' & MP' & FN).
  rewrite MP in MP'. injection MP' as <-.
  assert (INJ : forall a b, In a (module_ids l) -> In b (module_ids l) -> NameMapper.name_of m a = NameMapper.name_of m b -> a = b).
  { intros a b IA IB E. destruct (FN b (DEF b IB)) as (_ & _ & U). exact (U a (DEF a IA) E). }
  destruct (round_trip_names_partial g t (NameMapper.name_of m) words hdr l header indent K W MG LW BP PR) as (text & r & D & P & A).
  { intros id IN. destruct (FN id (DEF id IN)) as (V & _). exact V. }
  { exact INJ. }
  exists text, r. split; [exact D|]. split; [|eexists; exact A].
  intros a b IA IB E. destruct (P a IA) as (ka & PA & RA). destruct (P b IB) as (kb & PB & RB).
  assert (ka = kb) by lia. subst kb. unfold position in PA, PB. apply INJ; [exact IA|exact IB|]. congruence.
Qed.

(** Two texts with the same words assemble to the same result. *)
Theorem assembling_depends_on_words_only : forall g t keep ws text1 text2,
  ws <> [] -> layout ws text1 -> layout ws text2 -> assemble g t keep text1 = assemble g t keep text2.
Proof.
  intros g t keep ws t1 t2 N0 L1 L2. rewrite (assemble_tokens g t keep ws t1 N0 L1), (assemble_tokens g t keep ws t2 N0 L2). reflexivity.
Qed.

(** *** A concrete grammar *)
Definition rows : list (otype * N * string * list otype) := [
  (T_MEMORY_ACCESS, 0, "None"%string, []); (T_MEMORY_ACCESS, 1, "Volatile"%string, []);
  (T_MEMORY_ACCESS, 2, "Aligned"%string, [T_LITERAL_INTEGER]);
  (T_TENSOR_ADDRESSING_OPERANDS, 0, "None"%string, []);
  (T_FPENCODING, 0, "BFloat16KHR"%string, []);
  (T_DECORATION, 1, "SpecId"%string, [T_LITERAL_INTEGER]) ].
Definition row_ty (x : otype * N * string * list otype) := fst (fst (fst x)).
Definition row_value (x : otype * N * string * list otype) := snd (fst (fst x)).
Definition row_name (x : otype * N * string * list otype) := bytes_of (snd (fst x)).
Definition find_value (ty : otype) (v : N) := find (fun x => otype_eqb (row_ty x) ty && (row_value x =? v)) rows.
Definition find_text (ty : otype) (w : list N) := find (fun x => otype_eqb (row_ty x) ty && bytes_eqb (row_name x) w) rows.
Definition OpCooperativeMatrixLoadTensorNV : N := 5367.
Definition OpIAdd : N := 128.
Definition ops : list (N * string * list otype) := [
  (5, "Name"%string, [T_ID; T_LITERAL_STRING]); (71, "Decorate"%string, [T_ID; T_DECORATION]);
  (OpExtInstImport, "ExtInstImport"%string, [T_RESULT_ID; T_LITERAL_STRING]);
  (OpExtInst, "ExtInst"%string, [T_TYPE_ID; T_RESULT_ID; T_ID; T_EXTENSION_INSTRUCTION_NUMBER]);
  (OpTypeInt, "TypeInt"%string, [T_RESULT_ID; T_LITERAL_INTEGER; T_LITERAL_INTEGER]);
  (OpTypeFloat, "TypeFloat"%string, [T_RESULT_ID; T_LITERAL_INTEGER; T_OPTIONAL_FPENCODING]);
  (OpConstant, "Constant"%string, [T_TYPE_ID; T_RESULT_ID; T_TYPED_LITERAL_NUMBER]);
  (OpSwitch, "Switch"%string, [T_ID; T_ID; T_VARIABLE_LITERAL_INTEGER_ID]);
  (61, "Load"%string, [T_TYPE_ID; T_RESULT_ID; T_ID; T_OPTIONAL_MEMORY_ACCESS]);
  (OpIAdd, "IAdd"%string, [T_TYPE_ID; T_RESULT_ID; T_ID; T_ID]);
  (52, "SpecConstantOp"%string, [T_TYPE_ID; T_RESULT_ID; T_SPEC_CONSTANT_OP_NUMBER]);
  (OpCooperativeMatrixLoadTensorNV, "CooperativeMatrixLoadTensorNV"%string,
     [T_TYPE_ID; T_RESULT_ID; T_ID; T_ID; T_ID; T_MEMORY_ACCESS; T_TENSOR_ADDRESSING_OPERANDS]);
  (253, "Return"%string, []) ].
Definition op_row (op : N) := find (fun x : N * string * list otype => fst (fst x) =? op) ops.
Definition op_by_name (w : list N) := find (fun x : N * string * list otype => bytes_eqb (bytes_of (snd (fst x))) w) ops.
Definition g0 : grammar := {|
  g_opcode := fun op => option_map snd (op_row op);
  g_operand := fun ty v => option_map snd (find_value (enum_concrete ty) v);
  g_ext_inst := fun s v => if (s =? 1) && (v =? 4) then Some [T_ID] else None;
  g_spec_op := fun op => op =? OpIAdd;
  g_op_max := 0x7fffffff;
  g_generates_type := fun op => (op =? OpTypeInt) || (op =? OpTypeFloat);
  g_fp_encoding := fun e => if e =? 0 then 4 else 0;
  g_version := 0x00010600 |}.
Definition t0 : tables := {|
  t_op_name := fun op => match op_row op with Some x => bytes_of (snd (fst x)) | None => [] end;
  t_op_find := fun w => option_map (fun x => fst (fst x)) (op_by_name w);
  t_op_env := fun _ => true;
  t_has_result := fun op => existsb (N.eqb op) [OpExtInst; OpExtInstWithForwardRefsKHR; OpConstant; OpSpecConstant; OpExtInstImport;
                    OpTypeInt; OpTypeFloat; 61; OpIAdd; 52; OpCooperativeMatrixLoadTensorNV];
  t_has_type := fun op => existsb (N.eqb op) [OpExtInst; OpExtInstWithForwardRefsKHR; OpConstant; OpSpecConstant;
                    61; OpIAdd; 52; OpCooperativeMatrixLoadTensorNV];
  t_operand_name := fun ty v => match find_value ty v with Some x => row_name x | None => [] end;
  t_operand_find := fun ty w => option_map row_value (find_text (enum_concrete ty) w);
  t_ext_name := fun s v => bytes_of "FAbs";
  t_ext_find := fun s w => if (s =? 1) && bytes_eqb (bytes_of "FAbs") w then Some 4 else None;
  t_spec_find := fun w => if bytes_eqb (bytes_of "IAdd") w then Some OpIAdd else None;
  t_float_show := fun f v => print_nat v;
  t_float_read := fun f w => parse_number_unsigned 64 w;
  t_version := 0x00010600;
  t_generator := fun _ => bytes_of "Some generator" |}.

Definition name_charb (c : N) : bool :=
  ((48 <=? c) && (c <=? 57)) || ((65 <=? c) && (c <=? 90)) || ((97 <=? c) && (c <=? 122)) || (c =? 95).
Lemma name_textb w : w <> [] -> forallb name_charb w = true -> name_text w.
Proof.
  intros N0 F. split; [exact N0|]. apply Forall_forall. intros c IN. rewrite forallb_forall in F. specialize (F _ IN).
  unfold name_charb in F. unfold name_char. lia.
Qed.
Lemma enum_concrete_twice ty : enum_concrete (enum_concrete ty) = enum_concrete ty.
Proof. destruct ty; reflexivity. Qed.
Lemma bytes_eqb_eq a : forall b, bytes_eqb a b = true -> a = b.
Proof.
  induction a as [|x a IH]; intros [|y b] H; try discriminate; [reflexivity|]. cbn in H. apply andb_true_iff in H. destruct H as [H1 H2].
  apply N.eqb_eq in H1. subst y. f_equal. apply IH. exact H2.
Qed.

Lemma tables0_ok : tables_ok g0 t0.
Proof.
  assert (OPS : forall op x, op_row op = Some x -> In x ops /\ fst (fst x) = op).
  { intros op x H. apply find_some in H. destruct H as [H E]. split; [exact H|]. apply N.eqb_eq in E. exact E. }
  assert (ROWS : forall ty v ts, g_operand g0 ty v = Some ts -> exists x, find_value (enum_concrete ty) v = Some x /\ In x rows /\
    row_ty x = enum_concrete ty /\ row_value x = v /\ snd x = ts).
  { intros ty v ts H. cbn [g0 g_operand] in H. destruct (find_value (enum_concrete ty) v) as [x|] eqn:E; [|discriminate H]. cbn in H. injection H as <-.
    exists x. split; [reflexivity|]. apply find_some in E. destruct E as [E1 E2]. apply andb_true_iff in E2. destruct E2 as [E2 E3].
    apply otype_eqb_eq in E2. apply N.eqb_eq in E3. auto. }
  constructor.
  - intros op ts H. cbn [g0 g_opcode] in H. destruct (op_row op) as [x|] eqn:E; [|discriminate H]. cbn in H. injection H as <-.
    apply OPS in E. destruct E as [IN <-]. cbv in IN.
    repeat (destruct IN as [<-|IN]; [eexists; split; [cbv; reflexivity|split; [repeat constructor|cbv; intros; (discriminate || reflexivity)]]|]).
    destruct IN.
  - intros op a b ts H E. cbn [g0 g_spec_op] in H. apply N.eqb_eq in H. subst op. cbv in E. injection E as <- <- <-. repeat constructor.
  - intros ty v ts H. apply ROWS in H. destruct H as (x & _ & IN & _ & _ & <-). cbv in IN.
    repeat (destruct IN as [<-|IN]; [repeat constructor|]). destruct IN.
  - intros s v ts H. cbn [g0 g_ext_inst] in H. destruct ((s =? 1) && (v =? 4)); [|discriminate H]. injection H as <-. repeat constructor.
  - intros ty v _. cbn [g0 g_operand]. rewrite enum_concrete_twice. reflexivity.
  - intros ty ts _ H. apply ROWS in H. destruct H as (x & _ & IN & _ & V & <-). cbv in IN.
    repeat (destruct IN as [<-|IN]; [first [reflexivity|discriminate V]|]). destruct IN.
  - intros v ts H. assert (H' := H). apply ROWS in H. destruct H as (x & _ & IN & T & _ & <-). split.
    + cbv in IN. repeat (destruct IN as [<-|IN]; [first [reflexivity|discriminate T]|]). destruct IN.
    + change (g_operand g0 T_FPENCODING v) with (g_operand g0 T_OPTIONAL_FPENCODING v). rewrite H'. discriminate.
  - intros op. unfold lead. cbn [t_has_result t_has_type t0 existsb]. unfold OpIAdd, OpCooperativeMatrixLoadTensorNV.
    repeat match goal with |- context [op =? ?k] => destruct (N.eqb_spec op k) as [->|?]; [reflexivity|] end. reflexivity.
  - intros op. unfold lead. cbn [t_has_result t_has_type t0 existsb]. unfold OpIAdd, OpCooperativeMatrixLoadTensorNV.
    repeat match goal with |- context [op =? ?k] => destruct (N.eqb_spec op k) as [->|?]; [reflexivity|] end. reflexivity.
  - intros op. cbn [t_has_result t_has_type t0 existsb]. unfold OpIAdd, OpCooperativeMatrixLoadTensorNV.
    repeat match goal with |- context [op =? ?k] => destruct (op =? k) end; reflexivity || discriminate.
  - intros op H. cbn [g0 g_generates_type] in H. apply orb_true_iff in H. destruct H as [H|H]; apply N.eqb_eq in H; subst op; split; reflexivity.
  - reflexivity.
  - intros op ts H. cbn [g0 g_opcode] in H. destruct (op_row op) as [x|] eqn:E; [|discriminate H].
    cbn [t0 t_op_name]. rewrite E. apply OPS in E. destruct E as [IN _]. cbv in IN.
    repeat (destruct IN as [<-|IN]; [split; [apply name_textb; [discriminate|reflexivity]|split; [vm_compute; split; discriminate|discriminate]]|]).
    destruct IN.
  - intros op H. apply N.eqb_eq in H. subst op. reflexivity.
  - intros op H. apply N.eqb_eq in H. subst op. reflexivity.
  - intros ty v ts H. apply ROWS in H. destruct H as (x & F & IN & T & V & _). cbn [t0 t_operand_name t_operand_find].
    rewrite F. rewrite <- T, <- V. clear F T V. cbv in IN.
    repeat (destruct IN as [<-|IN]; [split; [apply name_textb; [discriminate|reflexivity]|split; reflexivity]|]). destruct IN.
  - intros s v ts H. cbn [g0 g_ext_inst] in H. destruct (s =? 1) eqn:S; [|discriminate H]. destruct (v =? 4) eqn:V; [|discriminate H].
    apply N.eqb_eq in S. apply N.eqb_eq in V. subst s v. split; [apply name_textb; [discriminate|reflexivity]|]. split; reflexivity.
  - intros s w v H. cbn [t0 t_ext_find] in H. destruct (s =? 1); [|discriminate H]. cbn [andb] in H.
    destruct (bytes_eqb _ w) eqn:E; [|discriminate H]. apply bytes_eqb_eq in E. subst w. vm_compute. intros [_ X]. apply X. reflexivity.
  - intros n. repeat constructor; discriminate.
Qed.

(** A module with every kind of operand. *)
Definition inst_of (op : N) (ops : list N) : list N := (N.of_nat (length ops) + 1) * 65536 + op :: ops.
Definition head0 : list N := [0x07230203; 0x00010600; 0; 50; 0].
Definition words0 : list N := head0 ++
  inst_of OpExtInstImport (7 :: make_vector (bytes_of "GLSL.std.450")) ++
  inst_of 5 (9 :: make_vector [34; 92; 10; 65]) ++
  inst_of 71 [9; 1; 77] ++
  inst_of OpTypeInt [2; 16; 1] ++
  inst_of OpTypeInt [12; 64; 0] ++
  inst_of OpTypeFloat [3; 32] ++
  inst_of OpTypeFloat [4; 16; 0] ++
  inst_of OpConstant [2; 9; 0xFFFFFFFB] ++
  inst_of OpConstant [12; 13; 5; 6] ++
  inst_of OpConstant [3; 10; 0x3F800000] ++
  inst_of 52 [2; 14; OpIAdd; 9; 9] ++
  inst_of 61 [2; 21; 9; 3; 16] ++
  inst_of OpExtInst [3; 20; 7; 4; 10] ++
  inst_of OpCooperativeMatrixLoadTensorNV [3; 40; 10; 10; 10; 2; 8; 0] ++
  inst_of OpSwitch [9; 30; 0xFFFFFFFF; 31; 1; 32] ++
  inst_of 253 [].
Definition insts_of (g : grammar) (words : list N) : list pinst :=
  match binary_parse g false quiet words with
  | Some (_, _ :: evs) => flat_map (fun e => match e with EInst i => [i] | _ => [] end) evs
  | _ => [] end.

Ltac one_operand :=
  unfold printable_operand; cbn;
  match goal with
  | |- _ -> _ => let H := fresh in intros H; vm_compute in H; first [discriminate H | split; [vm_compute; congruence|]; intros _ _;
       first [left; reflexivity | right; first [exists 0; reflexivity|exists 1; reflexivity|exists 2; reflexivity|exists 3; reflexivity]]]
  | |- _ = _ => reflexivity
  | _ => idtac
  end.

Example words0_parse : exists hdr,
  binary_parse g0 false quiet words0 = Some (SPV_SUCCESS, hdr :: map EInst (insts_of g0 words0)) /\ length (insts_of g0 words0) = 16%nat.
Proof. eexists. split; vm_compute; reflexivity. Qed.

Lemma printable0 : Forall (printable_inst g0 t0) (insts_of g0 words0).
Proof.
  match goal with |- Forall _ ?x => let y := eval vm_compute in x in change x with y end.
  repeat (apply Forall_cons; [split; [reflexivity|split; [cbn; first [discriminate | intros _ a r w e k H F; try discriminate H]|repeat (apply Forall_cons; [one_operand|]); try apply Forall_nil]]|]); try apply Forall_nil.
  - exists (bytes_of "GLSL.std.450"). split; [repeat constructor; discriminate|reflexivity].
  - exists [34; 92; 10; 65]. split; [repeat constructor; discriminate|reflexivity].
  - injection H as <- <- <- <-. vm_compute in F. injection F as <-. reflexivity.
  - exists (-5)%Z. split; [split; discriminate|]. split; [split; [discriminate|reflexivity]|reflexivity].
  - exists 25769803781%Z. split; [split; discriminate|]. split; [split; [discriminate|reflexivity]|reflexivity].
  - exists 2, 32, 1065353216. split; [left; auto|]. split; [reflexivity|]. split; [reflexivity|]. split; [reflexivity|]. split; [reflexivity|].
    match goal with |- operand_token ?x => let y := eval vm_compute in x in change x with y end.
    split; [split; [repeat (apply wb_plain; [unfold special, white; intros X; decompose [or] X; discriminate|]); apply wb_nil|discriminate]|]. split; [reflexivity|]. split; discriminate.
  - intros _. split; [discriminate|]. intros _ (ts & H & IN). injection H as <-. cbn in IN.
    repeat (destruct IN as [IN|IN]; [discriminate IN|]). destruct IN.
  - exists (-1)%Z. split; [split; discriminate|]. split; [split; [discriminate|reflexivity]|reflexivity].
  - exists 1%Z. split; [split; discriminate|]. split; [split; [discriminate|reflexivity]|reflexivity].
Qed.

(** This module meets the hypotheses of both theorems ... *)
Example words0_hypotheses : Forall word_ok words0 /\ hd 0 words0 = 0x07230203 /\ N.of_nat (length words0) < 2 ^ 32 /\
  (exists hdr, binary_parse g0 false quiet words0 = Some (SPV_SUCCESS, hdr :: map EInst (insts_of g0 words0))) /\
  (forall id, In id (module_ids (insts_of g0 words0)) -> id <> 2 ^ 32 - 1) /\
  (forall id, In id (module_ids (insts_of g0 words0)) -> is_valid_id (print_nat id) = true) /\
  (forall a b, In a (module_ids (insts_of g0 words0)) -> In b (module_ids (insts_of g0 words0)) -> print_nat a = print_nat b -> a = b).
Proof.
  split; [apply Forall_forall; intros x IN; vm_compute in IN; repeat (destruct IN as [<-|IN]; [vm_compute; reflexivity|]); destruct IN|].
  split; [reflexivity|]. split; [reflexivity|]. split; [destruct words0_parse as (h & H & _); exists h; exact H|].
  assert (E : module_ids (insts_of g0 words0) = [7; 9; 9; 2; 12; 3; 4; 2; 9; 12; 13; 3; 10; 2; 14; 9; 9; 2; 21; 9; 3; 20; 7; 10; 3; 40; 10; 10; 10; 9; 30; 31; 32])
    by (vm_compute; reflexivity).
  rewrite E. clear E. split; [|split].
  - intros id IN. repeat (destruct IN as [<-|IN]; [discriminate|]). destruct IN.
  - intros id IN. repeat (destruct IN as [<-|IN]; [reflexivity|]). destruct IN.
  - intros a b _ _ H. exact (P_NameMapper.print_nat_inj _ _ H).
Qed.

(** ... and this is its text. *)
Example words0_text : disassemble g0 t0 print_nat false false words0 = Some (inl (bytes_of
"%7 = OpExtInstImport ""GLSL.std.450""
OpName %9 ""\""\\
A""
OpDecorate %9 SpecId 77
%2 = OpTypeInt 16 1
%12 = OpTypeInt 64 0
%3 = OpTypeFloat 32
%4 = OpTypeFloat 16 BFloat16KHR
%9 = OpConstant %2 -5
%13 = OpConstant %12 25769803781
%10 = OpConstant %3 1065353216
%14 = OpSpecConstantOp %2 IAdd %9 %9
%21 = OpLoad %2 %9 Volatile|Aligned 16
%20 = OpExtInst %3 %7 FAbs %10
%40 = OpCooperativeMatrixLoadTensorNV %3 %10 %10 %10 Aligned 8 None
OpSwitch %9 %30 -1 %31 1 %32
OpReturn
")).
Proof. vm_compute. reflexivity. Qed.

(** *** The statement for all modules is false *)
(** What the round trip does to a module. *)
Definition there_and_back (g : grammar) (t : tables) (words : list N) : aout (list N) :=
  match disassemble g t print_nat false false words with
  | Some (inl text) => assemble g t true text
  | _ => AStuck
  end.
Definition parses (g : grammar) (words : list N) : Prop :=
  exists hdr, binary_parse g false quiet words = Some (SPV_SUCCESS, hdr :: map EInst (insts_of g words)).

(** Two bits in a mask operand that is not optional: the disassembler writes them with a bar
    between them, the assembler knows no mask there and rejects the text. *)
Definition words_mask : list N := head0 ++ inst_of OpCooperativeMatrixLoadTensorNV [3; 40; 10; 10; 10; 3; 8; 0].
Theorem round_trip_mask_refuted : tables_ok g0 t0 /\ parses g0 words_mask /\
  there_and_back g0 t0 words_mask = AErr SPV_ERROR_INVALID_TEXT.
Proof. split; [exact tables0_ok|]. split; [eexists; vm_compute; reflexivity|vm_compute; reflexivity]. Qed.
(** Bytes after the end of a string: the disassembler does not show them. *)
Definition words_padding : list N := head0 ++ inst_of 5 [9; 0x00CC0061].
Theorem round_trip_padding_refuted : tables_ok g0 t0 /\ parses g0 words_padding /\
  there_and_back g0 t0 words_padding = AOk ([0x07230203; 0x00010600; 0x00070000; 10; 0] ++ inst_of 5 [9; 0x61]).
Proof. split; [exact tables0_ok|]. split; [eexists; vm_compute; reflexivity|vm_compute; reflexivity]. Qed.
(** A 16-bit constant whose upper half is not its sign: the number shown does not fit. *)
Definition words_narrow : list N := head0 ++ inst_of OpTypeInt [2; 16; 0] ++ inst_of OpConstant [2; 3; 0x00010005].
Theorem round_trip_narrow_refuted : tables_ok g0 t0 /\ parses g0 words_narrow /\
  there_and_back g0 t0 words_narrow = AErr SPV_ERROR_INVALID_TEXT.
Proof. split; [exact tables0_ok|]. split; [eexists; vm_compute; reflexivity|vm_compute; reflexivity]. Qed.
(** Id 2^32-1: the bound of the new module would be 2^32. *)
Definition words_top : list N := head0 ++ inst_of 5 [0xFFFFFFFF; 0x61].
Theorem round_trip_bound_refuted : tables_ok g0 t0 /\ parses g0 words_top /\
  there_and_back g0 t0 words_top = AOk ([0x07230203; 0x00010600; 0x00070000; 1; 0] ++ inst_of 5 [0xFFFFFFFF; 0x61]).
Proof. split; [exact tables0_ok|]. split; [eexists; vm_compute; reflexivity|vm_compute; reflexivity]. Qed.
(** A 32-bit type with the encoding of a 16-bit one is rejected by the assembler. *)
Definition words_float : list N := head0 ++ inst_of OpTypeFloat [2; 32; 0].
Theorem round_trip_float_type_refuted : tables_ok g0 t0 /\ parses g0 words_float /\
  there_and_back g0 t0 words_float = AErr SPV_ERROR_INVALID_TEXT.
Proof. split; [exact tables0_ok|]. split; [eexists; vm_compute; reflexivity|vm_compute; reflexivity]. Qed.

Print Assumptions round_trip_partial.
Print Assumptions round_trip_names_partial.
Print Assumptions assembling_depends_on_words_only.
Print Assumptions round_trip_mask_refuted.
