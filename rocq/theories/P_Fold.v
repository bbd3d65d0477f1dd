(** C20: integer and boolean constant folding computes what the SPIR-V specification says. *)
From Verif Require Import Base Fold FoldSpec FoldProofs FoldProofs6 FoldProofs7 FoldProofs8.
Local Open Scope Z_scope.

(** Full statement: whenever the folder replaces an instruction by a constant, every component of
    the constant is, in every execution, the value the specification gives to the instruction,
    provided it gives one; and the folder performs no undefined operation.  Proved with the
    exceptions listed in [known_deviation], each of which is refuted below. *)
Theorem integer_folding_right_partial : forall m id_map i c,
  module_ok m -> id_map_ok m id_map -> inst_ok m i ->
  fold_to_constant m id_map i = FSome c ->
  length (const_value c) = dims (fi_type i) /\
  forall env d v, execution m id_map env -> (d < dims (fi_type i))%nat ->
    ~ deviation_at m i env d ->
    result_component m i env d = Some v ->
    nth d (const_value c) 0 = v.
Proof.
  intros m id_map i c Hm Hid Hi E. split.
  - exact (fold_to_constant_shape m id_map Hm Hid i c Hi E).
  - exact (fold_to_constant_right m id_map Hm Hid i c Hi E).
Qed.

(** On 8-, 16- and 32-bit integers and booleans the folder performs no undefined operation and fails
    no assertion, as long as no vector constant among the operands has a null constant as
    component.  Without the exclusions this is false, see below. *)
Theorem integer_folding_no_undefined_partial : forall m id_map i,
  module_ok m -> id_map_ok m id_map -> inst_ok m i -> narrow_inst m id_map i ->
  fold_to_constant m id_map i <> FBad.
Proof. intros m id_map i Hm Hid Hi Hn. exact (fold_to_constant_safe m id_map Hm Hid i Hi Hn). Qed.

(** The folded constant is a constant of the type of the instruction, encoded as the specification
    requires (SPIR-V 2.2.1); for the rules that return an operand, when the operands have the type
    of the result.  Without that condition this is false, see below. *)
Theorem integer_folding_encoded_partial : forall m id_map i c,
  module_ok m -> id_map_ok m id_map -> inst_ok m i ->
  (returns_operand (fi_op i) = true -> operands_of_result_type m i) ->
  fold_to_constant m id_map i = FSome c -> const_ok (fi_type i) c.
Proof. intros m id_map i c Hm Hid. exact (fold_to_constant_encoded m id_map Hm Hid i c). Qed.

(** ** Concrete modules *)
Fixpoint lookup {A} (id : N) (l : list (N * A)) : option A :=
  match l with [] => None | (k, a) :: l' => if N.eqb k id then Some a else lookup id l' end.
(** Ids with their type and, for constants, their constant; and the ids defined by OpSNegate. *)
Definition module_of (l : list (N * (fty * option fconst))) (neg : list (N * N)) : fmodule :=
  mkFModule (fun id => option_map fst (lookup id l))
            (fun id => match lookup id l with Some (_, c) => c | None => None end)
            (fun id => lookup id neg).
Definition env_of (l : list (N * (fty * option fconst))) (vals : list (N * list Z)) (id : N) : list Z :=
  match lookup id l with
  | Some (_, Some c) => const_value c
  | _ => match lookup id vals with Some v => v | None => [] end
  end.
Definition same_id (id : N) : N := id.

Lemma lookup_in {A} id (l : list (N * A)) a : lookup id l = Some a -> In (id, a) l.
Proof.
  induction l as [|(k, b) l IH]; cbn; [discriminate|]. destruct (N.eqb k id) eqn:E; auto.
  intros H. injection H as <-. apply N.eqb_eq in E. subst k. auto.
Qed.
Lemma module_of_ok l neg :
  Forall (fun x => fty_ok (fst (snd x)) /\ match snd (snd x) with Some c => const_ok (fst (snd x)) c | None => True end) l ->
  module_ok (module_of l neg).
Proof.
  intros F id t H. rewrite Forall_forall in F. cbn in *. destruct (lookup id l) as [(t', c')|] eqn:E; [|discriminate].
  injection H as <-. apply lookup_in, F in E. cbn in E. destruct E as (Ft & K). split; [exact Ft|].
  intros c ->. exact K.
Qed.
Lemma env_of_execution l neg vals :
  (forall id t, fm_type (module_of l neg) id = Some t -> value_ok t (env_of l vals id)) ->
  (forall id x t, lookup id neg = Some x -> fm_type (module_of l neg) id = Some t ->
     env_of l vals id = map (fun v => (- v) mod 2 ^ ewidth (elem t)) (env_of l vals x)) ->
  execution (module_of l neg) same_id (env_of l vals).
Proof.
  intros H1 H2. split; [exact H1|]. split; [|split; [exact H2|reflexivity]].
  intros id c E. cbn in E. unfold env_of. destruct (lookup id l) as [(t, o)|]; [|discriminate]. subst o. reflexivity.
Qed.
Lemma value_ok_list l neg vals :
  Forall (fun x => value_ok (fst (snd x)) (env_of l vals (fst x))) l ->
  forall id t, fm_type (module_of l neg) id = Some t -> value_ok t (env_of l vals id).
Proof.
  intros F id t H. rewrite Forall_forall in F. cbn in H. destruct (lookup id l) as [(t', c)|] eqn:E; [|discriminate].
  injection H as <-. apply lookup_in, F in E. exact E.
Qed.
Lemma no_negations l vals : forall id x t, lookup id [] = Some x -> fm_type (module_of l []) id = Some t ->
  env_of l vals id = map (fun v => (- v) mod 2 ^ ewidth (elem t)) (env_of l vals x).
Proof. discriminate. Qed.

Definition I32 := TScalar (EInt 32 true).
Definition U32 := TScalar (EInt 32 false).
Definition U8 := TScalar (EInt 8 false).
Definition I64 := TScalar (EInt 64 true).
Definition V2 := TVector (EInt 32 true) 2.
Definition i32 (v : Z) : fconst := CScalar (SCInt 32 true [v]).
Definition u32c (v : Z) : fconst := CScalar (SCInt 32 false [v]).

Ltac const_solve := first
  [ reflexivity
  | match goal with |- sconst_ok (EInt ?w ?s) (SCInt ?w ?s [?x]) =>
      split; [reflexivity|exists (x mod 2 ^ w); split; [vm_compute; split; congruence|vm_compute; reflexivity]] end
  | match goal with |- sconst_ok (EInt ?w ?s) (SCInt ?w ?s [?x; ?y]) =>
      split; [reflexivity|exists (x + y * 2 ^ 32); split; [vm_compute; split; congruence|vm_compute; reflexivity]] end ].
Ltac width_solve := first [left; reflexivity|right; width_solve|reflexivity].
Ltac ty_solve := split; cbn [elem ety_ok]; [first [exact I|unfold width_ok; width_solve]|cbn; try exact I; try lia].
Ltac forall_solve tac := repeat (apply Forall_cons; [tac|]); apply Forall_nil.
Ltac const_ok_solve := cbv [fst snd I32 U32 U8 I64 V2 i32 u32c]; cbn [const_ok]; first
  [ exact I | const_solve | split; [reflexivity|split; [reflexivity|forall_solve const_solve]] | split; reflexivity ].
Ltac mod_solve := apply module_of_ok; forall_solve ltac:(split; [cbn [fst snd]; ty_solve|const_ok_solve]).
Ltac env_solve := apply env_of_execution; [apply value_ok_list; repeat constructor; vm_compute; try congruence|try apply no_negations].

(** OpIAdd of two vectors, one with a negative component, and OpBitwiseAnd of an unknown value by
    0: folded, and the hypotheses of the theorems hold. *)
Definition ex_ids : list (N * (fty * option fconst)) :=
  [ (1%N, (V2, Some (CVector (EInt 32 true) [SCInt 32 true [5]; SCInt 32 true [2 ^ 32 - 7]])));
    (2%N, (V2, Some (CNullVector (EInt 32 true) 2)));
    (3%N, (V2, Some (CVector (EInt 32 true) [SCInt 32 true [2 ^ 31]; SCInt 32 true [9]])));
    (4%N, (I32, None)); (5%N, (I32, Some (i32 0))) ].
Definition ex_add := mkFInst FIAdd V2 [1%N; 3%N] true.
Definition ex_and := mkFInst FAnd I32 [4%N; 5%N] true.
Definition ex_env := env_of ex_ids [(4%N, [123])].
Example folding_example :
  module_ok (module_of ex_ids []) /\ id_map_ok (module_of ex_ids []) same_id /\
  inst_ok (module_of ex_ids []) ex_add /\ inst_ok (module_of ex_ids []) ex_and /\
  narrow_inst (module_of ex_ids []) same_id ex_add /\ narrow_inst (module_of ex_ids []) same_id ex_and /\
  execution (module_of ex_ids []) same_id ex_env /\
  fold_to_constant (module_of ex_ids []) same_id ex_add =
    FSome (CVector (EInt 32 true) [SCInt 32 true [2 ^ 31 + 5]; SCInt 32 true [2]]) /\
  fold_to_constant (module_of ex_ids []) same_id ex_and = FSome (i32 0) /\
  (forall d, ~ deviation_at (module_of ex_ids []) ex_add ex_env d) /\
  result_component (module_of ex_ids []) ex_add ex_env 1 = Some 2.
Proof.
  split; [mod_solve|]. split; [intros id; reflexivity|].
  split; [split; [ty_solve|exists [V2; V2]; split; [repeat constructor|repeat split]]|].
  split; [split; [ty_solve|exists [I32; I32]; split; [repeat constructor|repeat split]]|].
  split.
  { split; [vm_compute; congruence|]. split.
    - intros id t [<- |[<- |[]]] H; injection H as <-; vm_compute; congruence.
    - intros id c [<- |[<- |[]]] H; injection H as <-; intros e [H|[H|[]]]; discriminate. }
  split.
  { split; [vm_compute; congruence|]. split.
    - intros id t [<- |[<- |[]]] H; injection H as <-; vm_compute; congruence.
    - intros id c [<- |[<- |[]]] H; [discriminate|injection H as <-; exact I]. }
  split; [env_solve|].
  split; [vm_compute; reflexivity|]. split; [vm_compute; reflexivity|].
  split; [intros d H; exact H|]. vm_compute. reflexivity.
Qed.

(** ** The exceptions *)
Definition folds_wrong (m : fmodule) (i : finst) (env : N -> list Z) : Prop :=
  module_ok m /\ inst_ok m i /\ execution m same_id env /\
  exists c v, fold_to_constant m same_id i = FSome c /\ result_component m i env 0 = Some v /\
              nth 0 (const_value c) 0 <> v.
Ltac wrong_solve ts :=
  split; [reflexivity|]; split; [mod_solve|split; [split; [ty_solve|exists ts; split; [repeat constructor|repeat split]]|
  split; [env_solve|do 2 eexists; split; [vm_compute; reflexivity|split; [vm_compute; reflexivity|vm_compute; congruence]]]]].

(** OpSMod 4 -2 is folded to -2; it is 0. *)
Theorem folding_smod_refuted : exists m i env, fi_op i = FSMod /\ folds_wrong m i env.
Proof.
  pose (ids := [(1%N, (I32, Some (i32 4))); (2%N, (I32, Some (i32 (2 ^ 32 - 2))))]).
  exists (module_of ids []), (mkFInst FSMod I32 [1%N; 2%N] true), (env_of ids []).
  wrong_solve [I32; I32].
Qed.
(** OpSDiv (OpSNegate x) x is folded to -1; it is 1 when x is the smallest integer. *)
Theorem folding_negated_division_refuted : exists m i env, fi_op i = FSDiv /\ folds_wrong m i env.
Proof.
  pose (ids := [(1%N, (I32, @None fconst)); (2%N, (I32, None))]).
  exists (module_of ids [(2%N, 1%N)]), (mkFInst FSDiv I32 [2%N; 1%N] true), (env_of ids [(1%N, [2 ^ 31]); (2%N, [2 ^ 31])]).
  split; [reflexivity|]. split; [mod_solve|]. split; [split; [ty_solve|exists [I32; I32]; split; [repeat constructor|repeat split]]|].
  split.
  { apply env_of_execution; [apply value_ok_list; repeat constructor; vm_compute; congruence|].
    intros id x t H T. cbn [lookup] in H. destruct (N.eqb 2 id) eqn:E; [|discriminate]. apply N.eqb_eq in E. subst id.
    injection H as <-. vm_compute in T. injection T as <-. vm_compute. reflexivity. }
  do 2 eexists; split; [vm_compute; reflexivity|split; [vm_compute; reflexivity|vm_compute; congruence]].
Qed.
(** OpSConvert to 32 bits of the 8-bit unsigned constant 0xff is folded to 255; it is -1. *)
Theorem folding_narrow_sconvert_refuted : exists m i env, fi_op i = FSConvert /\ folds_wrong m i env.
Proof.
  pose (ids := [(1%N, (U8, Some (CScalar (SCInt 8 false [255]))))]).
  exists (module_of ids []), (mkFInst FSConvert I32 [1%N] true), (env_of ids []).
  wrong_solve [U8].
Qed.
(** So is OpSDiv of the 8-bit unsigned constants 0xff and 2 to 127; it is 0. *)
Theorem folding_narrow_sdiv_refuted : exists m i env, fi_op i = FSDiv /\ folds_wrong m i env.
Proof.
  pose (ids := [(1%N, (U8, Some (CScalar (SCInt 8 false [255])))); (2%N, (U8, Some (CScalar (SCInt 8 false [2]))))]).
  exists (module_of ids []), (mkFInst FSDiv U8 [1%N; 2%N] true), (env_of ids []).
  wrong_solve [U8; U8].
Qed.
(** SMin of unsigned-typed operands compares them as unsigned numbers. *)
Theorem folding_smin_refuted : exists m i env, fi_op i = FSMin /\ folds_wrong m i env.
Proof.
  pose (ids := [(1%N, (U32, Some (u32c (2 ^ 32 - 1)))); (2%N, (U32, Some (u32c 1)))]).
  exists (module_of ids []), (mkFInst FSMin U32 [1%N; 2%N] true), (env_of ids []).
  wrong_solve [U32; U32].
Qed.
(** And UMin of signed-typed operands compares them as signed numbers. *)
Theorem folding_umin_refuted : exists m i env, fi_op i = FUMin /\ folds_wrong m i env.
Proof.
  pose (ids := [(1%N, (I32, Some (i32 (2 ^ 32 - 1)))); (2%N, (I32, Some (i32 1)))]).
  exists (module_of ids []), (mkFInst FUMin I32 [1%N; 2%N] true), (env_of ids []).
  wrong_solve [I32; I32].
Qed.

Definition folds_badly (m : fmodule) (i : finst) : Prop :=
  module_ok m /\ inst_ok m i /\ fold_to_constant m same_id i = FBad.
Ltac bad_solve ts :=
  split; [reflexivity|]; split; [mod_solve|split; [split; [ty_solve|exists ts; split; [repeat constructor|repeat split]]|vm_compute; reflexivity]].
(** Negating the smallest 64-bit integer, and dividing it by -1, overflow in the folder. *)
Theorem folding_negate_undefined_refuted : exists m i, fi_op i = FSNegate /\ folds_badly m i.
Proof.
  pose (ids := [(1%N, (I64, Some (CScalar (SCInt 64 true [0; 2 ^ 31]))))]).
  exists (module_of ids []), (mkFInst FSNegate I64 [1%N] true). bad_solve [I64].
Qed.
Theorem folding_division_undefined_refuted : exists m i, fi_op i = FSDiv /\ folds_badly m i.
Proof.
  pose (ids := [(1%N, (I64, Some (CScalar (SCInt 64 true [0; 2 ^ 31]))));
                (2%N, (I64, Some (CScalar (SCInt 64 true [2 ^ 32 - 1; 2 ^ 32 - 1]))))]).
  exists (module_of ids []), (mkFInst FSDiv I64 [1%N; 2%N] true). bad_solve [I64; I64].
Qed.
(** OpNot of a vector constant one of whose components is an OpConstantNull fails an assertion. *)
Theorem folding_null_component_refuted : exists m i, fi_op i = FNot /\ folds_badly m i.
Proof.
  pose (ids := [(1%N, (V2, Some (CVector (EInt 32 true) [SCNull (EInt 32 true); SCInt 32 true [1]])))]).
  exists (module_of ids []), (mkFInst FNot V2 [1%N] true). bad_solve [V2].
Qed.

(** UMin of 8-bit unsigned constants with a signed result: the word 255 is not an 8-bit signed
    constant. *)
Theorem folding_encoding_refuted : exists m i c, module_ok m /\ inst_ok m i /\
  fold_to_constant m same_id i = FSome c /\ ~ const_ok (fi_type i) c.
Proof.
  pose (ids := [(1%N, (U8, Some (CScalar (SCInt 8 false [255]))))]).
  exists (module_of ids []), (mkFInst FUMin (TScalar (EInt 8 true)) [1%N; 1%N] true), (CScalar (SCInt 8 true [255])).
  split; [mod_solve|]. split; [split; [ty_solve|exists [U8; U8]; split; [repeat constructor|repeat split]]|].
  split; [vm_compute; reflexivity|]. intros (_ & v & R & E). unfold encode in E. change (8 <=? 32) with true in E. cbv iota in E.
  injection E as E. change (2 ^ (8 - 1)) with 128 in E. change (2 ^ 32 - 2 ^ 8) with 4294967040 in E.
  destruct (128 <=? v) eqn:Q; cbn [andb] in E; lia.
Qed.

Print Assumptions integer_folding_right_partial.
Print Assumptions integer_folding_no_undefined_partial.
Print Assumptions folding_smod_refuted.
Print Assumptions folding_negated_division_refuted.
Print Assumptions folding_narrow_sconvert_refuted.
Print Assumptions folding_narrow_sdiv_refuted.
Print Assumptions folding_smin_refuted.
Print Assumptions folding_umin_refuted.
Print Assumptions folding_negate_undefined_refuted.
Print Assumptions folding_division_undefined_refuted.
Print Assumptions folding_null_component_refuted.
Print Assumptions integer_folding_encoded_partial.
Print Assumptions folding_encoding_refuted.
