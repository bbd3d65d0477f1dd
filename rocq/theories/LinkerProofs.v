(** Proofs about the linker: shifting, header and merging. *)
From Coq Require FinFun.
From Verif Require Import Base OperandTypes IrModule IrSpec Words Linker LinkerSpec.
Local Open Scope N_scope.

(** ** Mapping over modules *)
Lemma map_ext_In {A B} (f g : A -> B) l : (forall a, In a l -> f a = g a) -> map f l = map g l.
Proof. apply map_ext_in. Qed.
Lemma module_insts_cases i m : In i (module_insts m) <->
  In i (capabilities m) \/ In i (extensions m) \/ In i (ext_inst_imports m) \/ In i (opt_list (memory_model m)) \/
  In i (opt_list (sampled_image_address_mode m)) \/ In i (entry_points m) \/ In i (graph_entry_points m) \/
  In i (execution_modes m) \/ In i (debugs1 m) \/ In i (debugs2 m) \/ In i (debugs3 m) \/ In i (annotations m) \/
  In i (types_values m) \/ In i (flat_map func_insts (functions m)) \/ In i (concat (graphs m)).
Proof. unfold module_insts. rewrite !in_app_iff. reflexivity. Qed.
Definition in_module (m : lmodule) (l : list inst) : Prop := forall i, In i l -> In i (module_insts m).
Lemma sections_in m : Forall (in_module m)
  ([capabilities m; extensions m; ext_inst_imports m; opt_list (memory_model m); opt_list (sampled_image_address_mode m); entry_points m;
    graph_entry_points m; execution_modes m; debugs1 m; debugs2 m; debugs3 m; annotations m; types_values m; flat_map func_insts (functions m); concat (graphs m)]).
Proof.
  unfold in_module, module_insts. repeat (constructor; [intros i Hi; repeat (apply in_app_iff; (left; exact Hi) || right); exact Hi|]). constructor.
Qed.
Lemma for_each_ext f g m : (forall i, In i (module_insts m) -> f i = g i) -> for_each_inst f m = for_each_inst g m.
Proof.
  intro H. pose proof (sections_in m) as HS. repeat match goal with H : Forall _ (_ :: _) |- _ => apply Forall_cons_iff in H as [? H] end.
  assert (Hs : forall l, in_module m l -> map f l = map g l) by (intros l Hl; apply map_ext_In; intros i Hi; apply H, Hl, Hi).
  assert (Ho : forall o, in_module m (opt_list o) -> option_map f o = option_map g o).
  { intros [i|] Hi; [|reflexivity]. simpl. f_equal. apply H, Hi. left. reflexivity. }
  unfold for_each_inst.
  rewrite (Hs (capabilities m)), (Hs (extensions m)), (Hs (ext_inst_imports m)), (Ho (memory_model m)), (Ho (sampled_image_address_mode m)),
    (Hs (entry_points m)), (Hs (graph_entry_points m)), (Hs (execution_modes m)), (Hs (debugs1 m)), (Hs (debugs2 m)), (Hs (debugs3 m)),
    (Hs (annotations m)), (Hs (types_values m)) by assumption.
  f_equal.
  - apply map_ext_In. intros fn Hf. unfold map_func.
    assert (Hin : forall i, In i (func_insts fn) -> f i = g i).
    { intros i Hi. apply H. match goal with H : in_module m (flat_map func_insts _) |- _ => apply H end. apply in_flat_map. eauto. }
    unfold func_insts in Hin. f_equal; [apply Hin; left; reflexivity| |]; apply map_ext_In; intros i Hi; apply Hin; right; apply in_app_iff; auto.
  - apply map_ext_In. intros l Hl. apply map_ext_In. intros i Hi. apply H. match goal with H : in_module m (concat _) |- _ => apply H end. apply in_concat. eauto.
Qed.
Lemma map_func_id f fn : (forall i, In i (func_insts fn) -> f i = i) -> map_func f fn = fn.
Proof.
  intro H. unfold map_func, func_insts in *. destruct fn as [d p r]; cbn [f_def f_params f_rest] in *. f_equal; [apply H; left; reflexivity| |];
    (rewrite <- (map_id _) at 1; fail) || (erewrite map_ext_In; [apply map_id|]; intros i Hi; apply H; right; apply in_app_iff; auto).
Qed.
Lemma for_each_id f m : (forall i, In i (module_insts m) -> f i = i) -> for_each_inst f m = m.
Proof.
  intro H. rewrite (for_each_ext f (fun i => i) m H). destruct m as [ve bo ca ex im mm sm ep gep em d1 d2 d3 an tv fs gs]. unfold for_each_inst.
  cbn [version id_bound capabilities extensions ext_inst_imports memory_model sampled_image_address_mode entry_points graph_entry_points
       execution_modes debugs1 debugs2 debugs3 annotations types_values functions graphs].
  rewrite !map_id.
  replace (option_map (fun i => i) mm) with mm by (destruct mm; reflexivity).
  replace (option_map (fun i => i) sm) with sm by (destruct sm; reflexivity).
  replace (map (map_func (fun i => i)) fs) with fs.
  2: { symmetry. erewrite map_ext_In; [apply map_id|]. intros fn _. apply map_func_id. reflexivity. }
  replace (map (map (fun i => i)) gs) with gs; [reflexivity|].
  symmetry. erewrite map_ext_In; [apply map_id|]. intros l _. apply map_id.
Qed.
Lemma func_insts_map f fn : func_insts (map_func f fn) = map f (func_insts fn).
Proof. unfold func_insts, map_func. cbn [f_def f_params f_rest map]. rewrite map_app. reflexivity. Qed.
Lemma module_insts_map f m : module_insts (for_each_inst f m) = map f (module_insts m).
Proof.
  unfold module_insts, for_each_inst.
  cbn [version id_bound capabilities extensions ext_inst_imports memory_model sampled_image_address_mode entry_points graph_entry_points
       execution_modes debugs1 debugs2 debugs3 annotations types_values functions graphs].
  rewrite !map_app.
  replace (opt_list (option_map f (memory_model m))) with (map f (opt_list (memory_model m))) by (destruct (memory_model m); reflexivity).
  replace (opt_list (option_map f (sampled_image_address_mode m))) with (map f (opt_list (sampled_image_address_mode m)))
    by (destruct (sampled_image_address_mode m); reflexivity).
  replace (flat_map func_insts (map (map_func f) (functions m))) with (map f (flat_map func_insts (functions m))).
  2: { induction (functions m) as [|fn l IH]; [reflexivity|]. cbn [map flat_map]. rewrite func_insts_map, map_app, IH. reflexivity. }
  rewrite concat_map. reflexivity.
Qed.
Lemma for_each_comp f g m : for_each_inst f (for_each_inst g m) = for_each_inst (fun i => f (g i)) m.
Proof.
  unfold for_each_inst.
  cbn [version id_bound capabilities extensions ext_inst_imports memory_model sampled_image_address_mode entry_points graph_entry_points
       execution_modes debugs1 debugs2 debugs3 annotations types_values functions graphs].
  rewrite !map_map.
  replace (option_map f (option_map g (memory_model m))) with (option_map (fun i => f (g i)) (memory_model m)) by (destruct (memory_model m); reflexivity).
  replace (option_map f (option_map g (sampled_image_address_mode m))) with (option_map (fun i => f (g i)) (sampled_image_address_mode m))
    by (destruct (sampled_image_address_mode m); reflexivity).
  replace (map (fun x => map_func f (map_func g x)) (functions m)) with (map (map_func (fun i => f (g i))) (functions m)).
  2: { apply map_ext. intro fn. unfold map_func. cbn [f_def f_params f_rest]. rewrite !map_map. reflexivity. }
  replace (map (fun x => map f (map g x)) (graphs m)) with (map (map (fun i => f (g i))) (graphs m)); [reflexivity|].
  apply map_ext. intro l. rewrite map_map. reflexivity.
Qed.

(** ** Renaming *)
Lemma rename_operand_id f o : (forall x, f x = x) -> rename_operand f o = o.
Proof. intro H. unfold rename_operand. destruct o as [t ws]. simpl. destruct (is_id_type t); [|reflexivity]. f_equal. rewrite <- (map_id ws) at 2. apply map_ext. exact H. Qed.
Lemma rename_line_id f l : (forall x, f x = x) -> rename_line f l = l.
Proof.
  intro H. destruct l as [oc ops sc il]. unfold rename_line. cbn [opcode operands lexical_scope inlined_at].
  assert (Hs : forall x, rename_scope f x = x) by (intro x; unfold rename_scope; destruct (N.eqb_spec x 0); auto).
  rewrite !Hs. f_equal. rewrite <- (map_id ops) at 2. apply map_ext. intro o. apply rename_operand_id. exact H.
Qed.
Lemma rename_inst_id f i : (forall x, f x = x) -> rename_inst f i = i.
Proof.
  intro H. destruct i as [b ls]. unfold rename_inst. cbn [body lines]. rewrite (rename_line_id f b H). f_equal.
  rewrite <- (map_id ls) at 2. apply map_ext. intro l. apply rename_line_id. exact H.
Qed.
Lemma line_no_ids f l : line_ids l = [] -> rename_line f l = l.
Proof.
  unfold line_ids. intro H. apply app_eq_nil in H as [H1 H2]. apply app_eq_nil in H2 as [H2 H3].
  destruct l as [oc ops sc il]; unfold rename_line; cbn [opcode operands lexical_scope inlined_at] in *.
  assert (Hs : forall x, scope_ids x = [] -> rename_scope f x = x).
  { intro x. unfold scope_ids, rename_scope. destruct (N.eqb_spec x 0); [congruence | discriminate]. }
  rewrite (Hs _ H2), (Hs _ H3). f_equal. clear -H1.
  induction ops as [|[t ws] ops IH]; [reflexivity|]. simpl in *. apply app_eq_nil in H1 as [Ho H1].
  rewrite (IH H1). f_equal. unfold operand_ids, rename_operand in *. simpl in *.
  destruct (is_id_type t); [subst; reflexivity | reflexivity].
Qed.
Lemma shift_is_rename off i : ids_are_words (body i) -> (forall x, In x (inst_ids i) -> x + off < 2 ^ 32) ->
  lexical_scope (body i) = 0 -> inlined_at (body i) = 0 -> Forall (fun l => line_ids l = []) (lines i) ->
  shift_inst off i = rename_inst (fun x => x + off) i.
Proof.
  intros Hw Hb Hl Hi Hls. unfold shift_inst, rename_inst. f_equal.
  - unfold rename_line. rewrite Hl, Hi. f_equal. apply map_ext_In. intros [t ws] Ho.
    unfold shift_operand, rename_operand. cbn [fst snd]. destruct (is_id_type t) eqn:Et; [|destruct ws; reflexivity].
    unfold ids_are_words in Hw. rewrite Forall_forall in Hw. specialize (Hw _ Ho Et). cbn [snd] in Hw.
    destruct ws as [|w [|? ?]]; try discriminate. cbn [map]. rewrite N.mod_small; [reflexivity|]. apply Hb.
    unfold inst_ids, line_ids. rewrite !in_app_iff. right. left. apply in_flat_map. exists (t, [w]). split; [exact Ho|].
    unfold operand_ids. cbn [fst snd]. rewrite Et. left. reflexivity.
  - symmetry. rewrite <- (map_id (lines i)) at 2. apply map_ext_In. intros l Hin. rewrite Forall_forall in Hls. apply line_no_ids. apply Hls. exact Hin.
Qed.
Lemma in_all_ids m i x : In i (module_insts m) -> In x (inst_ids i) -> In x (all_ids m).
Proof. intros Hi Hx. unfold all_ids, insts_ids. apply in_flat_map. eauto. Qed.
Lemma shift_module_rename off m : consistent m -> no_line_ids m -> off + (id_bound m - 1) < 2 ^ 32 ->
  for_each_inst (shift_inst off) m = for_each_inst (rename_inst (fun x => x + off)) m.
Proof.
  intros (Hb & Hid & Hw) Hl Ho. apply for_each_ext. intros i Hi. unfold no_line_ids in Hl. rewrite Forall_forall in Hl, Hw.
  destruct (Hl i Hi) as (H1 & H2 & H3). apply shift_is_rename; auto.
  intros x Hx. specialize (Hid x (in_all_ids m i x Hi Hx)). lia.
Qed.

(** ** Offsets *)
Fixpoint offsets (off : N) (ms : list lmodule) : list N :=
  match ms with [] => [] | m :: ms' => off :: offsets (off + (id_bound m - 1)) ms' end.
Lemma sum_bounds_pos ms : 1 <= sum_bounds ms.
Proof. induction ms as [|m ms IH]; simpl; lia. Qed.
Lemma bound_minus_1_ok m : consistent m -> bound_minus_1 m = id_bound m - 1.
Proof.
  intros ((H1 & H2) & _). unfold bound_minus_1. replace (id_bound m + (2 ^ 32 - 1)) with (id_bound m - 1 + 1 * 2 ^ 32) by lia.
  rewrite N.mod_add by discriminate. apply N.mod_small. lia.
Qed.
Lemma shift_rest_ok : forall ms off, Forall consistent ms -> Forall no_line_ids ms -> off + sum_bounds ms <= 2 ^ 32 ->
  shift_rest off ms = renamed (map (fun o x => x + o) (offsets off ms)) ms.
Proof.
  induction ms as [|m ms IH]; intros off Hc Hl Hs; [reflexivity|]. inversion Hc; inversion Hl; subst. cbn [sum_bounds fold_right] in Hs. fold (sum_bounds ms) in Hs.
  pose proof (sum_bounds_pos ms). cbn [shift_rest offsets map renamed map2]. f_equal.
  - apply shift_module_rename; auto; lia.
  - rewrite bound_minus_1_ok by assumption. rewrite N.mod_small by (destruct H1 as ((? & ?) & _); lia).
    apply IH; auto; lia.
Qed.
Lemma total_bound_acc : forall ms acc, Forall consistent ms -> acc + sum_bounds ms <= 2 ^ 64 ->
  fold_left (fun acc m => (acc + id_bound m + (2 ^ 64 - 1)) mod 2 ^ 64) ms acc = acc + sum_bounds ms - 1.
Proof.
  induction ms as [|m ms IH]; intros acc Hc Hs; [simpl; lia|]. inversion Hc; subst. cbn [sum_bounds fold_right fold_left] in *. fold (sum_bounds ms) in *.
  pose proof (sum_bounds_pos ms). destruct H1 as ((Hb1 & Hb2) & _).
  replace ((acc + id_bound m + (2 ^ 64 - 1)) mod 2 ^ 64) with (acc + (id_bound m - 1)).
  - rewrite IH by (assumption || lia). lia.
  - replace (acc + id_bound m + (2 ^ 64 - 1)) with (acc + (id_bound m - 1) + 1 * 2 ^ 64) by lia.
    rewrite N.mod_add by discriminate. symmetry. apply N.mod_small. lia.
Qed.
Lemma sum_bounds_le ms : Forall consistent ms -> sum_bounds ms <= N.of_nat (length ms) * 2 ^ 32 + 1.
Proof.
  induction 1 as [|m ms ((H1 & H2) & _) _ IH]; [simpl; lia|]. cbn [sum_bounds fold_right length]. fold (sum_bounds ms). lia.
Qed.
Lemma total_bound_ok ms : Forall consistent ms -> N.of_nat (length ms) < 2 ^ 31 -> total_bound ms = sum_bounds ms.
Proof.
  intros Hc Hl. unfold total_bound. pose proof (sum_bounds_le ms Hc). rewrite total_bound_acc by (assumption || lia). lia.
Qed.
Lemma renamed_first fs ms m f : (forall x, f x = x) -> renamed (f :: fs) (m :: ms) = m :: renamed fs ms.
Proof. intro H. unfold renamed. cbn [map2]. f_equal. apply for_each_id. intros i _. apply rename_inst_id. exact H. Qed.
Definition renamings (ms : list lmodule) : list (N -> N) := map (fun o x => x + o) (offsets 0 ms).
Lemma shift_ids_ok ms : ms <> [] -> Forall consistent ms -> Forall no_line_ids (tl ms) -> N.of_nat (length ms) < 2 ^ 31 ->
  shift_ids_in_modules ms = if sum_bounds ms <? 2 ^ 32 then Ok (renamed (renamings ms) ms, sum_bounds ms) else Failed TooManyIds.
Proof.
  intros Hne Hc Hl Hlen. unfold shift_ids_in_modules. destruct ms as [|m ms]; [congruence|]. cbn zeta. rewrite total_bound_ok by assumption.
  destruct (N.ltb_spec (sum_bounds (m :: ms)) (2 ^ 32)); destruct (N.ltb_spec (2 ^ 32 - 1) (sum_bounds (m :: ms))); try lia; [|reflexivity].
  do 2 f_equal. unfold renamings. cbn [offsets map]. rewrite renamed_first by (intro; lia). f_equal. inversion Hc; subst.
  rewrite bound_minus_1_ok by assumption. rewrite N.add_0_l. apply shift_rest_ok; auto. cbn [sum_bounds fold_right] in *. fold (sum_bounds ms) in *. lia.
Qed.

Lemma offsets_nth : forall ms off k o m, nth_error (offsets off ms) k = Some o -> nth_error ms k = Some m ->
  Forall consistent ms -> off <= o /\ o + (id_bound m - 1) + 1 <= off + sum_bounds ms.
Proof.
  induction ms as [|m ms IH]; intros off [|k] o m' Ho Hm Hc; try discriminate; inversion Hc; subst; cbn [offsets nth_error sum_bounds fold_right] in *; fold (sum_bounds ms) in *.
  - inversion Ho; inversion Hm; subst. pose proof (sum_bounds_pos ms). lia.
  - destruct (IH _ _ _ _ Ho Hm H2). lia.
Qed.
Lemma offsets_apart : forall ms off j k oj ok mj, nth_error (offsets off ms) j = Some oj -> nth_error (offsets off ms) k = Some ok ->
  nth_error ms j = Some mj -> Forall consistent ms -> (j < k)%nat -> oj + (id_bound mj - 1) <= ok.
Proof.
  induction ms as [|m ms IH]; intros off j k oj ok mj Hj Hk Hm Hc Hlt; [destruct j; discriminate|]. inversion Hc; subst.
  destruct k as [|k]; [lia|]. cbn [offsets nth_error] in *. destruct j as [|j].
  - inversion Hj; inversion Hm; subst. clear -Hk H2.
    assert (G : forall ms off k o, nth_error (offsets off ms) k = Some o -> off <= o).
    { clear. induction ms as [|m ms IH]; intros off [|k] o H; cbn in H; try discriminate; [inversion H; lia|]. apply IH in H. lia. }
    apply G in Hk. exact Hk.
  - cbn [nth_error] in *. eapply IH; eauto. lia.
Qed.
Lemma offsets_length ms off : length (offsets off ms) = length ms.
Proof. revert off. induction ms as [|m ms IH]; intro off; simpl; auto. Qed.

(** ** Header and merging *)
Lemma linked_version_true v ms : exists w, linked_version true v ms = Ok w.
Proof. revert v. induction ms as [|m ms IH]; intro v; cbn; eauto. Qed.
Lemma linked_version_false v ms : linked_version false v ms = Ok v /\ Forall (fun m => version m = v) ms \/
  linked_version false v ms = Failed VersionConflict /\ ~ Forall (fun m => version m = v) ms.
Proof.
  induction ms as [|m ms IH]; cbn; [left; auto|]. destruct (N.eqb_spec (version m) v) as [E|E].
  - destruct IH as [[-> H]|[-> H]]; [left; auto|]. right. split; [reflexivity|]. intro F. inversion F; auto.
  - right. split; [reflexivity|]. intro F. inversion F; auto.
Qed.
Lemma merge_merged text v bound ms m' : merge_modules text v bound ms = Ok m' -> merged ms m' /\ version m' = v /\ id_bound m' = bound.
Proof.
  unfold merge_modules. destruct ms as [|m ms]; [discriminate|]. destruct (memory_model m) as [i|] eqn:Em; [|discriminate].
  unfold bind. destruct (single_word_operand (body i) 0); try discriminate. destruct (single_word_operand (body i) 1); try discriminate.
  destruct (check_memory_models _ _ _); try discriminate. destruct (check_entry_points _ _); try discriminate.
  intro E. inversion E; subst. unfold merged. cbn [version id_bound capabilities extensions ext_inst_imports memory_model sampled_image_address_mode entry_points graph_entry_points
       execution_modes debugs1 debugs2 debugs3 annotations types_values functions graphs].
  split; [|split; reflexivity]. do 3 (split; [reflexivity|]). split; [cbn [map hd]; congruence|]. do 4 (split; [reflexivity|]).
  split; [|repeat split; reflexivity].
  exists (module_processed text v). split; [reflexivity|]. unfold module_processed. destruct (_ <=? v); split; reflexivity || (simpl; lia).
Qed.

(** ** When merging succeeds *)
Lemma entry_point_key_shape i : entry_point_shape i -> exists k, entry_point_key i = Ok k /\ entry_point_name i = Some k.
Proof.
  intros (Ho & t & model & f & ws & rest & E & Ht). unfold entry_point_key, entry_point_name, single_word_in_operand, single_word_operand, operand_string, type_result_id_count.
  destruct (N.eqb_spec (opcode (body i)) OpConditionalEntryPointINTEL); [contradiction|]. rewrite E.
  destruct t; try discriminate; cbn [nth_error Nat.add bind]; eauto.
Qed.
Lemma key_eqb_spec a b : key_eqb a b = true <-> a = b.
Proof.
  unfold key_eqb. destruct a as [a1 a2], b as [b1 b2]. cbn [fst snd]. destruct (N.eqb_spec a1 b1); [|split; [discriminate | congruence]].
  destruct (list_eq_dec N.eq_dec a2 b2); split; try discriminate; cbn; congruence.
Qed.
Lemma check_entry_points_spec : forall is seen, Forall entry_point_shape is ->
  let ks := map Some seen ++ map entry_point_name is in
  (NoDup seen -> check_entry_points seen is = Ok tt /\ NoDup ks \/ check_entry_points seen is = Failed EntryPointRedefined /\ ~ NoDup ks).
Proof.
  induction is as [|i is IH]; intros seen Hs; cbn zeta; intro Hn.
  - left. split; [reflexivity|]. cbn [map]. rewrite app_nil_r. apply FinFun.Injective_map_NoDup; [intros x y E; congruence | exact Hn].
  - inversion Hs; subst. destruct (entry_point_key_shape i H1) as (k & Ek & En). cbn [check_entry_points map]. rewrite Ek, En. cbn [bind].
    destruct (existsb (key_eqb k) seen) eqn:Ex.
    + right. split; [reflexivity|]. intro Hd. apply existsb_exists in Ex as (k' & Hk' & E). apply key_eqb_spec in E as <-.
      apply NoDup_remove_2 in Hd. apply Hd, in_app_iff. left. apply in_map. exact Hk'.
    + assert (Hnk : ~ In k seen).
      { intro Hk. assert (existsb (key_eqb k) seen = true); [|congruence]. apply existsb_exists. exists k. split; [exact Hk | apply key_eqb_spec; reflexivity]. }
      specialize (IH (seen ++ [k]) H2). cbn zeta in IH. rewrite map_app, <- app_assoc in IH. cbn [map app] in IH. apply IH.
      apply NoDup_rev in Hn. rewrite <- (rev_involutive (seen ++ [k])). apply NoDup_rev. rewrite rev_app_distr. constructor; [|exact Hn].
      rewrite <- in_rev. exact Hnk.
Qed.
Lemma memory_model_ok m i : shapes m -> memory_model m = Some i ->
  exists a b, single_word_operand (body i) 0 = Ok a /\ single_word_operand (body i) 1 = Ok b /\ memory_model_words m = Some (a, b).
Proof.
  intros (_ & Hs) Hm. destruct (Hs i Hm) as (t1 & a & t2 & b & E & _). exists a, b. unfold single_word_operand, memory_model_words. rewrite Hm, E. auto.
Qed.
Lemma check_memory_models_spec : forall ms a b, Forall shapes ms ->
  check_memory_models a b ms = Ok tt /\ Forall (fun m => memory_model_words m = Some (a, b)) ms \/
  (exists e, check_memory_models a b ms = Failed e) /\ ~ Forall (fun m => memory_model_words m = Some (a, b)) ms.
Proof.
  induction ms as [|m ms IH]; intros a b Hs; [left; split; [reflexivity | constructor]|]. inversion Hs; subst. cbn [check_memory_models].
  destruct (memory_model m) as [i|] eqn:Em.
  - destruct (memory_model_ok m i H1 Em) as (a' & b' & Ea & Eb & Ew). rewrite Ea. cbn [bind].
    destruct (N.eqb_spec a' a) as [->|Na]; cbn [negb].
    + rewrite Eb. cbn [bind]. destruct (N.eqb_spec b' b) as [->|Nb]; cbn [negb].
      * destruct (IH a b H2) as [[-> F]|[[e ->] F]]; [left; auto | right; split; [eauto | intro G; inversion G; auto]].
      * right. split; [eauto|]. intro G. inversion G. congruence.
    + right. split; [eauto|]. intro G. inversion G. congruence.
  - right. split; [eauto|]. intro G. inversion G; subst. unfold memory_model_words in H3. rewrite Em in H3. discriminate.
Qed.
Definition mergeable (ms : list lmodule) : Prop :=
  (exists ab, Forall (fun m => memory_model_words m = Some ab) ms) /\ NoDup (map entry_point_name (flat_map entry_points ms)).
Lemma merge_spec text v bound ms : ms <> [] -> Forall shapes ms ->
  (exists m', merge_modules text v bound ms = Ok m') /\ mergeable ms \/ (exists e, merge_modules text v bound ms = Failed e) /\ ~ mergeable ms.
Proof.
  intros Hne Hs. unfold merge_modules. destruct ms as [|m ms]; [congruence|]. inversion Hs; subst.
  destruct (memory_model m) as [i|] eqn:Em.
  - destruct (memory_model_ok m i H1 Em) as (a & b & Ea & Eb & Ew). rewrite Ea, Eb. cbn [bind].
    destruct (check_memory_models_spec ms a b H2) as [[-> F]|[[e ->] F]]; cbn [bind].
    + assert (Hep : Forall entry_point_shape (flat_map entry_points (m :: ms))).
      { clear -Hs. revert Hs. generalize (m :: ms). intros l0 Hs. induction Hs as [|m0 l (H & _) _ IH]; [constructor|]. cbn [flat_map]. apply Forall_app. auto. }
      destruct (check_entry_points_spec _ [] Hep (NoDup_nil _)) as [[-> Hn]|[-> Hn]]; cbn [bind map app] in *.
      * left. split; [eauto|]. split; [exists (a, b); auto | exact Hn].
      * right. split; [eauto|]. intros [_ H]. contradiction.
    + right. split; [eauto|]. intros [[ab G] _]. inversion G; subst. rewrite Ew in H3. inversion H3; subst. contradiction.
  - right. split; [eauto|]. intros [[ab G] _]. inversion G; subst. unfold memory_model_words in H3. rewrite Em in H3. discriminate.
Qed.

(** Shifting changes nothing that merging looks at. *)
Definition like (m m' : lmodule) : Prop :=
  version m' = version m /\ memory_model_words m' = memory_model_words m /\
  map entry_point_name (entry_points m') = map entry_point_name (entry_points m) /\ shapes m'.
Lemma shift_operand_other off t ws : is_id_type t = false -> shift_operand off (t, ws) = (t, ws).
Proof. intro H. unfold shift_operand. rewrite H. destruct ws; reflexivity. Qed.
Lemma shift_like off m : shapes m -> like m (for_each_inst (shift_inst off) m).
Proof.
  intros (He & Hm). unfold like, shapes, memory_model_words, for_each_inst. cbn [version entry_points memory_model].
  split; [reflexivity|]. split; [|split].
  - destruct (memory_model m) as [i|] eqn:Em; [|reflexivity]. cbn [option_map shift_inst body operands].
    destruct (Hm i eq_refl) as (t1 & a & t2 & b & E & H1 & H2). unfold shift_inst. cbn [body operands]. rewrite E. cbn [map]. rewrite !shift_operand_other by assumption. reflexivity.
  - rewrite map_map. apply map_ext_In. intros i Hi. rewrite Forall_forall in He. destruct (He i Hi) as (_ & t & model & f & ws & rest & E & Ht).
    unfold entry_point_name, shift_inst. cbn [body operands]. rewrite E. cbn [map]. rewrite (shift_operand_other off t), (shift_operand_other off T_LITERAL_STRING) by (exact Ht || reflexivity). reflexivity.
  - split.
    + apply Forall_map. eapply Forall_impl; [|exact He]. intros i (Ho & t & model & f & ws & rest & E & Ht). split; [exact Ho|].
      unfold shift_inst. cbn [body operands]. rewrite E. cbn [map]. rewrite (shift_operand_other off t), (shift_operand_other off T_LITERAL_STRING) by (exact Ht || reflexivity). cbn. eauto 10.
    + intros i Hi. destruct (memory_model m) as [j|]; [|discriminate]. cbn in Hi. inversion Hi; subst.
      destruct (Hm j eq_refl) as (t1 & a & t2 & b & E & H1 & H2). unfold memory_model_shape, shift_inst. cbn [body operands]. rewrite E. cbn [map].
      rewrite !shift_operand_other by assumption. eauto 10.
Qed.
Lemma like_refl m : shapes m -> like m m.
Proof. unfold like. auto. Qed.
Lemma shift_rest_like : forall ms off, Forall shapes ms -> Forall2 like ms (shift_rest off ms).
Proof. induction ms as [|m ms IH]; intros off Hs; [constructor|]. inversion Hs; subst. cbn [shift_rest]. constructor; [apply shift_like; assumption | apply IH; assumption]. Qed.
Lemma shift_ids_like ms : ms <> [] -> Forall consistent ms -> Forall shapes ms -> N.of_nat (length ms) < 2 ^ 31 ->
  (exists ms', shift_ids_in_modules ms = Ok (ms', sum_bounds ms) /\ Forall2 like ms ms') /\ sum_bounds ms < 2 ^ 32 \/
  shift_ids_in_modules ms = Failed TooManyIds /\ ~ sum_bounds ms < 2 ^ 32.
Proof.
  intros Hne Hc Hs Hl. unfold shift_ids_in_modules. destruct ms as [|m ms]; [congruence|]. cbn zeta. rewrite total_bound_ok by assumption.
  destruct (N.ltb_spec (2 ^ 32 - 1) (sum_bounds (m :: ms))); [right; split; [reflexivity | lia]|].
  left. split; [|lia]. eexists. split; [reflexivity|]. inversion Hs; subst. constructor; [apply like_refl; assumption | apply shift_rest_like; assumption].
Qed.
Lemma like_forall {A} (g : lmodule -> A) (P : A -> Prop) ms ms' : (forall m m', like m m' -> g m' = g m) -> Forall2 like ms ms' ->
  (Forall (fun m => P (g m)) ms' <-> Forall (fun m => P (g m)) ms).
Proof.
  intros H. induction 1 as [|m m' l l' Hl _ IH]; [split; constructor|]. split; intro F; inversion F; subst; constructor; try (apply IH; assumption).
  - rewrite <- (H m m' Hl). assumption.
  - rewrite (H m m' Hl). assumption.
Qed.
Lemma like_keys ms ms' : Forall2 like ms ms' -> map entry_point_name (flat_map entry_points ms') = map entry_point_name (flat_map entry_points ms).
Proof. induction 1 as [|m m' l l' (_ & _ & E & _) _ IH]; [reflexivity|]. cbn [flat_map]. rewrite !map_app, E, IH. reflexivity. Qed.
Lemma like_mergeable ms ms' : Forall2 like ms ms' -> (mergeable ms' <-> mergeable ms).
Proof.
  intro H. unfold mergeable. rewrite (like_keys _ _ H).
  assert (G : forall ab, Forall (fun m => memory_model_words m = Some ab) ms' <-> Forall (fun m => memory_model_words m = Some ab) ms).
  { intro ab. apply (like_forall memory_model_words (fun w => w = Some ab)); [|exact H]. intros m m' (_ & E & _). exact E. }
  split; intros [[ab F] Hn]; (split; [exists ab; apply G; exact F | exact Hn]).
Qed.
Lemma like_shapes ms ms' : Forall2 like ms ms' -> Forall shapes ms'.
Proof. induction 1 as [|m m' l l' (_ & _ & _ & E) _ IH]; constructor; assumption. Qed.
Lemma header_spec use_highest ms bound : ms <> [] -> bound <> 0 ->
  (exists v, generate_header use_highest ms bound = Ok (v, bound)) /\ (use_highest = true \/ exists v, Forall (fun m => version m = v) ms) \/
  (exists e, generate_header use_highest ms bound = Failed e) /\ ~ (use_highest = true \/ exists v, Forall (fun m => version m = v) ms).
Proof.
  intros Hne Hb. unfold generate_header. destruct ms as [|m ms]; [congruence|]. destruct (N.eqb_spec bound 0); [contradiction|].
  destruct use_highest.
  - destruct (linked_version_true (version m) ms) as [w ->]. left. cbn [bind]. eauto.
  - destruct (linked_version_false (version m) ms) as [[-> F]|[-> F]]; cbn [bind].
    + left. split; [eauto|]. right. exists (version m). constructor; auto.
    + right. split; [eauto|]. intros [E|[v G]]; [discriminate|]. inversion G; subst. contradiction.
Qed.
Lemma link_merge_spec use_highest text ms : Forall consistent ms -> Forall shapes ms -> N.of_nat (length ms) < 2 ^ 31 ->
  (exists m', link_merge use_highest text ms = Ok m') /\ linkable use_highest ms \/
  (exists e, link_merge use_highest text ms = Failed e) /\ ~ linkable use_highest ms.
Proof.
  intros Hc Hs Hl. unfold link_merge. destruct ms as [|m0 ms0] eqn:Ems.
  - right. split; [exists NoModules; reflexivity|]. intros (H & _). congruence.
  - assert (Hne : ms <> []) by congruence. rewrite <- Ems in *. clear Ems.
    destruct (shift_ids_like ms Hne Hc Hs Hl) as [[(ms' & -> & Hlike) Hb]|[-> Hb]]; cbn [bind fst snd].
    + assert (Hne' : ms' <> []) by (inversion Hlike; subst; congruence).
      assert (Hv : forall v, Forall (fun m => version m = v) ms' <-> Forall (fun m => version m = v) ms).
      { intro v. apply (like_forall version (fun w => w = v)); [|exact Hlike]. intros m m' (E & _). exact E. }
      pose proof (sum_bounds_pos ms).
      destruct (header_spec use_highest ms' (sum_bounds ms) Hne' ltac:(lia)) as [[[v ->] H']|[[e ->] H']]; cbn [bind fst snd].
      * destruct (merge_spec text v (sum_bounds ms) ms' Hne' (like_shapes _ _ Hlike)) as [[Hm Hg]|[He Hg]]; [left|right]; (split; [assumption|]).
        -- apply (proj1 (like_mergeable _ _ Hlike)) in Hg as [G1 G2]. unfold linkable. repeat (split; [assumption|]). split; [|split; assumption].
           destruct H' as [H'|[w H']]; [left; exact H' | right; exists w; apply Hv; exact H'].
        -- intros (_ & _ & _ & G1 & G2). apply Hg, (proj2 (like_mergeable _ _ Hlike)). split; assumption.
      * right. split; [eauto|]. intros (_ & _ & G & _). apply H'. destruct G as [G|[w G]]; [left; exact G | right; exists w; apply Hv; exact G].
    + right. split; [eauto|]. intros (_ & G & _). contradiction.
Qed.

(** ** The merged module *)
Lemma in_merged_insts ms m i : merged ms m -> graphs m = [] -> graph_entry_points m = [] -> sampled_image_address_mode m = None ->
  In i (module_insts m) -> inst_ids i = [] \/ exists k, In k ms /\ In i (module_insts k).
Proof.
  intros (H1 & H2 & H3 & H4 & H5 & H6 & H7 & H8 & (extra & H9 & Hx & _) & H10 & H11 & H12) Hg1 Hg2 Hg3 Hi.
  apply module_insts_cases in Hi. rewrite H1, H2, H3, H4, H5, H6, H7, H8, H9, H10, H11, H12, Hg1, Hg2, Hg3 in Hi.
  assert (F : forall (g : lmodule -> list inst), (forall k, In k ms -> in_module k (g k)) -> In i (flat_map g ms) -> exists k, In k ms /\ In i (module_insts k)).
  { intros g Hg Hin. apply in_flat_map in Hin as (k & Hk & Hin). exists k. split; [exact Hk|]. apply (Hg k Hk). exact Hin. }
  assert (G : forall k, Forall (in_module k) ([capabilities k; extensions k; ext_inst_imports k; opt_list (memory_model k); opt_list (sampled_image_address_mode k); entry_points k;
    graph_entry_points k; execution_modes k; debugs1 k; debugs2 k; debugs3 k; annotations k; types_values k; flat_map func_insts (functions k); concat (graphs k)])) by (intro; apply sections_in).
  Ltac pick G := intros k _; specialize (G k); repeat (apply Forall_cons_iff in G; destruct G as [? G]); assumption.
  destruct Hi as [Hi|Hi]; [right; apply (F capabilities); [pick G | exact Hi]|].
  destruct Hi as [Hi|Hi]; [right; apply (F extensions); [pick G | exact Hi]|].
  destruct Hi as [Hi|Hi]; [right; apply (F ext_inst_imports); [pick G | exact Hi]|].
  destruct Hi as [Hi|Hi].
  { right. destruct ms as [|k ms]; [destruct Hi|]. cbn [map hd] in Hi. exists k. split; [left; reflexivity|]. specialize (G k).
    repeat (apply Forall_cons_iff in G; destruct G as [? G]). match goal with H : in_module k (opt_list (memory_model k)) |- _ => apply H; exact Hi end. }
  destruct Hi as [Hi|Hi]; [destruct Hi|].
  destruct Hi as [Hi|Hi]; [right; apply (F entry_points); [pick G | exact Hi]|].
  destruct Hi as [Hi|Hi]; [destruct Hi|].
  destruct Hi as [Hi|Hi]; [right; apply (F execution_modes); [pick G | exact Hi]|].
  destruct Hi as [Hi|Hi]; [right; apply (F debugs1); [pick G | exact Hi]|].
  destruct Hi as [Hi|Hi]; [right; apply (F debugs2); [pick G | exact Hi]|].
  destruct Hi as [Hi|Hi].
  { apply in_app_iff in Hi as [Hi|Hi]; [right; apply (F debugs3); [pick G | exact Hi]|].
    left. clear -Hx Hi. induction extra as [|e extra IH]; [destruct Hi|]. unfold insts_ids in Hx. cbn [flat_map] in Hx. apply app_eq_nil in Hx as [Ha Hb].
    destruct Hi as [<-|Hi]; auto. }
  destruct Hi as [Hi|Hi]; [right; apply (F annotations); [pick G | exact Hi]|].
  destruct Hi as [Hi|Hi]; [right; apply (F types_values); [pick G | exact Hi]|].
  destruct Hi as [Hi|Hi]; [|destruct Hi].
  right. apply (F (fun k => flat_map func_insts (functions k))); [pick G|].
  clear -Hi. induction ms as [|k ms IH]; [destruct Hi|]. cbn [flat_map] in *. rewrite flat_map_app in Hi. apply in_app_iff in Hi as [Hi|Hi]; apply in_app_iff; auto.
Qed.
Lemma in_renamed fs ms k : In k (renamed fs ms) -> exists j f m, nth_error fs j = Some f /\ nth_error ms j = Some m /\ k = for_each_inst (rename_inst f) m.
Proof.
  revert ms. induction fs as [|f fs IH]; intros [|m ms] H; try destruct H.
  - exists 0%nat, f, m. repeat split; auto.
  - destruct (IH ms H) as (j & g & n & H1 & H2 & H3). exists (S j), g, n. auto.
Qed.
Lemma rename_ids f i x : In x (inst_ids (rename_inst f i)) -> exists y, In y (inst_ids i) /\ x = f y.
Proof.
  intros H. unfold inst_ids, rename_inst in *. cbn [body lines] in *.
  assert (L : forall l x, In x (line_ids (rename_line f l)) -> exists y, In y (line_ids l) /\ x = f y).
  { clear. intros l x H. unfold line_ids, rename_line in *. cbn [operands lexical_scope inlined_at] in H. rewrite !in_app_iff in H.
    assert (S' : forall s, In x (scope_ids (rename_scope f s)) -> exists y, In y (scope_ids s) /\ x = f y).
    { intros s Hs. unfold scope_ids, rename_scope in *. destruct (N.eqb_spec s 0) as [E0|N0]; [cbn in Hs; destruct Hs|].
      destruct (N.eqb_spec (f s) 0); [destruct Hs|]. destruct Hs as [<-|[]]. exists s. split; [left|]; reflexivity. }
    destruct H as [H|[H|H]].
    - apply in_flat_map in H as (o & Ho & Hx). apply in_map_iff in Ho as (o' & <- & Ho'). unfold operand_ids, rename_operand in Hx.
      destruct (is_id_type (fst o')) eqn:Et.
      + cbn [fst snd] in Hx. rewrite Et in Hx. apply in_map_iff in Hx as (y & <- & Hy). exists y. split; [|reflexivity].
        rewrite !in_app_iff. left. apply in_flat_map. exists o'. split; [exact Ho'|]. unfold operand_ids. rewrite Et. exact Hy.
      + rewrite Et in Hx. destruct Hx.
    - destruct (S' _ H) as (y & Hy & ->). exists y. rewrite !in_app_iff. auto.
    - destruct (S' _ H) as (y & Hy & ->). exists y. rewrite !in_app_iff. auto. }
  rewrite in_app_iff in H. destruct H as [H|H].
  - apply in_flat_map in H as (l & Hl & Hx). apply in_map_iff in Hl as (l' & <- & Hl'). destruct (L _ _ Hx) as (y & Hy & ->). exists y.
    rewrite in_app_iff. split; [|reflexivity]. left. apply in_flat_map. eauto.
  - destruct (L _ _ H) as (y & Hy & ->). exists y. rewrite in_app_iff. auto.
Qed.
Lemma merge_no_graphs text v bound ms m' : merge_modules text v bound ms = Ok m' -> graphs m' = [] /\ graph_entry_points m' = [] /\ sampled_image_address_mode m' = None.
Proof.
  unfold merge_modules. destruct ms as [|m ms]; [discriminate|]. destruct (memory_model m) as [i|] eqn:Em; [|discriminate].
  unfold bind. destruct (single_word_operand (body i) 0); try discriminate. destruct (single_word_operand (body i) 1); try discriminate.
  destruct (check_memory_models _ _ _); try discriminate. destruct (check_entry_points _ _); try discriminate.
  intro E. inversion E; subst. auto.
Qed.
Lemma link_merge_apart use_highest text ms m' : Forall consistent ms -> Forall no_line_ids (tl ms) -> N.of_nat (length ms) < 2 ^ 31 ->
  link_merge use_highest text ms = Ok m' ->
  exists fs, length fs = length ms /\ merged (renamed fs ms) m' /\ id_bound m' < 2 ^ 32 /\
    (forall k f m, nth_error fs k = Some f -> nth_error ms k = Some m ->
       (forall x, 0 < x < id_bound m -> 0 < f x < id_bound m') /\ (forall x y, f x = f y -> x = y)) /\
    (forall j k f g m n x y, nth_error fs j = Some f -> nth_error ms j = Some m -> nth_error fs k = Some g -> nth_error ms k = Some n -> j <> k ->
       0 < x < id_bound m -> 0 < y < id_bound n -> f x <> g y) /\
    (forall id, In id (all_ids m') -> 0 < id < id_bound m').
Proof.
  intros Hc Hnl Hl H. unfold link_merge in H. destruct ms as [|m0 ms0] eqn:Ems; [discriminate|]. assert (Hne : ms <> []) by congruence. rewrite <- Ems in *. clear Ems.
  rewrite (shift_ids_ok ms Hne Hc Hnl Hl) in H. destruct (N.ltb_spec (sum_bounds ms) (2 ^ 32)) as [Hb|]; [|discriminate]. cbn [bind fst snd] in H.
  destruct (generate_header use_highest (renamed (renamings ms) ms) (sum_bounds ms)) as [[v b]| |] eqn:Eh; try discriminate. cbn [bind fst snd] in H.
  assert (b = sum_bounds ms).
  { unfold generate_header in Eh. destruct (renamed (renamings ms) ms); [discriminate|]. destruct (sum_bounds ms =? 0); [discriminate|].
    unfold bind in Eh. destruct (linked_version _ _ _); inversion Eh; reflexivity. }
  subst b. destruct (merge_merged _ _ _ _ _ H) as (Hm & _ & Hbd). destruct (merge_no_graphs _ _ _ _ _ H) as (G1 & G2 & G3).
  exists (renamings ms). unfold renamings. rewrite map_length, offsets_length.
  assert (N1 : forall k f, nth_error (map (fun o x => x + o) (offsets 0 ms)) k = Some f -> exists o, nth_error (offsets 0 ms) k = Some o /\ f = fun x => x + o).
  { intros k f E. rewrite nth_error_map in E. destruct (nth_error (offsets 0 ms) k) as [o|]; [|discriminate]. inversion E. eauto. }
  assert (Range : forall k f m, nth_error (map (fun o x => x + o) (offsets 0 ms)) k = Some f -> nth_error ms k = Some m -> forall x, 0 < x < id_bound m -> 0 < f x < id_bound m').
  { intros k f m Ef Em x Hx. destruct (N1 k f Ef) as (o & Eo & ->). destruct (offsets_nth ms 0 k o m Eo Em Hc). rewrite Hbd. lia. }
  split; [reflexivity|]. split; [exact Hm|]. split; [rewrite Hbd; exact Hb|]. split; [|split].
  - intros k f m Ef Em. split; [apply (Range k f m Ef Em)|]. destruct (N1 k f Ef) as (o & Eo & ->). intros x y E. lia.
  - intros j k f g m n x y Ef Em Eg En Hjk Hx Hy. destruct (N1 j f Ef) as (o & Eo & ->). destruct (N1 k g Eg) as (p & Ep & ->).
    destruct (Nat.lt_total j k) as [L|[L|L]]; [|contradiction|].
    + pose proof (offsets_apart ms 0 j k o p m Eo Ep Em Hc L). lia.
    + pose proof (offsets_apart ms 0 k j p o n Ep Eo En Hc L). lia.
  - intros id Hid. unfold all_ids, insts_ids in Hid. apply in_flat_map in Hid as (i & Hi & Hid).
    destruct (in_merged_insts _ _ i Hm G1 G2 G3 Hi) as [E|(k & Hk & Hik)]; [rewrite E in Hid; destruct Hid|].
    destruct (in_renamed _ _ _ Hk) as (j & f & m & Ef & Em & ->). rewrite module_insts_map in Hik. apply in_map_iff in Hik as (i0 & <- & Hi0).
    assert (Hy : exists y, In y (inst_ids i0) /\ id = f y).
    { apply rename_ids. exact Hid. }
    destruct Hy as (y & Hy & ->). apply (Range j f m Ef Em). rewrite Forall_forall in Hc. apply nth_error_In in Em. destruct (Hc m Em) as (_ & Hids & _).
    apply Hids. apply (in_all_ids m i0 y Hi0 Hy).
Qed.

(** ** The version of the linked module *)
Lemma linked_version_highest ms : forall v w, linked_version true v ms = Ok w ->
  (w = v \/ exists m, In m ms /\ w = version m) /\ v <= w /\ forall m, In m ms -> version m <= w.
Proof.
  induction ms as [|m ms IH]; cbn [linked_version In]; intros v w H.
  - inversion H. split; [auto|]. split; [lia|]. intros ? [].
  - destruct (IH _ _ H) as (A & B & C). split; [|split; [lia|]].
    + destruct A as [A|(n & A & E)]; [|right; eauto]. destruct (N.max_spec v (version m)) as [[_ E]|[_ E]]; rewrite E in A; [right; eauto|auto].
    + intros n [<-|Hn]; [lia|auto].
Qed.
Lemma linked_version_same ms : forall v w, linked_version false v ms = Ok w -> w = v /\ forall m, In m ms -> version m = w.
Proof.
  induction ms as [|m ms IH]; cbn [linked_version In]; intros v w H.
  - inversion H. split; [auto|]. intros ? [].
  - destruct (N.eqb_spec (version m) v); [|discriminate]. destruct (IH _ _ H) as (-> & C). split; [reflexivity|]. intros n [<-|Hn]; auto.
Qed.
Lemma shift_rest_versions ms : forall o, map version (shift_rest o ms) = map version ms.
Proof. induction ms as [|m ms IH]; intro o; cbn [shift_rest map]; [reflexivity|]. rewrite IH. reflexivity. Qed.
Lemma link_merge_version use_highest text ms m' : link_merge use_highest text ms = Ok m' ->
  (exists m, In m ms /\ version m' = version m) /\ (forall m, In m ms -> version m <= version m') /\
  (use_highest = false -> forall m, In m ms -> version m = version m').
Proof.
  unfold link_merge, shift_ids_in_modules. destruct ms as [|m ms]; [discriminate|]. destruct (2 ^ 32 - 1 <? total_bound (m :: ms)); [discriminate|].
  cbn [bind fst snd]. unfold generate_header. destruct (total_bound (m :: ms) =? 0); [discriminate|].
  destruct (linked_version use_highest (version m) (shift_rest (bound_minus_1 m) ms)) as [w| |] eqn:E; try discriminate. cbn [bind fst snd]. intro H.
  assert (Hv : version m' = w).
  { unfold merge_modules in H. destruct (memory_model m); [|discriminate].
    repeat match type of H with bind ?x _ = _ => destruct x; [cbn [bind] in H|discriminate|discriminate] end. inversion H. reflexivity. }
  rewrite Hv. set (rs := shift_rest (bound_minus_1 m) ms) in *.
  assert (T : map version rs = map version ms) by apply shift_rest_versions.
  assert (T1 : forall x, In x ms -> exists y, In y rs /\ version y = version x).
  { intros x Hx. apply (in_map version) in Hx. rewrite <- T in Hx. apply in_map_iff in Hx as (y & Ey & Hy). eauto. }
  assert (T2 : forall x, In x rs -> exists y, In y ms /\ version y = version x).
  { intros x Hx. apply (in_map version) in Hx. rewrite T in Hx. apply in_map_iff in Hx as (y & Ey & Hy). eauto. }
  destruct use_highest.
  - destruct (linked_version_highest _ _ _ E) as (A & B & C). split; [|split; [|discriminate]].
    + destruct A as [A|(n & A & En)]; [exists m; split; [left; reflexivity|auto]|]. destruct (T2 n A) as (y & Hy & Ey). exists y. split; [right; auto|congruence].
    + intros n [<-|Hn]; [exact B|]. destruct (T1 n Hn) as (y & Hy & <-). auto.
  - destruct (linked_version_same _ _ _ E) as (-> & C).
    assert (D : forall n, In n (m :: ms) -> version n = version m) by (intros n [<-|Hn]; [reflexivity|]; destruct (T1 n Hn) as (y & Hy & <-); auto).
    split; [exists m; split; [left; reflexivity|reflexivity]|]. split; [intros n Hn; rewrite (D n Hn); lia|auto].
Qed.
