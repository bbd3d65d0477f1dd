(** Proofs about the linker: compatibility of the pairs and the resulting module. *)
From Verif Require Import Base OperandTypes IrModule IrSpec Words Linker LinkerSpec LinkerProofs LinkerSymbolProofs.
Local Open Scope N_scope.

(** ** Compatibility *)
Lemma mem_words_spec w l : mem_words w l = true <-> In w l.
Proof.
  unfold mem_words. rewrite existsb_exists. split; [intros (x & H & E); apply name_eqb_spec in E as ->; exact H | intro H; exists w; split; [exact H | apply name_eqb_refl]].
Qed.
Lemma same_set_spec a b : same_set a b = true <-> forall w, In w a <-> In w b.
Proof.
  unfold same_set. rewrite Bool.andb_true_iff, !forallb_forall. split.
  - intros [H1 H2] w. split; intro H; apply mem_words_spec; auto.
  - intro H. split; intros w Hw; apply mem_words_spec; apply H; exact Hw.
Qed.
Lemma check_types_spec tm m l : check_types tm m l = Ok tt <-> Forall (fun p => tm m (s_type (fst p)) (s_type (snd p)) = true) l.
Proof.
  induction l as [|[i e] l IH]; cbn [check_types]; [split; constructor|]. destruct (tm m (s_type i) (s_type e)) eqn:E.
  - rewrite IH. split; [intro H; constructor; assumption | intro H; inversion H; assumption].
  - split; [discriminate|]. intro H. inversion H; subst. cbn in H2. congruence.
Qed.
Lemma check_decorations_spec m l : check_decorations m l = Ok tt <-> Forall (fun p => have_the_same_decorations m (s_id (fst p)) (s_id (snd p)) = true) l.
Proof.
  induction l as [|[i e] l IH]; cbn [check_decorations]; [split; constructor|]. destruct (have_the_same_decorations m (s_id i) (s_id e)) eqn:E.
  - rewrite IH. split; [intro H; constructor; assumption | intro H; inversion H; assumption].
  - split; [discriminate|]. intro H. inversion H; subst. cbn in H2. congruence.
Qed.
Lemma check_compatibility_spec tm m l : check_compatibility tm m l = Ok tt <->
  forall i x, In (i, x) l -> tm m (s_type i) (s_type x) = true /\ have_the_same_decorations m (s_id i) (s_id x) = true.
Proof.
  unfold check_compatibility. pose proof (check_types_spec tm m l) as Ht. pose proof (check_decorations_spec m l) as Hd.
  rewrite Forall_forall in Ht, Hd. destruct (check_types tm m l) as [[]| |]; cbn [bind].
  - rewrite Hd. split; [intros H i x Hin; split; [apply (proj1 Ht eq_refl (i, x) Hin) | apply (H (i, x) Hin)] | intros H [i x] Hin; apply H; exact Hin].
  - split; [discriminate|]. intro H. rewrite (proj2 Ht); [reflexivity|]. intros [i x] Hin. apply H. exact Hin.
  - split; [discriminate|]. intro H. rewrite (proj2 Ht); [reflexivity|]. intros [i x] Hin. apply H. exact Hin.
Qed.

Section Module.
Variable m : lmodule.
Hypothesis Hwf : well_formed m.
Lemma has_decoration_spec id op ws : has_decoration m id op ws <-> In ws (payloads op (decorations_for m id)).
Proof.
  unfold payloads. rewrite in_map_iff. split.
  - intros (i & rest & Hi & Ho & E & Hn & ->). exists i. split; [unfold payload, type_result_id_count; rewrite E; reflexivity|].
    apply filter_In. split; [|apply N.eqb_eq; exact Ho]. apply (in_decorations_for m Hwf). split; [exact Hi|]. unfold first_id. rewrite E. split; [reflexivity|].
    intros (id' & n & k & Hl). pose proof (linkage_first _ _ _ _ Hl) as F. unfold first_id in F. rewrite E in F. inversion F; subst. apply Hn. eauto.
  - intros (i & Hp & Hi). apply filter_In in Hi as [Hi Ho]. apply N.eqb_eq in Ho. apply (in_decorations_for m Hwf) in Hi as (Hi & Hf & Hn).
    destruct (shape_ops i (shape_in m Hwf i Hi)) as (x & t1 & d & rest & E & Hf' & _). exists i, ((t1, [d]) :: rest). split; [exact Hi|]. split; [exact Ho|].
    rewrite Hf in Hf'. inversion Hf'; subst x. split; [exact E|]. split; [intros (n & k & Hl); apply Hn; eauto|]. rewrite <- Hp. unfold payload, type_result_id_count. rewrite E. reflexivity.
Qed.
Lemma have_the_same_decorations_spec a b : have_the_same_decorations m a b = true <-> same_decorations m a b.
Proof.
  unfold have_the_same_decorations. cbn zeta. rewrite !Bool.andb_true_iff, !same_set_spec. unfold same_decorations. split.
  - intros [[[H1 H2] H3] H4] op ws. assert (G : has_decoration m a op ws \/ has_decoration m b op ws -> op = OpDecorate \/ op = OpDecorateId \/ op = OpDecorateString \/ op = OpMemberDecorate).
    { intros [(i & rest & Hi & <- & _)|(i & rest & Hi & <- & _)]; exact (proj1 (shape_in m Hwf i Hi)). }
    split; intro H; pose proof (G ltac:(tauto)) as Ho; rewrite has_decoration_spec in H |- *; destruct Ho as [->|[->|[->| ->]]]; first [apply H1; exact H | apply H2; exact H | apply H3; exact H | apply H4; exact H].
  - intro H. repeat split; intro Hw; apply has_decoration_spec in Hw; apply has_decoration_spec; apply H; exact Hw.
Qed.
Lemma provides_links n e : provides m n e -> exists k, links m e n k /\ (k = LinkageExport \/ k = LinkageLinkOnceODR).
Proof. intros [H|(l1 & i & l2 & E & H & _)]; [eauto|]. exists LinkageLinkOnceODR. split; [|auto]. exists i. split; [rewrite E; apply in_elt | exact H]. Qed.
Lemma resolvable_spec tm allow_partial : resolvable tm allow_partial m <->
  findable m allow_partial /\ check_compatibility tm m (pairs m) = Ok tt.
Proof.
  unfold resolvable. fold (findable m allow_partial). rewrite check_compatibility_spec. split.
  - intros (H1 & H2 & H3 & H4 & H5 & H6). assert (Hf : findable m allow_partial) by (repeat split; assumption). split; [exact Hf|].
    destruct (findable_pairs m Hwf allow_partial Hf) as [Hp _]. intros i x Hin. apply Hp in Hin as (id & n & e & Hl & Hpr & Hi & Hx).
    destruct (symbol_info_fields m _ _ _ Hi) as [-> _]. destruct (symbol_info_fields m _ _ _ Hx) as [-> _]. split.
    + apply (H5 id n e); try assumption; eapply symbol_info_type; eauto.
    + apply have_the_same_decorations_spec. eapply H6; eauto.
  - intros [Hf Hc]. pose proof Hf as (H1 & H2 & H3 & H4). repeat (split; [assumption|]).
    destruct (findable_pairs m Hwf allow_partial Hf) as [Hp _].
    assert (G : forall id n e, links m id n LinkageImport -> provides m n e -> exists i x, symbol_info m id n = Ok i /\ symbol_info m e n = Ok x /\ In (i, x) (pairs m)).
    { intros id n e Hl Hpr. destruct (provides_links n e Hpr) as (k & Hk & _). destruct (proj1 (symbols_ok m Hwf) H1 id n _ (proj2 (in_triples m Hwf _ _ _) Hl)) as [i Hi].
      destruct (proj1 (symbols_ok m Hwf) H1 e n _ (proj2 (in_triples m Hwf _ _ _) Hk)) as [x Hx]. exists i, x. repeat (split; [assumption|]). apply Hp. exists id, n, e. auto. }
    split.
    + intros id n e t t' Hl Hpr Ht Ht'. destruct (G id n e Hl Hpr) as (i & x & Hi & Hx & Hin). destruct (Hc i x Hin) as [Hm _].
      destruct (provides_links n e Hpr) as (k & Hk & _).
      rewrite (symbol_type_unique m Hwf id t (s_type i) (links_nonzero m Hwf _ _ _ Hl) Ht (symbol_info_type m Hwf _ _ _ Hi)).
      rewrite (symbol_type_unique m Hwf e t' (s_type x) (links_nonzero m Hwf _ _ _ Hk) Ht' (symbol_info_type m Hwf _ _ _ Hx)). exact Hm.
    + intros id n e Hl Hpr. destruct (G id n e Hl Hpr) as (i & x & Hi & Hx & Hin). destruct (Hc i x Hin) as [_ Hm].
      destruct (symbol_info_fields m _ _ _ Hi) as [<- _]. destruct (symbol_info_fields m _ _ _ Hx) as [<- _]. apply have_the_same_decorations_spec. exact Hm.
Qed.
Lemma link_symbols_succeeds tm create_library allow_partial : (exists m', link_symbols tm create_library allow_partial m = Ok m') <-> resolvable tm allow_partial m.
Proof.
  rewrite resolvable_spec. unfold link_symbols. split.
  - intros [m' H]. destruct (get_import_export_pairs allow_partial m) as [l| |] eqn:E; try discriminate. apply (get_pairs_spec m Hwf) in E as [Hf ->]. split; [exact Hf|].
    cbn [bind] in H. destruct (check_compatibility tm m (pairs m)) as [[]| |]; try discriminate. reflexivity.
  - intros [Hf Hc]. rewrite (proj2 (get_pairs_spec m Hwf allow_partial (pairs m)) (conj Hf eq_refl)). cbn [bind]. rewrite Hc. cbn [bind]. eauto.
Qed.
End Module.

(** ** Substitution *)
Definition seq_subst (l : list (symbol * symbol)) (x : N) : N :=
  fold_left (fun x p => if x =? s_id (fst p) then s_id (snd p) else x) l x.
Lemma seq_subst_other l : forall x, ~ In x (map (fun p => s_id (fst p)) l) -> seq_subst l x = x.
Proof.
  induction l as [|[i e] l IH]; intros x H; [reflexivity|]. cbn [seq_subst fold_left fst snd]. destruct (N.eqb_spec x (s_id i)) as [E|E].
  - exfalso. apply H. left. symmetry. exact E.
  - apply IH. intro F. apply H. right. exact F.
Qed.
Lemma seq_subst_in l : NoDup (map (fun p => s_id (fst p)) l) -> (forall p q, In p l -> In q l -> s_id (snd p) <> s_id (fst q)) ->
  forall i e, In (i, e) l -> seq_subst l (s_id i) = s_id e.
Proof.
  induction l as [|[i0 e0] l IH]; intros Hn Hd i e Hin; [destruct Hin|]. inversion Hn; subst. cbn [seq_subst fold_left fst snd].
  assert (Hd' : forall p q, In p l -> In q l -> s_id (snd p) <> s_id (fst q)) by (intros p q Hp Hq; apply Hd; right; assumption).
  destruct Hin as [E|Hin].
  - inversion E; subst. rewrite N.eqb_refl. apply seq_subst_other. intro F. apply in_map_iff in F as (q & Eq & Hq).
    apply (Hd (i, e) q); [left; reflexivity | right; exact Hq | symmetry; exact Eq].
  - destruct (N.eqb_spec (s_id i) (s_id i0)) as [E|E].
    + exfalso. apply H1. cbn [fst]. rewrite <- E. apply in_map_iff. exists (i, e). auto.
    + apply (IH H2 Hd' i e Hin).
Qed.
Definition word_line (l : line) : Prop := ids_are_words l.
Lemma replace_operand_subst s b a o : (is_id_type (fst o) = true -> length (snd o) = 1%nat) ->
  replace_operand b a (subst_operand s o) = subst_operand (fun x => if s x =? b then a else s x) o.
Proof.
  intro H. destruct o as [t ws]. unfold replace_operand, subst_operand, is_use. cbn [fst snd] in *.
  destruct (is_id_type t) eqn:Et.
  - destruct ws as [|w [|? ?]]; try (specialize (H eq_refl); discriminate). destruct t; try discriminate; cbn [fst snd is_id_type andb map]; destruct (s w =? b); reflexivity.
  - destruct t; try discriminate; cbn [fst snd is_id_type andb]; reflexivity.
Qed.
Lemma replace_inst_subst s b a i : Forall ids_are_words (body i :: lines i) ->
  replace_inst b a (subst_inst s i) = subst_inst (fun x => if s x =? b then a else s x) i.
Proof.
  intro H. assert (L : forall l, ids_are_words l -> replace_line b a (subst_line s l) = subst_line (fun x => if s x =? b then a else s x) l).
  { intros l Hl. unfold replace_line, subst_line. cbn [opcode operands lexical_scope inlined_at]. f_equal. rewrite map_map. apply map_ext_in. intros o Ho.
    apply replace_operand_subst. unfold ids_are_words in Hl. rewrite Forall_forall in Hl. exact (Hl o Ho). }
  inversion H; subst. unfold replace_inst, subst_inst. cbn [body lines]. f_equal; [apply L; assumption|]. rewrite map_map. apply map_ext_in. intros l Hl. apply L.
  rewrite Forall_forall in H3. apply H3. exact Hl.
Qed.
Lemma subst_operand_ext s s' o : (forall x, s x = s' x) -> subst_operand s o = subst_operand s' o.
Proof. intro H. destruct o as [t ws]. unfold subst_operand. cbn [fst snd]. rewrite (map_ext _ _ H). reflexivity. Qed.
Lemma subst_inst_ext s s' i : (forall x, s x = s' x) -> subst_inst s i = subst_inst s' i.
Proof.
  intro H. assert (L : forall l, subst_line s l = subst_line s' l) by (intro l; unfold subst_line; f_equal; apply map_ext; intro o; apply subst_operand_ext; exact H).
  unfold subst_inst. rewrite (map_ext _ _ L), L. reflexivity.
Qed.
Lemma subst_inst_id i : subst_inst (fun x => x) i = i.
Proof.
  assert (O : forall o, subst_operand (fun x => x) o = o) by (intros [t ws]; unfold subst_operand; cbn [fst snd]; rewrite map_id; destruct t; reflexivity).
  assert (L : forall l, subst_line (fun x => x) l = l) by (intros [oc ops sc il]; unfold subst_line; cbn; f_equal; rewrite <- (map_id ops) at 2; apply map_ext; exact O).
  destruct i as [b ls]. unfold subst_inst. cbn [body lines]. rewrite L. f_equal. rewrite <- (map_id ls) at 2. apply map_ext. exact L.
Qed.
Lemma rematch_subst : forall l s m, Forall (fun i => Forall ids_are_words (body i :: lines i)) (module_insts m) ->
  rematch (for_each_inst (subst_inst s) m) l = for_each_inst (subst_inst (fun x => seq_subst l (s x))) m.
Proof.
  induction l as [|[i e] l IH]; intros s m Hw; [reflexivity|]. unfold rematch. cbn [fold_left]. fold (rematch (replace_all_uses (s_id (fst (i, e))) (s_id (snd (i, e))) (for_each_inst (subst_inst s) m)) l).
  unfold replace_all_uses. rewrite for_each_comp. cbn [fst snd].
  rewrite (for_each_ext _ (subst_inst (fun x => if s x =? s_id i then s_id e else s x))).
  - rewrite IH by exact Hw. reflexivity.
  - intros j Hj. apply replace_inst_subst. rewrite Forall_forall in Hw. apply Hw. exact Hj.
Qed.
Lemma rematch_spec l m : Forall (fun i => Forall ids_are_words (body i :: lines i)) (module_insts m) ->
  rematch m l = for_each_inst (subst_inst (seq_subst l)) m.
Proof.
  intro H. pose proof (rematch_subst l (fun x => x) m H) as E. rewrite for_each_id in E by (intros i _; apply subst_inst_id). exact E.
Qed.

(** Substitution leaves alone what the last phase looks at. *)
Lemma subst_operand_type s o : fst (subst_operand s o) = fst o.
Proof. destruct o as [t ws]. unfold subst_operand. cbn [fst]. destruct t; reflexivity. Qed.
Lemma subst_operand_other s t ws : is_id_type t = false -> subst_operand s (t, ws) = (t, ws).
Proof. intro H. unfold subst_operand. cbn [fst snd]. destruct t; try discriminate; reflexivity. Qed.
Lemma result_id_subst s i : result_id (body (subst_inst s i)) = result_id (body i).
Proof.
  unfold result_id, subst_inst, subst_line. cbn [body operands]. destruct (operands (body i)) as [|[t ws] ops]; [reflexivity|]. cbn [map].
  destruct t; try reflexivity.
  destruct ops as [|[t' ws'] ops]; [reflexivity|]. cbn [map]. destruct t'; reflexivity.
Qed.

(** ** Filters *)
Lemma without_filter {A} (P : A -> Prop) (p : A -> bool) l : (forall a, In a l -> (p a = true <-> P a)) -> without P l (filter (fun a => negb (p a)) l).
Proof.
  induction l as [|a l IH]; intro H; [constructor|]. cbn [filter]. destruct (p a) eqn:E; cbn [negb].
  - constructor; [apply H; [left; reflexivity | exact E] | apply IH; intros b Hb; apply H; right; exact Hb].
  - constructor; [intro F; apply H in F; [congruence | left; reflexivity] | apply IH; intros b Hb; apply H; right; exact Hb].
Qed.
Lemma filter_filter {A} (p q : A -> bool) l : filter p (filter q l) = filter (fun a => q a && p a) l.
Proof. induction l as [|a l IH]; [reflexivity|]. cbn [filter]. destruct (q a); cbn [andb]; [cbn [filter]; destruct (p a)|]; rewrite IH; reflexivity. Qed.
Lemma filter_map_comm {A B} (p : B -> bool) (f : A -> B) l : filter p (map f l) = map f (filter (fun a => p (f a)) l).
Proof. induction l as [|a l IH]; [reflexivity|]. cbn [map filter]. destruct (p (f a)); cbn [map]; rewrite IH; reflexivity. Qed.
Lemma fold_filter {A B} (q : B -> A -> bool) (bs : list B) : forall l, fold_left (fun l b => filter (fun a => negb (q b a)) l) bs l = filter (fun a => negb (existsb (fun b => q b a) bs)) l.
Proof.
  induction bs as [|b bs IH]; intro l; cbn [fold_left existsb].
  - induction l as [|a l IHl]; [reflexivity|]. cbn. f_equal. exact IHl.
  - rewrite IH, filter_filter. apply filter_ext. intro a. rewrite Bool.negb_orb. reflexivity.
Qed.
(** The ids whose names and decorations phase 7 removes. *)
Definition dropped_ids (l : list (symbol * symbol)) : list N := flat_map (fun p => s_id (fst p) :: s_params (fst p)) l.
Lemma fold_kill ids : forall m, fold_left (fun m id => kill_names_and_decorates id m) ids m =
  with_debugs2_annotations m (filter (fun i => negb (existsb (fun id => is_name_of id i) ids)) (debugs2 m))
    (filter (fun i => negb (existsb (fun id => is_decoration (body i) && targets id i) ids)) (annotations m)).
Proof.
  induction ids as [|id ids IH]; intro m; cbn [fold_left existsb].
  - assert (F : forall l : list inst, filter (fun _ => negb false) l = l) by (induction l as [|a l IHl]; [reflexivity | cbn; f_equal; exact IHl]).
    rewrite !F. destruct m; reflexivity.
  - rewrite IH. unfold kill_names_and_decorates, with_debugs2_annotations. cbn [version id_bound capabilities extensions ext_inst_imports memory_model sampled_image_address_mode entry_points graph_entry_points
       execution_modes debugs1 debugs2 debugs3 annotations types_values functions graphs].
    rewrite !filter_filter. f_equal; apply filter_ext; intro i; rewrite Bool.negb_orb; reflexivity.
Qed.
Lemma kill_all_names_spec l : forall m, kill_all_names m l =
  with_debugs2_annotations m (filter (fun i => negb (existsb (fun id => is_name_of id i) (dropped_ids l))) (debugs2 m))
    (filter (fun i => negb (existsb (fun id => is_decoration (body i) && targets id i) (dropped_ids l))) (annotations m)).
Proof.
  intro m. rewrite <- fold_kill. unfold kill_all_names, dropped_ids. revert m. induction l as [|p l IH]; intro m; [reflexivity|].
  cbn [fold_left flat_map app]. rewrite IH. cbn [fold_left]. rewrite fold_left_app. reflexivity.
Qed.
Lemma remove_functions_spec l fs : remove_functions l fs = filter (fun f => negb (existsb (fun p => result_id (body (f_def f)) =? s_id (fst p)) l)) fs.
Proof. unfold remove_functions. apply (fold_filter (fun p f => result_id (body (f_def f)) =? s_id (fst p))). Qed.
Lemma remove_variables_spec l is : remove_variables l is = filter (fun i => negb (existsb (fun p => result_id (body i) =? s_id (fst p)) l)) is.
Proof. unfold remove_variables. apply (fold_filter (fun p i => result_id (body i) =? s_id (fst p))). Qed.

(** ** The capability *)
Definition capability_shape (i : inst) : Prop := exists t c, operands (body i) = [(t, [c])] /\ is_id_type t = false.
Lemma is_linkage_capability_spec s i : capability_shape i -> (is_linkage_capability (subst_inst s i) = true <-> linkage_capability i).
Proof.
  intros (t & c & E & Ht). unfold is_linkage_capability, linkage_capability, single_word_in_operand, single_word_operand, type_result_id_count, subst_inst, subst_line. cbn [body operands].
  rewrite E. cbn [map]. rewrite subst_operand_other by exact Ht. destruct (id_type_T_ID t Ht) as (H1 & H2 & _).
  assert (G : (0 + match t with T_TYPE_ID | T_RESULT_ID => 1 | _ => 0 end)%nat = 0%nat) by (destruct t; try reflexivity; congruence).
  replace (match [(t, [c])] with (T_TYPE_ID, _) :: (T_RESULT_ID, _) :: _ => 2%nat | (T_TYPE_ID, _) :: _ | (T_RESULT_ID, _) :: _ => 1%nat | _ => 0%nat end) with 0%nat by (destruct t; reflexivity || congruence).
  cbn [nth_error Nat.add]. rewrite N.eqb_eq. split; [intros ->; eauto | intros [t' E']; inversion E'; reflexivity].
Qed.
Lemma remove_capability_spec s is : Forall capability_shape is ->
  remove_linkage_capability (map (subst_inst s) is) = map (subst_inst s) is /\ Forall (fun i => ~ linkage_capability i) is \/
  exists l1 c l2, is = l1 ++ c :: l2 /\ Forall (fun i => ~ linkage_capability i) l1 /\ linkage_capability c /\
    remove_linkage_capability (map (subst_inst s) is) = map (subst_inst s) (l1 ++ l2).
Proof.
  induction 1 as [|i is Hi _ IH]; [left; split; [reflexivity | constructor]|]. cbn [map remove_linkage_capability]. pose proof (is_linkage_capability_spec s i Hi) as Hs.
  destruct (is_linkage_capability (subst_inst s i)).
  - right. exists [], i, is. split; [reflexivity|]. split; [constructor|]. split; [apply Hs; reflexivity | reflexivity].
  - assert (Hn : ~ linkage_capability i) by (intro F; apply Hs in F; discriminate). destruct IH as [[-> IH]|(l1 & c & l2 & -> & H1 & H2 & ->)].
    + left. split; [reflexivity | constructor; assumption].
    + right. exists (i :: l1), c, l2. split; [reflexivity|]. split; [constructor; assumption|]. split; [exact H2 | reflexivity].
Qed.

(** ** The result *)
Section Result.
Variables (m : lmodule) (create_library allow_partial : bool).
Hypothesis Hwf : well_formed m.
Hypothesis Hf : findable m allow_partial.
Let l := pairs m.
Let s := seq_subst l.
Lemma import_ids id : In id (map (fun p => s_id (fst p)) l) <-> exists n e, links m id n LinkageImport /\ provides m n e.
Proof.
  destruct (findable_pairs m Hwf _ Hf) as [Hp _]. rewrite in_map_iff. split.
  - intros ([i x] & <- & Hin). apply Hp in Hin as (id & n & e & H1 & H2 & H3 & _). destruct (symbol_info_fields m _ _ _ H3) as [E _]. cbn [fst]. rewrite E. eauto.
  - intros (n & e & H1 & H2). pose proof Hf as (F1 & _). destruct (provides_links m n e H2) as (k & Hk & _).
    destruct (proj1 (symbols_ok m Hwf) F1 id n _ (proj2 (in_triples m Hwf _ _ _) H1)) as [i Hi].
    destruct (proj1 (symbols_ok m Hwf) F1 e n _ (proj2 (in_triples m Hwf _ _ _) Hk)) as [x Hx]. exists (i, x). destruct (symbol_info_fields m _ _ _ Hi) as [E _].
    split; [exact E|]. apply Hp. exists id, n, e. auto.
Qed.
Lemma pairs_apart p q : In p l -> In q l -> s_id (snd p) <> s_id (fst q).
Proof.
  destruct (findable_pairs m Hwf _ Hf) as [Hp _]. destruct p as [i x], q as [j y]. intros H1 H2 E. apply Hp in H1 as (id & n & e & _ & H1 & _ & Hx). apply Hp in H2 as (id' & n' & e' & H2 & _ & Hj & _).
  destruct (symbol_info_fields m _ _ _ Hx) as [E1 _]. destruct (symbol_info_fields m _ _ _ Hj) as [E2 _]. cbn [fst snd] in E. destruct (provides_links m n e H1) as (k & Hk & Hkk).
  assert (Ee : e = id') by congruence. rewrite Ee in Hk. destruct (links_one m Hwf _ _ _ _ _ Hk H2) as [_ ->]. destruct Hkk; discriminate.
Qed.
Lemma s_import id n e : links m id n LinkageImport -> provides m n e -> s id = e.
Proof.
  intros H1 H2. destruct (findable_pairs m Hwf _ Hf) as [Hp Hn]. pose proof Hf as (F1 & _). destruct (provides_links m n e H2) as (k & Hk & _).
  destruct (proj1 (symbols_ok m Hwf) F1 id n _ (proj2 (in_triples m Hwf _ _ _) H1)) as [i Hi].
  destruct (proj1 (symbols_ok m Hwf) F1 e n _ (proj2 (in_triples m Hwf _ _ _) Hk)) as [x Hx].
  destruct (symbol_info_fields m _ _ _ Hi) as [E1 _]. destruct (symbol_info_fields m _ _ _ Hx) as [E2 _].
  rewrite <- E1, <- E2. apply (seq_subst_in l Hn pairs_apart). apply Hp. exists id, n, e. auto.
Qed.
Lemma s_moves id : s id <> id <-> In id (map (fun p => s_id (fst p)) l).
Proof.
  split.
  - intro H. destruct (in_dec N.eq_dec id (map (fun p => s_id (fst p)) l)) as [I|I]; [exact I|]. exfalso. apply H. apply seq_subst_other. exact I.
  - intro H. apply import_ids in H as (n & e & H1 & H2). rewrite (s_import id n e H1 H2). intros ->. destruct (provides_links m n id H2) as (k & Hk & Hkk).
    destruct (links_one m Hwf _ _ _ _ _ Hk H1) as [_ ->]. destruct Hkk; discriminate.
Qed.
Lemma s_resolution : resolution m s.
Proof.
  split; [exact s_import|]. intros id H. apply s_moves, import_ids in H as (n & e & H1 & H2). exists n. rewrite (s_import id n e H1 H2). auto.
Qed.
Lemma s_idempotent id : s (s id) = s id.
Proof.
  destruct (N.eq_dec (s id) id) as [E|E]; [rewrite !E; reflexivity|]. destruct (proj2 s_resolution id E) as (n & _ & H). destruct (N.eq_dec (s (s id)) (s id)) as [E'|E']; [exact E'|].
  exfalso. apply s_moves, import_ids in E' as (n' & e' & H1 & _). destruct (provides_links m n _ H) as (k & Hk & Hkk). destruct (links_one m Hwf _ _ _ _ _ Hk H1) as [_ ->].
  destruct Hkk; discriminate.
Qed.
Lemma dropped_ids_spec id : In id (dropped_ids l) <-> dropped_id m s id.
Proof.
  destruct (findable_pairs m Hwf _ Hf) as [Hp _]. unfold dropped_ids, dropped_id. rewrite in_flat_map. split.
  - intros ([i x] & Hin & H). cbn [fst] in H. pose proof Hin as Hin'. apply Hp in Hin' as (id0 & n & e & H1 & H2 & H3 & _). destruct (symbol_info_fields m _ _ _ H3) as [E _].
    destruct H as [<-|H]; [left; apply s_moves, in_map_iff; exists (i, x); auto|]. right. unfold symbol_info in H3. destruct (get_def m id0) as [d|] eqn:Ed; [|discriminate].
    destruct (opcode (body d) =? OpVariable); [inversion H3; subst i; destruct H|]. destruct (opcode (body d) =? OpFunction); [|discriminate]. unfold bind in H3.
    destruct (single_word_in_operand (body d) 1); inversion H3; subst i. cbn [s_params] in H. unfold parameter_ids in H. apply in_flat_map in H as (f & Hff & H).
    destruct (N.eqb_spec (result_id (body (f_def f))) id0) as [Er|]; [|destruct H]. apply in_map_iff in H as (p & <- & Hpp). exists f, p. split; [exact Hff|]. split; [|auto].
    rewrite Er. apply s_moves, import_ids. eauto.
  - intros [H|(f & p & Hff & Hs & Hpp & ->)].
    + apply s_moves, in_map_iff in H as ([i x] & <- & Hin). exists (i, x). split; [exact Hin | left; reflexivity].
    + apply s_moves, in_map_iff in Hs as ([i x] & Ei & Hin). exists (i, x). split; [exact Hin|]. right. cbn [fst] in *. apply Hp in Hin as (id0 & n & e & H1 & H2 & H3 & _).
      destruct (symbol_info_fields m _ _ _ H3) as [E _]. pose proof (links_nonzero m Hwf _ _ _ H1) as H0.
      assert (Hd : get_def m id0 = Some (f_def f)).
      { apply (get_def_spec m Hwf). split; [|split; [congruence | exact H0]]. apply module_insts_cases. do 13 right. left. apply in_flat_map. exists f. split; [exact Hff | left; reflexivity]. }
      pose proof Hwf as (_ & _ & _ & _ & Hfn & _). rewrite Forall_forall in Hfn. unfold symbol_info in H3. rewrite Hd, (Hfn f Hff) in H3. change (OpFunction =? OpVariable) with false in H3.
      change (OpFunction =? OpFunction) with true in H3. cbv iota in H3. unfold bind in H3. destruct (single_word_in_operand (body (f_def f)) 1); inversion H3; subst i. cbn [s_params s_id] in *.
      unfold parameter_ids. apply in_flat_map. exists f. split; [exact Hff|]. rewrite <- Ei, N.eqb_refl. apply in_map_iff. eauto.
Qed.
Lemma existsb_targets i : In i (annotations m) ->
  (existsb (fun id => is_decoration (body i) && targets id i) (dropped_ids l) = true <-> exists id, first_id i = Some id /\ dropped_id m s id).
Proof.
  intro Hi. pose proof (shape_in m Hwf i Hi) as Hs. rewrite existsb_exists. split.
  - intros (id & H1 & H2). apply Bool.andb_true_iff in H2 as [_ H2]. exists id. split; [apply targets_spec; assumption | apply dropped_ids_spec; exact H1].
  - intros (id & H1 & H2). exists id. split; [apply dropped_ids_spec; exact H2|]. apply Bool.andb_true_iff. split; [apply is_decoration_spec, Hs | apply targets_spec; assumption].
Qed.
Lemma existsb_names i : In i (debugs2 m) ->
  (existsb (fun id => is_name_of id i) (dropped_ids l) = true <-> names i /\ exists id, first_id i = Some id /\ dropped_id m s id).
Proof.
  intro Hi. pose proof Hwf as (_ & Hn & _). rewrite Forall_forall in Hn. specialize (Hn i Hi). rewrite existsb_exists. unfold is_name_of, names, first_id, targets in *. split.
  - intros (id & H1 & H2). apply Bool.andb_true_iff in H2 as [H2 H3]. rewrite Bool.orb_true_iff, !N.eqb_eq in H2. split; [exact H2|].
    destruct (Hn H2) as (x & rest & E). unfold single_word_in_operand, single_word_operand, type_result_id_count in H3. rewrite E in *. cbn in H3. apply N.eqb_eq in H3. subst x.
    exists id. split; [reflexivity | apply dropped_ids_spec; exact H1].
  - intros (H1 & id & H2 & H3). exists id. split; [apply dropped_ids_spec; exact H3|]. rewrite Bool.andb_true_iff, Bool.orb_true_iff, !N.eqb_eq. split; [exact H1|].
    destruct (Hn H1) as (x & rest & E). unfold single_word_in_operand, single_word_operand, type_result_id_count. rewrite E in *. cbn. inversion H2. apply N.eqb_refl.
Qed.
Lemma linkage_kind_subst i : In i (annotations m) -> linkage_kind (subst_inst s i) = option_map snd (lk i).
Proof.
  intro Hi. pose proof (shape_in m Hwf i Hi) as Hs. destruct (shape_ops i Hs) as (x & t1 & d & rest & E & _ & _ & _ & _ & Ht).
  assert (E1 : operands (body (subst_inst s i)) = (T_ID, [s x]) :: (t1, [d]) :: map (subst_operand s) rest).
  { unfold subst_inst, subst_line. cbn [body operands]. rewrite E. cbn [map]. rewrite (subst_operand_other s t1) by exact Ht. reflexivity. }
  assert (E2 : is_linkage (subst_inst s i) = is_linkage i).
  { unfold is_linkage, single_word_in_operand, single_word_operand, type_result_id_count. rewrite E1, E. reflexivity. }
  unfold linkage_kind. rewrite E2. destruct (lk i) as [[[id n] k]|] eqn:El.
  - pose proof (shape_lk i Hs _ _ _ El) as Hk. rewrite (proj2 (is_linkage_spec i Hs)) by eauto. destruct Hk as (_ & ta & ws & tb & Eo & _ & Htb & _).
    rewrite E in Eo. inversion Eo; subst. unfold single_word_operand. rewrite E1. cbn [map nth_error]. rewrite (subst_operand_other s tb) by exact Htb. reflexivity.
  - destruct (is_linkage i) eqn:Ei; [|reflexivity]. apply is_linkage_spec in Ei as (id & n & k & Hk); [|exact Hs]. apply lk_of in Hk. congruence.
Qed.
Lemma target_subst i id n k : linkage_decoration i id n k -> single_word_operand (body (subst_inst s i)) 0 = Ok (s id).
Proof. intros (_ & t1 & ws & t2 & E & _). unfold single_word_operand, subst_inst, subst_line. cbn [body operands]. rewrite E. reflexivity. Qed.
Definition goes (i : inst) : bool :=
  existsb (fun id => is_decoration (body i) && targets id i) (dropped_ids l) ||
  (removed_import allow_partial (if allow_partial then map (fun p => s_id (snd p)) l else []) (subst_inst s i) ||
   (negb create_library && removed_export (subst_inst s i))).
Lemma goes_spec i : In i (annotations m) -> (goes i = true <-> dropped_annotation create_library allow_partial m s i).
Proof.
  intro Hi. pose proof (shape_in m Hwf i Hi) as Hs. unfold goes, dropped_annotation. rewrite !Bool.orb_true_iff, existsb_targets by exact Hi.
  unfold removed_import, removed_export. rewrite linkage_kind_subst by exact Hi.
  destruct (lk i) as [[[id n] k]|] eqn:El; cbn [option_map snd].
  - pose proof (shape_lk i Hs _ _ _ El) as Hk. rewrite (target_subst i id n k Hk). rewrite !Bool.andb_true_iff, !Bool.orb_true_iff, !Bool.negb_true_iff, !N.eqb_eq. split.
    + intros [H|[[-> H]|[H1 H2]]]; [left; exact H | | right; right; split; [exact H1 | eauto 6]].
      destruct allow_partial eqn:Eap; [|right; left; split; [reflexivity | eauto]]. destruct H as [H|H]; [discriminate|]. left. exists id. split; [exact (linkage_first _ _ _ _ Hk)|].
      apply existsb_exists in H as (y & Hy & E). apply N.eqb_eq in E. subst y. apply in_map_iff in Hy as ([j x] & Ex & Hin). cbn [snd] in Ex. left. intro Es.
      destruct (findable_pairs m Hwf _ Hf) as [Hp _]. apply Hp in Hin as (id' & n' & e' & _ & Hpr & _ & Hx). destruct (symbol_info_fields m _ _ _ Hx) as [E' _].
      destruct (provides_links m n' e' Hpr) as (k & (j' & Hj' & Hkj & _) & Hkk). assert (Ee : e' = id) by congruence. rewrite Ee in Hkj.
      destruct (one_linkage m Hwf i j' id _ _ _ _ Hi Hj' Hk Hkj) as [_ <-]. destruct Hkk; discriminate.
    + intros [H|[(H & id' & n' & Hk')|(H & id' & n' & k' & Hk' & Hkk)]]; [left; exact H| |].
      * right. left. destruct (linkage_unique _ _ _ _ _ _ _ Hk Hk') as (_ & _ & ->). split; [reflexivity | left; exact H].
      * right. right. destruct (linkage_unique _ _ _ _ _ _ _ Hk Hk') as (_ & _ & ->). split; [exact H | exact Hkk].
  - rewrite Bool.andb_false_r. split.
    + intros [H|[H|H]]; [left; exact H | discriminate | discriminate].
    + intros [H|[(H & id' & n' & Hk')|(H & id' & n' & k' & Hk' & Hkk)]]; [left; exact H | |]; exfalso; exact (shape_none i Hs El _ _ _ Hk').
Qed.
Lemma existsb_imports x : existsb (fun p => x =? s_id (fst p)) l = true <-> s x <> x.
Proof.
  rewrite s_moves, existsb_exists, in_map_iff. split; intros (p & H1 & H2); exists p; [apply N.eqb_eq in H2; auto | split; [exact H2 | apply N.eqb_eq; auto]].
Qed.
Lemma linked_result : linked create_library allow_partial m (remove_linkage create_library allow_partial l (rematch (kill_all_names m l) l)) s.
Proof.
  pose proof Hwf as (_ & _ & Hcap & _ & _ & _ & _ & _ & Hwords).
  rewrite kill_all_names_spec. set (d2 := filter _ (debugs2 m)). set (an := filter _ (annotations m)).
  rewrite rematch_spec.
  2: { apply Forall_forall. intros i Hi. rewrite Forall_forall in Hwords. apply Hwords. apply module_insts_cases in Hi. unfold with_debugs2_annotations in Hi.
       cbn [version id_bound capabilities extensions ext_inst_imports memory_model sampled_image_address_mode entry_points graph_entry_points
         execution_modes debugs1 debugs2 debugs3 annotations types_values functions graphs] in Hi. apply module_insts_cases.
       assert (D : In i d2 -> In i (debugs2 m)) by (unfold d2; rewrite filter_In; tauto). assert (A : In i an -> In i (annotations m)) by (unfold an; rewrite filter_In; tauto).
       repeat (destruct Hi as [Hi|Hi]; [auto 20|]). auto 20. }
  fold s. unfold remove_linkage, with_debugs2_annotations, for_each_inst, with_parts, linked. cbn zeta.
  cbn [version id_bound capabilities extensions ext_inst_imports memory_model sampled_image_address_mode entry_points graph_entry_points
         execution_modes debugs1 debugs2 debugs3 annotations types_values functions graphs].
  do 12 (split; [reflexivity|]). split; [|split; [|split; [|split; [|split]]]].
  - exists d2. split; [|reflexivity]. apply without_filter. exact existsb_names.
  - exists (filter (fun i => negb (goes i)) (annotations m)). split; [apply without_filter; exact goes_spec|].
    assert (E : forall q : inst -> bool, filter (fun i => negb (q i)) (map (subst_inst s) an) =
               map (subst_inst s) (filter (fun i => negb (existsb (fun id => is_decoration (body i) && targets id i) (dropped_ids l) || q (subst_inst s i))) (annotations m))).
    { intro q. rewrite filter_map_comm. f_equal. unfold an. rewrite filter_filter. apply filter_ext. intro i. rewrite Bool.negb_orb. reflexivity. }
    unfold goes. destruct create_library; cbn [negb andb].
    + rewrite (E (removed_import allow_partial _)). f_equal. apply filter_ext. intro i. rewrite Bool.orb_false_r. reflexivity.
    + rewrite filter_filter. erewrite filter_ext; [apply (E (fun i => removed_import allow_partial (if allow_partial then map (fun p => s_id (snd p)) l else []) i || removed_export i))|].
      intro i. cbv beta. rewrite Bool.negb_orb. reflexivity.
  - exists (filter (fun i => negb (existsb (fun p => result_id (body i) =? s_id (fst p)) l)) (types_values m)). split.
    + apply without_filter. intros i _. apply existsb_imports.
    + rewrite remove_variables_spec, filter_map_comm. f_equal. apply filter_ext. intro i. rewrite result_id_subst. reflexivity.
  - exists (filter (fun f => negb (existsb (fun p => result_id (body (f_def f)) =? s_id (fst p)) l)) (functions m)). split.
    + apply without_filter. intros f _. apply existsb_imports.
    + rewrite remove_functions_spec, filter_map_comm. f_equal. apply filter_ext. intro f. unfold map_func. cbn [f_def]. rewrite result_id_subst. reflexivity.
  - intros [->| ->]; [reflexivity|]. rewrite Bool.andb_false_r. reflexivity.
  - intros [-> ->]. cbn [negb andb]. destruct (remove_capability_spec s (capabilities m) Hcap) as [[H1 H2]|(l1 & c & l2 & H1 & H2 & H3 & H4)]; [left; auto|].
    right. exists l1, c, l2. auto.
Qed.
End Result.

Lemma link_symbols_result tm create_library allow_partial m m' : well_formed m -> link_symbols tm create_library allow_partial m = Ok m' ->
  exists s, resolution m s /\ (forall id, s (s id) = s id) /\ linked create_library allow_partial m m' s.
Proof.
  intros Hwf H. unfold link_symbols in H. destruct (get_import_export_pairs allow_partial m) as [l| |] eqn:E; try discriminate. apply (get_pairs_spec m Hwf) in E as [Hf ->].
  cbn [bind] in H. destruct (check_compatibility tm m (pairs m)); try discriminate. cbn [bind] in H. inversion H; subst. exists (seq_subst (pairs m)).
  split; [exact (s_resolution m allow_partial Hwf Hf)|]. split; [exact (s_idempotent m allow_partial Hwf Hf)|]. apply linked_result; assumption.
Qed.
