(** Proofs about the id compaction pass. *)
From Verif Require Import Base OperandTypes IrModule CompactIds IrSpec.
Local Open Scope N_scope.

Definition ext (a b : id_mapping) : Prop := forall id v, mapped a id = Some v -> mapped b id = Some v.
Lemma ext_refl a : ext a a. Proof. intros ? ? H; exact H. Qed.
Lemma ext_trans a b c : ext a b -> ext b c -> ext a c.
Proof. intros H1 H2 id v H. apply H2, H1, H. Qed.

Definition f_of (mp : id_mapping) (id : N) : N := match mapped mp id with Some v => v | None => 0 end.

Definition keys (mp : id_mapping) : list N := map fst mp.
Definition values_ok (mp : id_mapping) : Prop :=
  map snd mp = map (fun i => N.of_nat i + 1) (seq 0 (length mp)).

Lemma mapped_app mp k v id :
  mapped (mp ++ [(k, v)]) id = match mapped mp id with Some x => Some x | None => if k =? id then Some v else None end.
Proof.
  induction mp as [|[a b] mp IH]; simpl; [reflexivity|]. destruct (a =? id); auto.
Qed.
Lemma mapped_none mp id : mapped mp id = None <-> existsb (N.eqb id) (keys mp) = false.
Proof.
  induction mp as [|[a b] mp IH]; simpl; [tauto|].
  rewrite (N.eqb_sym id a). destruct (a =? id); simpl; [split; discriminate | exact IH].
Qed.

(** [mp'] is [mp] after looking up the ids [ids] in turn. *)
Definition after (mp : id_mapping) (ids : list N) (mp' : id_mapping) : Prop :=
  ext mp mp' /\ keys mp' = keys mp ++ first_occurrences (keys mp) ids /\ (values_ok mp -> values_ok mp') /\
  Forall (fun id => mapped mp' id <> None) ids.

Lemma first_occurrences_app seen a b :
  first_occurrences seen (a ++ b) =
  first_occurrences seen a ++ first_occurrences (seen ++ first_occurrences seen a) b.
Proof.
  revert seen. induction a as [|x a IH]; intro seen; simpl; [rewrite app_nil_r; reflexivity|].
  destruct (existsb (N.eqb x) seen); [apply IH|]. simpl. rewrite IH, <- app_assoc. reflexivity.
Qed.

Lemma after_nil mp : after mp [] mp.
Proof. repeat split; auto. - apply ext_refl. - simpl. rewrite app_nil_r. reflexivity. Qed.
Lemma after_app mp a mp' b mp'' : after mp a mp' -> after mp' b mp'' -> after mp (a ++ b) mp''.
Proof.
  intros (E1 & K1 & V1 & F1) (E2 & K2 & V2 & F2). repeat split.
  - eapply ext_trans; eauto.
  - rewrite K2, K1, first_occurrences_app, app_assoc. reflexivity.
  - auto.
  - apply Forall_app. split; [|exact F2].
    eapply Forall_impl; [|exact F1]. intros id Hn Hc. destruct (mapped mp' id) as [v|] eqn:E; [|congruence].
    apply E2 in E. congruence.
Qed.

Lemma get_remapped_after mp id mp' n :
  get_remapped_id mp id = (mp', n) -> after mp [id] mp' /\ mapped mp' id = Some n.
Proof.
  unfold get_remapped_id. destruct (mapped mp id) as [v|] eqn:E; intro H; inversion H; subst; clear H.
  - split; [|exact E]. repeat split; auto.
    + apply ext_refl.
    + simpl. destruct (existsb (N.eqb id) (keys mp')) eqn:Ex; [rewrite app_nil_r; reflexivity|].
      apply mapped_none in Ex. congruence.
    + constructor; [congruence | constructor].
  - assert (Hm : mapped (mp ++ [(id, N.of_nat (length mp) + 1)]) id = Some (N.of_nat (length mp) + 1)).
    { rewrite mapped_app, E, N.eqb_refl. reflexivity. }
    split; [|exact Hm]. repeat split.
    + intros i v Hi. rewrite mapped_app, Hi. reflexivity.
    + simpl. apply mapped_none in E. rewrite E. unfold keys. rewrite map_app. reflexivity.
    + unfold values_ok. intro Hv. rewrite map_app, Hv, app_length. cbn [length].
      rewrite seq_app, map_app. reflexivity.
    + constructor; [congruence | constructor].
Qed.

Lemma f_of_ext mp mp' id n : mapped mp id = Some n -> ext mp mp' -> f_of mp' id = n.
Proof. intros H E. unfold f_of. rewrite (E _ _ H). reflexivity. Qed.

(** Each stage: the new mapping, and for every later mapping the result is the renaming by it. *)
Definition stage {A} (rename : (N -> N) -> A -> A) (mp : id_mapping) (x : A) (ids : list N)
           (mp' : id_mapping) (y : A) (m : bool) : Prop :=
  after mp ids mp' /\ (forall F, ext mp' F -> y = rename (f_of F) x) /\ (m = false <-> y = x).

Lemma stage_nil {A} (rename : (N -> N) -> A -> A) mp x : (forall f, rename f x = x) -> stage rename mp x [] mp x false.
Proof. intro H. split; [apply after_nil|]. split; [intros; symmetry; apply H|]. tauto. Qed.

Lemma compact_operands_stage : forall ops mp,
  Forall (fun o => is_id_type (fst o) = true -> length (snd o) = 1%nat) ops ->
  exists mp' ops' m, compact_operands mp ops = Some (mp', ops', m) /\
    stage (fun f => map (rename_operand f)) mp ops (flat_map operand_ids ops) mp' ops' m.
Proof.
  induction ops as [|[t ws] ops IH]; intros mp Hw.
  - exists mp, [], false. split; [reflexivity|]. apply stage_nil. reflexivity.
  - inversion Hw as [|? ? H1 H2]; subst. simpl. simpl in H1. destruct (is_id_type t) eqn:Et.
    + destruct ws as [|id [|? ?]]; try (specialize (H1 eq_refl); discriminate).
      destruct (get_remapped_id mp id) as [mp1 n] eqn:Eg.
      destruct (get_remapped_after _ _ _ _ Eg) as [Ha Hn].
      destruct (IH mp1 H2) as (mp' & ops' & m & E & A & R & M). rewrite E.
      exists mp', ((t, [n]) :: ops'), (negb (id =? n) || m). split; [reflexivity|].
      unfold operand_ids at 1. simpl. rewrite Et. split; [|split].
      * apply (after_app _ [id] mp1 _ _ Ha A).
      * intros F HF. simpl. unfold rename_operand at 1. simpl. rewrite Et.
        rewrite <- (R F HF). simpl. 
        rewrite (f_of_ext mp1 F id n Hn) by (destruct A; eapply ext_trans; eauto).
        reflexivity.
      * rewrite orb_false_iff, negb_false_iff, N.eqb_eq, M. split.
        -- intros [-> ->]. reflexivity.
        -- intro Hc; inversion Hc; subst; auto.
    + destruct (IH mp H2) as (mp' & ops' & m & E & A & R & M). rewrite E.
      exists mp', ((t, ws) :: ops'), m. split; [reflexivity|].
      unfold operand_ids at 1. simpl. rewrite Et. split; [exact A|split].
      * intros F HF. simpl. unfold rename_operand at 1. simpl. rewrite Et, <- (R F HF). reflexivity.
      * rewrite M. split; intros Hc; [subst; auto | inversion Hc; subst; auto].
Qed.

Lemma compact_scope_stage mp id :
  exists mp' id' m, compact_scope mp id = (mp', id', m) /\ stage rename_scope mp id (scope_ids id) mp' id' m.
Proof.
  unfold compact_scope, scope_ids, stage, rename_scope. destruct (N.eqb_spec id 0) as [->|Hz].
  - exists mp, 0, false. split; [reflexivity|]. split; [apply after_nil|]. split; [reflexivity|]. tauto.
  - destruct (get_remapped_id mp id) as [mp1 n] eqn:Eg. destruct (get_remapped_after _ _ _ _ Eg) as [Ha Hn].
    exists mp1, n, (negb (id =? n)). split; [reflexivity|]. split; [exact Ha|]. split.
    + intros F HF. symmetry. apply (f_of_ext mp1); auto.
    + rewrite negb_false_iff, N.eqb_eq. split; congruence.
Qed.

Lemma compact_line_stage mp l : ids_are_words l ->
  exists mp' l' m, compact_line mp l = Some (mp', l', m) /\ stage rename_line mp l (line_ids l) mp' l' m.
Proof.
  intro Hw. unfold compact_line, line_ids.
  destruct (compact_operands_stage (operands l) mp Hw) as (mp1 & ops & m1 & E1 & A1 & R1 & M1). rewrite E1.
  destruct (compact_scope_stage mp1 (lexical_scope l)) as (mp2 & sc & m2 & E2 & A2 & R2 & M2). rewrite E2.
  destruct (compact_scope_stage mp2 (inlined_at l)) as (mp3 & il & m3 & E3 & A3 & R3 & M3). rewrite E3.
  eexists mp3, _, _. split; [reflexivity|]. split; [|split].
  - eapply after_app; [exact A1|]. eapply after_app; eassumption.
  - intros F HF. unfold rename_line. pose proof (ext_trans _ _ _ (proj1 A3) HF) as HF2.
    pose proof (ext_trans _ _ _ (proj1 A2) HF2) as HF1. rewrite <- (R1 F HF1), <- (R2 F HF2), <- (R3 F HF). reflexivity.
  - rewrite !orb_false_iff, M1, M2, M3. destruct l as [oc ops0 sc0 il0]; simpl in *. split.
    + intros [[-> ->] ->]. reflexivity.
    + intro H. inversion H; auto.
Qed.

Lemma compact_lines_stage : forall ls mp, Forall ids_are_words ls ->
  exists mp' ls' m, compact_lines mp ls = Some (mp', ls', m) /\
    stage (fun f => map (rename_line f)) mp ls (flat_map line_ids ls) mp' ls' m.
Proof.
  induction ls as [|l ls IH]; intros mp Hw.
  - exists mp, [], false. split; [reflexivity|]. apply stage_nil. reflexivity.
  - inversion Hw as [|? ? H1 H2]; subst. simpl.
    destruct (compact_line_stage mp l H1) as (mp1 & l' & m1 & E1 & A1 & R1 & M1). rewrite E1.
    destruct (IH mp1 H2) as (mp' & ls' & m & E & A & R & M). rewrite E.
    eexists mp', _, _. split; [reflexivity|]. split; [|split].
    + eapply after_app; eassumption.
    + intros F HF. simpl. rewrite <- (R F HF), <- (R1 F) by (eapply ext_trans; [exact (proj1 A)|exact HF]). reflexivity.
    + rewrite orb_false_iff, M1, M. split.
      * intros [-> ->]. reflexivity.
      * intro Hc; inversion Hc; subst; auto.
Qed.

Lemma set_scope_noop n ls : Forall (fun l => lexical_scope l = n) ls -> map (set_line_scope n) ls = ls.
Proof.
  induction 1 as [|[oc op sc il] ls H _ IH]; [reflexivity|]. simpl in *. subst. f_equal. exact IH.
Qed.
Lemma set_inlined_noop n ls : Forall (fun l => inlined_at l = n) ls -> map (set_line_inlined n) ls = ls.
Proof.
  induction 1 as [|[oc op sc il] ls H _ IH]; [reflexivity|]. simpl in *. subst. f_equal. exact IH.
Qed.

Lemma scope_moved mp id mp' id' : compact_scope mp id = (mp', id', true) -> id <> 0.
Proof. unfold compact_scope. destruct (N.eqb_spec id 0); [discriminate | auto]. Qed.

Lemma compact_inst_stage mp i : well_formed_inst i ->
  exists mp' i' m, compact_inst mp i = Some (mp', i', m) /\ stage rename_inst mp i (inst_ids i) mp' i' m.
Proof.
  intros (Hb & Hl & Hs1 & Hs2). unfold compact_inst, inst_ids, line_ids at 2.
  destruct (compact_lines_stage (lines i) mp Hl) as (mp0 & ls & m & E & A & R & M). rewrite E.
  destruct (compact_operands_stage (operands (body i)) mp0 Hb) as (mp1 & ops & m1 & E1 & A1 & R1 & M1). rewrite E1.
  destruct (compact_scope_stage mp1 (lexical_scope (body i))) as (mp2 & sc & m2 & E2 & A2 & R2 & M2). rewrite E2.
  destruct (compact_scope_stage mp2 (inlined_at (body i))) as (mp3 & il & m3 & E3 & A3 & R3 & M3). rewrite E3.
  assert (X2 : ext mp2 mp3) by exact (proj1 A3).
  assert (X1 : ext mp1 mp3) by (eapply ext_trans; [exact (proj1 A2) | exact X2]).
  assert (X0 : ext mp0 mp3) by (eapply ext_trans; [exact (proj1 A1) | exact X1]).
  assert (N1 : (if m2 then map (set_line_scope sc) ls else ls) = ls).
  { destruct m2; [|reflexivity]. apply set_scope_noop. specialize (Hs1 (scope_moved _ _ _ _ E2)).
    rewrite (R mp3 X0). apply Forall_map. eapply Forall_impl; [|exact Hs1]. intros l Hl'. simpl.
    rewrite Hl'. symmetry. apply R2. exact X2. }
  rewrite N1.
  assert (N2 : (if m3 then map (set_line_inlined il) ls else ls) = ls).
  { destruct m3; [|reflexivity]. apply set_inlined_noop. specialize (Hs2 (scope_moved _ _ _ _ E3)).
    rewrite (R mp3 X0). apply Forall_map. eapply Forall_impl; [|exact Hs2]. intros l Hl'. simpl.
    rewrite Hl'. symmetry. apply R3. apply ext_refl. }
  rewrite N2.
  eexists mp3, _, _. split; [reflexivity|]. split; [|split].
  - eapply after_app; [exact A|]. eapply after_app; [exact A1|]. eapply after_app; eassumption.
  - intros F HF. unfold rename_inst, rename_line at 1.
    rewrite <- (R F (ext_trans _ _ _ X0 HF)), <- (R1 F (ext_trans _ _ _ X1 HF)), <- (R2 F (ext_trans _ _ _ X2 HF)), <- (R3 F HF).
    reflexivity.
  - rewrite !orb_false_iff, M, M1, M2, M3. destruct i as [[oc ops0 sc0 il0] ls0]; simpl in *. split.
    + intros [-> [[-> ->] ->]]. reflexivity.
    + intro H. inversion H; auto.
Qed.

Lemma compact_insts_stage : forall is mp, Forall well_formed_inst is ->
  exists mp' is' m, compact_insts mp is = Some (mp', is', m) /\
    stage (fun f => map (rename_inst f)) mp is (insts_ids is) mp' is' m.
Proof.
  induction is as [|i is IH]; intros mp Hw.
  - exists mp, [], false. split; [reflexivity|]. apply stage_nil. reflexivity.
  - inversion Hw as [|? ? H1 H2]; subst. simpl.
    destruct (compact_inst_stage mp i H1) as (mp1 & i' & m1 & E1 & A1 & R1 & M1). rewrite E1.
    destruct (IH mp1 H2) as (mp' & is' & m & E & A & R & M). rewrite E.
    eexists mp', _, _. split; [reflexivity|]. split; [|split].
    + eapply after_app; eassumption.
    + intros F HF. simpl. rewrite <- (R F HF), <- (R1 F) by (eapply ext_trans; [exact (proj1 A)|exact HF]). reflexivity.
    + rewrite orb_false_iff, M1, M. split.
      * intros [-> ->]. reflexivity.
      * intro Hc; inversion Hc; subst; auto.
Qed.

Lemma first_occurrences_spec : forall ids seen,
  NoDup (first_occurrences seen ids) /\
  (forall x, In x (first_occurrences seen ids) <-> In x ids /\ ~ In x seen).
Proof.
  induction ids as [|y ids IH]; intro seen; simpl; [split; [constructor | tauto]|].
  destruct (existsb (N.eqb y) seen) eqn:E.
  - destruct (IH seen) as [N1 I1]. split; [exact N1|]. intro x. rewrite I1.
    apply existsb_exists in E as (z & Hz & Hzy). apply N.eqb_eq in Hzy. subst z.
    split; [tauto|]. intros [[->|Hx] Hs]; [contradiction | tauto].
  - destruct (IH (seen ++ [y])) as [N1 I1].
    assert (Hy : ~ In y seen).
    { intro Hc. assert (existsb (N.eqb y) seen = true) by (apply existsb_exists; exists y; split; [exact Hc | apply N.eqb_refl]). congruence. }
    split.
    + constructor; [|exact N1]. rewrite I1, in_app_iff. simpl. tauto.
    + intro x. simpl. rewrite I1, in_app_iff. simpl. split.
      * intros [->|H]; tauto.
      * intros [[->|H] Hs]; [tauto|]. destruct (N.eq_dec y x); [tauto|]. right. split; [exact H|]. intros [?|[?|[]]]; auto.
Qed.

Lemma map_f_of mp : NoDup (keys mp) -> map (f_of mp) (keys mp) = map snd mp.
Proof.
  assert (Gen : forall a b, NoDup (keys (a ++ b)) -> map (f_of (a ++ b)) (keys b) = map snd b).
  { intros a b. revert a. induction b as [|[k v] b IH]; intros a Hnd; [reflexivity|]. simpl. f_equal.
    - unfold f_of. clear IH. induction a as [|[k' v'] a IHa]; simpl; [rewrite N.eqb_refl; reflexivity|].
      simpl in Hnd. inversion Hnd; subst. destruct (N.eqb_spec k' k) as [->|]; [|apply IHa; assumption].
      exfalso. apply H1. unfold keys. rewrite map_app. apply in_or_app. right. left. reflexivity.
    - replace (a ++ (k, v) :: b) with ((a ++ [(k, v)]) ++ b) in * by (rewrite <- app_assoc; reflexivity).
      apply IH. exact Hnd. }
  intro H. apply (Gen [] mp H).
Qed.
