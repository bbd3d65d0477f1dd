(** Proofs about the model of constant folding: instructions. *)
From Verif Require Import Base Fold FoldSpec FoldProofs FoldProofs2.
Local Open Scope Z_scope.

Section Inst.
Variables (m : fmodule) (id_map : N -> N).
Hypothesis Hm : module_ok m.
Hypothesis Hid : id_map_ok m id_map.

(** A constant argument of type [t]. *)
Lemma arg_const id t c : fm_type m id = Some t -> fm_const m (id_map id) = Some c ->
  fty_ok t /\ const_ok t c.
Proof.
  intros Ht Hc. assert (Ht' : fm_type m (id_map id) = Some t) by (rewrite Hid; exact Ht).
  destruct (Hm _ _ Ht') as (K & C). auto.
Qed.
Lemma arg_env env id t c : execution m id_map env -> fm_type m id = Some t -> fm_const m (id_map id) = Some c ->
  env id = const_value c.
Proof. intros (_ & E & _ & M) Ht Hc. rewrite <- M. apply E. exact Hc. Qed.
Lemma arg_comp env id t c d s : execution m id_map env -> fm_type m id = Some t ->
  fm_const m (id_map id) = Some c -> (d < dims t)%nat -> nth_error (comps c) d = Some s ->
  component d (env id) = sconst_value s.
Proof.
  intros X Ht Hc Hd Hs. rewrite (arg_env env id t c X Ht Hc).
  rewrite (component_nth (dims t)); auto.
  - apply const_value_nth. exact Hs.
  - destruct (arg_const id t c Ht Hc) as (_ & K). apply const_ok_comps in K.
    rewrite const_value_comps, map_length. tauto.
Qed.
Lemma arg_range env id t d : execution m id_map env -> fm_type m id = Some t -> (d < dims t)%nat ->
  0 <= component d (env id) < 2 ^ ewidth (elem t).
Proof.
  intros (V & _) Ht Hd. destruct (V _ _ Ht) as (L & F).
  rewrite (component_nth (dims t)); auto. rewrite Forall_forall in F. apply F. apply nth_In. lia.
Qed.
Lemma arg_width_eq id t : fm_type m id = Some t -> arg_width m id = ewidth (elem t).
Proof. intros H. unfold arg_width. rewrite H. reflexivity. Qed.
Lemma arg_signed_eq id t w s : fm_type m id = Some t -> elem t = EInt w s -> arg_signed m id = s.
Proof. intros H E. unfold arg_signed. rewrite H. destruct t; cbn in E; subst e; reflexivity. Qed.
Lemma type_signed_eq t w s : elem t = EInt w s -> type_signed t = s.
Proof. unfold type_signed. intros ->. reflexivity. Qed.

(** What is to be shown of a folded constant. *)
Definition folds_right (i : finst) (c : fconst) : Prop :=
  forall env d v, execution m id_map env -> (d < dims (fi_type i))%nat ->
    ~ deviation_at m i env d -> result_component m i env d = Some v ->
    nth d (const_value c) 0 = v.
Definition widths_right (i : finst) (c : fconst) : Prop :=
  shaped (fi_type i) c /\
  Forall (fun s => ewidth (sconst_type s) = ewidth (elem (fi_type i))) (comps c).

Lemma widths_from_nth i c :
  shaped (fi_type i) c ->
  (forall d, (d < dims (fi_type i))%nat -> exists s, nth_error (comps c) d = Some s /\
     ewidth (sconst_type s) = ewidth (elem (fi_type i))) ->
  widths_right i c.
Proof.
  intros Hs H. split; [exact Hs|]. apply Forall_forall. intros s Hin.
  destruct (In_nth_error _ _ Hin) as (d & E).
  assert (D : (d < dims (fi_type i))%nat).
  { rewrite <- (shaped_length _ _ Hs). apply nth_error_Some. congruence. }
  destruct (H d D) as (s' & E' & W). rewrite E in E'. injection E' as ->. exact W.
Qed.
Lemma retype_right i c : widths_right i c -> folds_right i c -> folds_right i (retype (fi_type i) c).
Proof. intros (S1 & F) H env d v X D N R. rewrite retype_value; auto. exact (H env d v X D N R). Qed.

(** Binary rules on two constants. *)
Lemma binary_rule_right o rule i x y tx ty w s sx sy cx cy c :
  rule2_of o = Some rule -> fi_op i = o -> fi_args i = [x; y] ->
  elem (fi_type i) = EInt w s -> elem tx = EInt w sx -> elem ty = EInt w sy ->
  same_shape (fi_type i) tx -> same_shape (fi_type i) ty ->
  fm_type m x = Some tx -> fm_type m y = Some ty ->
  (o = FUDiv \/ o = FUMod -> sx = false /\ sy = false) ->
  fm_const m (id_map x) = Some cx -> fm_const m (id_map y) = Some cy ->
  fold_binary_op rule (fi_type i) (Some cx) (Some cy) = FSome c ->
  widths_right i c /\ folds_right i c.
Proof.
  intros Hr Ho Hargs Et Ex Ey Sx Sy Tx Ty Hu Cx Cy E.
  destruct (arg_const x tx cx Tx Cx) as (Fx & Kx). destruct (arg_const y ty cy Ty Cy) as (Fy & Ky).
  destruct (const_ok_comps _ _ Kx) as (Shx & Lx & Ax). destruct (const_ok_comps _ _ Ky) as (Shy & Ly & Ay).
  rewrite Ex in Ax. rewrite Ey in Ay.
  assert (W : width_ok w) by (destruct Fx as (K & _); rewrite Ex in K; exact K).
  destruct (fold_binary_comps rule _ cx cy c E (shaped_same _ _ _ Sx Shx) (shaped_same _ _ _ Sy Shy)) as (Shc & N).
  rewrite Et in N. split.
  - apply widths_from_nth; auto. intros d D. destruct (N d D) as (sa & sb & sc & Ea & Eb & Ec & R).
    exists sc. split; [exact Ec|]. rewrite Et. cbn [ewidth].
    apply (rule2_type o rule w s sa sb sc Hr); auto.
    + rewrite (sconst_ok_type _ _ (Forall_nth_error _ _ _ _ Ax Ea)). reflexivity.
    + rewrite (sconst_ok_type _ _ (Forall_nth_error _ _ _ _ Ay Eb)). reflexivity.
  - intros env d v X D Nd Rv. destruct (N d D) as (sa & sb & sc & Ea & Eb & Ec & R).
    rewrite (const_value_nth _ _ _ Ec).
    assert (Dx : (d < dims tx)%nat) by (rewrite (same_shape_dims _ _ Sx); exact D).
    assert (Dy : (d < dims ty)%nat) by (rewrite (same_shape_dims _ _ Sy); exact D).
    unfold deviation_at in Nd. unfold result_component in Rv. rewrite Ho, Hargs in Nd, Rv.
    cbn [map] in Nd, Rv.
    rewrite (arg_width_eq x tx Tx), (arg_width_eq y ty Ty), Ex, Ey in Nd, Rv.
    rewrite Et in Rv. cbn [ewidth] in Nd, Rv.
    rewrite (arg_signed_eq x tx w sx Tx Ex), (arg_signed_eq y ty w sy Ty Ey), (type_signed_eq _ w s Et) in Nd.
    rewrite (arg_comp env x tx cx d sa X Tx Cx Dx Ea), (arg_comp env y ty cy d sb X Ty Cy Dy Eb) in Nd, Rv.
    exact (rule2_sound o rule w s sx sy sa sb sc v Hr W
             (Forall_nth_error _ _ _ _ Ax Ea) (Forall_nth_error _ _ _ _ Ay Eb) Hu Nd R Rv).
Qed.

(** Unary rules on a constant. *)
Lemma unary_rule_right o rule i x tx w s wx sx cx c :
  rule1_of o = Some rule -> fi_op i = o -> fi_args i = [x] ->
  fty_ok (fi_type i) ->
  elem (fi_type i) = EInt w s -> elem tx = EInt wx sx -> (o = FSNegate -> wx = w) ->
  same_shape (fi_type i) tx -> fm_type m x = Some tx ->
  fm_const m (id_map x) = Some cx ->
  fold_unary_op rule (fi_type i) (Some cx) = FSome c ->
  widths_right i c /\ folds_right i c.
Proof.
  intros Hr Ho Hargs Ft Et Ex Hn Sx Tx Cx E.
  destruct (arg_const x tx cx Tx Cx) as (Fx & Kx).
  destruct (const_ok_comps _ _ Kx) as (Shx & Lx & Ax). rewrite Ex in Ax.
  assert (W : width_ok w) by (destruct Ft as (K & _); rewrite Et in K; exact K).
  assert (Wx : width_ok wx) by (destruct Fx as (K & _); rewrite Ex in K; exact K).
  destruct (fold_unary_comps rule _ cx c E (shaped_same _ _ _ Sx Shx)) as (Shc & N).
  rewrite Et in N. split.
  - apply widths_from_nth; auto. intros d D. destruct (N d D) as (sa & sc & Ea & Ec & R).
    exists sc. split; [exact Ec|]. rewrite Et. cbn [ewidth].
    exact (rule1_type o rule w s wx sx sa sc Hr (Forall_nth_error _ _ _ _ Ax Ea) Hn R).
  - intros env d v X D Nd Rv. destruct (N d D) as (sa & sc & Ea & Ec & R).
    rewrite (const_value_nth _ _ _ Ec).
    assert (Dx : (d < dims tx)%nat) by (rewrite (same_shape_dims _ _ Sx); exact D).
    unfold deviation_at in Nd. unfold result_component in Rv. rewrite Ho, Hargs in Nd, Rv.
    cbn [map] in Nd, Rv.
    rewrite (arg_width_eq x tx Tx), Ex in Nd, Rv.
    rewrite Et in Rv. cbn [ewidth] in Nd, Rv.
    rewrite (arg_signed_eq x tx wx sx Tx Ex), (type_signed_eq _ w s Et) in Nd.
    rewrite (arg_comp env x tx cx d sa X Tx Cx Dx Ea) in Nd, Rv.
    exact (rule1_sound o rule w s wx sx sa sc v Hr W Wx (Forall_nth_error _ _ _ _ Ax Ea) Hn Nd R Rv).
Qed.

(** x - x *)
Lemma null_const_facts t : shaped t (null_const t) /\
  Forall (fun s => ewidth (sconst_type s) = ewidth (elem t)) (comps (null_const t)) /\
  forall d, nth d (const_value (null_const t)) 0 = 0.
Proof.
  destruct t as [e|e n]; cbn.
  - split; [auto|]. split; [constructor; auto|]. intros [|[|d]]; reflexivity.
  - split; [auto|]. split.
    + apply Forall_forall. intros x Hx%repeat_spec. subst x. reflexivity.
    + intros d. revert n. induction d; destruct n; cbn; auto.
Qed.
Lemma redundant_sub_right i x y c : fi_op i = FISub -> fi_args i = [x; y] ->
  fold_redundant_sub i = FSome c -> widths_right i c /\ folds_right i c.
Proof.
  intros Ho Ha E. unfold fold_redundant_sub in E. rewrite Ha in E.
  destruct (N.eqb x y) eqn:Q; [|discriminate]. apply N.eqb_eq in Q. subst y. injection E as <-.
  destruct (null_const_facts (fi_type i)) as (S1 & F & Z0). split; [split; auto|].
  intros env d v X D _ R. unfold result_component in R. rewrite Ho, Ha in R. cbn in R.
  injection R as <-. rewrite Z0, Z.sub_diag, Zmod_0_l. reflexivity.
Qed.

(** x / x, -x / x and x / -x *)
Lemma uniform_value_facts t w s v c : fty_ok t -> elem t = EInt w s -> 0 <= v < 2 ^ 64 ->
  uniform_value t v = FSome c ->
  shaped t c /\ Forall (fun s => ewidth (sconst_type s) = ewidth (elem t)) (comps c) /\
  forall d, (d < dims t)%nat -> nth d (const_value c) 0 = v mod 2 ^ w.
Proof.
  intros (Hw & _) Et Hv E. rewrite Et in Hw. cbn in Hw. destruct (gen_int_ok w s v Hw Hv) as (k & Ek & Ok & Vk).
  destruct t as [e|e n]; cbn in Et; subst e; cbn [uniform_value] in E; rewrite Ek in E; cbn [fbind] in E.
  - injection E as <-. split; [exact I|]. split.
    + constructor; [|constructor]. rewrite (sconst_ok_type _ _ Ok). reflexivity.
    + intros [|d] D; cbn in D; [|lia]. exact Vk.
  - apply mk_vector_inv in E. subst c. cbn. split; [apply repeat_length|]. split.
    + apply Forall_forall. intros x Hx%repeat_spec. subst x. rewrite (sconst_ok_type _ _ Ok). reflexivity.
    + intros d D. rewrite <- Vk. clear -D. revert n D. induction d; destruct n; cbn; intros D; try lia; auto.
      apply IHd. lia.
Qed.
Lemma quot_opp_self z : z <> 0 -> Z.quot (- z) z = -1 /\ Z.quot z (- z) = -1.
Proof.
  intros H. rewrite Z.quot_opp_l, Z.quot_opp_r, Z.quot_same by lia. auto.
Qed.
Lemma sval_opp w a : width_ok w -> 0 <= a < 2 ^ w -> a <> 2 ^ (w - 1) -> sval w ((- a) mod 2 ^ w) = - sval w a.
Proof. intros H Ha Hn. unfold sval. widths; powers; ifs; lia. Qed.
Lemma opp_mod_min w a : width_ok w -> 0 <= a < 2 ^ w -> a = 2 ^ (w - 1) -> (- a) mod 2 ^ w = a.
Proof. intros H Ha Hn. widths; powers; lia. Qed.
Lemma minus_one_mod w : width_ok w -> (2 ^ 64 - 1) mod 2 ^ w = (-1) mod 2 ^ w.
Proof. intros H. widths; reflexivity. Qed.
Lemma sval_nonzero w a : width_ok w -> 0 <= a < 2 ^ w -> a <> 0 -> sval w a <> 0.
Proof. intros H Ha Hn. unfold sval. widths; powers; ifs; lia. Qed.

Lemma env_neg env a x t : execution m id_map env -> fm_snegate m a = Some x -> fm_type m a = Some t ->
  fm_type m x = Some t \/ (exists t', fm_type m x = Some t' /\ dims t' = dims t) ->
  forall d, (d < dims t)%nat -> component d (env a) = (- component d (env x)) mod 2 ^ ewidth (elem t).
Proof.
  intros X Sa Ta Tx d D. pose proof X as (V & _ & Ng & _).
  assert (L : length (env x) = dims t).
  { destruct Tx as [Tx|(t' & Tx & Q)]; [exact (proj1 (V _ _ Tx))|]. rewrite <- Q. exact (proj1 (V _ _ Tx)). }
  rewrite (Ng a x t Sa Ta).
  rewrite (component_nth (dims t)); [|rewrite map_length; exact L|exact D].
  rewrite (component_nth (dims t) (env x)); [|exact L|exact D].
  rewrite (nth_indep _ 0 ((fun v => (- v) mod 2 ^ ewidth (elem t)) 0)) by (rewrite map_length; lia).
  exact (map_nth (fun v => (- v) mod 2 ^ ewidth (elem t)) (env x) 0 d).
Qed.

Lemma redundant_div_right i x y tx ty w s sx sy c :
  fi_op i = FSDiv \/ fi_op i = FUDiv -> fi_args i = [x; y] -> fty_ok (fi_type i) ->
  elem (fi_type i) = EInt w s -> elem tx = EInt w sx -> elem ty = EInt w sy ->
  same_shape (fi_type i) tx -> same_shape (fi_type i) ty ->
  fm_type m x = Some tx -> fm_type m y = Some ty ->
  fold_redundant_div m i None None = FSome c -> widths_right i c /\ folds_right i c.
Proof.
  intros Ho Hargs Ft Et Ex Ey Sx Sy Tx Ty E. unfold fold_redundant_div in E. rewrite Hargs in E.
  assert (W : width_ok w) by (destruct Ft as (K & _); rewrite Et in K; exact K).
  assert (one : 1 mod 2 ^ w = 1) by (clear -W; widths; reflexivity).
  destruct (N.eqb x y) eqn:Q.
  - apply N.eqb_eq in Q. subst y.
    destruct (uniform_value_facts _ w s 1 c Ft Et ltac:(powers; lia) E) as (S1 & F & V).
    split; [split; auto|]. intros env d v X D _ R. rewrite (V d D), one.
    assert (Dx : (d < dims tx)%nat) by (rewrite (same_shape_dims _ _ Sx); exact D).
    pose proof (arg_range env x tx d X Tx Dx) as Rg. rewrite Ex in Rg. cbn [ewidth] in Rg.
    unfold result_component in R. rewrite Hargs, Et in R. cbn [map ewidth] in R.
    rewrite (arg_width_eq x tx Tx), Ex in R. cbn [ewidth] in R.
    set (a := component d (env x)) in *.
    destruct Ho as [Ho|Ho]; rewrite Ho in R; cbn [component_value] in R.
    + destruct (division_defined w a a) eqn:Dd; [|discriminate]. injection R as <-.
      unfold division_defined in Dd. assert (A0 : a <> 0) by (intros K; rewrite K in Dd; discriminate).
      rewrite Z.quot_same; [symmetry; exact one|]. apply sval_nonzero; auto.
    + destruct (a =? 0) eqn:A0; [discriminate|]. injection R as <-. symmetry. apply Z.div_same. lia.
  - destruct Ho as [Ho|Ho]; rewrite Ho in E; [|discriminate].
    assert (G : forall env d v, execution m id_map env -> (d < dims (fi_type i))%nat ->
              ~ deviation_at m i env d -> result_component m i env d = Some v ->
              (component d (env x) = (- component d (env y)) mod 2 ^ w \/
               component d (env y) = (- component d (env x)) mod 2 ^ w) ->
              v = (-1) mod 2 ^ w).
    { intros env d v X D Nd R Hneg.
      assert (Dx : (d < dims tx)%nat) by (rewrite (same_shape_dims _ _ Sx); exact D).
      assert (Dy : (d < dims ty)%nat) by (rewrite (same_shape_dims _ _ Sy); exact D).
      pose proof (arg_range env x tx d X Tx Dx) as Rx. rewrite Ex in Rx. cbn [ewidth] in Rx.
      pose proof (arg_range env y ty d X Ty Dy) as Ry. rewrite Ey in Ry. cbn [ewidth] in Ry.
      unfold result_component in R. unfold deviation_at in Nd.
      rewrite Ho, Hargs in R, Nd. rewrite Et in R. cbn [map ewidth] in R, Nd.
      rewrite (arg_width_eq x tx Tx), (arg_width_eq y ty Ty), Ex, Ey in R, Nd. cbn [ewidth] in R, Nd.
      set (a := component d (env x)) in *. set (b := component d (env y)) in *.
      cbn [component_value] in R. destruct (division_defined w a b) eqn:Dd; [|discriminate]. injection R as <-.
      cbn [known_deviation] in Nd. apply Decidable.not_or in Nd. destruct Nd as (_ & Nd).
      unfold division_defined in Dd. assert (B0 : b <> 0) by (intros K; rewrite K in Dd; discriminate).
      pose proof (sval_nonzero w b W Ry B0) as Sb.
      f_equal. destruct Hneg as [Hneg|Hneg].
      - assert (Bm : b <> 2 ^ (w - 1)).
        { intros K. apply Nd. split; [|exact K]. rewrite Hneg, (opp_mod_min w b W Ry K). exact K. }
        rewrite Hneg, (sval_opp w b W Ry Bm). apply quot_opp_self. exact Sb.
      - assert (Am : a <> 2 ^ (w - 1)).
        { intros K. apply Nd. split; [exact K|]. rewrite Hneg, (opp_mod_min w a W Rx K). exact K. }
        assert (A0 : a <> 0).
        { intros K. apply B0. rewrite Hneg, K. apply Z.mod_0_l. clear -W; widths; discriminate. }
        pose proof (sval_nonzero w a W Rx A0) as Sa.
        rewrite Hneg, (sval_opp w a W Rx Am). apply quot_opp_self. exact Sa. }
    assert (U : 0 <= 2 ^ 64 - 1 < 2 ^ 64) by (powers; lia).
    assert (Dxy : dims tx = dims ty) by (rewrite (same_shape_dims _ _ Sx), (same_shape_dims _ _ Sy); reflexivity).
    destruct (match fm_snegate m x with Some z => N.eqb z y | None => false end) eqn:Q1.
    { destruct (fm_snegate m x) as [z|] eqn:Nx; [|discriminate]. apply N.eqb_eq in Q1. subst z.
      destruct (uniform_value_facts _ w s _ c Ft Et U E) as (S1 & F & V).
      split; [split; auto|]. intros env d v X D Nd R. rewrite (V d D), minus_one_mod by auto.
      symmetry. apply (G env d v X D Nd R). left.
      rewrite (env_neg env x y tx X Nx Tx); [rewrite Ex; reflexivity|right; exists ty; auto|].
      rewrite (same_shape_dims _ _ Sx). exact D. }
    destruct (match fm_snegate m y with Some z => N.eqb z x | None => false end) eqn:Q2; [|discriminate].
    destruct (fm_snegate m y) as [z|] eqn:Ny; [|discriminate]. apply N.eqb_eq in Q2. subst z.
    destruct (uniform_value_facts _ w s _ c Ft Et U E) as (S1 & F & V).
    split; [split; auto|]. intros env d v X D Nd R. rewrite (V d D), minus_one_mod by auto.
    symmetry. apply (G env d v X D Nd R). right.
    rewrite (env_neg env y x ty X Ny Ty); [rewrite Ey; reflexivity|right; exists tx; auto|].
    rewrite (same_shape_dims _ _ Sy). exact D.
Qed.

(** Select of equal alternatives. *)
Lemma ok_widths i c : const_ok (fi_type i) c -> widths_right i c.
Proof.
  intros K. destruct (const_ok_comps _ _ K) as (S1 & _ & F). split; [exact S1|].
  apply Forall_forall. intros s Hs. rewrite Forall_forall in F. rewrite (sconst_ok_type _ _ (F _ Hs)). reflexivity.
Qed.
Lemma select_right i x y z ca cb c :
  fi_op i = FSelect -> fi_args i = [x; y; z] -> fty_ok (fi_type i) ->
  fm_type m y = Some (fi_type i) -> fm_type m z = Some (fi_type i) ->
  fm_const m (id_map y) = Some ca -> fm_const m (id_map z) = Some cb ->
  fold_invariant_select (Some ca) (Some cb) = FSome c -> widths_right i c /\ folds_right i c.
Proof.
  intros Ho Hargs Ft Ty Tz Ca Cb E.
  destruct (arg_const y _ ca Ty Ca) as (_ & Ka). destruct (arg_const z _ cb Tz Cb) as (_ & Kb).
  assert (G : c = ca /\ forall d, nth d (const_value ca) 0 = nth d (const_value cb) 0).
  { unfold fold_invariant_select in E. destruct (fconst_eqb ca cb) eqn:Q.
    - apply fconst_eqb_eq in Q. subst cb. injection E as <-. auto.
    - destruct (fconst_is_zero ca && fconst_is_zero cb) eqn:Z0; [|discriminate]. injection E as <-.
      apply andb_prop in Z0. destruct Z0 as (Za & Zb). split; [auto|]. intros d.
      rewrite (const_zero_value _ ca Ft Ka Za), (const_zero_value _ cb Ft Kb Zb). reflexivity. }
  destruct G as (-> & G). split; [apply ok_widths; exact Ka|].
  intros env d v X D _ R. unfold result_component in R. rewrite Ho, Hargs in R. cbn [map component_value] in R.
  rewrite (arg_env env y _ ca X Ty Ca), (arg_env env z _ cb X Tz Cb) in R.
  destruct (const_ok_comps _ _ Ka) as (_ & La & _). destruct (const_ok_comps _ _ Kb) as (_ & Lb & _).
  rewrite (component_nth (dims (fi_type i)) (const_value ca)) in R;
    [|rewrite const_value_comps, map_length; exact La|exact D].
  rewrite (component_nth (dims (fi_type i)) (const_value cb)) in R;
    [|rewrite const_value_comps, map_length; exact Lb|exact D].
  rewrite <- (G d) in R. injection R as <-. ifs; reflexivity.
Qed.

(** Clamp. *)
Section Clamp.
Variables (sg : bool) (i : finst) (x y z : N) (tx ty tz : fty) (w : Z) (sx sy sz : bool).
Hypothesis Ho : fi_op i = clamp_op sg.
Hypothesis Hargs : fi_args i = [x; y; z].
Hypothesis Ft : fty_ok (fi_type i).
Variable rs : bool.
Hypothesis Et : elem (fi_type i) = EInt w rs.
Hypothesis Ex : elem tx = EInt w sx.
Hypothesis Ey : elem ty = EInt w sy.
Hypothesis Ez : elem tz = EInt w sz.
Hypothesis Sx : same_shape (fi_type i) tx.
Hypothesis Sy : same_shape (fi_type i) ty.
Hypothesis Sz : same_shape (fi_type i) tz.
Hypothesis Tx : fm_type m x = Some tx.
Hypothesis Ty : fm_type m y = Some ty.
Hypothesis Tz : fm_type m z = Some tz.

Lemma clamp_width : width_ok w.
Proof. destruct Ft as (K & _). rewrite Et in K. exact K. Qed.

(** The relevant facts at a component. *)
Lemma clamp_at env d v : execution m id_map env -> (d < dims (fi_type i))%nat ->
  ~ deviation_at m i env d -> result_component m i env d = Some v ->
  rs = sg /\
  (let ok s u := s = sg \/ 32 <= w \/ u < 2 ^ (w - 1) in
   ok sx (component d (env x)) /\ ok sy (component d (env y)) /\ ok sz (component d (env z))) /\
  (let o := fun id => order_value sg w (component d (env id)) in
   o y <= o z /\ (o x <= o y -> v = component d (env y)) /\ (o z <= o x -> v = component d (env z)) /\
   (o y <= o x <= o z -> v = component d (env x))).
Proof.
  intros X D Nd R. unfold deviation_at in Nd. unfold result_component in R.
  assert (Dx : (d < dims tx)%nat) by (rewrite (same_shape_dims _ _ Sx); exact D).
  assert (Dy : (d < dims ty)%nat) by (rewrite (same_shape_dims _ _ Sy); exact D).
  assert (Dz : (d < dims tz)%nat) by (rewrite (same_shape_dims _ _ Sz); exact D).
  pose proof (arg_range env x tx d X Tx Dx) as Rx. rewrite Ex in Rx. cbn [ewidth] in Rx.
  pose proof (arg_range env y ty d X Ty Dy) as Ry. rewrite Ey in Ry. cbn [ewidth] in Ry.
  pose proof (arg_range env z tz d X Tz Dz) as Rz. rewrite Ez in Rz. cbn [ewidth] in Rz.
  rewrite Ho, Hargs in R, Nd. rewrite Et in R. cbn [map ewidth] in R, Nd.
  rewrite (arg_width_eq x tx Tx), (arg_width_eq y ty Ty), (arg_width_eq z tz Tz), Ex, Ey, Ez in R, Nd. cbn [ewidth] in R, Nd.
  rewrite (arg_signed_eq x tx w sx Tx Ex), (arg_signed_eq y ty w sy Ty Ey), (arg_signed_eq z tz w sz Tz Ez),
    (type_signed_eq _ w rs Et) in Nd.
  split; [|split].
  - destruct sg; cbn [clamp_op known_deviation] in Nd; apply Decidable.not_or in Nd; destruct Nd as (Nd & _);
    destruct rs; congruence.
  - assert (P : forall s u, (if sg then ~ high_narrow_unsigned (w, s, u) else ~ high_narrow_signed (w, s, u)) ->
              s = sg \/ 32 <= w \/ u < 2 ^ (w - 1)).
    { intros s u H. destruct (Z_lt_le_dec w 32) as [L|L]; [|right; left; exact L].
      destruct (Z_lt_le_dec u (2 ^ (w - 1))) as [L2|L2]; [right; right; exact L2|].
      left. destruct sg, s; auto; exfalso; apply H; cbn; auto. }
    destruct sg; cbn [clamp_op known_deviation] in Nd; apply Decidable.not_or in Nd; destruct Nd as (_ & Nd);
    apply Exists3_not in Nd; destruct Nd as (N1 & N2 & N3); cbv zeta; repeat split; apply P; auto.
  - exact (clamp_value sg w w w w _ _ _ v R Rx Ry Rz).
Qed.

Lemma comp_minmax env id t s c d k : execution m id_map env -> fm_type m id = Some t -> elem t = EInt w s ->
  same_shape (fi_type i) t -> (d < dims (fi_type i))%nat ->
  fm_const m (id_map id) = Some c -> nth_error (comps c) d = Some k ->
  s = sg \/ 32 <= w \/ component d (env id) < 2 ^ (w - 1) ->
  minmax_ok sg w k /\ sconst_value k = component d (env id).
Proof.
  intros X T E Sh D C K H.
  assert (Dt : (d < dims t)%nat) by (rewrite (same_shape_dims _ _ Sh); exact D).
  pose proof (arg_comp env id t c d k X T C Dt K) as V. split; [|auto].
  destruct (arg_const id t c T C) as (_ & Kc). apply const_ok_comps in Kc. destruct Kc as (_ & _ & F).
  rewrite E in F. exists s. split; [exact (Forall_nth_error _ _ _ _ F K)|]. rewrite <- V. exact H.
Qed.
Lemma arg_shaped id t c : fm_type m id = Some t -> same_shape (fi_type i) t ->
  fm_const m (id_map id) = Some c -> shaped (fi_type i) c.
Proof.
  intros T Sh C. destruct (arg_const id t c T C) as (_ & K). apply const_ok_comps in K.
  eapply shaped_same; [exact Sh|tauto].
Qed.
Lemma arg_comp_width id t s c d k : fm_type m id = Some t -> elem t = EInt w s ->
  fm_const m (id_map id) = Some c -> nth_error (comps c) d = Some k -> ewidth (sconst_type k) = w.
Proof.
  intros T E C K. destruct (arg_const id t c T C) as (_ & Kc). apply const_ok_comps in Kc.
  destruct Kc as (_ & _ & F). rewrite E in F. rewrite (sconst_ok_type _ _ (Forall_nth_error _ _ _ _ F K)). reflexivity.
Qed.

Lemma clamp1_right cx cy cz c :
  fm_const m (id_map x) = Some cx -> fm_const m (id_map y) = Some cy -> fm_const m (id_map z) = Some cz ->
  fold_clamp1 (fi_type i) (Some cx) (Some cy) (Some cz) = FSome c -> widths_right i c /\ folds_right i c.
Proof.
  intros Cx Cy Cz E. unfold fold_clamp1 in E.
  destruct (fold_binary_op scalar_max (fi_type i) (Some cx) (Some cy)) as [| |t] eqn:M; try discriminate. cbn [fbind] in E.
  pose proof (arg_shaped x tx cx Tx Sx Cx) as Shx. pose proof (arg_shaped y ty cy Ty Sy Cy) as Shy.
  pose proof (arg_shaped z tz cz Tz Sz Cz) as Shz.
  destruct (fold_binary_comps _ _ _ _ _ M Shx Shy) as (Sht & Nt).
  destruct (fold_binary_comps _ _ _ _ _ E Sht Shz) as (Shc & Nc). rewrite Et in Nt, Nc.
  split.
  - apply widths_from_nth; auto. intros d D.
    destruct (Nt d D) as (ka & kb & kt & Ka & Kb & Kt & R1). destruct (Nc d D) as (kt' & kz & kc & Kt' & Kz & Kc & R2).
    exists kc. split; [exact Kc|]. rewrite Et. cbn [ewidth].
    rewrite Kt in Kt'. injection Kt' as <-.
    apply (rule2_type FSMin scalar_min w rs kt kz kc eq_refl); auto.
    + apply (rule2_type FSMax scalar_max w rs ka kb kt eq_refl); auto.
      * exact (arg_comp_width x tx sx cx d ka Tx Ex Cx Ka).
      * exact (arg_comp_width y ty sy cy d kb Ty Ey Cy Kb).
    + exact (arg_comp_width z tz sz cz d kz Tz Ez Cz Kz).
  - intros env d v X D Nd R.
    destruct (clamp_at env d v X D Nd R) as (Hrs & (O1 & O2 & O3) & (Olh & V1 & V2 & V3)).
    destruct (Nt d D) as (ka & kb & kt & Ka & Kb & Kt & R1). destruct (Nc d D) as (kt' & kz & kc & Kt' & Kz & Kc & R2).
    rewrite Kt in Kt'. injection Kt' as <-.
    destruct (comp_minmax env x tx sx cx d ka X Tx Ex Sx D Cx Ka O1) as (Ma & Va).
    destruct (comp_minmax env y ty sy cy d kb X Ty Ey Sy D Cy Kb O2) as (Mb & Vb).
    destruct (comp_minmax env z tz sz cz d kz X Tz Ez Sz D Cz Kz O3) as (Mz & Vz).
    rewrite (const_value_nth _ _ _ Kc). rewrite Hrs in R1, R2.
    pose proof (scalar_max_ok sg w ka kb kt clamp_width Ma Mb R1) as Et1.
    assert (Mt : minmax_ok sg w kt) by (rewrite Et1; ifs; auto).
    pose proof (scalar_min_ok sg w kt kz kc clamp_width Mt Mz R2) as Ec1.
    rewrite Va, Vb in Et1. rewrite Vz in Ec1.
    destruct (order_value sg w (component d (env y)) <? order_value sg w (component d (env x))) eqn:C1;
      subst kt; [rewrite Va in Ec1|rewrite Vb in Ec1];
      destruct (_ <? order_value sg w (component d (env z))) eqn:C2; subst kc.
    + rewrite Va. symmetry. apply V3. lia.
    + rewrite Vz. symmetry. apply V2. lia.
    + rewrite Vb. symmetry. apply V1. lia.
    + rewrite Vz.
      assert (Q : component d (env y) = component d (env z)).
      { assert (Dy : (d < dims ty)%nat) by (rewrite (same_shape_dims _ _ Sy); exact D).
        assert (Dz : (d < dims tz)%nat) by (rewrite (same_shape_dims _ _ Sz); exact D).
        pose proof (arg_range env y ty d X Ty Dy) as Ry. rewrite Ey in Ry.
        pose proof (arg_range env z tz d X Tz Dz) as Rz. rewrite Ez in Rz.
        apply (order_value_inj sg w); auto. lia. }
      rewrite <- Q. symmetry. apply V1. lia.
Qed.

Lemma clamp2_right cx cy c :
  fm_const m (id_map x) = Some cx -> fm_const m (id_map y) = Some cy ->
  fold_clamp2 (fi_type i) (Some cx) (Some cy) = FSome c -> widths_right i c /\ folds_right i c.
Proof.
  intros Cx Cy E. unfold fold_clamp2 in E.
  destruct (fold_binary_op scalar_max (fi_type i) (Some cx) (Some cy)) as [| |t] eqn:M; try discriminate.
  destruct (fconst_eqb t cy) eqn:Q; [|discriminate]. apply fconst_eqb_eq in Q. subst t. injection E as <-.
  pose proof (arg_shaped x tx cx Tx Sx Cx) as Shx. pose proof (arg_shaped y ty cy Ty Sy Cy) as Shy.
  destruct (fold_binary_comps _ _ _ _ _ M Shx Shy) as (Sht & Nt). rewrite Et in Nt.
  split.
  - apply widths_from_nth; auto. intros d D.
    destruct (Nt d D) as (ka & kb & kt & Ka & Kb & Kt & R1). exists kb. split; [exact Kb|].
    rewrite Et. exact (arg_comp_width y ty sy cy d kb Ty Ey Cy Kb).
  - intros env d v X D Nd R.
    destruct (clamp_at env d v X D Nd R) as (Hrs & (O1 & O2 & O3) & (Olh & V1 & V2 & V3)).
    destruct (Nt d D) as (ka & kb & kt & Ka & Kb & Kt & R1). rewrite Kb in Kt. injection Kt as <-.
    destruct (comp_minmax env x tx sx cx d ka X Tx Ex Sx D Cx Ka O1) as (Ma & Va).
    destruct (comp_minmax env y ty sy cy d kb X Ty Ey Sy D Cy Kb O2) as (Mb & Vb).
    rewrite (const_value_nth _ _ _ Kb), Vb. rewrite Hrs in R1.
    pose proof (scalar_max_ok sg w ka kb kb clamp_width Ma Mb R1) as Et1. symmetry. apply V1.
    rewrite <- Va, <- Vb.
    destruct (order_value sg w (sconst_value kb) <? order_value sg w (sconst_value ka)) eqn:C1; [|lia].
    subst kb. lia.
Qed.

Lemma clamp3_right cx cz c :
  fm_const m (id_map x) = Some cx -> fm_const m (id_map z) = Some cz ->
  fold_clamp3 (fi_type i) (Some cx) (Some cz) = FSome c -> widths_right i c /\ folds_right i c.
Proof.
  intros Cx Cz E. unfold fold_clamp3 in E.
  destruct (fold_binary_op scalar_min (fi_type i) (Some cx) (Some cz)) as [| |t] eqn:M; try discriminate.
  destruct (fconst_eqb t cz) eqn:Q; [|discriminate]. apply fconst_eqb_eq in Q. subst t. injection E as <-.
  pose proof (arg_shaped x tx cx Tx Sx Cx) as Shx. pose proof (arg_shaped z tz cz Tz Sz Cz) as Shz.
  destruct (fold_binary_comps _ _ _ _ _ M Shx Shz) as (Sht & Nt). rewrite Et in Nt.
  split.
  - apply widths_from_nth; auto. intros d D.
    destruct (Nt d D) as (ka & kb & kt & Ka & Kb & Kt & R1). exists kb. split; [exact Kb|].
    rewrite Et. exact (arg_comp_width z tz sz cz d kb Tz Ez Cz Kb).
  - intros env d v X D Nd R.
    destruct (clamp_at env d v X D Nd R) as (Hrs & (O1 & O2 & O3) & (Olh & V1 & V2 & V3)).
    destruct (Nt d D) as (ka & kb & kt & Ka & Kb & Kt & R1). rewrite Kb in Kt. injection Kt as <-.
    destruct (comp_minmax env x tx sx cx d ka X Tx Ex Sx D Cx Ka O1) as (Ma & Va).
    destruct (comp_minmax env z tz sz cz d kb X Tz Ez Sz D Cz Kb O3) as (Mb & Vb).
    rewrite (const_value_nth _ _ _ Kb), Vb. rewrite Hrs in R1.
    pose proof (scalar_min_ok sg w ka kb kb clamp_width Ma Mb R1) as Et1. symmetry. apply V2.
    rewrite <- Va, <- Vb.
    destruct (order_value sg w (sconst_value ka) <? order_value sg w (sconst_value kb)) eqn:C1; [|lia].
    subst kb. lia.
Qed.
End Clamp.

End Inst.
