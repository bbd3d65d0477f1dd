(** Proofs about the model of constant folding: the encoding of the result. *)
From Verif Require Import Base Fold FoldSpec FoldProofs FoldProofs2 FoldProofs3 FoldProofs4 FoldProofs5 FoldProofs6.
Local Open Scope Z_scope.

Definition encoded (t : fty) (c : fconst) : Prop := shaped t c /\ Forall (sconst_ok (elem t)) (comps c).
Lemma encoded_retype t c : encoded t c -> const_ok t (retype t c).
Proof.
  intros (Sh & F). destruct t as [[|w s]|e n], c as [[b|w' s' ws|e']|e' l|e' n']; cbn in *; try contradiction; auto;
    try (apply Forall_inv in F; cbn in F).
  all: try (destruct F as (E & v & R & ->); try discriminate E; injection E as <- <-; split; [reflexivity|eauto]).
  all: try congruence.
Qed.
Lemma nth_encoded t c : shaped t c ->
  (forall d, (d < dims t)%nat -> exists s, nth_error (comps c) d = Some s /\ sconst_ok (elem t) s) -> encoded t c.
Proof.
  intros Sh H. split; [exact Sh|]. apply Forall_forall. intros s Hs. apply In_nth_error in Hs. destruct Hs as (d & E).
  assert (D : (d < dims t)%nat) by (rewrite <- (shaped_length _ _ Sh); apply nth_error_Some; congruence).
  destruct (H d D) as (s' & E' & K). rewrite E in E'. injection E' as ->. exact K.
Qed.

Lemma arith_encoded op sg w s sa sb a b c : width_ok w -> sconst_ok (EInt w sa) a -> sconst_ok (EInt w sb) b ->
  (forall x y r, 0 <= x < 2 ^ 64 -> 0 <= y < 2 ^ 64 -> op x y = FSome r -> 0 <= r < 2 ^ 64) ->
  binary_integer sg op (EInt w s) a b = FSome c -> sconst_ok (EInt w s) c.
Proof.
  intros W Ha Hb Hop E. unfold binary_integer in E.
  rewrite (sconst_ok_type _ _ Ha), (sconst_ok_type _ _ Hb), Z.eqb_refl in E. cbn [andb] in E.
  destruct (get_sext_ok w sa a W Ha) as (x & Ex & Rx & _). destruct (get_sext_ok w sb b W Hb) as (y & Ey & Ry & _).
  destruct (get_zext_ok w sa a W Ha) as (x' & Ex' & Rx' & _). destruct (get_zext_ok w sb b W Hb) as (y' & Ey' & Ry' & _).
  assert (G : forall r, 0 <= r < 2 ^ 64 -> gen_int w s r = FSome c -> sconst_ok (EInt w s) c).
  { intros r R Eg. destruct (gen_int_ok w s r W R) as (c' & Ec' & Ok & _). congruence. }
  destruct sg.
  - rewrite Ex, Ey in E. cbn [fbind] in E. destruct (op (u64 x) (u64 y)) as [| |r] eqn:O; try discriminate.
    cbn [fbind] in E. apply (G r); auto. apply (Hop _ _ _ (u64_range _) (u64_range _) O).
  - rewrite Ex', Ey' in E. cbn [fbind] in E. destruct (op x' y') as [| |r] eqn:O; try discriminate.
    cbn [fbind] in E. apply (G r); auto. apply (Hop _ _ _ Rx' Ry' O).
Qed.
Lemma rule_range op : In op [rule_add; rule_sub; rule_mul; rule_udiv; rule_umod; rule_sdiv; rule_srem; rule_smod] ->
  forall x y r, 0 <= x < 2 ^ 64 -> 0 <= y < 2 ^ 64 -> op x y = FSome r -> 0 <= r < 2 ^ 64.
Proof.
  intros H x y r Rx Ry E.
  assert (U : forall z, FSome (u64 z) = FSome r -> 0 <= r < 2 ^ 64) by (intros z Q; injection Q as <-; apply u64_range).
  cbn [In] in H. destruct H as [<-|[<-|[<-|[<-|[<-|[<-|[<-|[<-|[]]]]]]]]].
  - exact (U _ E).
  - exact (U _ E).
  - exact (U _ E).
  - unfold rule_udiv in E. injection E as <-. destruct (y =? 0) eqn:Q; [lia|].
    apply Z.eqb_neq in Q. split; [apply Z.div_pos; lia|].
    apply Z.le_lt_trans with x; [|lia]. apply Z.div_le_upper_bound; [lia|]. nia.
  - unfold rule_umod in E. injection E as <-. destruct (y =? 0) eqn:Q; [lia|].
    apply Z.eqb_neq in Q. pose proof (Z.mod_pos_bound x y). lia.
  - unfold rule_sdiv in E. destruct (y =? 0); [injection E as <-; lia|]. destruct (overflows _ _); [discriminate|]. exact (U _ E).
  - unfold rule_srem in E. destruct (y =? 0); [injection E as <-; lia|]. destruct (overflows _ _); [discriminate|]. exact (U _ E).
  - unfold rule_smod in E. destruct (y =? 0); [injection E as <-; lia|]. destruct (overflows _ _); [discriminate|]. exact (U _ E).
Qed.

Section Enc.
Variables (m : fmodule) (id_map : N -> N).
Hypothesis Hm : module_ok m.
Hypothesis Hid : id_map_ok m id_map.

Lemma arg_encoded id t r c : fm_type m id = Some t -> fm_const m (id_map id) = Some c -> same_shape r t ->
  fty_ok t /\ shaped r c /\ forall d s, nth_error (comps c) d = Some s -> sconst_ok (elem t) s.
Proof.
  intros T C Sh. destruct (arg_const m id_map Hm Hid id t c T C) as (Ft & Ok). split; [exact Ft|].
  apply const_ok_comps in Ok. destruct Ok as (S1 & _ & F). split; [exact (shaped_same _ _ _ Sh S1)|].
  intros d s E. exact (Forall_nth_error _ _ _ _ F E).
Qed.
Lemma binary_encoded (P : sconst -> sconst -> Prop) rule r x y tx ty c :
  fm_type m x = Some tx -> fm_type m y = Some ty -> same_shape r tx -> same_shape r ty ->
  fold_binary_op rule r (fm_const m (id_map x)) (fm_const m (id_map y)) = FSome c ->
  (forall a b k, sconst_ok (elem tx) a -> sconst_ok (elem ty) b -> rule (elem r) a b = FSome k -> sconst_ok (elem r) k) ->
  encoded r c.
Proof.
  intros Tx Ty Sx Sy E H.
  destruct (fm_const m (id_map x)) as [cx|] eqn:Cx; [|discriminate].
  destruct (fm_const m (id_map y)) as [cy|] eqn:Cy; [|discriminate].
  destruct (arg_encoded _ _ _ _ Tx Cx Sx) as (_ & S1 & F1). destruct (arg_encoded _ _ _ _ Ty Cy Sy) as (_ & S2 & F2).
  destruct (fold_binary_comps _ _ _ _ _ E S1 S2) as (Sc & N). apply nth_encoded; [exact Sc|].
  intros d D. destruct (N d D) as (sa & sb & sc & Ea & Eb & Ec & R). exists sc. split; [exact Ec|].
  exact (H _ _ _ (F1 _ _ Ea) (F2 _ _ Eb) R).
Qed.
Lemma arith_inst_encoded sg op r x y tx ty c :
  In op [rule_add; rule_sub; rule_mul; rule_udiv; rule_umod; rule_sdiv; rule_srem; rule_smod] ->
  fty_ok r -> like r tx -> like r ty -> fm_type m x = Some tx -> fm_type m y = Some ty ->
  fold_binary_op (binary_integer sg op) r (fm_const m (id_map x)) (fm_const m (id_map y)) = FSome c -> encoded r c.
Proof.
  intros Hop Fr Lx Ly Tx Ty E.
  destruct (like_inv _ _ Lx) as (w & s & sx & Et & Ex & Sx). destruct (like_inv _ _ Ly) as (w' & s' & sy & Et' & Ey & Sy).
  rewrite Et in Et'. injection Et' as <- <-.
  assert (W : width_ok w) by (destruct Fr as (K & _); rewrite Et in K; exact K).
  refine (binary_encoded (fun _ _ => True) _ _ _ _ _ _ _ Tx Ty Sx Sy E _). rewrite Et, Ex, Ey. intros a b k Ha Hb R.
  exact (arith_encoded op sg w s sx sy a b k W Ha Hb (rule_range op Hop) R).
Qed.
Lemma unary_encoded rule r x tx c :
  fm_type m x = Some tx -> same_shape r tx ->
  fold_unary_op rule r (fm_const m (id_map x)) = FSome c ->
  (forall a k, sconst_ok (elem tx) a -> rule (elem r) a = FSome k -> sconst_ok (elem r) k) -> encoded r c.
Proof.
  intros Tx Sx E H. destruct (fm_const m (id_map x)) as [cx|] eqn:Cx; [|discriminate].
  destruct (arg_encoded _ _ _ _ Tx Cx Sx) as (_ & S1 & F1).
  destruct (fold_unary_comps _ _ _ _ E S1) as (Sc & N). apply nth_encoded; [exact Sc|].
  intros d D. destruct (N d D) as (sa & sc & Ea & Ec & R). exists sc. split; [exact Ec|].
  exact (H _ _ (F1 _ _ Ea) R).
Qed.
Lemma minmax_encoded rule r (ca cb : option fconst) c : rule = scalar_min \/ rule = scalar_max ->
  (forall a, ca = Some a -> encoded r a) -> (forall b, cb = Some b -> encoded r b) ->
  fold_binary_op rule r ca cb = FSome c -> encoded r c.
Proof.
  intros Hr Ha Hb E. destruct ca as [a|]; [|discriminate]. destruct cb as [b|]; [|discriminate].
  destruct (Ha a eq_refl) as (S1 & F1). destruct (Hb b eq_refl) as (S2 & F2).
  destruct (fold_binary_comps _ _ _ _ _ E S1 S2) as (Sc & N). apply nth_encoded; [exact Sc|].
  intros d D. destruct (N d D) as (sa & sb & sc & Ea & Eb & Ec & R). exists sc. split; [exact Ec|].
  pose proof (Forall_nth_error _ _ _ _ F1 Ea) as Oa. pose proof (Forall_nth_error _ _ _ _ F2 Eb) as Ob.
  destruct Hr as [-> | ->]; unfold scalar_min, scalar_max in R; destruct (elem r) as [|w s]; try discriminate;
    destruct (minmax_value w s sa) as [| |va]; try discriminate; destruct (minmax_value w s sb) as [| |vb]; try discriminate;
    cbn [fbind] in R; injection R as <-; ifs; auto.
Qed.
Lemma operand_encoded r id t c : fm_type m id = Some t -> like r t -> elem t = elem r ->
  fm_const m (id_map id) = Some c -> encoded r c.
Proof.
  intros T L E C. destruct (like_inv _ _ L) as (w & s & sx & Et & Ex & Sx).
  destruct (arg_const m id_map Hm Hid id t c T C) as (_ & Ok). apply const_ok_comps in Ok.
  destruct Ok as (S1 & _ & F). split; [exact (shaped_same _ _ _ Sx S1)|]. rewrite <- E. exact F.
Qed.
Lemma uniform_encoded r v c : fty_ok r -> 0 <= v < 2 ^ 64 -> uniform_value r v = FSome c -> encoded r c.
Proof.
  intros (W & _) R E. destruct r as [[|w s]|[|w s] n]; try discriminate; cbn [elem ety_ok] in W;
    destruct (gen_int_ok w s v W R) as (k & Ek & Ok & _); cbn [uniform_value] in E; rewrite Ek in E; cbn [fbind] in E.
  - injection E as <-. split; [exact I|]. cbn. auto.
  - apply mk_vector_inv in E. subst c. split; [apply repeat_length|]. cbn. apply Forall_forall. intros x Hx%repeat_spec. subst x. exact Ok.
Qed.

Lemma clamp_encoded r (cx cy cz : option fconst) c :
  (forall a, cx = Some a -> encoded r a) -> (forall a, cy = Some a -> encoded r a) -> (forall a, cz = Some a -> encoded r a) ->
  forelse (fold_clamp1 r cx cy cz) (forelse (fold_clamp2 r cx cy) (fold_clamp3 r cx cz)) = FSome c -> encoded r c.
Proof.
  intros Hx Hy Hz E. unfold forelse in E. destruct (fold_clamp1 r cx cy cz) as [| |k] eqn:E1; [|discriminate|].
  - destruct (fold_clamp2 r cx cy) as [| |k] eqn:E2; [|discriminate|].
    + unfold fold_clamp3 in E. destruct cx as [a|]; [|discriminate]. destruct cz as [h|]; [|discriminate].
      destruct (fold_binary_op _ _ _ _) as [| |temp]; try discriminate. destruct (fconst_eqb temp h); [|discriminate].
      injection E as <-. auto.
    + injection E as <-. unfold fold_clamp2 in E2. destruct cx as [a|]; [|discriminate]. destruct cy as [l|]; [|discriminate].
      destruct (fold_binary_op _ _ _ _) as [| |temp]; try discriminate. destruct (fconst_eqb temp l); [|discriminate].
      injection E2 as <-. auto.
  - injection E as <-. unfold fold_clamp1 in E1. destruct cx as [a|]; [|discriminate]. destruct cy as [l|]; [|discriminate].
    destruct cz as [h|]; [|discriminate]. destruct (fold_binary_op scalar_max _ _ _) as [| |temp] eqn:B; try discriminate.
    cbn [fbind] in E1. refine (minmax_encoded _ _ _ _ _ (or_introl eq_refl) _ Hz E1).
    intros u Eu. injection Eu as <-. exact (minmax_encoded _ _ _ _ _ (or_intror eq_refl) Hx Hy B).
Qed.

Lemma const_rules_encoded i c : inst_ok m i ->
  (returns_operand (fi_op i) = true -> operands_of_result_type m i) ->
  const_rules m i (consts_of m id_map i) = FSome c -> encoded (fi_type i) c.
Proof.
  intros (Ft & ts & Fts & Wt) Op E. unfold const_rules, consts_of in E. cbv zeta in E. unfold operands_of_result_type in Op.
  destruct i as [o r args fp]. cbn [fi_op fi_type fi_args fi_fp_allowed] in *.
  assert (Un : forall r0, is_unsigned r0 -> like r0 r0).
  { intros r0 U. destruct (is_unsigned_inv _ U) as (w & Ew). unfold like, is_int. rewrite Ew. auto using same_shape_refl. }
  assert (L1 : 0 <= 1 < 2 ^ 64) by lia. assert (Lm : 0 <= 2 ^ 64 - 1 < 2 ^ 64) by lia.
  destruct o; try discriminate;
    (destruct ts as [|t1 [|t2 [|t3 [|t4 ts]]]]; try contradiction); cbn [well_typed] in Wt;
    args_inv Fts; cbn [map arg_at nth] in E; cbn [returns_operand] in Op.
  - destruct Wt as (L & L'). refine (arith_inst_encoded _ _ _ _ _ _ _ _ _ Ft L L' T T0 E). cbn; tauto.
  - destruct Wt as (L & L'). unfold forelse in E. destruct (fold_binary_op _ _ _ _) as [| |k] eqn:B; [|discriminate|].
    + unfold fold_redundant_sub in E. cbn [fi_args fi_type] in E. destruct (N.eqb _ _); [|discriminate]. injection E as <-.
      destruct r as [e|e n]; cbn; (split; [cbn; auto|]); [repeat constructor|].
      cbn. apply Forall_forall. intros u Hu%repeat_spec. subst u. reflexivity.
    + injection E as ->. refine (arith_inst_encoded _ _ _ _ _ _ _ _ _ Ft L L' T T0 B). cbn; tauto.
  - destruct Wt as (L & L'). refine (arith_inst_encoded _ _ _ _ _ _ _ _ _ Ft L L' T T0 E). cbn; tauto.
  - destruct Wt as (-> & -> & U). pose proof (Un _ U) as L. unfold forelse in E. destruct (fold_binary_op _ _ _ _) as [| |k] eqn:B; [|discriminate|].
    + unfold fold_redundant_div in E. cbn [fi_args fi_type fi_op] in E.
      destruct (fm_const m (id_map x)); [discriminate|]. destruct (fm_const m (id_map x0)); [discriminate|].
      destruct (N.eqb _ _); [|discriminate]. exact (uniform_encoded _ _ _ Ft L1 E).
    + injection E as ->. refine (arith_inst_encoded _ _ _ _ _ _ _ _ _ Ft L L T T0 B). cbn; tauto.
  - destruct Wt as (L & L'). unfold forelse in E. destruct (fold_binary_op _ _ _ _) as [| |k] eqn:B; [|discriminate|].
    + unfold fold_redundant_div in E. cbn [fi_args fi_type fi_op] in E.
      destruct (fm_const m (id_map x)); [discriminate|]. destruct (fm_const m (id_map x0)); [discriminate|].
      destruct (N.eqb _ _); [exact (uniform_encoded _ _ _ Ft L1 E)|].
      destruct (match fm_snegate m x with Some _ => _ | None => _ end); [exact (uniform_encoded _ _ _ Ft Lm E)|].
      destruct (match fm_snegate m x0 with Some _ => _ | None => _ end); [exact (uniform_encoded _ _ _ Ft Lm E)|discriminate].
    + injection E as ->. refine (arith_inst_encoded _ _ _ _ _ _ _ _ _ Ft L L' T T0 B). cbn; tauto.
  - destruct Wt as (-> & -> & U). pose proof (Un _ U) as L. refine (arith_inst_encoded _ _ _ _ _ _ _ _ _ Ft L L T T0 E). cbn; tauto.
  - destruct Wt as (L & L'). refine (arith_inst_encoded _ _ _ _ _ _ _ _ _ Ft L L' T T0 E). cbn; tauto.
  - destruct Wt as (L & L'). refine (arith_inst_encoded _ _ _ _ _ _ _ _ _ Ft L L' T T0 E). cbn; tauto.
  - (* SNegate *)
    destruct (like_inv _ _ Wt) as (w & s & sx & Et & Ex & Sx). pose proof (Op eq_refl x t1 (or_introl eq_refl) T) as Eq.
    assert (W : width_ok w) by (destruct Ft as (K & _); rewrite Et in K; exact K).
    refine (unary_encoded _ _ _ _ _ T Sx E _). intros a k Ha Rk. rewrite Eq in Ha. rewrite Et in *.
    unfold negate_int_const in Rk. destruct a as [b|w' s' ws|e']; [cbn in Ha; discriminate| |injection Rk as <-; exact Ha].
    destruct (get_sext _) as [| |v]; try discriminate. cbn [fbind] in Rk. destruct (v =? - 2 ^ 63); [discriminate|].
    injection Rk as <-. apply get_int_const_ok; [exact W|apply u64_range].
  - (* Select *)
    destruct Wt as (-> & -> & _ & _). unfold fold_invariant_select in E.
    destruct (fm_const m (id_map x0)) as [ca|] eqn:Ca; [|discriminate].
    destruct (fm_const m (id_map x1)) as [cb|] eqn:Cb; [|discriminate].
    assert (c = ca) as -> by (destruct (fconst_eqb _ _); [congruence|destruct (_ && _); [congruence|discriminate]]).
    destruct (arg_const m id_map Hm Hid _ _ _ T0 Ca) as (_ & Ok). apply const_ok_comps in Ok. destruct Ok as (Sh & _ & F). split; assumption.
  - (* SConvert *)
    destruct Wt as (I1 & I2 & Sx). destruct (is_int_inv _ I1) as (w & s & Et). destruct (is_int_inv _ I2) as (wx & sx & Ex).
    assert (W : width_ok w) by (destruct Ft as (K & _); rewrite Et in K; exact K).
    refine (unary_encoded _ _ _ _ _ T Sx E _). intros a k Ha Rk. rewrite Et in *. unfold scalar_sconvert in Rk.
    destruct (get_sext a) as [| |v]; try discriminate. cbn [fbind] in Rk.
    destruct (gen_int_ok w s (u64 v) W (u64_range v)) as (k' & Ek' & Ok & _). congruence.
  - (* UConvert *)
    destruct Wt as (I1 & I2 & Sx & _). destruct (is_int_inv _ I1) as (w & s & Et). destruct (is_int_inv _ I2) as (wx & sx & Ex).
    assert (W : width_ok w) by (destruct Ft as (K & _); rewrite Et in K; exact K).
    assert (Wx : width_ok wx) by (destruct (Hm _ _ T) as ((K & _) & _); rewrite Ex in K; exact K).
    refine (unary_encoded _ _ _ _ _ T Sx E _). intros a k Ha Rk. rewrite Ex in Ha. rewrite Et in *. unfold scalar_uconvert in Rk.
    rewrite (sconst_ok_type _ _ Ha) in Rk.
    destruct (get_zext a) as [| |v]; try discriminate. cbn [fbind] in Rk.
    assert (Rg : 0 <= v mod 2 ^ wx < 2 ^ 64).
    { pose proof (width_pos _ Wx). pose proof (Z.mod_pos_bound v (2 ^ wx) ltac:(apply Z.pow_pos_nonneg; lia)).
      pose proof (Z.pow_le_mono_r 2 wx 64 ltac:(lia) ltac:(lia)). lia. }
    destruct (gen_int_ok w s _ W Rg) as (k' & Ek' & Ok & _). congruence.
  - destruct Wt as (L & L'). destruct fp; [|discriminate].
    refine (minmax_encoded _ _ _ _ _ (or_introl eq_refl) _ _ E).
    + intros a. exact (operand_encoded r x t1 a T L (Op eq_refl x t1 (or_introl eq_refl) T)).
    + intros a. exact (operand_encoded r x0 t2 a T0 L' (Op eq_refl x0 t2 (or_intror (or_introl eq_refl)) T0)).
  - destruct Wt as (L & L'). destruct fp; [|discriminate].
    refine (minmax_encoded _ _ _ _ _ (or_introl eq_refl) _ _ E).
    + intros a. exact (operand_encoded r x t1 a T L (Op eq_refl x t1 (or_introl eq_refl) T)).
    + intros a. exact (operand_encoded r x0 t2 a T0 L' (Op eq_refl x0 t2 (or_intror (or_introl eq_refl)) T0)).
  - destruct Wt as (L & L'). destruct fp; [|discriminate].
    refine (minmax_encoded _ _ _ _ _ (or_intror eq_refl) _ _ E).
    + intros a. exact (operand_encoded r x t1 a T L (Op eq_refl x t1 (or_introl eq_refl) T)).
    + intros a. exact (operand_encoded r x0 t2 a T0 L' (Op eq_refl x0 t2 (or_intror (or_introl eq_refl)) T0)).
  - destruct Wt as (L & L'). destruct fp; [|discriminate].
    refine (minmax_encoded _ _ _ _ _ (or_intror eq_refl) _ _ E).
    + intros a. exact (operand_encoded r x t1 a T L (Op eq_refl x t1 (or_introl eq_refl) T)).
    + intros a. exact (operand_encoded r x0 t2 a T0 L' (Op eq_refl x0 t2 (or_intror (or_introl eq_refl)) T0)).
  - destruct Wt as (L & L' & L''). refine (clamp_encoded _ _ _ _ _ _ _ _ E).
    + intros a. exact (operand_encoded r x t1 a T L (Op eq_refl x t1 (or_introl eq_refl) T)).
    + intros a. exact (operand_encoded r x0 t2 a T0 L' (Op eq_refl x0 t2 (or_intror (or_introl eq_refl)) T0)).
    + intros a. exact (operand_encoded r x1 t3 a T1 L'' (Op eq_refl x1 t3 (or_intror (or_intror (or_introl eq_refl))) T1)).
  - destruct Wt as (L & L' & L''). refine (clamp_encoded _ _ _ _ _ _ _ _ E).
    + intros a. exact (operand_encoded r x t1 a T L (Op eq_refl x t1 (or_introl eq_refl) T)).
    + intros a. exact (operand_encoded r x0 t2 a T0 L' (Op eq_refl x0 t2 (or_intror (or_introl eq_refl)) T0)).
    + intros a. exact (operand_encoded r x1 t3 a T1 L'' (Op eq_refl x1 t3 (or_intror (or_intror (or_introl eq_refl))) T1)).
Qed.

Lemma bitwise_range (f : Z -> Z -> Z) (g : bool -> bool -> bool) a b :
  (forall x y n, Z.testbit (f x y) n = g (Z.testbit x n) (Z.testbit y n)) -> g false false = false ->
  0 <= a < 2 ^ 32 -> 0 <= b < 2 ^ 32 -> 0 <= f a b < 2 ^ 32.
Proof.
  intros Hf Hg Ha Hb. rewrite <- (bitwise_mod f g 32 a b) by (auto; lia). apply Z.mod_pos_bound. reflexivity.
Qed.
Lemma u32_range x : 0 <= u32 x < 2 ^ 32.
Proof. apply Z.mod_pos_bound. reflexivity. Qed.
Lemma b2z_range b : 0 <= b2z b < 2 ^ 32.
Proof. destruct b; cbn; lia. Qed.
Lemma operate_range o ws u : Forall (fun x => 0 <= x < 2 ^ 32) ws -> operate_words o ws = FSome u -> 0 <= u < 2 ^ 32.
Proof.
  intros F E. assert (Z32 : 0 <= 0 < 2 ^ 32) by lia.
  destruct ws as [|a [|b [|c [|d ws]]]]; try discriminate; cbn [operate_words] in E;
    repeat match goal with F : Forall _ (_ :: _) |- _ => apply Forall_cons_iff in F; destruct F end;
    destruct o; try discriminate; cbn in E; injection E as <-; ifs; auto using u32_range, b2z_range; try lia.
  - split; [apply Z.div_pos; lia|]. apply Z.le_lt_trans with a; [|lia]. apply Z.div_le_upper_bound; [lia|]. nia.
  - exact (bitwise_range Z.lor orb a b Z.lor_spec eq_refl H H0).
  - exact (bitwise_range Z.land andb a b Z.land_spec eq_refl H H0).
  - exact (bitwise_range Z.lxor xorb a b Z.lxor_spec eq_refl H H0).
Qed.
Lemma integer_op_range o cs u : fold_integer_op o cs = FSome u -> 0 <= u < 2 ^ 32.
Proof.
  unfold fold_integer_op. destruct cs as [|k0 [|k1 [|k2 ks]]]; try discriminate.
  intros E. unfold forelse in E. destruct (fold_binary_integer o k0 k1) as [| |u'] eqn:I; [|discriminate|].
  - unfold fold_binary_boolean in E. destruct o; try discriminate; destruct (_ || _); try discriminate; injection E as <-; lia.
  - injection E as ->. unfold fold_binary_integer in I. cbv zeta in I.
    destruct o; try discriminate; try (destruct (_ || _); try discriminate; injection I as <-; lia);
      try (apply either_inv in I; destruct I as (-> & _); lia).
    + destruct (words_test _ _ _) as [| |[]]; try discriminate. injection I as <-. lia.
    + destruct (words_test _ _ _) as [| |[]]; try discriminate. injection I as <-. lia.
Qed.
Lemma mk_scalar_ok e u : foldable_scalar_ety e = true -> 0 <= u < 2 ^ 32 -> sconst_ok e (mk_scalar e u).
Proof.
  intros F R. destruct e as [|w s]; [reflexivity|]. cbn in F. apply Z.eqb_eq in F. subst w. cbn. split; [reflexivity|].
  exists u. split; [exact R|]. unfold encode. change (32 <=? 32) with true. cbv iota.
  destruct (s && _); [|reflexivity]. f_equal. lia.
Qed.
Lemma all_some_map {A} (l : list (option A)) : forall r, all_some l = Some r -> map Some r = l.
Proof.
  induction l as [|[a|] l IH]; cbn; intros r E; try discriminate.
  - injection E as <-. reflexivity.
  - destruct (all_some l) as [r'|]; [|discriminate]. injection E as <-. cbn. f_equal. auto.
Qed.
Lemma word_range e s w : foldable_scalar_ety e = true -> sconst_ok e s -> scalar_word s = FSome w -> 0 <= w < 2 ^ 32.
Proof.
  intros F Ok W. rewrite <- (word_value e s w F Ok W).
  assert (E : ety_ok e) by (destruct e; [exact I|cbn in *; apply Z.eqb_eq in F; subst; right; right; left; reflexivity]).
  pose proof (sconst_value_range e s E Ok) as R. destruct e as [|w' s']; cbn [ewidth] in R; [lia|].
  cbn in F. apply Z.eqb_eq in F. subst w'. exact R.
Qed.

Theorem fold_to_constant_encoded i c : inst_ok m i ->
  (returns_operand (fi_op i) = true -> operands_of_result_type m i) ->
  fold_to_constant m id_map i = FSome c -> const_ok (fi_type i) c.
Proof.
  intros Ok Op E. unfold fold_to_constant in E. cbv zeta in E.
  destruct (const_rules m i (map (fun id => fm_const m (id_map id)) (fi_args i))) as [| |c'] eqn:R; [|discriminate|].
  2:{ injection E as <-. apply encoded_retype. exact (const_rules_encoded i c' Ok Op R). }
  clear R. destruct Ok as (Ft & ts & Fts & Wt).
  assert (Ko : Forall2 (fun k t => forall c, k = Some c -> const_ok t c)
                 (map (fun id => fm_const m (id_map id)) (fi_args i)) ts).
  { clear -Fts Hm Hid. induction Fts as [|id t args ts' T F IH]; cbn; constructor; auto.
    intros c C. destruct (arg_const m id_map Hm Hid _ _ _ T C) as (_ & K). exact K. }
  destruct (foldable_by_scalar m i) eqn:FS.
  - unfold foldable_by_scalar in FS. apply andb_prop in FS. destruct FS as (FS & Sa). apply andb_prop in FS. destruct FS as (Fo & Fr).
    pose proof (satisfy_types m _ _ _ Sa Fts) as St.
    destruct (fi_type i) as [e|] eqn:Ty; [|discriminate].
    destruct (match all_some _ with Some l => _ | None => _ end) as [| |u] eqn:U; try discriminate.
    cbn [fbind] in E. injection E as <-. cbn. apply mk_scalar_ok; [exact Fr|].
    destruct (all_some _) as [l|] eqn:A; [|exact (integer_op_range _ _ _ U)].
    unfold fold_scalars in U. destruct (mapf _ l) as [| |ws] eqn:M; try discriminate. cbn [fbind] in U.
    refine (operate_range _ ws u _ U). rewrite <- (all_some_map _ _ A) in Ko. clear -Ko St M.
    revert ws ts Ko St M. induction l as [|c l IH]; intros ws ts Ko St M.
    + cbn in M. injection M as <-. constructor.
    + cbn [map] in Ko. inversion Ko as [|? t ? ? K Ko']; subst. inversion St as [|? ? F St']; subst.
      specialize (K _ eq_refl). destruct t as [e|]; [|discriminate]. destruct c as [s| |]; try contradiction.
      cbn [mapf] in M. destruct (scalar_word s) as [| |w] eqn:W; try discriminate. cbn [fbind] in M.
      destruct (mapf _ l) as [| |ws'] eqn:M'; try discriminate. cbn [fbind] in M. injection M as <-.
      constructor; [exact (word_range e s w F K W)|]. exact (IH _ _ Ko' St' eq_refl).
  - clear FS. destruct (foldable_by_vector m i) eqn:FV; [|discriminate].
    unfold foldable_by_vector in FV. apply andb_prop in FV. destruct FV as (FV & Sa). apply andb_prop in FV. destruct FV as (Fo & Fr).
    pose proof (satisfy_types m _ _ _ Sa Fts) as St.
    destruct (all_some _) as [l|] eqn:A; [|discriminate].
    destruct (fi_type i) as [|e n] eqn:Ty; [discriminate|].
    destruct (fold_vectors (fi_op i) n l) as [| |vs] eqn:V; try discriminate. cbn [fbind] in E.
    apply mk_vector_inv in E. subst c. cbn. split; [reflexivity|].
    unfold fold_vectors in V. apply mapf_nth in V. destruct V as (L & V). rewrite seq_length in L.
    rewrite map_length. split; [exact L|]. apply Forall_forall. intros s Hs. apply in_map_iff in Hs. destruct Hs as (u & <- & Hu).
    apply mk_scalar_ok; [exact Fr|]. apply In_nth_error in Hu. destruct Hu as (d & Ed).
    assert (D : (d < n)%nat) by (rewrite <- L; apply nth_error_Some; congruence).
    destruct (V d d) as (u' & Nu & Eu).
    { rewrite nth_error_nth' with (d := O) by (rewrite seq_length; lia). rewrite seq_nth by lia. reflexivity. }
    rewrite Ed in Nu. injection Nu as <-.
    destruct (mapf (vector_word d) l) as [| |ws] eqn:M; try discriminate. cbn [fbind] in Eu.
    refine (operate_range _ ws u _ Eu). rewrite <- (all_some_map _ _ A) in Ko. clear -Ko St M.
    revert ws ts Ko St M. induction l as [|c l IH]; intros ws ts Ko St M.
    + cbn in M. injection M as <-. constructor.
    + cbn [map] in Ko. inversion Ko as [|? t ? ? K Ko']; subst. inversion St as [|? ? F St']; subst.
      specialize (K _ eq_refl). destruct t as [|e k]; [discriminate|].
      cbn [mapf] in M. destruct (vector_word d c) as [| |w] eqn:W; try discriminate. cbn [fbind] in M.
      destruct (mapf _ l) as [| |ws'] eqn:M'; try discriminate. cbn [fbind] in M. injection M as <-.
      constructor; [|exact (IH _ _ Ko' St' eq_refl)].
      destruct c as [s|e' cs|e' k']; cbn in K; try contradiction; cbn in W.
      * destruct K as (-> & _ & Fc). destruct (nth_error cs d) as [s|] eqn:Es; [|discriminate].
        apply (word_range e' s w F (Forall_nth_error _ _ _ _ Fc Es)). destruct s; auto; discriminate.
      * injection W as <-. lia.
Qed.
End Enc.
