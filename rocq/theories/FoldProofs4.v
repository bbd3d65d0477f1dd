(** Proofs about the model of constant folding: the order of the rules and the word operations. *)
From Verif Require Import Base Fold FoldSpec FoldProofs FoldProofs2 FoldProofs3.
Local Open Scope Z_scope.

Lemma is_int_inv t : is_int t -> exists w s, elem t = EInt w s.
Proof. unfold is_int. destruct (elem t); [contradiction|eauto]. Qed.
Lemma like_inv r t : like r t -> exists w s s', elem r = EInt w s /\ elem t = EInt w s' /\ same_shape r t.
Proof.
  intros (Hr & Ht & Hs & Hw). destruct (is_int_inv r Hr) as (w & s & Er). destruct (is_int_inv t Ht) as (w' & s' & E').
  rewrite Er, E' in Hw. cbn in Hw. subst w'. exists w, s, s'. auto.
Qed.
Lemma is_unsigned_inv t : is_unsigned t -> exists w, elem t = EInt w false.
Proof. unfold is_unsigned. destruct (elem t) as [|w s]; [contradiction|intros ->; eauto]. Qed.

Ltac args_inv H :=
  repeat match type of H with
  | Forall2 _ ?l (_ :: _) => let x := fresh "x" in let T := fresh "T" in let H' := fresh "H" in
      inversion H as [|x ? ? ? T H']; subst; clear H; rename H' into H
  | Forall2 _ ?l [] => inversion H; subst; clear H
  end.

Section Inst.
Variables (m : fmodule) (id_map : N -> N).
Hypothesis Hm : module_ok m.
Hypothesis Hid : id_map_ok m id_map.

Definition consts_of (i : finst) : list (option fconst) :=
  map (fun id => fm_const m (id_map id)) (fi_args i).

Notation good i c := (widths_right i c /\ folds_right m id_map i c).

Lemma binary_like o rule i x y tx ty c :
  rule2_of o = Some rule -> fi_op i = o -> fi_args i = [x; y] ->
  like (fi_type i) tx -> like (fi_type i) ty -> o <> FUDiv -> o <> FUMod ->
  fm_type m x = Some tx -> fm_type m y = Some ty ->
  fold_binary_op rule (fi_type i) (fm_const m (id_map x)) (fm_const m (id_map y)) = FSome c ->
  good i c.
Proof.
  intros Hr Ho Ha Lx Ly N1 N2 Tx Ty E.
  destruct (like_inv _ _ Lx) as (w & s & sx & Et & Ex & Sx). destruct (like_inv _ _ Ly) as (w' & s' & sy & Et' & Ey & Sy).
  rewrite Et in Et'. injection Et' as <- <-.
  destruct (fm_const m (id_map x)) as [cx|] eqn:Cx; [|discriminate].
  destruct (fm_const m (id_map y)) as [cy|] eqn:Cy; [|discriminate].
  apply (binary_rule_right m id_map Hm Hid o rule i x y tx ty w s sx sy cx cy c); auto.
  intros [K|K]; congruence.
Qed.
Lemma binary_same o rule i x y c :
  rule2_of o = Some rule -> fi_op i = o -> fi_args i = [x; y] -> is_unsigned (fi_type i) ->
  fm_type m x = Some (fi_type i) -> fm_type m y = Some (fi_type i) ->
  fold_binary_op rule (fi_type i) (fm_const m (id_map x)) (fm_const m (id_map y)) = FSome c ->
  good i c.
Proof.
  intros Hr Ho Ha U Tx Ty E. destruct (is_unsigned_inv _ U) as (w & Et).
  destruct (fm_const m (id_map x)) as [cx|] eqn:Cx; [|discriminate].
  destruct (fm_const m (id_map y)) as [cy|] eqn:Cy; [|discriminate].
  apply (binary_rule_right m id_map Hm Hid o rule i x y (fi_type i) (fi_type i) w false false false cx cy c); auto;
    apply same_shape_refl.
Qed.
Lemma binary_none rule t a b : fold_binary_op rule t a b = FNone ->
  match a, b with Some _, Some _ => True | _, _ => True end.
Proof. destruct a, b; auto. Qed.

Theorem const_rules_right i c : inst_ok m i -> const_rules m i (consts_of i) = FSome c -> good i c.
Proof.
  intros (Ft & ts & Fts & Wt) E. unfold const_rules in E. cbv zeta in E.
  destruct i as [o t args fp]. cbn [fi_op fi_type fi_args fi_fp_allowed] in *.
  unfold consts_of in E. cbn [fi_args] in E.
  destruct o; try discriminate;
    (destruct ts as [|t1 [|t2 [|t3 [|t4 ts]]]]; try contradiction); cbn [well_typed] in Wt;
    args_inv Fts; cbn [map arg_at nth] in E.
  - (* IAdd *) destruct Wt as (L1 & L2). exact (binary_like FIAdd _ (mkFInst FIAdd t [x; x0] _) x x0 t1 t2 c eq_refl eq_refl eq_refl L1 L2 ltac:(discriminate) ltac:(discriminate) T T0 E).
  - (* ISub *) destruct Wt as (L1 & L2). unfold forelse in E.
    destruct (fold_binary_op _ _ _ _) as [| |r] eqn:B.
    + exact (redundant_sub_right m id_map (mkFInst FISub t [x; x0] fp) x x0 c eq_refl eq_refl E).
    + discriminate.
    + injection E as ->. exact (binary_like FISub _ (mkFInst FISub t [x; x0] _) x x0 t1 t2 c eq_refl eq_refl eq_refl L1 L2 ltac:(discriminate) ltac:(discriminate) T T0 B).
  - destruct Wt as (L1 & L2). exact (binary_like FIMul _ (mkFInst FIMul t [x; x0] _) x x0 t1 t2 c eq_refl eq_refl eq_refl L1 L2 ltac:(discriminate) ltac:(discriminate) T T0 E).
  - (* UDiv *) destruct Wt as (-> & -> & U). unfold forelse in E.
    destruct (fold_binary_op _ _ _ _) as [| |r] eqn:B.
    + destruct (is_unsigned_inv _ U) as (w & Et).
      destruct (fm_const m (id_map x)) as [cx|] eqn:Cx; [discriminate|].
      destruct (fm_const m (id_map x0)) as [cy|] eqn:Cy; [discriminate|].
      eapply (redundant_div_right m id_map (mkFInst FUDiv t [x; x0] fp) x x0 t t w false false false c);
        auto using same_shape_refl.
    + discriminate.
    + injection E as ->. exact (binary_same FUDiv _ (mkFInst FUDiv t [x; x0] _) x x0 c eq_refl eq_refl eq_refl U T T0 B).
  - (* SDiv *) destruct Wt as (L1 & L2). unfold forelse in E.
    destruct (fold_binary_op _ _ _ _) as [| |r] eqn:B.
    + destruct (like_inv _ _ L1) as (w & s & sx & Et & Ex & Sx). destruct (like_inv _ _ L2) as (w' & s' & sy & Et' & Ey & Sy).
      rewrite Et in Et'. injection Et' as <- <-.
      destruct (fm_const m (id_map x)) as [cx|] eqn:Cx; [discriminate|].
      destruct (fm_const m (id_map x0)) as [cy|] eqn:Cy; [discriminate|].
      exact (redundant_div_right m id_map (mkFInst FSDiv t [x; x0] fp) x x0 t1 t2 w s sx sy c
               (or_introl eq_refl) eq_refl Ft Et Ex Ey Sx Sy T T0 E).
    + discriminate.
    + injection E as ->. exact (binary_like FSDiv _ (mkFInst FSDiv t [x; x0] _) x x0 t1 t2 c eq_refl eq_refl eq_refl L1 L2 ltac:(discriminate) ltac:(discriminate) T T0 B).
  - destruct Wt as (-> & -> & U). exact (binary_same FUMod _ (mkFInst FUMod t [x; x0] _) x x0 c eq_refl eq_refl eq_refl U T T0 E).
  - destruct Wt as (L1 & L2). exact (binary_like FSRem _ (mkFInst FSRem t [x; x0] _) x x0 t1 t2 c eq_refl eq_refl eq_refl L1 L2 ltac:(discriminate) ltac:(discriminate) T T0 E).
  - destruct Wt as (L1 & L2). exact (binary_like FSMod _ (mkFInst FSMod t [x; x0] _) x x0 t1 t2 c eq_refl eq_refl eq_refl L1 L2 ltac:(discriminate) ltac:(discriminate) T T0 E).
  - (* SNegate *) destruct (like_inv _ _ Wt) as (w & s & sx & Et & Ex & Sx).
    destruct (fm_const m (id_map x)) as [cx|] eqn:Cx; [|discriminate].
    exact (unary_rule_right m id_map Hm Hid FSNegate _ (mkFInst FSNegate t [x] fp) x t1 w s w sx cx c
             eq_refl eq_refl eq_refl Ft Et Ex (fun _ => eq_refl) Sx T Cx E).
  - (* Select *) destruct Wt as (-> & -> & _ & _).
    destruct (fm_const m (id_map x0)) as [ca|] eqn:Ca; [|discriminate].
    destruct (fm_const m (id_map x1)) as [cb|] eqn:Cb; [|discriminate].
    exact (select_right m id_map Hm Hid (mkFInst FSelect t [x; x0; x1] fp) x x0 x1 ca cb c
             eq_refl eq_refl Ft T0 T1 Ca Cb E).
  - (* SConvert *) destruct Wt as (I1 & I2 & Sx).
    destruct (is_int_inv _ I1) as (w & s & Et). destruct (is_int_inv _ I2) as (wx & sx & Ex).
    destruct (fm_const m (id_map x)) as [cx|] eqn:Cx; [|discriminate].
    refine (unary_rule_right m id_map Hm Hid FSConvert _ (mkFInst FSConvert t [x] fp) x t1 w s wx sx cx c
             eq_refl eq_refl eq_refl Ft Et Ex _ Sx T Cx E). discriminate.
  - (* UConvert *) destruct Wt as (I1 & I2 & Sx & _).
    destruct (is_int_inv _ I1) as (w & s & Et). destruct (is_int_inv _ I2) as (wx & sx & Ex).
    destruct (fm_const m (id_map x)) as [cx|] eqn:Cx; [|discriminate].
    refine (unary_rule_right m id_map Hm Hid FUConvert _ (mkFInst FUConvert t [x] fp) x t1 w s wx sx cx c
             eq_refl eq_refl eq_refl Ft Et Ex _ Sx T Cx E). discriminate.
  - destruct Wt as (L1 & L2). destruct fp; [|discriminate].
    exact (binary_like FSMin _ (mkFInst FSMin t [x; x0] _) x x0 t1 t2 c eq_refl eq_refl eq_refl L1 L2 ltac:(discriminate) ltac:(discriminate) T T0 E).
  - destruct Wt as (L1 & L2). destruct fp; [|discriminate].
    exact (binary_like FUMin _ (mkFInst FUMin t [x; x0] _) x x0 t1 t2 c eq_refl eq_refl eq_refl L1 L2 ltac:(discriminate) ltac:(discriminate) T T0 E).
  - destruct Wt as (L1 & L2). destruct fp; [|discriminate].
    exact (binary_like FSMax _ (mkFInst FSMax t [x; x0] _) x x0 t1 t2 c eq_refl eq_refl eq_refl L1 L2 ltac:(discriminate) ltac:(discriminate) T T0 E).
  - destruct Wt as (L1 & L2). destruct fp; [|discriminate].
    exact (binary_like FUMax _ (mkFInst FUMax t [x; x0] _) x x0 t1 t2 c eq_refl eq_refl eq_refl L1 L2 ltac:(discriminate) ltac:(discriminate) T T0 E).
  - destruct Wt as (L1 & L2 & L3).
    destruct (like_inv _ _ L1) as (w & s & sx & Et & Ex & Sx). destruct (like_inv _ _ L2) as (w' & s' & sy & Et' & Ey & Sy).
    rewrite Et in Et'. injection Et' as <- <-. destruct (like_inv _ _ L3) as (w' & s' & sz & Et' & Ez & Sz).
    rewrite Et in Et'. injection Et' as <- <-.
    unfold forelse in E. destruct (fold_clamp1 _ _ _ _) as [| |r] eqn:B1; [|discriminate|].
    + destruct (fold_clamp2 _ _ _) as [| |r] eqn:B2; [|discriminate|].
      * destruct (fm_const m (id_map x)) as [cx|] eqn:Cx; [|discriminate].
        destruct (fm_const m (id_map x1)) as [cz|] eqn:Cz; [|discriminate].
        exact (clamp3_right m id_map Hm Hid true (mkFInst FSClamp t [x; x0; x1] fp) x x0 x1 t1 t2 t3 w sx sy sz
                 eq_refl eq_refl Ft s Et Ex Ey Ez Sx Sy Sz T T0 T1 cx cz c Cx Cz E).
      * injection E as ->. destruct (fm_const m (id_map x)) as [cx|] eqn:Cx; [|discriminate].
        destruct (fm_const m (id_map x0)) as [cy|] eqn:Cy; [|discriminate].
        exact (clamp2_right m id_map Hm Hid true (mkFInst FSClamp t [x; x0; x1] fp) x x0 x1 t1 t2 t3 w sx sy sz
                 eq_refl eq_refl Ft s Et Ex Ey Ez Sx Sy Sz T T0 T1 cx cy c Cx Cy B2).
    + injection E as ->. destruct (fm_const m (id_map x)) as [cx|] eqn:Cx; [|discriminate].
      destruct (fm_const m (id_map x0)) as [cy|] eqn:Cy; [|discriminate].
      destruct (fm_const m (id_map x1)) as [cz|] eqn:Cz; [|discriminate].
      exact (clamp1_right m id_map Hm Hid true (mkFInst FSClamp t [x; x0; x1] fp) x x0 x1 t1 t2 t3 w sx sy sz
                 eq_refl eq_refl Ft s Et Ex Ey Ez Sx Sy Sz T T0 T1 cx cy cz c Cx Cy Cz B1).
  - destruct Wt as (L1 & L2 & L3).
    destruct (like_inv _ _ L1) as (w & s & sx & Et & Ex & Sx). destruct (like_inv _ _ L2) as (w' & s' & sy & Et' & Ey & Sy).
    rewrite Et in Et'. injection Et' as <- <-. destruct (like_inv _ _ L3) as (w' & s' & sz & Et' & Ez & Sz).
    rewrite Et in Et'. injection Et' as <- <-.
    unfold forelse in E. destruct (fold_clamp1 _ _ _ _) as [| |r] eqn:B1; [|discriminate|].
    + destruct (fold_clamp2 _ _ _) as [| |r] eqn:B2; [|discriminate|].
      * destruct (fm_const m (id_map x)) as [cx|] eqn:Cx; [|discriminate].
        destruct (fm_const m (id_map x1)) as [cz|] eqn:Cz; [|discriminate].
        exact (clamp3_right m id_map Hm Hid false (mkFInst FUClamp t [x; x0; x1] fp) x x0 x1 t1 t2 t3 w sx sy sz
                 eq_refl eq_refl Ft s Et Ex Ey Ez Sx Sy Sz T T0 T1 cx cz c Cx Cz E).
      * injection E as ->. destruct (fm_const m (id_map x)) as [cx|] eqn:Cx; [|discriminate].
        destruct (fm_const m (id_map x0)) as [cy|] eqn:Cy; [|discriminate].
        exact (clamp2_right m id_map Hm Hid false (mkFInst FUClamp t [x; x0; x1] fp) x x0 x1 t1 t2 t3 w sx sy sz
                 eq_refl eq_refl Ft s Et Ex Ey Ez Sx Sy Sz T T0 T1 cx cy c Cx Cy B2).
    + injection E as ->. destruct (fm_const m (id_map x)) as [cx|] eqn:Cx; [|discriminate].
      destruct (fm_const m (id_map x0)) as [cy|] eqn:Cy; [|discriminate].
      destruct (fm_const m (id_map x1)) as [cz|] eqn:Cz; [|discriminate].
      exact (clamp1_right m id_map Hm Hid false (mkFInst FUClamp t [x; x0; x1] fp) x x0 x1 t1 t2 t3 w sx sy sz
                 eq_refl eq_refl Ft s Et Ex Ey Ez Sx Sy Sz T T0 T1 cx cy cz c Cx Cy Cz B1).
Qed.
End Inst.
