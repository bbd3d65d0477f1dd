(** Proofs about the rewriting rules: redundant operations, OpBitwiseAnd. *)
From Verif Require Import Base Fold FoldSpec FoldProofs FoldProofs2 FoldRules FoldRulesSpec FoldRulesProofs FoldRulesProofs2.
Local Open Scope Z_scope.

(** *** Bits *)
Lemma low_bits k c z : 0 <= k -> 0 <= c < 2 ^ k -> Z.land c z = Z.land c (z mod 2 ^ k).
Proof.
  intros Hk Hc. apply Z.bits_inj'. intros n Hn. rewrite !Z.land_spec.
  destruct (Z.ltb_spec n k).
  - rewrite Z.mod_pow2_bits_low by lia. reflexivity.
  - assert (E : Z.testbit c n = false).
    { rewrite <- (Z.mod_small c (2 ^ k)) by exact Hc. apply Z.mod_pow2_bits_high. lia. }
    rewrite E. reflexivity.
Qed.
Lemma pow2_odd : forall n v, (0 < v < Z.of_nat n) -> exists k o, 0 <= k /\ v = 2 ^ k * (2 * o + 1).
Proof.
  induction n as [|n IH]; intros v Hv; [lia|].
  destruct (Z.eq_dec (v mod 2) 1) as [E|E].
  - exists 0, (v / 2). split; [lia|]. rewrite Z.pow_0_r, Z.mul_1_l. pose proof (Z.div_mod v 2). lia.
  - pose proof (Z.mod_pos_bound v 2). pose proof (Z.div_mod v 2).
    destruct (IH (v / 2)) as (k & o & Hk & Ev).
    + lia.
    + exists (k + 1), o. split; [lia|]. rewrite Z.pow_add_r, Z.pow_1_r by lia. rewrite (Z.mul_comm (2 ^ k)), <- Z.mul_assoc, <- Ev. lia.
Qed.
Lemma lsb_pow w v : 0 < w -> 0 <= v < 2 ^ w -> lsb w v = 0 /\ v = 0 \/
  exists k o, 0 <= k < w /\ v = 2 ^ k * o /\ lsb w v = 2 ^ k.
Proof.
  intros Hw Hv. unfold lsb. destruct (Z.eq_dec v 0) as [->|N]; [left; split; [apply Z.land_0_l|reflexivity]|right].
  destruct (pow2_odd (Z.to_nat (v + 1)) v) as (k & o & Hk & Ev); [lia|].
  assert (Ho : 0 <= o). { assert (0 < 2 ^ k) by (apply Z.pow_pos_nonneg; lia). nia. }
  assert (Kw : k < w).
  { destruct (Z.ltb_spec k w) as [|G]; [assumption|]. exfalso.
    assert (2 ^ w <= 2 ^ k) by (apply Z.pow_le_mono_r; lia). nia. }
  exists k, (2 * o + 1). split; [lia|]. split; [exact Ev|].
  replace (2 ^ w - 1 - v + 1) with (- v + 1 * 2 ^ w) by ring. rewrite Z_mod_plus_full.
  apply Z.bits_inj'. intros n Hn. rewrite Z.land_spec, Z.pow2_bits_eqb by exact Hk.
  destruct (Z.ltb_spec n w) as [G|G].
  - rewrite Z.mod_pow2_bits_low by exact G.
    assert (Ev' : v = Z.shiftl (2 * o + 1) k) by (rewrite Z.shiftl_mul_pow2 by exact Hk; lia).
    assert (En : - v = Z.shiftl (2 * (Z.lnot o) + 1) k).
    { rewrite Z.shiftl_mul_pow2 by exact Hk. unfold Z.lnot. nia. }
    rewrite En. rewrite Ev' at 1. rewrite !Z.shiftl_spec by exact Hn.
    destruct (Z.eq_dec n k) as [->|Nk].
    + rewrite Z.sub_diag, Z.eqb_refl, !Z.testbit_odd_0. reflexivity.
    + replace (k =? n) with false by lia. destruct (Z.ltb_spec n k).
      * rewrite !Z.testbit_neg_r by lia. reflexivity.
      * replace (n - k) with (Z.succ (n - k - 1)) by lia. rewrite !Z.testbit_odd_succ by lia.
        rewrite Z.lnot_spec by lia. destruct (Z.testbit o (n - k - 1)); reflexivity.
  - rewrite Z.mod_pow2_bits_high by lia. rewrite andb_false_r. symmetry. apply Z.eqb_neq. lia.
Qed.
Lemma and_add w c x y z : 0 < w -> 0 <= y < 2 ^ w -> 0 <= c < lsb w y -> z = x + y \/ z = x - y ->
  Z.land c (z mod 2 ^ w) = Z.land c x.
Proof.
  intros Hw Hy Hc Hz. destruct (lsb_pow w y Hw Hy) as [[E _]|(k & o & Hk & Ey & El)]; [lia|].
  rewrite El in Hc. rewrite (low_bits k c (z mod 2 ^ w)), (low_bits k c x) by lia. f_equal.
  rewrite mod_mod_pow by lia. rewrite Ey in Hz. destruct Hz as [-> | ->].
  - rewrite (Z.mul_comm (2 ^ k)). apply Z_mod_plus_full.
  - rewrite (Z.mul_comm (2 ^ k)). replace (x - o * 2 ^ k) with (x + (- o) * 2 ^ k) by ring. apply Z_mod_plus_full.
Qed.
Lemma and_shl w c x s : 0 <= s < w -> 0 <= c < 2 ^ w -> c / 2 ^ s = 0 -> Z.land c ((x * 2 ^ s) mod 2 ^ w) = 0.
Proof.
  intros Hs Hc E. assert (P : 0 < 2 ^ s) by (apply Z.pow_pos_nonneg; lia).
  assert (C : c < 2 ^ s).
  { apply Z.div_small_iff in E; lia. }
  rewrite (low_bits s) by lia. rewrite mod_mod_pow by lia. rewrite Z.mod_mul by lia. apply Z.land_0_r.
Qed.
Lemma and_shr w c x s : 0 <= s < w -> 0 <= c < 2 ^ w -> 0 <= x < 2 ^ w -> (c * 2 ^ s) mod 2 ^ w = 0 ->
  Z.land c (x / 2 ^ s) = 0.
Proof.
  intros Hs Hc Hx E. apply Z.bits_inj'. intros n Hn. rewrite Z.land_spec, Z.bits_0, Z.div_pow2_bits by lia.
  destruct (Z.ltb_spec (n + s) w) as [G|G].
  - assert (B : Z.testbit ((c * 2 ^ s) mod 2 ^ w) (n + s) = false) by (rewrite E; apply Z.bits_0).
    rewrite Z.mod_pow2_bits_low in B by lia. rewrite <- Z.shiftl_mul_pow2, Z.shiftl_spec in B by lia.
    replace (n + s - s) with n in B by lia. rewrite B. reflexivity.
  - replace (Z.testbit x (n + s)) with false; [apply andb_false_r|].
    rewrite <- (Z.mod_small x (2 ^ w)) by exact Hx. symmetry. apply Z.mod_pow2_bits_high. lia.
Qed.

(** *** Constants *)
Lemma zero_component t c d : fty_ok t -> const_ok t c -> fconst_is_zero c = true -> component d (const_value c) = 0.
Proof.
  intros F C Z0. pose proof (const_zero_value t c F C Z0) as H. unfold component.
  destruct (const_value c) as [|x [|y l]] eqn:E; [apply (H d)|apply (H 0%nat)|apply (H d)].
Qed.
Lemma sconst_is_1_ok e c : ety_ok e -> sconst_ok e c ->
  exists b, sconst_is_1 c = FSome b /\ (b = true -> sconst_value c = 1).
Proof.
  intros He Hc. destruct c as [b|w s ws|e']; try (exists false; split; [reflexivity|discriminate]).
  assert (E : e = EInt w s) by (destruct Hc; assumption). subst e. cbn in He.
  destruct (get_sext_ok w s _ He Hc) as (x & Ex & _ & Em & _). unfold sconst_is_1. rewrite Ex. cbn [fbind].
  exists (x =? 1). split; [reflexivity|]. intros E1. apply Z.eqb_eq in E1. subst x.
  rewrite <- Em. apply Z.mod_small. unfold width_ok in He. destruct He as [->|[->|[->| ->]]]; cbn; lia.
Qed.
Lemma all_1_ok e l : ety_ok e -> Forall (sconst_ok e) l ->
  exists b, all_1 l = FSome b /\ (b = true -> Forall (fun c => sconst_value c = 1) l).
Proof.
  intros He. induction 1 as [|c l Hc Hl IH]; cbn [all_1]; [exists true; split; [reflexivity|constructor]|].
  destruct (sconst_is_1_ok e c He Hc) as (b & -> & V). cbn [fbind]. destruct b.
  - destruct IH as (b & -> & V'). exists b. split; [reflexivity|]. intros E. constructor; auto.
  - exists false. split; [reflexivity|discriminate].
Qed.
Lemma is_all_int1_ok t c : fty_ok t -> const_ok t c ->
  exists b, is_all_int1 c = FSome b /\ (b = true -> forall d, (d < dims t)%nat -> component d (const_value c) = 1).
Proof.
  intros F C. assert (He : ety_ok (elem t)) by apply F.
  destruct t as [e|e n], c as [s|e' l|e' n']; cbn in C; try contradiction; cbn [is_all_int1].
  - destruct (sconst_is_1_ok e s He C) as (b & -> & V). exists b. split; [reflexivity|]. intros E d _. cbn. auto.
  - destruct C as (<- & L & Fl). destruct (all_1_ok e l He Fl) as (b & -> & V). exists b. split; [reflexivity|].
    intros E d Hd. cbn [dims] in Hd. specialize (V E). rewrite (component_nth n) by (cbn; rewrite ?map_length; auto).
    cbn [const_value]. rewrite nth_indep with (d' := sconst_value (SCNull EBool)) by (rewrite map_length; lia).
    rewrite map_nth. rewrite Forall_forall in V. apply V. apply nth_In. lia.
  - exists false. split; [reflexivity|discriminate].
Qed.
Lemma null_const_type t : fconst_type (null_const t) = t.
Proof. destruct t; reflexivity. Qed.
Lemma null_const_ok t : const_ok t (null_const t).
Proof. destruct t; cbn; auto. Qed.
Lemma null_const_component t d : component d (const_value (null_const t)) = 0.
Proof.
  assert (R : forall n k, nth k (repeat 0 n) 0 = 0).
  { induction n as [|n IH]; intros [|k]; cbn [repeat nth]; auto. }
  destruct t as [e|e n]; cbn [null_const const_value]; [reflexivity|]. unfold component.
  destruct n as [|[|n]]; [apply R|reflexivity|]. exact (R (S (S n)) d).
Qed.

Section Rules.
Variable m : rmodule.
Hypothesis Hm : rmodule_ok m.

(** Any id with a type. *)
Lemma typed_const x t c : rtype m x = Some t -> rm_const m x = Some c -> fty_ok t /\ const_ok t c.
Proof using Hm.
  unfold rtype. destruct (rm_def m x) as [ix|] eqn:D; [|discriminate]. intros E H. injection E as <-.
  destruct (Hm x ix D) as (F & C & _). auto.
Qed.
Lemma typed_range x t env d : rtype m x = Some t -> rexecution m env -> (d < dims t)%nat ->
  0 <= component d (env x) < 2 ^ ewidth (elem t).
Proof using Hm.
  intros E (V & _) Hd. apply value_ok_component; auto.
  unfold rtype in E. destruct (rm_def m x) as [ix|] eqn:D; [|discriminate]. injection E as <-. apply (Hm x ix D).
Qed.
Lemma opnd_typed t x : opnd m t x -> exists tx, rtype m x = Some tx /\ like t tx.
Proof using Type. auto. Qed.

(** The three shapes of typing of the binary integer instructions. *)
Lemma inst_unsigned i o : rinst_ok m i -> ri_op i = ROp o -> o = FUDiv \/ o = FUMod ->
  exists a b, ri_args i = [a; b] /\ opnd m (ri_type i) a /\ opnd m (ri_type i) b /\
    forall env d v, inst_value m env i d = Some v ->
      component_value o (ewidth (elem (ri_type i)))
        [(ewidth (elem (ri_type i)), component d (env a)); (ewidth (elem (ri_type i)), component d (env b))] = Some v.
Proof using Type.
  intros [_ T] Ho A. destruct (T o Ho) as (ts & F & W).
  assert (G : exists a b, ri_args i = [a; b] /\ opnd m (ri_type i) a /\ opnd m (ri_type i) b).
  { destruct A as [-> | ->];
    (destruct ts as [|ta [|tb [|? ?]]]; try contradiction;
     inversion F as [|a ? l ? Ea F1]; subst; inversion F1 as [|b ? l' ? Eb F2]; subst; inversion F2; subst;
     destruct W as (-> & -> & U);
     assert (II : is_int (ri_type i)) by (unfold is_unsigned, is_int in *; destruct (elem (ri_type i)); auto);
     exists a, b; repeat split; exists (ri_type i); auto using like_refl). }
  destruct G as (a & b & E & Oa & Ob). exists a, b. split; [exact E|]. split; [exact Oa|]. split; [exact Ob|].
  intros env d v. unfold inst_value. rewrite Ho, E. cbn [map].
  rewrite (opnd_width _ _ _ Oa), (opnd_width _ _ _ Ob). auto.
Qed.
Definition shift (o : fop) : Prop := o = FShrL \/ o = FShrA \/ o = FShl.
Lemma shift_typed i o : typed_args m i o -> shift o ->
  exists a b tb, ri_args i = [a; b] /\ opnd m (ri_type i) a /\ rtype m b = Some tb /\ is_int tb /\
    same_shape (ri_type i) tb.
Proof using Type.
  intros (ts & F & W) A.
  destruct A as [-> |[-> | ->]];
    (destruct ts as [|ta [|tb [|? ?]]]; try contradiction;
     inversion F as [|a ? l ? Ea F1]; subst; inversion F1 as [|b ? l' ? Eb F2]; subst; inversion F2; subst;
     destruct W as (L & I & S); exists a, b, tb; repeat split; auto; exists ta; auto).
Qed.
Lemma inst_shift i o : rinst_ok m i -> ri_op i = ROp o -> shift o ->
  exists a b tb, ri_args i = [a; b] /\ opnd m (ri_type i) a /\ rtype m b = Some tb /\ is_int tb /\
    same_shape (ri_type i) tb /\
    forall env d v, inst_value m env i d = Some v ->
      component_value o (ewidth (elem (ri_type i)))
        [(ewidth (elem (ri_type i)), component d (env a)); (ewidth (elem tb), component d (env b))] = Some v.
Proof using Type.
  intros [_ T] Ho A. destruct (shift_typed i o (T o Ho) A) as (a & b & tb & E & Oa & Eb & Ib & Sb).
  exists a, b, tb. repeat split; auto. intros env d v. unfold inst_value. rewrite Ho, E. cbn [map].
  rewrite (opnd_width _ _ _ Oa). unfold width_of. rewrite Eb. auto.
Qed.

(** *** RedundantBinaryOpWithZeroOperand *)
Lemma good_bitcast i x (b : bool) : opnd m (ri_type i) x ->
  (forall env d v, rexecution m env -> (d < dims (ri_type i))%nat -> inst_value m env i d = Some v ->
     v = component d (env x)) ->
  good_new m i (mkRNew (if b then RCopy else RBitcast) [AId x]).
Proof using Type.
  intros O V. destruct b.
  - split; [apply typed_new_copy, argl_id; exact O|]. intros env d v X Hd _ Hv. cbn. f_equal. symmetry. auto.
  - split.
    + destruct O as (tx & E & L). split; [repeat constructor|]. exists [tx]. split; [repeat constructor; exact E|].
      cbn. exact L.
    + intros env d v X Hd _ Hv. cbn. rewrite (opnd_width _ _ _ O), Z.eqb_refl. f_equal. symmetry. auto.
Qed.
Lemma good_redundant_zero i arg k x : nth_error (ri_args i) k = Some x -> opnd m (ri_type i) x ->
  (forall y, nth_error (ri_args i) arg = Some y -> rm_const m y <> None -> rtype m y <> None) ->
  (forall y env d v, nth_error (ri_args i) arg = Some y -> rexecution m env -> (d < dims (ri_type i))%nat ->
     component d (env y) = 0 -> inst_value m env i d = Some v -> v = component d (env x)) ->
  good m i (redundant_zero arg k m i).
Proof using Hm.
  intros Ex Ox T V. unfold redundant_zero, cst. destruct (nth_error (ri_args i) arg) as [y|] eqn:Ey; [|exact I].
  destruct (rm_const m y) as [c|] eqn:Ec; [|exact I]. destruct (fconst_is_zero c) eqn:Z0; [|exact I].
  unfold in_op. rewrite Ex. cbn [fbind good].
  destruct (rtype m y) as [ty|] eqn:Et; [|exfalso; apply (T y eq_refl); congruence].
  destruct (typed_const y ty c Et Ec) as (F & C).
  apply good_bitcast; [exact Ox|]. intros env d v X Hd Hv. apply (V y env d v eq_refl X Hd); [|exact Hv].
  rewrite (const_value_env m env y c X Ec). eapply zero_component; eauto.
Qed.
Lemma opnd_rtype t x : opnd m t x -> rtype m x <> None.
Proof using Type. intros (tx & E & _). congruence. Qed.

Lemma good_zero_right i : rinst_ok m i ->
  ri_op i = ROp FOr \/ ri_op i = ROp FXor \/ ri_op i = ROp FIAdd \/ ri_op i = ROp FISub ->
  good m i (redundant_zero 1 0 m i).
Proof using Hm.
  intros Hi Ho.
  assert (G : exists o, ri_op i = ROp o /\ arith o /\ (o = FOr \/ o = FXor \/ o = FIAdd \/ o = FISub)).
  { destruct Ho as [H|[H|[H|H]]]; eexists; (split; [exact H|]); (split; [exact I|]); auto. }
  clear Ho. destruct G as (o & Ho & A & Hor).
  destruct (inst_binary m i o Hi Ho A) as (a & b & Ea & Oa & Ob & Ia & Ib & II & V).
  apply good_redundant_zero with (x := a); rewrite ?Ea; cbn [nth_error]; auto.
  - intros y [= <-] _. eapply opnd_rtype; eauto.
  - intros y env d v [= <-] X Hd E0 Hv. apply V in Hv. rewrite E0 in Hv.
    pose proof (opnd_range m _ a env d Hm Oa X Hd) as R.
    destruct Hor as [-> |[-> |[-> | ->]]]; cbn in Hv; injection Hv as <-.
    + apply Z.lor_0_r.
    + apply Z.lxor_0_r.
    + rewrite Z.add_0_r. apply Z.mod_small. exact R.
    + rewrite Z.sub_0_r. apply Z.mod_small. exact R.
Qed.
Lemma good_zero_left i : rinst_ok m i ->
  ri_op i = ROp FOr \/ ri_op i = ROp FXor \/ ri_op i = ROp FIAdd -> good m i (redundant_zero 0 1 m i).
Proof using Hm.
  intros Hi Ho.
  assert (G : exists o, ri_op i = ROp o /\ arith o /\ (o = FOr \/ o = FXor \/ o = FIAdd)).
  { destruct Ho as [H|[H|H]]; eexists; (split; [exact H|]); (split; [exact I|]); auto. }
  clear Ho. destruct G as (o & Ho & A & Hor).
  destruct (inst_binary m i o Hi Ho A) as (a & b & Ea & Oa & Ob & Ia & Ib & II & V).
  apply good_redundant_zero with (x := b); rewrite ?Ea; cbn [nth_error]; auto.
  - intros y [= <-] _. eapply opnd_rtype; eauto.
  - intros y env d v [= <-] X Hd E0 Hv. apply V in Hv. rewrite E0 in Hv.
    pose proof (opnd_range m _ b env d Hm Ob X Hd) as R.
    destruct Hor as [-> |[-> | ->]]; cbn in Hv; injection Hv as <-.
    + apply Z.lor_0_l.
    + apply Z.lxor_0_l.
    + rewrite Z.add_0_l. apply Z.mod_small. exact R.
Qed.
Lemma sval_mod w x : 1 < w -> 0 <= x < 2 ^ w -> sval w x mod 2 ^ w = x.
Proof using Type.
  intros Hw Hx. unfold sval. destruct (x <? 2 ^ (w - 1)).
  - apply Z.mod_small. exact Hx.
  - replace (x - 2 ^ w) with (x + (-1) * 2 ^ w) by ring. rewrite Z_mod_plus_full. apply Z.mod_small. exact Hx.
Qed.
Lemma sval_0 w : 1 < w -> sval w 0 = 0.
Proof using Type.
  intros Hw. unfold sval. assert (0 < 2 ^ (w - 1)) by (apply Z.pow_pos_nonneg; lia).
  replace (0 <? 2 ^ (w - 1)) with true by lia. reflexivity.
Qed.
Lemma sval_1 w : 1 < w -> sval w 1 = 1.
Proof using Type.
  intros Hw. unfold sval. assert (1 < 2 ^ (w - 1)) by (apply Z.pow_gt_1; lia).
  replace (1 <? 2 ^ (w - 1)) with true by lia. reflexivity.
Qed.
Lemma opnd_int t x : opnd m t x -> is_int t.
Proof using Type. intros (tx & _ & L). eapply like_int; eauto. Qed.
Lemma good_zero_shift i o : rinst_ok m i -> ri_op i = ROp o -> shift o -> good m i (redundant_zero 1 0 m i).
Proof using Hm.
  intros Hi Ho A. destruct (inst_shift i o Hi Ho A) as (a & b & tb & Ea & Oa & Eb & Ib & Sb & V).
  assert (W1 : 1 < ewidth (elem (ri_type i))).
  { apply int_width_gt; [apply Hi|eapply opnd_int; eauto]. }
  apply good_redundant_zero with (x := a); rewrite ?Ea; cbn [nth_error]; auto.
  - intros y [= <-] _. congruence.
  - intros y env d v [= <-] X Hd E0 Hv. apply V in Hv. rewrite E0 in Hv.
    pose proof (opnd_range m _ a env d Hm Oa X Hd) as R.
    destruct A as [-> |[-> | ->]]; cbn [component_value] in Hv; replace (0 <? ewidth (elem (ri_type i))) with true in Hv by lia;
      injection Hv as <-; rewrite Z.pow_0_r.
    + apply Z.div_1_r.
    + rewrite Z.div_1_r. apply sval_mod; assumption.
    + rewrite Z.mul_1_r. apply Z.mod_small. exact R.
Qed.
Lemma good_zero_shifted i o : rinst_ok m i -> ri_op i = ROp o -> shift o -> good m i (redundant_zero 0 0 m i).
Proof using Hm.
  intros Hi Ho A. destruct (inst_shift i o Hi Ho A) as (a & b & tb & Ea & Oa & Eb & Ib & Sb & V).
  assert (W1 : 1 < ewidth (elem (ri_type i))).
  { apply int_width_gt; [apply Hi|eapply opnd_int; eauto]. }
  apply good_redundant_zero with (x := a); rewrite ?Ea; cbn [nth_error]; auto.
  - intros y [= <-] _. eapply opnd_rtype; eauto.
  - intros y env d v [= <-] X Hd E0 Hv. apply V in Hv. rewrite E0 in Hv |- *.
    destruct A as [-> |[-> | ->]]; cbn [component_value] in Hv;
      destruct (component d (env b) <? ewidth (elem (ri_type i))); try discriminate; injection Hv as <-.
    + apply Zdiv_0_l.
    + rewrite (sval_0 _ W1), Zdiv_0_l. apply Zmod_0_l.
    + rewrite Z.mul_0_l. apply Zmod_0_l.
Qed.
Lemma good_zero_divided i : rinst_ok m i ->
  ri_op i = ROp FSDiv \/ ri_op i = ROp FUDiv \/ ri_op i = ROp FSMod \/ ri_op i = ROp FUMod ->
  good m i (redundant_zero 0 0 m i).
Proof using Hm.
  intros Hi Ho.
  assert (G : exists o a b, (o = FSDiv \/ o = FUDiv \/ o = FSMod \/ o = FUMod) /\ ri_args i = [a; b] /\ opnd m (ri_type i) a /\
    forall env d v, inst_value m env i d = Some v ->
      component_value o (ewidth (elem (ri_type i)))
        [(ewidth (elem (ri_type i)), component d (env a)); (ewidth (elem (ri_type i)), component d (env b))] = Some v).
  { destruct Ho as [H|[H|[H|H]]].
    - destruct (inst_binary m i _ Hi H I) as (a & b & Ea & Oa & Ob & Ia & Ib & II & V). exists FSDiv, a, b. auto 8.
    - destruct (inst_unsigned i _ Hi H (or_introl eq_refl)) as (a & b & Ea & Oa & Ob & V). exists FUDiv, a, b. auto 8.
    - destruct (inst_binary m i _ Hi H I) as (a & b & Ea & Oa & Ob & Ia & Ib & II & V). exists FSMod, a, b. auto 8.
    - destruct (inst_unsigned i _ Hi H (or_intror eq_refl)) as (a & b & Ea & Oa & Ob & V). exists FUMod, a, b. auto 8. }
  destruct G as (o & a & b & Hor & Ea & Oa & V).
  assert (W1 : 1 < ewidth (elem (ri_type i))).
  { apply int_width_gt; [apply Hi|eapply opnd_int; eauto]. }
  apply good_redundant_zero with (x := a); rewrite ?Ea; cbn [nth_error]; auto.
  - intros y [= <-] _. eapply opnd_rtype; eauto.
  - intros y env d v [= <-] X Hd E0 Hv. apply V in Hv. rewrite E0 in Hv |- *.
    destruct Hor as [-> |[-> |[-> | ->]]]; cbn [component_value] in Hv.
    + destruct (division_defined _ _ _); [|discriminate]. injection Hv as <-. rewrite (sval_0 _ W1).
      match goal with |- Z.quot 0 ?y mod _ = _ => change (Z.quot 0 y) with 0 end. apply Zmod_0_l.
    + destruct (component d (env b) =? 0); [discriminate|]. injection Hv as <-. apply Zdiv_0_l.
    + destruct (division_defined _ _ _); [|discriminate]. injection Hv as <-. rewrite (sval_0 _ W1).
      rewrite !Zmod_0_l. reflexivity.
    + destruct (component d (env b) =? 0); [discriminate|]. injection Hv as <-. apply Zmod_0_l.
Qed.

(** *** RedundantSUDiv, RedundantSUMod *)
Lemma division_operands i : rinst_ok m i ->
  ri_op i = ROp FSDiv \/ ri_op i = ROp FUDiv \/ ri_op i = ROp FSMod \/ ri_op i = ROp FUMod ->
  exists o a b, ri_op i = ROp o /\ ri_args i = [a; b] /\ opnd m (ri_type i) a /\ opnd m (ri_type i) b /\
    forall env d v, inst_value m env i d = Some v ->
      component_value o (ewidth (elem (ri_type i)))
        [(ewidth (elem (ri_type i)), component d (env a)); (ewidth (elem (ri_type i)), component d (env b))] = Some v.
Proof using Type.
  intros Hi [H|[H|[H|H]]].
  - destruct (inst_binary m i _ Hi H I) as (a & b & Ea & Oa & Ob & Ia & Ib & II & V). exists FSDiv, a, b. auto 8.
  - destruct (inst_unsigned i _ Hi H (or_introl eq_refl)) as (a & b & Ea & Oa & Ob & V). exists FUDiv, a, b. auto 8.
  - destruct (inst_binary m i _ Hi H I) as (a & b & Ea & Oa & Ob & Ia & Ib & II & V). exists FSMod, a, b. auto 8.
  - destruct (inst_unsigned i _ Hi H (or_intror eq_refl)) as (a & b & Ea & Oa & Ob & V). exists FUMod, a, b. auto 8.
Qed.
Lemma good_redundant_div i : rinst_ok m i -> ri_op i = ROp FSDiv \/ ri_op i = ROp FUDiv -> good m i (redundant_div m i).
Proof using Hm.
  intros Hi Ho. destruct (division_operands i Hi) as (o & a & b & Eo & Ea & Oa & Ob & V); [tauto|].
  assert (W1 : 1 < ewidth (elem (ri_type i))).
  { apply int_width_gt; [apply Hi|eapply opnd_int; eauto]. }
  unfold redundant_div, cst. rewrite Ea. cbn [nth_error]. destruct (rm_const m b) as [c|] eqn:Ec; [|exact I].
  destruct (opnd_const m _ b c Hm Ob Ec) as (tc & Lc & Fc & Cc).
  destruct (is_all_int1_ok tc c Fc Cc) as (one & E1 & V1). rewrite E1. cbn [fbind]. destruct one; [|exact I].
  unfold in_op. rewrite Ea. cbn [nth_error fbind good].
  apply good_bitcast; [exact Oa|]. intros env d v X Hd Hv. apply V in Hv.
  rewrite (const_value_env m env b c X Ec), (V1 eq_refl d) in Hv by (rewrite (like_dims _ _ Lc); exact Hd).
  pose proof (opnd_range m _ a env d Hm Oa X Hd) as R. rewrite Eo in Ho.
  destruct Ho as [H|H]; injection H as ->; cbn [component_value] in Hv.
  - destruct (division_defined _ _ _); [|discriminate]. injection Hv as <-.
    rewrite sval_1, Z.quot_1_r by exact W1. apply sval_mod; assumption.
  - change (1 =? 0) with false in Hv. injection Hv as <-. apply Z.div_1_r.
Qed.
Lemma good_null i : is_int (ri_type i) ->
  (forall env d v, rexecution m env -> (d < dims (ri_type i))%nat -> inst_value m env i d = Some v -> v = 0) ->
  good_new m i (mkRNew RCopy [AConst (null_const (ri_type i))]).
Proof using Type.
  intros II V. split.
  - apply typed_new_copy. eapply argl_const; [apply like_refl; exact II|apply null_const_ok].
  - intros env d v X Hd _ Hv. cbn. rewrite null_const_component. f_equal. symmetry. eauto.
Qed.
Lemma good_redundant_mod i : rinst_ok m i -> ri_op i = ROp FSMod \/ ri_op i = ROp FUMod -> good m i (redundant_mod m i).
Proof using Hm.
  intros Hi Ho. destruct (division_operands i Hi) as (o & a & b & Eo & Ea & Oa & Ob & V); [tauto|].
  assert (W1 : 1 < ewidth (elem (ri_type i))).
  { apply int_width_gt; [apply Hi|eapply opnd_int; eauto]. }
  unfold redundant_mod, cst. rewrite Ea. cbn [nth_error]. destruct (rm_const m b) as [c|] eqn:Ec; [|exact I].
  destruct (opnd_const m _ b c Hm Ob Ec) as (tc & Lc & Fc & Cc).
  destruct (is_all_int1_ok tc c Fc Cc) as (one & E1 & V1). rewrite E1. cbn [fbind]. destruct one; [|exact I].
  apply good_null; [eapply opnd_int; eauto|]. intros env d v X Hd Hv. apply V in Hv.
  rewrite (const_value_env m env b c X Ec), (V1 eq_refl d) in Hv by (rewrite (like_dims _ _ Lc); exact Hd).
  rewrite Eo in Ho. destruct Ho as [H|H]; injection H as ->; cbn [component_value] in Hv.
  - destruct (division_defined _ _ _); [|discriminate]. injection Hv as <-.
    rewrite sval_1, Z.mod_1_r by exact W1. apply Zmod_0_l.
  - change (1 =? 0) with false in Hv. injection Hv as <-. apply Z.mod_1_r.
Qed.

(** *** OpBitwiseAnd *)
Lemma word_pair_ok w s s' a b : wide w -> sconst_ok (EInt w s) a -> sconst_ok (EInt w s') b ->
  word_pair a b = FSome (w, sconst_value a, sconst_value b).
Proof using Type.
  intros Hw Ha Hb. unfold word_pair. rewrite (sconst_ok_type _ _ Ha). destruct Hw as [-> | ->].
  - change (32 =? 32) with true. cbv iota. rewrite (get_u32c_ok _ _ Ha), (get_u32c_ok _ _ Hb). reflexivity.
  - change (64 =? 32) with false. change (64 =? 64) with true. cbv iota.
    rewrite (get_u64c_ok _ _ Ha), (get_u64c_ok _ _ Hb). reflexivity.
Qed.
Lemma constant_pairs_ok t a b : wide (ewidth (elem t)) -> cok t a -> cok t b ->
  exists l, constant_pairs a b = FSome l /\ forall d, (d < dims t)%nat ->
    nth_error l d = Some (ewidth (elem t), component d (const_value a), component d (const_value b)).
Proof using Type.
  intros Hw (ta & La & Fa & Ca) (tb & Lb & Fb & Cb). unfold constant_pairs. rewrite (fconst_type_ok _ _ Ca).
  pose proof (like_dims _ _ La) as Da. pose proof (like_dims _ _ Lb) as Db.
  pose proof (like_width _ _ La) as Wa. pose proof (like_width _ _ Lb) as Wb.
  pose proof (like_int _ _ (like_sym _ _ La)) as Ia. pose proof (like_int _ _ (like_sym _ _ Lb)) as Ib.
  assert (S : same_shape ta tb).
  { eapply same_shape_trans; [apply same_shape_sym; apply La|apply Lb]. }
  unfold is_int in Ia, Ib.
  destruct ta as [ea|ea na], tb as [eb|eb nb]; cbn in S; try contradiction; cbn [elem] in *;
    destruct ea as [|wa sa]; try contradiction; destruct eb as [|wb sb]; try contradiction;
    cbn [ewidth] in Wa, Wb; subst wa wb.
  - destruct a as [x| |]; try contradiction. destruct b as [y| |]; try contradiction. cbn in Ca, Cb.
    rewrite (word_pair_ok _ _ _ x y Hw Ca Cb). cbn [fbind]. eexists. split; [reflexivity|].
    intros d Hd. rewrite <- Da in Hd. cbn [dims] in Hd. replace d with 0%nat by lia. reflexivity.
  - subst nb. destruct (comp_pairs_ok word_pair (fun x y r => r = (ewidth (elem t), sconst_value x, sconst_value y)) a b
      (EInt (ewidth (elem t)) sa) (EInt (ewidth (elem t)) sb) na Ca Cb) with (count := na) (start := 0%nat) as (l & El & Ll & Hl).
    + apply Fa.
    + apply Fb.
    + intros x y Hx Hy. eexists. split; [apply (word_pair_ok _ _ _ x y Hw Hx Hy)|reflexivity].
    + reflexivity.
    + exists l. split; [exact El|]. intros d Hd. rewrite <- Da in Hd. cbn [dims] in Hd.
      destruct (nth_error_in_range l d) as [r Er]; [lia|]. rewrite Er. f_equal.
      destruct (Hl d r Er) as (x & y & Ex & Ey & _ & _ & ->). cbn [Nat.add] in Ex, Ey.
      destruct (component_const _ a d Fa Ca Hd) as (x' & Ex' & _ & ->).
      destruct (component_const _ b d Fb Cb) as (y' & Ey' & _ & ->); [exact Hd|].
      congruence.
Qed.
Lemma forallb_nth {A} (f : A -> bool) l d x : forallb f l = true -> nth_error l d = Some x -> f x = true.
Proof using Type. intros H E. rewrite forallb_forall in H. apply H. eapply nth_error_In. exact E. Qed.

(** The operands of an OpBitwiseAnd with a constant: [p] is the other one. *)
Lemma and_operands i c : rinst_ok m i -> ri_op i = ROp FAnd -> const_input m i = Some c ->
  exists k p, rm_const m k = Some c /\ non_const_input m i = FSome p /\ opnd m (ri_type i) p /\ cok (ri_type i) c /\
    forall env d v, rexecution m env -> inst_value m env i d = Some v ->
      v = Z.land (component d (const_value c)) (component d (env p)).
Proof using Hm.
  intros Hi Ho Ec. destruct (inst_binary m i FAnd Hi Ho I) as (a & b & Ea & Oa & Ob & Ia & Ib & II & V).
  destruct (const_split m i a b c Ea Ec) as [(C0 & Cx & N0 & J)|(C0 & Cx & N0 & J)].
  - exists a, b. split; [assumption|]. split; [assumption|]. split; [assumption|]. split; [eapply (cok_of m Hm); [|exact Cx]; assumption|].
    intros env d v X Hv. apply V in Hv. cbn in Hv. injection Hv as <-. rewrite (const_value_env m env a c X Cx). reflexivity.
  - exists b, a. split; [assumption|]. split; [assumption|]. split; [assumption|]. split; [eapply (cok_of m Hm); [|exact Cx]; assumption|].
    intros env d v X Hv. apply V in Hv. cbn in Hv. injection Hv as <-. rewrite (const_value_env m env b c X Cx). apply Z.land_comm.
Qed.
Lemma new_and_const i x c v env d : opnd m (ri_type i) x -> cok (ri_type i) c ->
  v = Z.land (component d (const_value c)) (component d (env x)) ->
  new_value m env (ri_type i) (mkRNew (ROp FAnd) [AId x; AConst c]) d = Some v.
Proof using Type. intros _ _ ->. cbn. f_equal. apply Z.land_comm. Qed.
Lemma typed_and_const i x c : opnd m (ri_type i) x -> cok (ri_type i) c ->
  new_well_typed false m (ri_type i) (mkRNew (ROp FAnd) [AId x; AConst c]).
Proof using Type. intros O K. apply typed_new_binary; [exact I|apply argl_id; exact O|apply cok_arg; exact K]. Qed.

Lemma good_redundant_and_or_xor i : rinst_ok m i -> ri_op i = ROp FAnd -> good m i (redundant_and_or_xor m i).
Proof using Hm.
  intros Hi Ho. unfold redundant_and_or_xor.
  destruct (inst_binary m i FAnd Hi Ho I) as (_ & _ & _ & _ & _ & _ & _ & II & _).
  apply good_check_width; [exact II|]. intros Hw.
  destruct (const_input m i) as [c1|] eqn:Ec; [|exact I].
  destruct (and_operands i c1 Hi Ho Ec) as (k & p & Ck & N0 & Op & K1 & V). rewrite N0. cbn [fbind].
  destruct (opnd_def m _ p Op) as (other & D & L). unfold get_def. rewrite D. cbn [fbind].
  assert (G : forall (b : bool) o, (o = FOr \/ o = FXor) -> b = rop_is other FOr -> rop_is other o = true -> 
    (b = true -> o = FOr) -> good m i
      match const_input m other with
      | None => FNone
      | Some c2 =>
          dof l <- constant_pairs c1 c2;
          if b && forallb (fun '(_, x, y) => Z.land x y =? x) l
          then FSome (mkRNew RCopy [AConst c1])
          else if forallb (fun '(_, x, y) => Z.land x y =? 0) l
          then dof x <- non_const_input m other; FSome (mkRNew (ROp FAnd) [AId x; AConst c1])
          else FNone
      end).
  { intros b o Hor Eb R Hb. assert (A : arith o) by (destruct Hor as [-> | ->]; exact I).
    destruct (def_binary m _ p other o Hm Op D A R) as (x & y & Ex & Ox & Oy & Vx).
    destruct (const_input m other) as [c2|] eqn:Ec2; [|exact I].
    assert (S : exists z, non_const_input m other = FSome z /\ opnd m (ri_type i) z /\ cok (ri_type i) c2 /\
      forall env d, rexecution m env -> (d < dims (ri_type i))%nat ->
        component d (env p) = if b then Z.lor (component d (env z)) (component d (const_value c2))
                              else (match o with FOr => Z.lor | _ => Z.lxor end) (component d (env z)) (component d (const_value c2))).
    { destruct (const_split m other x y c2 Ex Ec2) as [(C0 & Cx & Nz & J)|(C0 & Cx & Nz & J)].
      - exists y. split; [assumption|]. split; [assumption|]. split; [eapply (cok_of m Hm); [|exact Cx]; assumption|]. intros env d X Hd. specialize (Vx env d X Hd).
        rewrite <- (const_value_env m env x c2 X Cx).
        destruct b; [rewrite (Hb eq_refl) in *|destruct Hor as [-> | ->]]; cbn in Vx; injection Vx as <-;
          first [apply Z.lor_comm|apply Z.lxor_comm].
      - exists x. split; [assumption|]. split; [assumption|]. split; [eapply (cok_of m Hm); [|exact Cx]; assumption|]. intros env d X Hd. specialize (Vx env d X Hd).
        rewrite <- (const_value_env m env y c2 X Cx).
        destruct b; [rewrite (Hb eq_refl) in *|destruct Hor as [-> | ->]]; cbn in Vx; injection Vx as <-; reflexivity. }
    destruct S as (z & Nz & Oz & K2 & Vp).
    destruct (constant_pairs_ok _ c1 c2 Hw K1 K2) as (l & El & Hl). rewrite El. cbn [fbind].
    destruct (b && forallb (fun '(_, x, y) => Z.land x y =? x) l) eqn:B1.
    - apply andb_prop in B1. destruct B1 as [-> B1].
      split; [apply typed_new_copy, cok_arg; exact K1|]. intros env d v X Hd _ Hv. cbn.
      rewrite (V env d v X Hv), (Vp env d X Hd). f_equal.
      pose proof (forallb_nth _ l d _ B1 (Hl d Hd)) as E. cbn in E. apply Z.eqb_eq in E.
      rewrite Z.land_lor_distr_r, E. apply Z.bits_inj'. intros n _. rewrite Z.lor_spec, Z.land_spec.
      destruct (Z.testbit _ n), (Z.testbit _ n); reflexivity.
    - clear B1. destruct (forallb (fun '(_, x, y) => Z.land x y =? 0) l) eqn:B2; [|exact I].
      rewrite Nz. cbn [fbind good]. split; [apply typed_and_const; assumption|].
      intros env d v X Hd _ Hv. apply new_and_const; auto.
      rewrite (V env d v X Hv), (Vp env d X Hd).
      pose proof (forallb_nth _ l d _ B2 (Hl d Hd)) as E. cbn in E. apply Z.eqb_eq in E.
      assert (E1 : Z.land (component d (const_value c1)) (Z.lor (component d (env z)) (component d (const_value c2)))
                 = Z.land (component d (const_value c1)) (component d (env z))).
      { rewrite Z.land_lor_distr_r, E. apply Z.lor_0_r. }
      assert (E2 : Z.land (component d (const_value c1)) (Z.lxor (component d (env z)) (component d (const_value c2)))
                 = Z.land (component d (const_value c1)) (component d (env z))).
      { apply Z.bits_inj'. intros n _. assert (En : Z.testbit (Z.land (component d (const_value c1)) (component d (const_value c2))) n = false)
          by (rewrite E; apply Z.bits_0).
        rewrite !Z.land_spec, Z.lxor_spec in *.
        destruct (Z.testbit (component d (const_value c1)) n), (Z.testbit (component d (const_value c2)) n),
          (Z.testbit (component d (env z)) n); cbn in *; congruence. }
      destruct b; [exact E1|]. destruct Hor as [-> | ->]; assumption. }
  destruct (rop_is other FOr) eqn:R; cbn [orb].
  - apply (G true FOr); auto.
  - destruct (rop_is other FXor) eqn:R'; [|exact I]. apply (G false FXor); auto. discriminate.
Qed.

Lemma good_redundant_and_add_sub i : rinst_ok m i -> ri_op i = ROp FAnd -> good m i (redundant_and_add_sub m i).
Proof using Hm.
  intros Hi Ho. unfold redundant_and_add_sub.
  destruct (inst_binary m i FAnd Hi Ho I) as (_ & _ & _ & _ & _ & _ & _ & II & _).
  apply good_check_width; [exact II|]. intros Hw.
  destruct (const_input m i) as [c1|] eqn:Ec; [|exact I].
  destruct (and_operands i c1 Hi Ho Ec) as (k & p & Ck & N0 & Op & K1 & V). rewrite N0. cbn [fbind].
  destruct (opnd_def m _ p Op) as (other & D & L). unfold get_def. rewrite D. cbn [fbind].
  assert (G : forall z c2, non_const_input m other = FSome z -> opnd m (ri_type i) z -> cok (ri_type i) c2 ->
    (forall env d, rexecution m env -> (d < dims (ri_type i))%nat -> exists s,
       (s = component d (env z) + component d (const_value c2) \/ s = component d (env z) - component d (const_value c2)) /\
       component d (env p) = s mod 2 ^ ewidth (elem (ri_type i))) ->
    good m i (dof l <- constant_pairs c1 c2;
              if forallb (fun '(w, x, y) => x <? lsb w y) l
              then dof x <- non_const_input m other; FSome (mkRNew (ROp FAnd) [AId x; AConst c1])
              else FNone)).
  { intros z c2 Nz Oz K2 Vp. destruct (constant_pairs_ok _ c1 c2 Hw K1 K2) as (l & El & Hl). rewrite El. cbn [fbind].
    destruct (forallb _ l) eqn:B; [|exact I]. rewrite Nz. cbn [fbind good].
    split; [apply typed_and_const; assumption|].
    intros env d v X Hd _ Hv. apply new_and_const; auto. rewrite (V env d v X Hv).
    destruct (Vp env d X Hd) as (s & Hs & ->).
    pose proof (forallb_nth _ l d _ B (Hl d Hd)) as E. cbn in E. apply Z.ltb_lt in E.
    pose proof (cok_range _ c1 d K1 Hd) as R1. pose proof (cok_range _ c2 d K2 Hd) as R2.
    eapply and_add; [|exact R2| |exact Hs]; [destruct Hw as [-> | ->]; lia|lia]. }
  destruct (rop_is other FIAdd) eqn:R; cbn [orb].
  - rewrite (is_other other _ FISub R) by discriminate. cbn [andb].
    destruct (def_binary m _ p other FIAdd Hm Op D I R) as (x & y & Ex & Ox & Oy & Vx).
    destruct (const_input m other) as [c2|] eqn:Ec2; [|exact I].
    destruct (const_split m other x y c2 Ex Ec2) as [(C0 & Cx & Nz & J)|(C0 & Cx & Nz & J)].
    + apply (G y c2); auto; [eapply (cok_of m Hm); [|exact Cx]; assumption|]. intros env d X Hd. specialize (Vx env d X Hd). cbn in Vx. injection Vx as <-.
      rewrite (const_value_env m env x c2 X Cx). eexists. split; [left; reflexivity|]. f_equal. ring.
    + apply (G x c2); auto; [eapply (cok_of m Hm); [|exact Cx]; assumption|]. intros env d X Hd. specialize (Vx env d X Hd). cbn in Vx. injection Vx as <-.
      rewrite (const_value_env m env y c2 X Cx). eexists. split; [left; reflexivity|]. reflexivity.
  - destruct (rop_is other FISub) eqn:R'; [|exact I].
    destruct (def_binary m _ p other FISub Hm Op D I R') as (x & y & Ex & Ox & Oy & Vx).
    destruct (const_input m other) as [c2|] eqn:Ec2; [|exact I].
    destruct (const_split m other x y c2 Ex Ec2) as [(C0 & Cx & Nz & J)|(C0 & Cx & Nz & J)]; rewrite C0; cbn [andb]; [exact I|].
    apply (G x c2); auto; [eapply (cok_of m Hm); [|exact Cx]; assumption|]. intros env d X Hd. specialize (Vx env d X Hd). cbn in Vx. injection Vx as <-.
    rewrite (const_value_env m env y c2 X Cx). eexists. split; [right; reflexivity|]. reflexivity.
Qed.

Lemma land_pow a w : 0 <= w -> Z.land a (2 ^ w - 1) = a mod 2 ^ w.
Proof using Type. intros Hw. rewrite <- Z.land_ones by exact Hw. f_equal. rewrite Z.ones_equiv. lia. Qed.
Definition shifted_out (right : bool) (w mask s : Z) : Prop :=
  0 <= s < w /\ if right then (mask * 2 ^ s) mod 2 ^ w = 0 else mask / 2 ^ s = 0.
Lemma shift_component_ok right w s w' s' a b : width_ok w -> width_ok w' ->
  sconst_ok (EInt w s) a -> sconst_ok (EInt w' s') b ->
  exists r, shift_component right w a b = FSome r /\
    (r = true -> shifted_out right w (sconst_value a) (sconst_value b)).
Proof using Type.
  intros Hw Hw' Ha Hb. unfold shift_component. rewrite (sconst_ok_type _ _ Ha), (sconst_ok_type _ _ Hb).
  destruct (get_zext_ok w s a Hw Ha) as (x & Ex & Rx & Mx & _). destruct (get_zext_ok w' s' b Hw' Hb) as (y & Ey & Ry & My & _).
  rewrite Ex, Ey. cbn [fbind]. pose proof (width_pos w Hw) as Wp. pose proof (width_pos w' Hw') as Wp'.
  destruct (w <=? y) eqn:B; [exists false; split; [reflexivity|discriminate]|].
  eexists. split; [reflexivity|]. intros E. unfold shifted_out.
  assert (Yb : sconst_value b = y).
  { rewrite <- My. apply Z.mod_small. split; [lia|]. assert (2 ^ 8 <= 2 ^ w').
    { apply Z.pow_le_mono_r; [lia|]. unfold width_ok in Hw'. lia. } change (2 ^ 8) with 256 in *. lia. }
  rewrite Yb. split; [lia|]. rewrite !land_pow in E by lia. rewrite Mx in E. destruct right.
  - apply Z.eqb_eq in E. rewrite u64_mod in E by exact Hw. exact E.
  - apply Z.eqb_eq in E.
    pose proof (sconst_value_range (EInt w s) a Hw Ha) as Ra. cbn [ewidth] in Ra.
    assert (P : 0 < 2 ^ y) by (apply Z.pow_pos_nonneg; lia).
    rewrite Z.mod_small in E; [exact E|]. split; [apply Z.div_pos; lia|].
    apply Z.div_lt_upper_bound; [lia|]. nia.
Qed.
Lemma shift_components_ok right w s w' s' : width_ok w -> width_ok w' -> forall la lb,
  Forall (sconst_ok (EInt w s)) la -> Forall (sconst_ok (EInt w' s')) lb -> length lb = length la ->
  exists r, shift_components right w la lb (length la) = FSome r /\
    (r = true -> forall d x y, nth_error la d = Some x -> nth_error lb d = Some y ->
       shifted_out right w (sconst_value x) (sconst_value y)).
Proof using Type.
  intros Hw Hw'. induction la as [|a la IH]; intros [|b lb] Fa Fb Hl; try discriminate.
  - exists true. split; [reflexivity|]. intros _ [|d] x y; discriminate.
  - inversion Fa; subst. inversion Fb; subst. cbn [length shift_components].
    destruct (shift_component_ok right w s w' s' a b) as (r & Er & Hr); auto. rewrite Er. cbn [fbind].
    destruct r; [|exists false; split; [reflexivity|discriminate]].
    destruct (IH lb) as (r' & Er' & Hr'); auto. rewrite Er'. exists r'. split; [reflexivity|].
    intros E [|d] x y; cbn [nth_error].
    + intros [= <-] [= <-]. auto.
    + apply Hr'. exact E.
Qed.
Lemma def_shift t x ix o : opnd m t x -> rm_def m x = Some ix -> shift o -> rop_is ix o = true ->
  exists y s ts, ri_args ix = [y; s] /\ opnd m t y /\ rtype m s = Some ts /\ is_int ts /\ same_shape t ts /\
    forall env d, rexecution m env -> (d < dims t)%nat ->
      component_value o (ewidth (elem t)) [(ewidth (elem t), component d (env y)); (ewidth (elem ts), component d (env s))]
      = Some (component d (env x)).
Proof using Hm.
  intros O D Ho R. apply rop_is_eq in R. destruct (Hm x ix D) as (_ & _ & T).
  destruct (shift_typed ix o (T o R) Ho) as (y & s & ts & E & Oy & Es & Is & Ss).
  destruct (opnd_def m t x O) as (ix' & D' & L). rewrite D in D'. injection D' as <-.
  assert (Oy' := opnd_like _ _ _ _ L Oy).
  exists y, s, ts. repeat split; auto.
  - eapply same_shape_trans; [apply L|exact Ss].
  - intros env d (_ & _ & X) Hd. specialize (X x ix o d D R). rewrite (like_dims _ _ L) in X. specialize (X Hd).
    unfold inst_value in X. rewrite R, E in X. cbn [map] in X.
    rewrite (opnd_width _ _ _ Oy'), (like_width _ _ L) in X. unfold width_of in X. rewrite Es in X. exact X.
Qed.

Lemma good_redundant_and_shift i : rinst_ok m i -> ri_op i = ROp FAnd -> good m i (redundant_and_shift m i).
Proof using Hm.
  intros Hi Ho. unfold redundant_and_shift.
  destruct (inst_binary m i FAnd Hi Ho I) as (_ & _ & _ & _ & _ & _ & _ & II & _).
  assert (EW : element_width (ri_type i) = FSome (ewidth (elem (ri_type i)))).
  { unfold element_width. change (element (ri_type i)) with (elem (ri_type i)).
    unfold is_int in II. destruct (elem (ri_type i)); [contradiction|reflexivity]. }
  rewrite EW. cbn [fbind].
  destruct (negb _); [exact I|].
  destruct (const_input m i) as [c1|] eqn:Ec; [|exact I].
  destruct (and_operands i c1 Hi Ho Ec) as (k & p & Ck & N0 & Op & K1 & V). rewrite N0. cbn [fbind].
  destruct (opnd_def m _ p Op) as (other & D & L). unfold get_def. rewrite D. cbn [fbind]. cbv zeta.
  destruct (negb (rop_is other FShl || rop_is other FShrL)) eqn:RR; [exact I|].
  apply negb_false_iff in RR.
  assert (So : exists o, shift o /\ rop_is other o = true /\ o = (if rop_is other FShrL then FShrL else FShl)).
  { destruct (rop_is other FShrL) eqn:R.
    - exists FShrL. unfold shift. auto.
    - exists FShl. rewrite orb_false_r in RR. unfold shift. auto. }
  destruct So as (o & So & R & Eo).
  destruct (def_shift _ p other o Op D So R) as (x & s & ts & Ex & Ox & Es & Is & Ss & Vp).
  destruct (cst m other 0); [exact I|]. destruct (cst m other 1) as [c2|] eqn:Ec2; [|exact I].
  unfold cst in Ec2. rewrite Ex in Ec2. cbn [nth_error] in Ec2.
  destruct (typed_const s ts c2 Es Ec2) as (F2 & C2).
  destruct K1 as (t1 & L1 & F1 & C1).
  pose proof (like_int _ _ (like_sym _ _ L1)) as I1. pose proof (like_width _ _ L1) as W1.
  pose proof (like_dims _ _ L1) as D1. pose proof (same_shape_dims _ _ Ss) as D2.
  assert (S1 : same_shape (ri_type i) t1) by apply L1.
  set (right := rop_is other FShrL) in *. set (w := ewidth (elem (ri_type i))) in *.
  assert (G : exists r, match ri_type i with
            | TVector _ n =>
                match fconst_type c2 with
                | TVector _ n' =>
                    if Nat.eqb n' n then
                      dof l <- vector_components c1; dof l' <- vector_components c2;
                      shift_components right w l l' n
                    else FSome false
                | TScalar _ => FSome false
                end
            | TScalar _ =>
                match c1, c2 with
                | CScalar x, CScalar y => shift_component right w x y
                | _, _ => FSome false
                end
            end = FSome r /\ (r = true -> forall d, (d < dims (ri_type i))%nat ->
              shifted_out right w (component d (const_value c1)) (component d (const_value c2)))).
  { rewrite (fconst_type_ok _ _ C2). unfold is_int in I1, Is. clearbody w.
    assert (E1 : ety_ok (elem t1)) by apply F1. assert (E2 : ety_ok (elem ts)) by apply F2.
    destruct (const_ok_comps t1 c1 C1) as (H1 & _ & G1). destruct (const_ok_comps ts c2 C2) as (H2 & _ & G2).
    destruct (elem t1) as [|w1 s1] eqn:T1; [contradiction|]. destruct (elem ts) as [|w2 s2] eqn:T2; [contradiction|].
    cbn [ewidth] in W1. subst w1. cbn [ety_ok] in E1, E2.
    destruct (ri_type i) as [e|e n]; destruct t1 as [e1|e1 n1]; cbn in S1; try contradiction;
      destruct ts as [e2|e2 n2]; cbn in Ss; try contradiction.
    - destruct c1 as [a| |]; try contradiction. destruct c2 as [b| |]; try contradiction. cbn in T1, T2, C1, C2. subst e1 e2.
      destruct (shift_component_ok right w s1 w2 s2 a b E1 E2 C1 C2) as (r & Er & Hr). exists r. split; [exact Er|].
      intros E d _. cbn. auto.
    - subst n1 n2. rewrite Nat.eqb_refl. rewrite (vector_components_comps _ _ _ H1), (vector_components_comps _ _ _ H2). cbn [fbind].
      pose proof (shaped_length _ _ H1) as Le1. pose proof (shaped_length _ _ H2) as Le2. cbn [dims] in *.
      destruct (shift_components_ok right w s1 w2 s2 E1 E2 (comps c1) (comps c2) G1 G2) as (r & Er & Hr); [congruence|].
      rewrite Le1 in Er. exists r. split; [exact Er|]. intros E d Hd.
      destruct (component_const _ c1 d F1 C1) as (a & Ea & _ & ->); [exact Hd|].
      destruct (component_const _ c2 d F2 C2) as (b & Eb & _ & ->); [exact Hd|]. eapply Hr; eauto. }
  destruct G as (r & Er & Hr). rewrite Er. cbn [fbind]. destruct r; [|exact I].
  apply good_null; [exact II|]. intros env d v X Hd Hv.
  rewrite (V env d v X Hv). specialize (Vp env d X Hd). destruct (Hr eq_refl d Hd) as (Hs & Hz).
  rewrite (const_value_env m env s c2 X Ec2) in Vp.
  assert (R1 : 0 <= component d (const_value c1) < 2 ^ w).
  { apply (cok_range (ri_type i)); [|exact Hd]. exists t1. auto. }
  pose proof (opnd_range m _ x env d Hm Ox X Hd) as Rx. fold w in Rx.
  subst o. destruct right; cbn [component_value] in Vp;
    replace (component d (const_value c2) <? w) with true in Vp by lia; injection Vp as <-.
  - apply (and_shr w); assumption.
  - apply and_shl; assumption.
Qed.
End Rules.
