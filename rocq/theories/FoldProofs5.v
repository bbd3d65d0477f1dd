(** Proofs about the model of constant folding: word operations and the whole function. *)
From Verif Require Import Base Fold FoldSpec FoldProofs FoldProofs2 FoldProofs3 FoldProofs4.
Local Open Scope Z_scope.

Lemma mod_small_bits x w n : 0 <= x < 2 ^ w -> 0 <= w -> w <= n -> Z.testbit x n = false.
Proof.
  intros H Hw Hn. rewrite <- (Z.mod_small x (2 ^ w)) by lia. apply Z.mod_pow2_bits_high. lia.
Qed.
Lemma bitwise_mod (f : Z -> Z -> Z) (g : bool -> bool -> bool) w a b :
  (forall x y n, Z.testbit (f x y) n = g (Z.testbit x n) (Z.testbit y n)) -> g false false = false ->
  0 <= w -> 0 <= a < 2 ^ w -> 0 <= b < 2 ^ w -> f a b mod 2 ^ w = f a b.
Proof.
  intros Hf Hg Hw Ha Hb. apply Z.bits_inj'. intros n Hn. destruct (Z_lt_le_dec n w) as [L|L].
  - apply Z.mod_pow2_bits_low. lia.
  - rewrite Z.mod_pow2_bits_high by lia. rewrite Hf.
    rewrite (mod_small_bits a w n), (mod_small_bits b w n) by lia. auto.
Qed.

Lemma z2b_b2z b : z2b (b2z b) = b.
Proof. destruct b; reflexivity. Qed.
Lemma z2b_bit a : 0 <= a < 2 -> z2b a = (a =? 1).
Proof. unfold z2b. intros H. destruct (a =? 0) eqn:E, (a =? 1) eqn:F; cbn; lia. Qed.
Lemma s32_sval x : s32 x = sval 32 x.
Proof. reflexivity. Qed.
Lemma bool_value u : sconst_value (mk_scalar EBool u) = if z2b u then 1 else 0.
Proof. reflexivity. Qed.
Lemma int_value s u : sconst_value (mk_scalar (EInt 32 s) u) = u mod 2 ^ 32.
Proof. reflexivity. Qed.
Lemma bool_of b : (if z2b (b2z b) then 1 else 0) = if b then 1 else 0.
Proof. destruct b; reflexivity. Qed.

Lemma foldable_int e w s : foldable_scalar_ety e = true -> e = EInt w s -> w = 32.
Proof. intros H ->. cbn in H. lia. Qed.

Definition typed_values (ts : list fty) (vs : list Z) : Prop :=
  Forall2 (fun t v => 0 <= v < 2 ^ ewidth (elem t)) ts vs.

Ltac tv_inv H :=
  repeat match type of H with
  | Forall2 _ (_ :: _) ?l => let x := fresh "u" in let T := fresh "R" in let H' := fresh "H" in
      inversion H as [|? x ? ? T H']; subst; clear H; rename H' into H
  | Forall2 _ [] ?l => inversion H; subst; clear H
  end.

Ltac like_facts :=
  repeat match goal with
  | L : like ?r ?t |- _ =>
      let w := fresh "w" in let s := fresh "s" in let s' := fresh "s'" in
      let E := fresh "Er" in let E' := fresh "Ea" in
      destruct (like_inv _ _ L) as (w & s & s' & E & E' & _); clear L
  | L : is_int ?r |- _ =>
      let w := fresh "w" in let s := fresh "s" in let E := fresh "Ei" in
      destruct (is_int_inv _ L) as (w & s & E); clear L
  end.
(** Replace the element types by what is known about them. *)
Ltac elem_facts :=
  repeat match goal with
  | F : foldable_scalar_ety (elem ?t) = true, E : elem ?t = EInt ?w ?s |- _ =>
      is_var w; let K := fresh in pose proof (foldable_int _ _ _ F E) as K; subst w
  end.

Lemma operate_words_right o r ts vs u v :
  well_typed o r ts -> foldable_scalar_ety (elem r) = true ->
  Forall (fun t => foldable_scalar_ety (elem t) = true) ts ->
  typed_values ts vs ->
  operate_words o vs = FSome u ->
  component_value o (ewidth (elem r)) (combine (map (fun t => ewidth (elem t)) ts) vs) = Some v ->
  sconst_value (mk_scalar (elem r) u) = v.
Proof.
  intros Wt Fr Fts Tv E V. unfold typed_values in Tv.
  assert (P32 : 0 <= 32) by lia.
  destruct o; try contradiction;
    (destruct ts as [|t1 [|t2 [|t3 [|t4 ts]]]]; try contradiction); cbn [well_typed] in Wt;
    tv_inv Tv; cbn [operate_words unary_operate binary_operate ternary_operate] in E; try discriminate;
    injection E as <-; cbn [combine map component_value] in V;
    repeat match goal with F : Forall _ (_ :: _) |- _ => apply Forall_cons_iff in F; destruct F end;
    repeat match goal with W : _ /\ _ |- _ => destruct W end; subst;
    like_facts; elem_facts;
    repeat match goal with
    | H : is_bool ?t |- _ => unfold is_bool in H
    | H : elem ?t = _ |- _ => rewrite H in *; clear H
    end;
    cbn [ewidth] in *; try rewrite int_value; try rewrite bool_value; try rewrite bool_of.
  all: try (injection V as <-).
  - unfold s32, u32. powers. ifs; lia.
  - destruct (u1 <? 32) eqn:B; [|discriminate]. injection V as <-.
    replace (32 <=? u1) with false by lia. apply Z.mod_small.
    assert (0 < 2 ^ u1) by (apply Z.pow_pos_nonneg; lia).
    split; [apply Z.div_pos; lia|]. apply Z.div_lt_upper_bound; [lia|]. nia.
  - destruct (u1 <? 32) eqn:B; [|discriminate]. injection V as <-.
    replace (32 <? u1) with false by lia. replace (u1 =? 32) with false by lia.
    unfold u32. rewrite Zmod_mod. reflexivity.
  - destruct (u1 <? 32) eqn:B; [|discriminate]. injection V as <-.
    replace (32 <=? u1) with false by lia. unfold u32. rewrite Zmod_mod. reflexivity.
  - apply (bitwise_mod Z.lor orb); auto using Z.lor_spec.
  - apply (bitwise_mod Z.land andb); auto using Z.land_spec.
  - apply (bitwise_mod Z.lxor xorb); auto using Z.lxor_spec.
  - apply Z.mod_small. lia.
  - rewrite !z2b_bit by lia. destruct (u0 =? 1) eqn:A, (u1 =? 1) eqn:B, (u0 =? u1) eqn:C; cbn; lia.
  - rewrite !z2b_bit by lia. destruct (u0 =? 1) eqn:A, (u1 =? 1) eqn:B, (u0 =? u1) eqn:C; cbn; lia.
  - rewrite !z2b_bit by lia. destruct (u0 =? 1) eqn:A, (u1 =? 1) eqn:B; cbn; lia.
  - rewrite !z2b_bit by lia. destruct (u0 =? 1) eqn:A, (u1 =? 1) eqn:B; cbn; lia.
  - rewrite !z2b_bit by lia. destruct (u0 =? 1) eqn:A; cbn; lia.
  - reflexivity.
  - destruct (u0 =? u1); reflexivity.
  - reflexivity.
  - reflexivity.
  - reflexivity.
  - reflexivity.
  - reflexivity.
  - reflexivity.
  - reflexivity.
  - reflexivity.
  - assert (G : forall x, 0 <= x < 2 ^ ewidth (elem r) -> sconst_value (mk_scalar (elem r) x) = x).
    { intros x Hx. destruct (elem r) as [|w s].
      - cbn in Hx. rewrite bool_value, z2b_bit by lia. destruct (x =? 1) eqn:B; lia.
      - cbn in Fr. assert (w = 32) by lia. subst w. rewrite int_value. apply Z.mod_small. exact Hx. }
    unfold z2b. destruct (u0 =? 0); cbn [negb]; apply G; lia.
  - unfold sval. powers. ifs; lia.
  - reflexivity.
Qed.

Lemma some_inj {A} (a b : A) : Some a = Some b -> a = b.
Proof. congruence. Qed.

(** *** Partially constant operands *)
Definition known_as (k : option fconst) (e : ety) (v : Z) : Prop :=
  match k with Some c => exists s, c = CScalar s /\ sconst_ok e s /\ sconst_value s = v | None => True end.

Lemma int_words_known k s v ws : known_as k (EInt 32 s) v -> 0 <= v < 2 ^ 32 -> int_words k = Some ws -> ws = [v].
Proof.
  intros K R E. destruct k as [[c| |]|]; try discriminate. destruct c as [|w' s' l|]; try discriminate.
  cbn in E. injection E as ->. destruct K as (c & Ec & Ok & V). injection Ec as <-.
  cbn in Ok. destruct Ok as (Ee & v' & Rv & ->). injection Ee as <- <-.
  rewrite value_of_encode in V; [|right; right; left; reflexivity|exact Rv]. subst v'.
  unfold encode. cbn [Z.leb Z.compare Pos.compare Pos.compare_cont]. rewrite Z.sub_diag, Z.add_0_r. ifs; reflexivity.
Qed.
Lemma words_zero_known k s v : known_as k (EInt 32 s) v -> 0 <= v < 2 ^ 32 -> words_zero (int_words k) = true -> v = 0.
Proof.
  intros K R Z0. destruct (int_words k) as [ws|] eqn:E; [|discriminate].
  rewrite (int_words_known k s v ws K R E) in Z0. cbn in Z0. lia.
Qed.
Lemma test_u32_known p k s v : known_as k (EInt 32 s) v -> 0 <= v < 2 ^ 32 ->
  words_test get_u32_words p (int_words k) = FSome true -> p v = true.
Proof.
  intros K R T. destruct (int_words k) as [ws|] eqn:E; [|discriminate].
  rewrite (int_words_known k s v ws K R E) in T. cbn in T. congruence.
Qed.
Lemma test_s32_known p k s v : known_as k (EInt 32 s) v -> 0 <= v < 2 ^ 32 ->
  words_test get_s32_words p (int_words k) = FSome true -> p (sval 32 v) = true.
Proof.
  intros K R T. destruct (int_words k) as [ws|] eqn:E; [|discriminate].
  rewrite (int_words_known k s v ws K R E) in T. cbn in T. rewrite <- s32_sval. congruence.
Qed.
Lemma either_inv t0 t1 x u : either t0 t1 x = FSome u -> u = x /\ (t0 = FSome true \/ t1 = FSome true).
Proof.
  unfold either. destruct t0 as [| |[]]; try discriminate; cbn [fbind].
  - intros E. injection E as <-. auto.
  - destruct t1 as [| |[]]; try discriminate; cbn [fbind]. intros E. injection E as <-. auto.
Qed.
Lemma sval_bounds v : 0 <= v < 2 ^ 32 -> - 2 ^ 31 <= sval 32 v <= 2 ^ 31 - 1.
Proof. unfold sval. powers. ifs; lia. Qed.

Lemma lor_all_ones a : 0 <= a < 2 ^ 32 -> Z.lor a (2 ^ 32 - 1) = 2 ^ 32 - 1 /\ Z.lor (2 ^ 32 - 1) a = 2 ^ 32 - 1.
Proof.
  intros H. assert (G : Z.lor a (2 ^ 32 - 1) = 2 ^ 32 - 1).
  { change (2 ^ 32 - 1) with (Z.ones 32). apply Z.bits_inj'. intros n Hn. rewrite Z.lor_spec.
    destruct (Z_lt_le_dec n 32) as [L|L].
    - rewrite Z.ones_spec_low by lia. apply orb_true_r.
    - rewrite Z.ones_spec_high by lia. rewrite (mod_small_bits a 32 n) by lia. reflexivity. }
  split; [exact G|]. rewrite Z.lor_comm. exact G.
Qed.

Lemma known_bool k v b : known_as k EBool v -> bool_const k = Some b -> v = if b then 1 else 0.
Proof.
  intros K E. destruct k as [[c| |]|]; try discriminate. destruct c as [b'| |]; try discriminate.
  cbn in E. injection E as ->. destruct K as (c & Ec & _ & V). injection Ec as <-. symmetry. exact V.
Qed.

Lemma sval_0 : sval 32 0 = 0.
Proof. reflexivity. Qed.
Lemma division_by_0 w a : division_defined w a 0 = false.
Proof. reflexivity. Qed.
Lemma integer_op_right o r t0 t1 k0 k1 v0 v1 u v :
  well_typed o r [t0; t1] -> foldable_scalar_ety (elem r) = true ->
  Forall (fun t => foldable_scalar_ety (elem t) = true) [t0; t1] ->
  typed_values [t0; t1] [v0; v1] ->
  known_as k0 (elem t0) v0 -> known_as k1 (elem t1) v1 ->
  fold_integer_op o [k0; k1] = FSome u ->
  component_value o (ewidth (elem r)) [(ewidth (elem t0), v0); (ewidth (elem t1), v1)] = Some v ->
  ~ known_deviation o (type_signed r)
      [(ewidth (elem t0), type_signed t0, v0); (ewidth (elem t1), type_signed t1, v1)] ->
  sconst_value (mk_scalar (elem r) u) = v.
Proof.
  intros Wt Fr Fts Tv K0 K1 E V Nd. unfold typed_values in Tv.
  unfold fold_integer_op in E.
  assert (B : fold_binary_boolean o k0 k1 = FSome u -> o = FLogOr \/ o = FLogAnd).
  { destruct o; try discriminate; auto. }
  assert (E' : fold_binary_integer o k0 k1 = FSome u \/ (o = FLogOr \/ o = FLogAnd) /\ fold_binary_boolean o k0 k1 = FSome u).
  { destruct (fold_binary_integer o k0 k1) as [| |u'] eqn:I; cbn [forelse] in E; auto. }
  clear E B. destruct E' as [E|(Ho & E)].
  - unfold fold_binary_integer in E. cbv zeta in E.
    destruct o; try discriminate; cbn [well_typed] in Wt;
    tv_inv Tv; cbn [component_value] in V;
    repeat match goal with F : Forall _ (_ :: _) |- _ => apply Forall_cons_iff in F; destruct F end;
    repeat match goal with W : _ /\ _ |- _ => destruct W end; subst;
    like_facts; elem_facts;
    repeat match goal with
    | H : is_bool ?t |- _ => unfold is_bool in H
    | H : is_unsigned ?t |- _ => destruct (is_unsigned_inv _ H) as (? & ?); clear H
    end; elem_facts;
    repeat match goal with
    | H : elem ?t = _ |- _ => rewrite H in *; clear H
    end;
    cbn [ewidth] in *; try rewrite int_value; try rewrite bool_value.
    all: repeat match goal with
    | H : either _ _ _ = FSome _ |- _ => apply either_inv in H; destruct H as (-> & [H|H])
    | H : (if _ || _ then _ else _) = FSome _ |- _ =>
        destruct (words_zero (int_words k0)) eqn:?; cbn [orb] in H;
        [|destruct (words_zero (int_words k1)) eqn:?; [|discriminate H]];
        injection H as <-
    end.
    all: repeat match goal with
    | K : known_as ?k (EInt 32 ?s) ?v, Z0 : words_zero (int_words ?k) = true |- _ =>
        apply (words_zero_known k s v K) in Z0; [|split; assumption]; subst v
    | T : FSome (words_zero (int_words ?k)) = FSome true |- _ => injection T as T
    | K : known_as ?k (EInt 32 ?s) ?v, T : words_test get_u32_words _ (int_words ?k) = FSome true |- _ =>
        apply (test_u32_known _ k s v K) in T; [|split; assumption]; apply Z.eqb_eq in T; try subst v
    | K : known_as ?k (EInt 32 ?s) ?v, T : words_test get_s32_words _ (int_words ?k) = FSome true |- _ =>
        apply (test_s32_known _ k s v K) in T; [|split; assumption]; apply Z.eqb_eq in T
    end.
    all: try match type of V with Some _ = Some _ => apply some_inj in V; rewrite <- V; clear V v end.
    + rewrite Z.mul_0_l. reflexivity.
    + rewrite Z.mul_0_r. reflexivity.
    + destruct (v1 =? 0); [discriminate|]. apply some_inj in V. rewrite <- V, Zdiv_0_l. reflexivity.
    + discriminate.
    + destruct (division_defined 32 0 v1); [|discriminate]. apply some_inj in V. rewrite <- V.
      rewrite sval_0. destruct (Z.eq_dec (sval 32 v1) 0) as [Q|Q]; [rewrite Q|rewrite Z.quot_0_l by exact Q]; reflexivity.
    + rewrite division_by_0 in V. discriminate.
    + destruct (v1 =? 0); [discriminate|]. apply some_inj in V. rewrite <- V, Zmod_0_l. reflexivity.
    + discriminate.
    + destruct (division_defined 32 0 v1); [|discriminate]. apply some_inj in V. rewrite <- V.
      rewrite sval_0. destruct (Z.eq_dec (sval 32 v1) 0) as [Q|Q]; [rewrite Q|rewrite Z.rem_0_l by exact Q]; reflexivity.
    + rewrite division_by_0 in V. discriminate.
    + destruct (division_defined 32 0 v1); [|discriminate]. apply some_inj in V. rewrite <- V.
      rewrite sval_0, (Zmod_0_l (sval 32 v1)). reflexivity.
    + rewrite division_by_0 in V. discriminate.
    + destruct (words_test _ _ _) as [| |[]] eqn:T; try discriminate. cbn [fbind] in E. injection E as <-.
      apply (test_u32_known _ k1 _ v1 K1) in T; [|split; assumption]. replace (v1 <? 32) with false in V by lia. discriminate.
    + destruct (words_test _ _ _) as [| |[]] eqn:T; try discriminate. cbn [fbind] in E. injection E as <-.
      apply (test_u32_known _ k1 _ v1 K1) in T; [|split; assumption]. replace (v1 <? 32) with false in V by lia. discriminate.
    + rewrite (proj2 (lor_all_ones v1 (conj H2 H3))). reflexivity.
    + rewrite (proj1 (lor_all_ones v0 (conj H4 H5))). reflexivity.
    + rewrite Z.land_0_l. reflexivity.
    + rewrite Z.land_0_r. reflexivity.
    + change (z2b 0) with false. cbv iota. ifs; lia.
    + change (z2b 0) with false. cbv iota. ifs; lia.
    + change (z2b 0) with false. cbv iota. pose proof (sval_bounds v1 (conj H2 H3)). ifs; lia.
    + change (z2b 0) with false. cbv iota. pose proof (sval_bounds v0 (conj H4 H5)). ifs; lia.
    + change (z2b 0) with false. cbv iota. ifs; lia.
    + change (z2b 0) with false. cbv iota. ifs; lia.
    + change (z2b 0) with false. cbv iota. pose proof (sval_bounds v1 (conj H2 H3)). ifs; lia.
    + change (z2b 0) with false. cbv iota. pose proof (sval_bounds v0 (conj H4 H5)). ifs; lia.
    + change (z2b 1) with true. cbv iota. ifs; lia.
    + change (z2b 1) with true. cbv iota. ifs; lia.
    + change (z2b 1) with true. cbv iota. pose proof (sval_bounds v1 (conj H2 H3)). ifs; lia.
    + change (z2b 1) with true. cbv iota. pose proof (sval_bounds v0 (conj H4 H5)). ifs; lia.
    + change (z2b 1) with true. cbv iota. ifs; lia.
    + change (z2b 1) with true. cbv iota. ifs; lia.
    + change (z2b 1) with true. cbv iota. pose proof (sval_bounds v1 (conj H2 H3)). ifs; lia.
    + change (z2b 1) with true. cbv iota. pose proof (sval_bounds v0 (conj H4 H5)). ifs; lia.
  - destruct Ho as [-> | ->]; cbn [well_typed] in Wt; destruct Wt as (-> & -> & Hb); unfold is_bool in Hb;
      rewrite Hb in *; cbn [ewidth component_value] in *; apply some_inj in V; rewrite <- V; clear V v;
      tv_inv Tv; change (2 ^ 1) with 2 in *; unfold fold_binary_boolean in E.
    + assert (v0 = 1 \/ v1 = 1).
      { destruct (bool_const k0) as [b0|] eqn:B0.
        - pose proof (known_bool k0 v0 b0 K0 B0). destruct b0; [auto|]. cbn [Bool.eqb orb] in E.
          destruct (bool_const k1) as [b1|] eqn:B1; [|discriminate].
          pose proof (known_bool k1 v1 b1 K1 B1). destruct b1; [auto|discriminate].
        - cbn [orb] in E. destruct (bool_const k1) as [b1|] eqn:B1; [|discriminate].
          pose proof (known_bool k1 v1 b1 K1 B1). destruct b1; [auto|discriminate]. }
      destruct (_ || _); [|discriminate]. injection E as <-. rewrite bool_value. change (z2b 1) with true. cbv iota. rewrite Hb in *. cbn [ewidth] in *. change (2 ^ 1) with 2 in *. lia.
    + assert (v0 = 0 \/ v1 = 0).
      { destruct (bool_const k0) as [b0|] eqn:B0.
        - pose proof (known_bool k0 v0 b0 K0 B0). destruct b0; [|auto]. cbn [Bool.eqb orb] in E.
          destruct (bool_const k1) as [b1|] eqn:B1; [|discriminate].
          pose proof (known_bool k1 v1 b1 K1 B1). destruct b1; [discriminate|auto].
        - cbn [orb] in E. destruct (bool_const k1) as [b1|] eqn:B1; [|discriminate].
          pose proof (known_bool k1 v1 b1 K1 B1). destruct b1; [discriminate|auto]. }
      destruct (_ || _); [|discriminate]. injection E as <-. rewrite bool_value. change (z2b 0) with false. cbv iota. rewrite Hb in *. cbn [ewidth] in *. change (2 ^ 1) with 2 in *. lia.
Qed.
