(** Proofs about the rewriting rules: arithmetic. *)
From Verif Require Import Base Fold FoldSpec FoldProofs FoldProofs2 FoldRules FoldRulesSpec FoldRulesProofs.
Local Open Scope Z_scope.

(** A rule application is good when it fails no assertion, and the rewritten instruction is well
    typed and has the value of the original one. *)
Definition good_new (m : rmodule) (i : rinst) (n : rnew) : Prop :=
  new_well_typed false m (ri_type i) n /\
  forall env d v, rexecution m env -> (d < dims (ri_type i))%nat -> ~ rule_deviation m env i d ->
    inst_value m env i d = Some v -> new_value m env (ri_type i) n d = Some v.
Definition good (m : rmodule) (i : rinst) (r : fres rnew) : Prop :=
  match r with FNone => True | FBad => False | FSome n => good_new m i n end.

Lemma good_forelse m i r s : good m i r -> good m i s -> good m i (forelse r s).
Proof. destruct r; cbn; auto. Qed.

(** *** Types *)
Lemma like_refl t : is_int t -> like t t.
Proof. intros H. repeat split; auto. apply same_shape_refl. Qed.
Lemma same_shape_trans a b c : same_shape a b -> same_shape b c -> same_shape a c.
Proof. destruct a, b, c; cbn; try contradiction; auto. congruence. Qed.
Lemma same_shape_sym a b : same_shape a b -> same_shape b a.
Proof. destruct a, b; cbn; auto. Qed.
Lemma like_trans a b c : like a b -> like b c -> like a c.
Proof.
  intros (A & B & C & D) (A' & B' & C' & D'). repeat split; auto.
  - eapply same_shape_trans; eauto.
  - congruence.
Qed.
Lemma like_sym a b : like a b -> like b a.
Proof. intros (A & B & C & D). repeat split; auto. apply same_shape_sym. exact C. Qed.
Lemma like_dims a b : like a b -> dims b = dims a.
Proof. intros (_ & _ & C & _). apply same_shape_dims. exact C. Qed.
Lemma like_width a b : like a b -> ewidth (elem b) = ewidth (elem a).
Proof. intros (_ & _ & _ & D). congruence. Qed.
Lemma like_int a b : like a b -> is_int a.
Proof. intros (A & _). exact A. Qed.

(** An id whose type is like [t]. *)
Definition opnd (m : rmodule) (t : fty) (x : N) : Prop := exists tx, rtype m x = Some tx /\ like t tx.
Lemma opnd_def m t x : opnd m t x -> exists ix, rm_def m x = Some ix /\ like t (ri_type ix).
Proof.
  intros (tx & E & L). unfold rtype in E. destruct (rm_def m x) as [ix|]; [|discriminate].
  exists ix. injection E as <-. auto.
Qed.
Lemma opnd_like m t t' x : like t t' -> opnd m t' x -> opnd m t x.
Proof. intros L (tx & E & L'). exists tx. split; auto. eapply like_trans; eauto. Qed.
Lemma opnd_width m t x : opnd m t x -> width_of m x = ewidth (elem t).
Proof. intros (tx & E & L). unfold width_of. rewrite E. apply like_width. exact L. Qed.
Lemma opnd_const m t x c : rmodule_ok m -> opnd m t x -> rm_const m x = Some c ->
  exists tx, like t tx /\ fty_ok tx /\ const_ok tx c.
Proof.
  intros Hm O E. destruct (opnd_def m t x O) as (ix & D & L). destruct (Hm x ix D) as (F & C & _).
  exists (ri_type ix). auto.
Qed.
Lemma value_ok_component t v d : fty_ok t -> value_ok t v -> (d < dims t)%nat ->
  0 <= component d v < 2 ^ ewidth (elem t).
Proof.
  intros _ [L F] Hd. rewrite (component_nth (dims t)) by assumption.
  rewrite Forall_forall in F. apply F. apply nth_In. lia.
Qed.
Lemma opnd_range m t x env d : rmodule_ok m -> opnd m t x -> rexecution m env -> (d < dims t)%nat ->
  0 <= component d (env x) < 2 ^ ewidth (elem t).
Proof.
  intros Hm O (V & _) Hd. destruct (opnd_def m t x O) as (ix & D & L). destruct (Hm x ix D) as (F & _).
  rewrite <- (like_width _ _ L). apply value_ok_component; auto.
  - apply V. unfold rtype. rewrite D. reflexivity.
  - rewrite (like_dims _ _ L). exact Hd.
Qed.

(** Operations whose operands are both like the result. *)
Definition arith (o : fop) : Prop :=
  match o with FIAdd | FISub | FIMul | FSDiv | FSMod | FOr | FAnd | FXor => True | _ => False end.
Lemma typed_binary m i o : arith o -> typed_args m i o ->
  exists a b, ri_args i = [a; b] /\ opnd m (ri_type i) a /\ opnd m (ri_type i) b.
Proof.
  intros Ho (ts & F & W).
  destruct o; try contradiction;
    (destruct ts as [|ta [|tb [|? ?]]]; try contradiction;
     inversion F as [|a ? l ? Ea F1]; subst; inversion F1 as [|b ? l' ? Eb F2]; subst; inversion F2; subst;
     destruct W as [La Lb]; exists a, b; repeat split; [exists ta; auto|exists tb; auto]).
Qed.
Lemma typed_unary m i : typed_args m i FSNegate ->
  exists a, ri_args i = [a] /\ opnd m (ri_type i) a.
Proof.
  intros (ts & F & W). destruct ts as [|ta [|? ?]]; try contradiction.
  inversion F as [|a ? l ? Ea F1]; subst; inversion F1; subst. exists a. split; [reflexivity|]. exists ta. auto.
Qed.

Lemma rop_is_eq i o : rop_is i o = true -> ri_op i = ROp o.
Proof. unfold rop_is. destruct (ri_op i) as [o'| | | |]; try discriminate. destruct o'; try discriminate; destruct o; try discriminate; reflexivity. Qed.

(** The instruction that defines an operand. *)
Lemma def_binary m t x ix o : rmodule_ok m -> opnd m t x -> rm_def m x = Some ix -> arith o -> rop_is ix o = true ->
  exists y z, ri_args ix = [y; z] /\ opnd m t y /\ opnd m t z /\
    forall env d, rexecution m env -> (d < dims t)%nat ->
      component_value o (ewidth (elem t))
        [(ewidth (elem t), component d (env y)); (ewidth (elem t), component d (env z))]
      = Some (component d (env x)).
Proof.
  intros Hm O D Ho R. apply rop_is_eq in R. destruct (Hm x ix D) as (_ & _ & T).
  destruct (typed_binary m ix o Ho (T o R)) as (y & z & E & Oy & Oz).
  destruct (opnd_def m t x O) as (ix' & D' & L). rewrite D in D'. injection D' as <-.
  assert (Oy' := opnd_like _ _ _ _ L Oy). assert (Oz' := opnd_like _ _ _ _ L Oz).
  exists y, z. repeat split; auto. intros env d X Hd.
  destruct X as (_ & _ & X). specialize (X x ix o d D R). rewrite (like_dims _ _ L) in X. specialize (X Hd).
  unfold inst_value in X. rewrite R, E in X. cbn [map] in X.
  rewrite (opnd_width _ _ _ Oy'), (opnd_width _ _ _ Oz'), (like_width _ _ L) in X. exact X.
Qed.
Lemma def_unary m t x ix : rmodule_ok m -> opnd m t x -> rm_def m x = Some ix -> rop_is ix FSNegate = true ->
  exists y, ri_args ix = [y] /\ opnd m t y /\ ri_op ix = ROp FSNegate /\
    forall env d, rexecution m env -> (d < dims t)%nat ->
      component d (env x) = (- component d (env y)) mod 2 ^ ewidth (elem t).
Proof.
  intros Hm O D R. apply rop_is_eq in R. destruct (Hm x ix D) as (_ & _ & T).
  destruct (typed_unary m ix (T _ R)) as (y & E & Oy).
  destruct (opnd_def m t x O) as (ix' & D' & L). rewrite D in D'. injection D' as <-.
  exists y. repeat split; auto.
  - eapply opnd_like; eauto.
  - intros env d (_ & _ & X) Hd. specialize (X x ix _ d D R). rewrite (like_dims _ _ L) in X. specialize (X Hd).
    unfold inst_value in X. rewrite R, E in X. cbn in X. injection X as X. rewrite (like_width _ _ L) in X. symmetry. exact X.
Qed.

(** The constant operand of a binary instruction and the other one. *)
Lemma const_split m i a b c : ri_args i = [a; b] -> const_input m i = Some c ->
  (cst m i 0 = Some c /\ rm_const m a = Some c /\ non_const_input m i = FSome b /\ in_op i 1 = FSome b) \/
  (cst m i 0 = None /\ rm_const m b = Some c /\ non_const_input m i = FSome a /\ in_op i 0 = FSome a).
Proof.
  intros E. unfold const_input, non_const_input, cst, in_op. rewrite E. cbn [nth_error].
  destruct (rm_const m a) as [c'|]; intros H; [left|right]; auto.
Qed.
Lemma const_value_env m env x c : rexecution m env -> rm_const m x = Some c -> env x = const_value c.
Proof. intros (_ & C & _). apply C. Qed.

(** *** Typing of the rewritten instruction *)
Definition argl (m : rmodule) (t : fty) (a : rarg) : Prop :=
  arg_ok m a /\ exists ta, arg_type m a = Some ta /\ like t ta.
Lemma argl_id m t x : opnd m t x -> argl m t (AId x).
Proof. intros (tx & E & L). split; [exact I|]. exists tx. auto. Qed.
Lemma argl_const m t tc c : like t tc -> const_ok tc c -> argl m t (AConst c).
Proof.
  intros L C. split; cbn.
  - rewrite (fconst_type_ok _ _ C). exact C.
  - exists tc. rewrite (fconst_type_ok _ _ C). auto.
Qed.
Lemma arith_typed o t ta tb : arith o -> like t ta -> like t tb -> well_typed o t [ta; tb].
Proof. destruct o; cbn; auto; contradiction. Qed.
Lemma argl_new m t o x y : arith o -> is_int t -> opnd m t x -> opnd m t y -> argl m t (ANew o t x y).
Proof.
  intros Ho I (tx & E & L) (ty & E' & L'). split.
  - exists tx, ty. split; [exact E|]. split; [exact E'|]. apply arith_typed; auto.
  - exists t. split; [reflexivity|]. apply like_refl. exact I.
Qed.
Lemma typed_new_binary m t o a b : arith o -> argl m t a -> argl m t b ->
  new_well_typed false m t (mkRNew (ROp o) [a; b]).
Proof.
  intros Ho (A & ta & E & L) (B & tb & E' & L'). split; [repeat constructor; auto|].
  exists [ta; tb]. split; [repeat constructor; auto|]. cbn [rn_op]. apply arith_typed; auto.
Qed.
Lemma typed_new_copy m t a : argl m t a -> new_well_typed false m t (mkRNew RCopy [a]).
Proof.
  intros (A & ta & E & L). split; [repeat constructor; auto|].
  exists [ta]. split; [repeat constructor; auto|]. cbn. auto.
Qed.

(** *** Arithmetic modulo a power of two *)
Lemma opp_mod_idemp a n : (- (a mod n)) mod n = (- a) mod n.
Proof. rewrite <- !Z.sub_0_l. apply Zminus_mod_idemp_r. Qed.
Ltac modring :=
  repeat rewrite ?opp_mod_idemp, ?Zplus_mod_idemp_l, ?Zplus_mod_idemp_r, ?Zminus_mod_idemp_l, ?Zminus_mod_idemp_r,
                 ?Zmult_mod_idemp_l, ?Zmult_mod_idemp_r;
  f_equal; ring.

(** *** Signed division *)
Lemma sval_cases w x : 1 < w -> 0 <= x < 2 ^ w -> exists h, 2 ^ (w - 1) = h /\ 2 ^ w = 2 * h /\ 1 < h /\
  ((x < h /\ sval w x = x) \/ (h <= x /\ sval w x = x - 2 * h)).
Proof.
  intros Hw Hx. exists (2 ^ (w - 1)). assert (E : 2 ^ w = 2 * 2 ^ (w - 1)).
  { rewrite <- Z.pow_succ_r by lia. f_equal. lia. }
  assert (H1 : 1 < 2 ^ (w - 1)) by (apply Z.pow_gt_1; lia).
  split; [reflexivity|]. split; [exact E|]. split; [exact H1|]. unfold sval.
  destruct (x <? 2 ^ (w - 1)) eqn:B; [left|right]; lia.
Qed.
Lemma sval_neg w y : 1 < w -> 0 <= y < 2 ^ w -> y <> 2 ^ (w - 1) -> sval w ((- y) mod 2 ^ w) = - sval w y.
Proof.
  intros Hw Hy N. destruct (sval_cases w y Hw Hy) as (h & Eh & EM & H1 & C).
  destruct (Z.eq_dec y 0) as [->|Ny].
  - rewrite Z.mod_0_l by lia. destruct C as [[_ ->]|[? _]]; lia.
  - assert (E : (- y) mod 2 ^ w = 2 ^ w - y).
    { symmetry. apply Z.mod_unique with (q := -1); lia. }
    rewrite E. destruct (sval_cases w (2 ^ w - y) Hw) as (h' & Eh' & _ & _ & C'); [lia|].
    rewrite Eh in Eh'. subst h'. destruct C as [[? ->]|[? ->]], C' as [[? ->]|[? ->]]; lia.
Qed.
Lemma neg_smallest w : 1 < w -> (- 2 ^ (w - 1)) mod 2 ^ w = 2 ^ (w - 1).
Proof.
  intros Hw. assert (E : 2 ^ w = 2 * 2 ^ (w - 1)).
  { rewrite <- Z.pow_succ_r by lia. f_equal. lia. }
  assert (0 < 2 ^ (w - 1)) by (apply Z.pow_pos_nonneg; lia).
  symmetry. apply Z.mod_unique with (q := -1); lia.
Qed.
Lemma defined_iff w a b : 1 < w -> 0 <= a < 2 ^ w -> 0 <= b < 2 ^ w ->
  division_defined w a b = true <-> sval w b <> 0 /\ ~ (sval w a = - 2 ^ (w - 1) /\ sval w b = -1).
Proof.
  intros Hw Ha Hb. unfold division_defined.
  destruct (sval_cases w b Hw Hb) as (h & Eh & EM & H1 & C).
  assert (Z0 : (b =? 0) = (sval w b =? 0)) by (destruct C as [[? ->]|[? ->]]; lia).
  rewrite Z0. lia.
Qed.
Lemma neg_quot_right w x y : 1 < w -> 0 <= x < 2 ^ w -> 0 <= y < 2 ^ w ->
  ~ (x = 2 ^ (w - 1) /\ (y = 2 ^ (w - 1) \/ y = 1)) -> division_defined w x y = true ->
  division_defined w x ((- y) mod 2 ^ w) = true /\
  Z.quot (sval w x) (sval w ((- y) mod 2 ^ w)) mod 2 ^ w = (- (Z.quot (sval w x) (sval w y) mod 2 ^ w)) mod 2 ^ w.
Proof.
  intros Hw Hx Hy N D. assert (HP : 0 < 2 ^ w) by lia.
  pose proof (Z.mod_pos_bound (- y) (2 ^ w) HP) as Hn.
  apply defined_iff in D; auto. rewrite defined_iff by auto.
  destruct (sval_cases w x Hw Hx) as (h & Eh & EM & H1 & Cx).
  destruct (sval_cases w y Hw Hy) as (h' & Eh' & _ & _ & Cy). rewrite Eh in Eh'. subst h'.
  rewrite opp_mod_idemp. destruct (Z.eq_dec y (2 ^ (w - 1))) as [->|Ny].
  - rewrite neg_smallest by assumption. rewrite Eh in *.
    destruct Cy as [[? E]|[? E]]; [lia|]. rewrite E. replace (h - 2 * h) with (- h) by lia.
    assert (x <> h) by lia. assert (Q : Z.quot (sval w x) (- h) = 0).
    { rewrite Z.quot_opp_r by lia. destruct Cx as [[? ->]|[? ->]].
      - rewrite Z.quot_small by lia. reflexivity.
      - replace (x - 2 * h) with (- (2 * h - x)) by lia. rewrite Z.quot_opp_l, Z.quot_small by lia. reflexivity. }
    rewrite Q. split; [|reflexivity]. destruct Cx as [[? ->]|[? ->]]; lia.
  - rewrite sval_neg by assumption. rewrite Eh in *. destruct D as [D0 D1]. split.
    + split; [lia|]. intros [A B]. assert (x = h) by (destruct Cx as [[? ?]|[? ?]]; lia).
      assert (y = 1) by (destruct Cy as [[? ?]|[? ?]]; lia). tauto.
    + rewrite Z.quot_opp_r by exact D0. reflexivity.
Qed.
Lemma neg_quot_left w x y : 1 < w -> 0 <= x < 2 ^ w -> 0 <= y < 2 ^ w ->
  ~ (x = 2 ^ (w - 1) /\ y <> 1) -> division_defined w x y = true ->
  division_defined w ((- x) mod 2 ^ w) y = true /\
  Z.quot (sval w ((- x) mod 2 ^ w)) (sval w y) mod 2 ^ w = (- (Z.quot (sval w x) (sval w y) mod 2 ^ w)) mod 2 ^ w.
Proof.
  intros Hw Hx Hy N D. assert (HP : 0 < 2 ^ w) by lia.
  pose proof (Z.mod_pos_bound (- x) (2 ^ w) HP) as Hn.
  apply defined_iff in D; auto. rewrite defined_iff by auto.
  destruct (sval_cases w x Hw Hx) as (h & Eh & EM & H1 & Cx).
  destruct (sval_cases w y Hw Hy) as (h' & Eh' & _ & _ & Cy). rewrite Eh in Eh'. subst h'.
  rewrite opp_mod_idemp. destruct (Z.eq_dec x (2 ^ (w - 1))) as [->|Nx].
  - rewrite neg_smallest by assumption. rewrite Eh in *.
    assert (y = 1) by lia. subst y. destruct Cy as [[? ->]|[? ?]]; [|lia].
    destruct Cx as [[? ?]|[? ->]]; [lia|]. split; [lia|]. rewrite !Z.quot_1_r.
    replace (- (h - 2 * h)) with (h - 2 * h + 1 * 2 ^ w) by lia. rewrite Z_mod_plus_full. reflexivity.
  - rewrite sval_neg by assumption. rewrite Eh in *. destruct D as [D0 D1]. split.
    + split; [exact D0|]. intros [A B]. assert (sval w x = h) by lia.
      destruct Cx as [[? ?]|[? ?]]; lia.
    + rewrite Z.quot_opp_l by exact D0. reflexivity.
Qed.
Lemma neg_quot_both w x y : 1 < w -> 0 <= x < 2 ^ w -> 0 <= y < 2 ^ w ->
  ~ (x = 2 ^ (w - 1) /\ y <> 2 ^ (w - 1)) -> division_defined w ((- x) mod 2 ^ w) ((- y) mod 2 ^ w) = true ->
  division_defined w x y = true /\
  Z.quot (sval w ((- x) mod 2 ^ w)) (sval w ((- y) mod 2 ^ w)) = Z.quot (sval w x) (sval w y).
Proof.
  intros Hw Hx Hy N D. assert (HP : 0 < 2 ^ w) by lia.
  pose proof (Z.mod_pos_bound (- x) (2 ^ w) HP) as Hn. pose proof (Z.mod_pos_bound (- y) (2 ^ w) HP) as Hn'.
  apply defined_iff in D; auto. rewrite defined_iff by auto.
  destruct (sval_cases w x Hw Hx) as (h & Eh & EM & H1 & Cx).
  destruct (sval_cases w y Hw Hy) as (h' & Eh' & _ & _ & Cy). rewrite Eh in Eh'. subst h'.
  destruct (Z.eq_dec x (2 ^ (w - 1))) as [->|Nx].
  - assert (y = 2 ^ (w - 1)) by lia. subst y. rewrite neg_smallest in * by assumption.
    split; [exact D|reflexivity].
  - rewrite (sval_neg w x) in * by assumption. destruct (Z.eq_dec y (2 ^ (w - 1))) as [->|Ny].
    + rewrite neg_smallest in * by assumption. rewrite Eh in *.
      destruct Cy as [[? E]|[? E]]; [lia|]. rewrite E in *. replace (h - 2 * h) with (- h) in * by lia.
      assert (Q : Z.quot (sval w x) (- h) = 0).
      { rewrite Z.quot_opp_r by lia. destruct Cx as [[? ->]|[? ->]].
        - rewrite Z.quot_small by lia. reflexivity.
        - replace (x - 2 * h) with (- (2 * h - x)) by lia. rewrite Z.quot_opp_l, Z.quot_small by lia. reflexivity. }
      split; [lia|]. rewrite Z.quot_opp_l, Q by lia. reflexivity.
    + rewrite (sval_neg w y) in * by assumption. destruct D as [D0 D1]. rewrite Eh in *. split.
      * split; [lia|]. intros [A B]. assert (x = h) by (destruct Cx as [[? ?]|[? ?]]; lia). contradiction.
      * rewrite Z.quot_opp_opp by lia. reflexivity.
Qed.

Lemma good_check_width m i k : is_int (ri_type i) ->
  (wide (ewidth (elem (ri_type i))) -> good m i k) -> good m i (check_width (ri_type i) k).
Proof.
  intros I H. unfold check_width, element_width. unfold is_int in I.
  change (element (ri_type i)) with (elem (ri_type i)).
  destruct (elem (ri_type i)) as [|w s] eqn:E; [contradiction|]. cbn [fbind].
  destruct (negb (w =? 32) && negb (w =? 64)) eqn:B; [exact I|]. apply H. unfold wide. cbn. lia.
Qed.

Section Rules.
Variable m : rmodule.
Hypothesis Hm : rmodule_ok m.

(** The instruction, its operands and its value. *)
Lemma inst_binary i o : rinst_ok m i -> ri_op i = ROp o -> arith o ->
  exists a b, ri_args i = [a; b] /\ opnd m (ri_type i) a /\ opnd m (ri_type i) b /\
    in_op i 0 = FSome a /\ in_op i 1 = FSome b /\ is_int (ri_type i) /\
    forall env d v, inst_value m env i d = Some v ->
      component_value o (ewidth (elem (ri_type i)))
        [(ewidth (elem (ri_type i)), component d (env a)); (ewidth (elem (ri_type i)), component d (env b))]
      = Some v.
Proof using Type.
  intros [_ T] Ho A. destruct (typed_binary m i o A (T o Ho)) as (a & b & E & Oa & Ob).
  exists a, b. unfold in_op. rewrite E. repeat split; auto.
  - destruct Oa as (t & _ & L). eapply like_int. exact L.
  - intros env d v. unfold inst_value. rewrite Ho, E. cbn [map].
    rewrite (opnd_width _ _ _ Oa), (opnd_width _ _ _ Ob). auto.
Qed.
Lemma inst_negate i : rinst_ok m i -> ri_op i = ROp FSNegate ->
  exists a, ri_args i = [a] /\ opnd m (ri_type i) a /\ in_op i 0 = FSome a /\ is_int (ri_type i) /\
    forall env d v, inst_value m env i d = Some v ->
      v = (- component d (env a)) mod 2 ^ ewidth (elem (ri_type i)).
Proof using Type.
  intros [_ T] Ho. destruct (typed_unary m i (T _ Ho)) as (a & E & Oa).
  exists a. unfold in_op. rewrite E. repeat split; auto.
  - destruct Oa as (t & _ & L). eapply like_int. exact L.
  - intros env d v. unfold inst_value. rewrite Ho, E. cbn. congruence.
Qed.

Tactic Notation "defof" constr(x) ident(ix) ident(D) ident(L) :=
  match goal with O : opnd m _ x |- _ =>
    let H := fresh in destruct (opnd_def m _ x O) as (ix & D & L) end;
  unfold get_def at 1; rewrite D; cbn [fbind].
Tactic Notation "isop" constr(ix) constr(o) ident(R) := destruct (rop_is ix o) eqn:R; cbn [orb andb negb]; [|try exact I].
Ltac inop ix E := unfold in_op; rewrite E; cbn [nth_error fbind].

Lemma good_merge_negate i : rinst_ok m i -> ri_op i = ROp FSNegate -> good m i (merge_negate m i).
Proof using Hm.
  intros Hi Ho. destruct (inst_negate i Hi Ho) as (a & Ea & Oa & Ia & II & V).
  unfold merge_negate. rewrite Ia. cbn [fbind]. defof a ia D L. isop ia FSNegate R.
  destruct (def_unary m _ a ia Hm Oa D R) as (x & Ex & Ox & _ & Vx). inop ia Ex.
  split; [apply typed_new_copy, argl_id; exact Ox|].
  intros env d v X Hd _ Hv. cbn. f_equal. rewrite (V _ _ _ Hv), (Vx env d X Hd).
  pose proof (opnd_range m _ x env d Hm Ox X Hd) as Rx.
  rewrite opp_mod_idemp, Z.opp_involutive. symmetry. apply Z.mod_small. exact Rx.
Qed.

(** A constant whose type is like [t]. *)
Definition cok (t : fty) (c : fconst) : Prop := exists tc, like t tc /\ fty_ok tc /\ const_ok tc c.
Lemma cok_of t x c : opnd m t x -> rm_const m x = Some c -> cok t c.
Proof using Hm. intros O E. apply (opnd_const m t x c Hm O E). Qed.
Lemma cok_arg t c : cok t c -> argl m t (AConst c).
Proof using Type. intros (tc & L & _ & C). eapply argl_const; eauto. Qed.
Lemma cok_neg t c : wide (ewidth (elem t)) -> cok t c -> exists c', negate_const c = FSome c' /\ cok t c' /\
  forall d, (d < dims t)%nat ->
    component d (const_value c') = (- component d (const_value c)) mod 2 ^ ewidth (elem t).
Proof using Type.
  intros Hw (tc & L & F & C). destruct (negate_const_ok c tc _ Hw) as (c' & En & Cn & Vn); auto.
  { apply like_width. exact L. } { eapply like_int, like_sym; exact L. }
  exists c'. split; [exact En|]. split; [exists tc; auto|].
  intros d Hd. apply Vn. rewrite (like_dims _ _ L). exact Hd.
Qed.
Lemma cok_perform t o a b : six o -> wide (ewidth (elem t)) -> cok t a -> cok t b ->
  exists c, perform_op o a b = FSome c /\ cok t c /\
    forall d wa wb, (d < dims t)%nat ->
      component_value o (ewidth (elem t)) [(wa, component d (const_value a)); (wb, component d (const_value b))]
      = Some (component d (const_value c)).
Proof using Type.
  intros Ho Hw (ta & La & Fa & Ca) (tb & Lb & Fb & Cb).
  destruct (perform_op_ok o a b ta tb (ewidth (elem t)) Ho Hw) as (c & E & C & V); auto.
  { apply like_width. exact La. } { eapply like_trans; [apply like_sym; exact La|exact Lb]. }
  exists c. split; [exact E|]. split; [exists ta; auto|].
  intros d wa wb Hd. apply V. rewrite (like_dims _ _ La). exact Hd.
Qed.
Lemma cok_width t c : cok t c -> ewidth (elem (fconst_type c)) = ewidth (elem t).
Proof using Type. intros (tc & L & _ & C). rewrite (fconst_type_ok _ _ C). apply like_width. exact L. Qed.
Lemma cok_range t c d : cok t c -> (d < dims t)%nat -> 0 <= component d (const_value c) < 2 ^ ewidth (elem t).
Proof using Type.
  intros (tc & L & F & C) Hd. rewrite <- (like_width _ _ L). rewrite <- (like_dims _ _ L) in Hd.
  destruct (component_const tc c d F C Hd) as (s & _ & Os & ->). apply sconst_value_range; [apply F|exact Os].
Qed.

Tactic Notation "constk" constr(c) ident(K) :=
  match goal with O : opnd m _ ?x, H : rm_const m ?x = Some c |- _ => pose proof (cok_of _ x c O H) as K end.
Tactic Notation "negk" constr(c) ident(c') ident(En) ident(K) ident(Vn) :=
  match goal with H : cok _ c, W : wide _ |- _ => destruct (cok_neg _ c W H) as (c' & En & K & Vn) end;
  rewrite En; cbn [fbind].
Tactic Notation "perfk" constr(o) constr(a) constr(b) ident(c) ident(E) ident(K) ident(V) :=
  match goal with Ha : cok _ a, Hb : cok _ b, W : wide _ |- _ =>
    destruct (cok_perform _ o a b I W Ha Hb) as (c & E & K & V) end;
  rewrite E; cbn [fbind].
Ltac typed2 := split; [apply typed_new_binary; [exact I| |];
  first [apply argl_id; assumption | apply cok_arg; assumption | apply argl_new; [exact I|assumption|assumption|assumption]]|].

Lemma wide_gt w : wide w -> 1 < w.
Proof using Type. unfold wide. lia. Qed.

Lemma good_merge_negate_mul_div i : rinst_ok m i -> ri_op i = ROp FSNegate -> good m i (merge_negate_mul_div m i).
Proof using Hm.
  intros Hi Ho. destruct (inst_negate i Hi Ho) as (a & Ea & Oa & Ia & II & V).
  unfold merge_negate_mul_div. rewrite Ia. cbn [fbind]. defof a ia D L.
  apply good_check_width; [exact II|]. intros Hw. pose proof (wide_gt _ Hw) as W1.
  destruct (rop_is ia FIMul) eqn:R; cbn [orb].
  - destruct (def_binary m _ a ia FIMul Hm Oa D I R) as (x & y & Ex & Ox & Oy & Vx).
    destruct (const_input m ia) as [c|] eqn:Ec; [|exact I].
    assert (RS : rop_is ia FSDiv = false).
    { apply rop_is_eq in R. unfold rop_is. rewrite R. reflexivity. }
    rewrite RS.
    destruct (const_split m ia x y c Ex Ec) as [(C0 & Cx & _ & I1)|(C0 & Cx & _ & I1)]; rewrite C0;
      constk c K; negk c c' En Kn Vn; rewrite I1; cbn [fbind]; typed2;
      intros env d v X Hd _ Hv; cbn; f_equal; rewrite (V _ _ _ Hv);
      specialize (Vx env d X Hd); cbn in Vx; injection Vx as <-; rewrite Vn by exact Hd;
      rewrite <- (const_value_env m env _ c X Cx); modring.
  - destruct (rop_is ia FSDiv) eqn:RS; [|exact I].
    destruct (def_binary m _ a ia FSDiv Hm Oa D I RS) as (x & y & Ex & Ox & Oy & Vx).
    destruct (const_input m ia) as [c|] eqn:Ec; [|exact I].
    destruct (const_split m ia x y c Ex Ec) as [(C0 & Cx & _ & I1)|(C0 & Cx & _ & I1)]; rewrite C0;
      constk c K; negk c c' En Kn Vn; rewrite I1; cbn [fbind]; typed2;
      intros env d v X Hd ND Hv; rewrite (V _ _ _ Hv); clear V;
      specialize (Vx env d X Hd);
      pose proof (opnd_range m _ x env d Hm Ox X Hd) as Rx; pose proof (opnd_range m _ y env d Hm Oy X Hd) as Ry;
      cbn [component_value] in Vx;
      destruct (division_defined _ _ _) eqn:DD in Vx; try discriminate; injection Vx as Vx;
      unfold new_value; cbn [rn_op rn_args map arg_value all_some option_map]; rewrite (cok_width _ _ Kn);
      rewrite ?(opnd_width _ _ _ Ox), ?(opnd_width _ _ _ Oy); cbn [component_value];
      rewrite Vn by exact Hd; rewrite <- (const_value_env m env _ c X Cx), <- Vx;
      unfold rule_deviation in ND; rewrite Ho, Ea in ND; unfold smallest in ND.
    + destruct (neg_quot_left _ _ _ W1 Rx Ry) as [Q1 Q2]; [|exact DD|rewrite Q1, Q2; reflexivity].
      intros [E1 E2]. apply ND. exists x, y. split; [exists ia; repeat split; auto; apply rop_is_eq; exact RS|].
      split; [exact E1|]. left. split; [congruence|exact E2].
    + destruct (neg_quot_right _ _ _ W1 Rx Ry) as [Q1 Q2]; [|exact DD|rewrite Q1, Q2; reflexivity].
      intros [E1 E2]. apply ND. exists x, y. split; [exists ia; repeat split; auto; apply rop_is_eq; exact RS|].
      split; [exact E1|]. right. split; [|exact E2].
      unfold cst in C0. rewrite Ex in C0. exact C0.
Qed.

(** The values of the hypotheses in one execution, and the conclusion modulo a power of two. *)
Ltac instances env d X Hd :=
  repeat match goal with
  | H : forall env d, rexecution m env -> (d < _)%nat -> component_value _ _ _ = Some _ |- _ =>
      specialize (H env d X Hd); cbn in H; injection H as H
  | H : forall env d, rexecution m env -> (d < _)%nat -> component _ _ = _ |- _ => specialize (H env d X Hd)
  | H : forall d wa wb, (d < _)%nat -> component_value _ _ _ = Some _ |- _ =>
      specialize (H d 0 0 Hd); cbn in H; injection H as H
  | H : forall d, (d < _)%nat -> component d (const_value _) = _ |- _ => specialize (H d Hd)
  | H : rm_const m ?x = Some ?c |- _ => apply (const_value_env m env x c X) in H
  end.
Ltac substv d :=
  repeat match goal with
  | H : _ = component d (const_value ?z) |- _ => rewrite <- ?H; clear H
  | H : component d (const_value ?z) = _ |- _ => rewrite ?H; clear H
  end;
  repeat match goal with H : _ = const_value _ |- _ => rewrite <- ?H; clear H end;
  repeat match goal with
  | H : _ = component d ?z |- _ => rewrite <- ?H; clear H
  | H : component d ?z = _ |- _ => rewrite ?H; clear H
  end.
Ltac value V :=
  intros env d v X Hd _ Hv; apply V in Hv; cbn in Hv; injection Hv as <-;
  instances env d X Hd; cbn; f_equal; substv d; modring.
Ltac nvalue V :=
  intros env d v X Hd _ Hv; apply V in Hv; subst v;
  instances env d X Hd; cbn; f_equal; substv d; modring.

Lemma is_other i o o' : rop_is i o = true -> o <> o' -> rop_is i o' = false.
Proof using Type.
  intros R N. apply rop_is_eq in R. unfold rop_is. rewrite R. destruct o; try reflexivity; destruct o'; try reflexivity; contradiction.
Qed.
Ltac other R o' := let H := fresh in
  match type of R with rop_is ?i ?o = true => assert (H : rop_is i o' = false) by (apply (is_other i o o' R); discriminate) end;
  rewrite H; clear H.

Lemma good_merge_negate_add_sub i : rinst_ok m i -> ri_op i = ROp FSNegate -> good m i (merge_negate_add_sub m i).
Proof using Hm.
  intros Hi Ho. destruct (inst_negate i Hi Ho) as (a & Ea & Oa & Ia & II & V).
  unfold merge_negate_add_sub. rewrite Ia. cbn [fbind]. defof a ia D L.
  apply good_check_width; [exact II|]. intros Hw.
  destruct (rop_is ia FIAdd) eqn:R; cbn [orb].
  - destruct (def_binary m _ a ia FIAdd Hm Oa D I R) as (x & y & Ex & Ox & Oy & Vx).
    destruct (const_input m ia) as [c|] eqn:Ec; [|exact I].
    destruct (const_split m ia x y c Ex Ec) as [(C0 & Cx & _ & I1)|(C0 & Cx & _ & I1)]; rewrite C0;
      unfold in_op; rewrite Ex; cbn [nth_error fbind]; constk c K; negk c c' En Kn Vn; cbn [orb negb];
      typed2; nvalue V.
  - destruct (rop_is ia FISub) eqn:RS; [|exact I].
    destruct (def_binary m _ a ia FISub Hm Oa D I RS) as (x & y & Ex & Ox & Oy & Vx).
    destruct (const_input m ia) as [c|] eqn:Ec; [|exact I].
    destruct (const_split m ia x y c Ex Ec) as [(C0 & Cx & _ & I1)|(C0 & Cx & _ & I1)]; rewrite C0;
      unfold in_op; rewrite Ex; cbn [nth_error fbind orb negb]; typed2; clear Cx; nvalue V.
Qed.

Ltac start o :=
  let a := fresh "a" in let b := fresh "b" in let Ea := fresh "Ea" in let Oa := fresh "Oa" in let Ob := fresh "Ob" in let Ia := fresh "Ia" in 
    let Ib := fresh "Ib" in let II := fresh "II" in let V := fresh "V" in 
  match goal with Hi : rinst_ok m ?i, Ho : ri_op ?i = ROp _ |- _ =>
    destruct (inst_binary i o Hi Ho I) as (a & b & Ea & Oa & Ob & Ia & Ib & II & V) end.

(** The instruction has a constant operand and the other one is computed by [o']. *)
Ltac two_level o' :=
    let c1 := fresh "c1" in let Ec1 := fresh "Ec1" in let C0 := fresh "C0" in let Cx := fresh "Cx" in let N0 := fresh "N0" in let J1 := fresh "J1" in 
    let other := fresh "other" in let D := fresh "D" in let L := fresh "L" in let K1 := fresh "K1" in let R := fresh "R" in let x := fresh "x" in 
    let y := fresh "y" in let Ex := fresh "Ex" in let Ox := fresh "Ox" in let Oy := fresh "Oy" in let Vx := fresh "Vx" in let c2 := fresh "c2" in 
    let Ec2 := fresh "Ec2" in let C0' := fresh "C0'" in let Cx' := fresh "Cx'" in let N0' := fresh "N0'" in let J1' := fresh "J1'" in let K2 := fresh "K2" in 
    
  match goal with Ea : ri_args ?i = [?a; ?b] |- _ =>
    destruct (const_input m i) as [c1|] eqn:Ec1; [|exact I];
    destruct (const_split m i a b c1 Ea Ec1) as [(C0 & Cx & N0 & J1)|(C0 & Cx & N0 & J1)]; rewrite ?C0, ?N0;
    cbn [fbind];
    match type of J1 with _ = FSome ?p => defof p other D L; constk c1 K1;
      destruct (rop_is other o') eqn:R; cbn [orb]; [|try exact I];
      match goal with O : opnd m _ p |- _ =>
        destruct (def_binary m _ p other o' Hm O D I R) as (x & y & Ex & Ox & Oy & Vx) end;
      destruct (const_input m other) as [c2|] eqn:Ec2; [|exact I];
      destruct (const_split m other x y c2 Ex Ec2) as [(C0' & Cx' & N0' & J1')|(C0' & Cx' & N0' & J1')];
      rewrite ?C0', ?N0'; cbn [fbind negb andb]; constk c2 K2
    end end.

Lemma good_merge_mul_mul i : rinst_ok m i -> ri_op i = ROp FIMul -> good m i (merge_mul_mul m i).
Proof using Hm.
  intros Hi Ho. start FIMul. unfold merge_mul_mul. apply good_check_width; [exact II|]. intros Hw.
  two_level FIMul; perfk FIMul c1 c2 c E K VV; rewrite J1'; cbn [fbind]; typed2; value V.
Qed.
Lemma good_merge_mul_negate i : rinst_ok m i -> ri_op i = ROp FIMul -> good m i (merge_mul_negate m i).
Proof using Hm.
  intros Hi Ho. start FIMul. unfold merge_mul_negate. apply good_check_width; [exact II|]. intros Hw.
  destruct (const_input m i) as [c1|] eqn:Ec1; [|exact I].
  destruct (const_split m i a b c1 Ea Ec1) as [(C0 & Cx & N0 & J1)|(C0 & Cx & N0 & J1)]; rewrite N0; cbn [fbind];
    match type of J1 with _ = FSome ?p => defof p other D L; constk c1 K1; isop other FSNegate R;
      match goal with O : opnd m _ p |- _ => destruct (def_unary m _ p other Hm O D R) as (x & Ex & Ox & _ & Vx) end end;
    negk c1 c' En Kn Vn; inop other Ex; typed2; value V.
Qed.
Lemma good_merge_double_negative_mul i : rinst_ok m i -> ri_op i = ROp FIMul -> good m i (merge_div_mul_double_negative m i).
Proof using Hm.
  intros Hi Ho. start FIMul. unfold merge_div_mul_double_negative. rewrite Ia, Ib. cbn [fbind].
  defof a ia D L. defof b ib D' L'. destruct (rop_is ia FSNegate) eqn:R; cbn [andb]; [|exact I].
  destruct (rop_is ib FSNegate) eqn:R'; [|exact I].
  destruct (def_unary m _ a ia Hm Oa D R) as (x & Ex & Ox & _ & Vx).
  destruct (def_unary m _ b ib Hm Ob D' R') as (y & Ey & Oy & _ & Vy).
  unfold in_op. rewrite Ex, Ey. cbn [nth_error fbind]. rewrite Ho. typed2. value V.
Qed.
Lemma int_width_gt t : fty_ok t -> is_int t -> 1 < ewidth (elem t).
Proof using Type.
  intros [Fe _] II. unfold is_int in II. destruct (elem t); [contradiction|]. cbn in *. unfold width_ok in Fe. lia.
Qed.
Lemma good_merge_double_negative_div i : rinst_ok m i -> ri_op i = ROp FSDiv -> good m i (merge_div_mul_double_negative m i).
Proof using Hm.
  intros Hi Ho. start FSDiv. unfold merge_div_mul_double_negative. rewrite Ia, Ib. cbn [fbind].
  defof a ia D L. defof b ib D' L'. destruct (rop_is ia FSNegate) eqn:R; cbn [andb]; [|exact I].
  destruct (rop_is ib FSNegate) eqn:R'; [|exact I].
  destruct (def_unary m _ a ia Hm Oa D R) as (x & Ex & Ox & Rx & Vx).
  destruct (def_unary m _ b ib Hm Ob D' R') as (y & Ey & Oy & Ry & Vy).
  unfold in_op. rewrite Ex, Ey. cbn [nth_error fbind]. rewrite Ho. typed2.
  intros env d v X Hd ND Hv. apply V in Hv. unfold new_value. cbn [rn_op rn_args map arg_value all_some option_map].
  rewrite (opnd_width _ _ _ Ox), (opnd_width _ _ _ Oy). cbn [component_value] in *.
  rewrite (Vx env d X Hd), (Vy env d X Hd) in Hv.
  assert (W1 : 1 < ewidth (elem (ri_type i))).
  { apply int_width_gt; [apply Hi|exact II]. }
  destruct (division_defined _ _ _) eqn:DD in Hv; [|discriminate].
  destruct (neg_quot_both _ _ _ W1 (opnd_range m _ x env d Hm Ox X Hd) (opnd_range m _ y env d Hm Oy X Hd)) as [Q1 Q2].
  - intros [E1 E2]. apply ND. unfold rule_deviation. rewrite Ho, Ea. exists x, y.
    split; [exists ia; auto|]. split; [exists ib; auto|]. unfold smallest. auto.
  - exact DD.
  - rewrite Q1, <- Q2. exact Hv.
Qed.

Lemma int_one_ok c : (forall c', c = Some c' -> exists t, fty_ok t /\ const_ok t c') ->
  exists r, int_one c = FSome r /\
    (r = Some true -> exists c', c = Some c' /\ forall d, component d (const_value c') = 1).
Proof using Type.
  intros H. destruct c as [[[| w s ws |]| |]|]; try (exists (Some false); split; [reflexivity|discriminate]).
  destruct (H _ eq_refl) as (t & F & C). destruct t as [e|]; [|contradiction]. cbn in C.
  unfold int_one. destruct (w =? 32) eqn:E32.
  - apply Z.eqb_eq in E32. subst w. pose proof C as [-> _].
    pose proof (get_u32c_ok s (SCInt 32 s ws) C) as G.
    unfold get_u32c in G. change (32 =? 32) with true in G. rewrite G. cbn [fbind].
    eexists. split; [reflexivity|]. intros E. injection E as E. eexists. split; [reflexivity|]. intros d.
    cbn [const_value component]. apply Z.eqb_eq. exact E.
  - destruct (w =? 64) eqn:E64; [|exists None; split; [reflexivity|discriminate]].
    apply Z.eqb_eq in E64. subst w. pose proof C as [-> _].
    pose proof (get_u64c_ok s (SCInt 64 s ws) C) as G.
    unfold get_u64c in G. change (64 =? 64) with true in G. rewrite G. cbn [fbind].
    eexists. split; [reflexivity|]. intros E. injection E as E. eexists. split; [reflexivity|]. intros d.
    cbn [const_value component]. apply Z.eqb_eq. exact E.
Qed.
Lemma cst_at i k x c t : nth_error (ri_args i) k = Some x -> opnd m t x -> cst m i k = Some c ->
  rm_const m x = Some c /\ cok t c.
Proof using Hm. intros E O. unfold cst. rewrite E. intros H. split; [exact H|]. apply (cok_of _ x); auto. Qed.

Lemma good_int_multiple_by_1 i : rinst_ok m i -> ri_op i = ROp FIMul -> good m i (int_multiple_by_1 m i).
Proof using Hm.
  intros Hi Ho. start FIMul. unfold int_multiple_by_1.
  destruct (int_one_ok (cst m i 0)) as (r0 & E0 & H0).
  { intros c Ec. destruct (cst_at i 0 a c _ (f_equal (fun l => nth_error l 0) Ea) Oa Ec) as (_ & tc & _ & F & C). eauto. }
  destruct (int_one_ok (cst m i 1)) as (r1 & E1 & H1).
  { intros c Ec. destruct (cst_at i 1 b c _ (f_equal (fun l => nth_error l 1%nat) Ea) Ob Ec) as (_ & tc & _ & F & C). eauto. }
  rewrite E0. cbn [fbind]. destruct r0 as [[|]|]; [| |exact I].
  - rewrite Ib. cbn [fbind]. destruct (H0 eq_refl) as (c & Ec & V1).
    destruct (cst_at i 0 a c _ (f_equal (fun l => nth_error l 0) Ea) Oa Ec) as (Ca & _).
    split; [apply typed_new_copy, argl_id; exact Ob|]. intros env d v X Hd _ Hv. apply V in Hv. cbn in Hv. injection Hv as <-.
    cbn. f_equal. rewrite (const_value_env m env a c X Ca), V1, Z.mul_1_l. symmetry. apply Z.mod_small.
    eapply opnd_range; eauto.
  - rewrite E1. cbn [fbind]. destruct r1 as [[|]|]; [|exact I|exact I].
    rewrite Ia. cbn [fbind]. destruct (H1 eq_refl) as (c & Ec & V1).
    destruct (cst_at i 1 b c _ (f_equal (fun l => nth_error l 1%nat) Ea) Ob Ec) as (Ca & _).
    split; [apply typed_new_copy, argl_id; exact Oa|]. intros env d v X Hd _ Hv. apply V in Hv. cbn in Hv. injection Hv as <-.
    cbn. f_equal. rewrite (const_value_env m env b c X Ca), V1, Z.mul_1_r. symmetry. apply Z.mod_small.
    eapply opnd_range; eauto.
Qed.

Lemma good_merge_add_negate i : rinst_ok m i -> ri_op i = ROp FIAdd -> good m i (merge_add_negate m i).
Proof using Hm.
  intros Hi Ho. start FIAdd. unfold merge_add_negate. rewrite Ia, Ib. cbn [fbind].
  defof a ia D L. defof b ib D' L'. destruct (rop_is ia FSNegate) eqn:R.
  - destruct (def_unary m _ a ia Hm Oa D R) as (x & Ex & Ox & _ & Vx). inop ia Ex. typed2. value V.
  - destruct (rop_is ib FSNegate) eqn:R'; [|exact I].
    destruct (def_unary m _ b ib Hm Ob D' R') as (x & Ex & Ox & _ & Vx). inop ib Ex. typed2. value V.
Qed.
Lemma good_merge_sub_negate i : rinst_ok m i -> ri_op i = ROp FISub -> good m i (merge_sub_negate m i).
Proof using Hm.
  intros Hi Ho. start FISub. unfold merge_sub_negate. rewrite Ia, Ib. cbn [fbind].
  defof a ia D L. defof b ib D' L'. destruct (rop_is ib FSNegate) eqn:R'.
  - destruct (def_unary m _ b ib Hm Ob D' R') as (x & Ex & Ox & _ & Vx). inop ib Ex. typed2. value V.
  - apply good_check_width; [exact II|]. intros Hw. destruct (cst m i 1) as [c|] eqn:Ec; [|exact I].
    destruct (cst_at i 1 b c _ (f_equal (fun l => nth_error l 1%nat) Ea) Ob Ec) as (Cb & K).
    destruct (rop_is ia FSNegate) eqn:R; [|exact I].
    destruct (def_unary m _ a ia Hm Oa D R) as (x & Ex & Ox & _ & Vx).
    negk c c' En Kn Vn. inop ia Ex. typed2. value V.
Qed.
Lemma good_merge_add_add i : rinst_ok m i -> ri_op i = ROp FIAdd -> good m i (merge_add_add m i).
Proof using Hm.
  intros Hi Ho. start FIAdd. unfold merge_add_add. apply good_check_width; [exact II|]. intros Hw.
  two_level FIAdd; perfk FIAdd c1 c2 c E K VV; typed2; value V.
Qed.
Lemma good_merge_add_sub i : rinst_ok m i -> ri_op i = ROp FIAdd -> good m i (merge_add_sub m i).
Proof using Hm.
  intros Hi Ho. start FIAdd. unfold merge_add_sub. apply good_check_width; [exact II|]. intros Hw.
  two_level FISub; rewrite ?J1'; cbn [fbind];
    first [perfk FISub c1 c2 c E K VV | perfk FIAdd c1 c2 c E K VV]; rewrite ?J1'; cbn [fbind]; typed2; value V.
Qed.
Lemma good_merge_sub_add i : rinst_ok m i -> ri_op i = ROp FISub -> good m i (merge_sub_add m i).
Proof using Hm.
  intros Hi Ho. start FISub. unfold merge_sub_add. apply good_check_width; [exact II|]. intros Hw.
  two_level FIAdd; first [perfk FISub c1 c2 c E K VV | perfk FISub c2 c1 c E K VV]; typed2; value V.
Qed.
Lemma good_merge_sub_sub i : rinst_ok m i -> ri_op i = ROp FISub -> good m i (merge_sub_sub m i).
Proof using Hm.
  intros Hi Ho. start FISub. unfold merge_sub_sub. apply good_check_width; [exact II|]. intros Hw.
  two_level FISub;
    first [perfk FISub c1 c2 c E K VV | perfk FISub c2 c1 c E K VV | perfk FIAdd c1 c2 c E K VV];
    cbn [xorb]; typed2; value V.
Qed.

Lemma good_generic i p q : is_int (ri_type i) -> opnd m (ri_type i) p -> opnd m (ri_type i) q ->
  (forall env d v, inst_value m env i d = Some v ->
     v = (component d (env p) + component d (env q)) mod 2 ^ ewidth (elem (ri_type i))) ->
  good m i (generic_addend_sub m p q).
Proof using Hm.
  intros II Op Oq V. unfold generic_addend_sub. defof q iq D L.
  destruct (rop_is iq FISub) eqn:R; [|exact I].
  destruct (def_binary m _ q iq FISub Hm Oq D I R) as (x & y & Ex & Ox & Oy & Vx).
  unfold in_op. rewrite Ex. cbn [nth_error fbind]. destruct (N.eqb p y) eqn:E; [|exact I].
  apply N.eqb_eq in E. subst y. split; [apply typed_new_copy, argl_id; exact Ox|].
  intros env d v X Hd _ Hv. rewrite (V _ _ _ Hv). cbn. f_equal.
  specialize (Vx env d X Hd). cbn in Vx. injection Vx as <-. rewrite Zplus_mod_idemp_r.
  replace (component d (env p) + (component d (env x) - component d (env p))) with (component d (env x)) by ring.
  symmetry. apply Z.mod_small. eapply opnd_range; eauto.
Qed.
Lemma good_merge_generic_add_sub i : rinst_ok m i -> ri_op i = ROp FIAdd -> good m i (merge_generic_add_sub m i).
Proof using Hm.
  intros Hi Ho. start FIAdd. unfold merge_generic_add_sub. apply good_check_width; [exact II|]. intros Hw.
  rewrite Ia, Ib. cbn [fbind]. apply good_forelse; apply good_generic; auto;
    intros env d v Hv; apply V in Hv; cbn in Hv; injection Hv as <-; [reflexivity|f_equal; ring].
Qed.

Lemma good_factor i o p q f00 f01 f10 f11 : o = FIAdd \/ o = FISub -> is_int (ri_type i) ->
  opnd m (ri_type i) f00 -> opnd m (ri_type i) f01 -> opnd m (ri_type i) f10 -> opnd m (ri_type i) f11 ->
  (forall env d v, inst_value m env i d = Some v ->
     component_value o (ewidth (elem (ri_type i)))
        [(ewidth (elem (ri_type i)), component d (env p)); (ewidth (elem (ri_type i)), component d (env q))] = Some v) ->
  (forall env d, rexecution m env -> (d < dims (ri_type i))%nat ->
     (component d (env f00) * component d (env f01)) mod 2 ^ ewidth (elem (ri_type i)) = component d (env p)) ->
  (forall env d, rexecution m env -> (d < dims (ri_type i))%nat ->
     (component d (env f10) * component d (env f11)) mod 2 ^ ewidth (elem (ri_type i)) = component d (env q)) ->
  good m i (factor_opnds i o f00 f01 f10 f11).
Proof using Hm.
  intros Ho II O1 O2 O3 O4 V V1 V2. unfold factor_opnds. destruct (N.eqb f00 f10) eqn:E; [|exact I].
  apply N.eqb_eq in E. subst f10. destruct Ho as [-> | ->]; typed2;
    (intros env d v X Hd _ Hv; apply V in Hv; cbn in Hv; injection Hv as <-;
     rewrite <- (V1 env d X Hd), <- (V2 env d X Hd); cbn; f_equal; modring).
Qed.
Lemma good_factor_add_sub_muls i o : o = FIAdd \/ o = FISub -> rinst_ok m i -> ri_op i = ROp o ->
  good m i (factor_add_sub_muls o m i).
Proof using Hm.
  intros Ho Hi Hop. assert (A : arith o) by (destruct Ho; subst; exact I).
  destruct (inst_binary i o Hi Hop A) as (a & b & Ea & Oa & Ob & Ia & Ib & II & V).
  unfold factor_add_sub_muls. rewrite Ia. cbn [fbind]. defof a ia D L.
  destruct (rop_is ia FIMul) eqn:R; cbn [negb]; [|exact I]. rewrite Ib. cbn [fbind]. defof b ib D' L'.
  destruct (rop_is ib FIMul) eqn:R'; cbn [negb]; [|exact I].
  destruct ((1 <? rm_uses m a)%nat || (1 <? rm_uses m b)%nat); [exact I|].
  destruct (def_binary m _ a ia FIMul Hm Oa D I R) as (x & y & Ex & Ox & Oy & Vx).
  destruct (def_binary m _ b ib FIMul Hm Ob D' I R') as (x' & y' & Ex' & Ox' & Oy' & Vx').
  unfold in_op. rewrite Ex, Ex'. cbn [nth_error fbind].
  repeat apply good_forelse; apply good_factor with (p := a) (q := b); auto;
    intros env d X Hd; specialize (Vx env d X Hd); specialize (Vx' env d X Hd); cbn in Vx, Vx';
    injection Vx as Vx; injection Vx' as Vx'; rewrite <- ?Vx, <- ?Vx'; f_equal; ring.
Qed.

(** *** Reassociation *)
Ltac bits :=
  apply Z.bits_inj'; intros ? _; rewrite ?Z.lor_spec, ?Z.land_spec, ?Z.lxor_spec, ?Z.lor_spec, ?Z.land_spec, ?Z.lxor_spec;
  repeat match goal with |- context [Z.testbit ?a ?k] => destruct (Z.testbit a k) end; reflexivity.
Ltac bvalue V :=
  intros env d v X Hd _ Hv; apply V in Hv; cbn in Hv; injection Hv as <-;
  instances env d X Hd; cbn; f_equal; substv d; bits.

Lemma good_reassociate_commutative i o : o = FOr \/ o = FXor \/ o = FAnd -> rinst_ok m i -> ri_op i = ROp o ->
  good m i (reassociate_commutative o m i).
Proof using Hm.
  intros Hor Hi Ho. unfold reassociate_commutative.
  assert (A : arith o) by (destruct Hor as [-> |[-> | ->]]; exact I).
  destruct (inst_binary i o Hi Ho A) as (a & b & Ea & Oa & Ob & Ia & Ib & II & V).
  unfold element_width. change (element (ri_type i)) with (elem (ri_type i)).
  destruct (elem (ri_type i)) as [|w s] eqn:Et; [unfold is_int in II; rewrite Et in II; contradiction|]. cbn [fbind].
  destruct (w =? 32) eqn:Ew; cbn [negb]; [|exact I].
  assert (Hw : wide (ewidth (elem (ri_type i)))).
  { rewrite Et. unfold wide. cbn. left. apply Z.eqb_eq. exact Ew. }
  change (EInt w s) with (EInt w s) in V. rewrite <- Et in V. clear Et Ew.
  destruct Hor as [-> |[-> | ->]].
  - two_level FOr; perfk FOr c1 c2 c E K VV; typed2; bvalue V.
  - two_level FXor; perfk FXor c1 c2 c E K VV; typed2; bvalue V.
  - two_level FAnd; perfk FAnd c1 c2 c E K VV; typed2; bvalue V.
Qed.

Ltac both_sides o :=
  let R := fresh "R" in let R' := fresh "R'" in
  let x := fresh "x" in let y := fresh "y" in let x' := fresh "x'" in let y' := fresh "y'" in
  let Ex := fresh "Ex" in let Ox := fresh "Ox" in let Oy := fresh "Oy" in let Vx := fresh "Vx" in
  let Ex' := fresh "Ex'" in let Ox' := fresh "Ox'" in let Oy' := fresh "Oy'" in let Vx' := fresh "Vx'" in
  let cl := fresh "cl" in let cr := fresh "cr" in let El := fresh "El" in let Er := fresh "Er" in
  let C0 := fresh "C0" in let Cx := fresh "Cx" in let N0 := fresh "N0" in let J := fresh "J" in
  let C0' := fresh "C0'" in let Cx' := fresh "Cx'" in let N0' := fresh "N0'" in let J' := fresh "J'" in
  let K := fresh "K" in let K' := fresh "K'" in
  match goal with ia : rinst, ib : rinst, Oa : opnd m _ ?a, Ob : opnd m _ ?b, D : rm_def m ?a = Some ?ia, D' : rm_def m ?b = Some ?ib
   |- context [negb (rop_is ?ia o) || negb (rop_is ?ib o)] =>
    destruct (rop_is ia o) eqn:R; cbn [negb orb]; [|exact I]; destruct (rop_is ib o) eqn:R'; cbn [negb orb]; [|exact I];
    destruct (def_binary m _ a ia o Hm Oa D I R) as (x & y & Ex & Ox & Oy & Vx);
    destruct (def_binary m _ b ib o Hm Ob D' I R') as (x' & y' & Ex' & Ox' & Oy' & Vx');
    destruct (const_input m ia) as [cl|] eqn:El; [|exact I]; destruct (const_input m ib) as [cr|] eqn:Er; [|exact I];
    destruct (const_split m ia x y cl Ex El) as [(C0 & Cx & N0 & J)|(C0 & Cx & N0 & J)];
    destruct (const_split m ib x' y' cr Ex' Er) as [(C0' & Cx' & N0' & J')|(C0' & Cx' & N0' & J')];
    rewrite N0, N0'; constk cl K; constk cr K'
  end.
Lemma good_reassociate_nested i o : o = FOr \/ o = FXor \/ o = FAnd \/ o = FIMul -> rinst_ok m i -> ri_op i = ROp o ->
  good m i (reassociate_nested o m i).
Proof using Hm.
  intros Hor Hi Ho. unfold reassociate_nested.
  assert (A : arith o) by (destruct Hor as [-> |[-> |[-> | ->]]]; exact I).
  destruct (inst_binary i o Hi Ho A) as (a & b & Ea & Oa & Ob & Ia & Ib & II & V).
  destruct (cst m i 0); [exact I|]. destruct (cst m i 1); [exact I|].
  apply good_check_width; [exact II|]. intros Hw. rewrite Ia, Ib. cbn [fbind].
  defof a ia D L. defof b ib D' L'.
  destruct Hor as [-> |[-> |[-> | ->]]].
  - both_sides FOr; perfk FOr cl cr c E Kc VV; typed2; bvalue V.
  - both_sides FXor; perfk FXor cl cr c E Kc VV; typed2; bvalue V.
  - both_sides FAnd; perfk FAnd cl cr c E Kc VV; typed2; bvalue V.
  - both_sides FIMul; perfk FIMul cl cr c E Kc VV; typed2; value V.
Qed.

Lemma plus3_l x y z n : (x mod n + y + z) mod n = (x + y + z) mod n.
Proof using Type. rewrite <- !Z.add_assoc. apply Zplus_mod_idemp_l. Qed.
Lemma plus3_r x y z n : (x + y mod n + z) mod n = (x + y + z) mod n.
Proof using Type. rewrite (Z.add_comm x (y mod n)), (Z.add_comm x y). apply plus3_l. Qed.
Ltac eqring := rewrite Zplus_mod_idemp_l, plus3_l, plus3_r; modring.
(** One side of [reassociate_add_sub], as a constant and a variable with signs. *)
Definition sgn (b : bool) : Z := if b then -1 else 1.
Definition is_some {A} (o : option A) : bool := match o with Some _ => true | None => false end.
Lemma add_sub_side t p ip c : opnd m t p -> rm_def m p = Some ip -> rop_is ip FIAdd || rop_is ip FISub = true ->
  const_input m ip = Some c ->
  exists x, in_op ip (if is_some (cst m ip 0) then 1 else 0) = FSome x /\ opnd m t x /\ cok t c /\
    forall env d, rexecution m env -> (d < dims t)%nat ->
      component d (env p) =
      (sgn (if is_some (cst m ip 0) then false else rop_is ip FISub) * component d (const_value c) +
       sgn (if is_some (cst m ip 0) then rop_is ip FISub else false) * component d (env x)) mod 2 ^ ewidth (elem t).
Proof using Hm.
  intros O D R Ec. destruct (rop_is ip FIAdd) eqn:RA; cbn [orb] in R.
  - rewrite (is_other ip _ FISub RA) by discriminate.
    destruct (def_binary m _ p ip FIAdd Hm O D I RA) as (x & y & Ex & Ox & Oy & Vx).
    destruct (const_split m ip x y c Ex Ec) as [(C0 & Cx & _ & J)|(C0 & Cx & _ & J)]; rewrite C0; cbn [is_some];
      eexists; (split; [exact J|]); (split; [assumption|]); (split; [eapply cok_of; [|exact Cx]; assumption|]);
      intros env d X Hd; instances env d X Hd; rewrite <- Vx, Cx; f_equal; cbn [sgn]; ring.
  - destruct (def_binary m _ p ip FISub Hm O D I R) as (x & y & Ex & Ox & Oy & Vx). rewrite R.
    destruct (const_split m ip x y c Ex Ec) as [(C0 & Cx & _ & J)|(C0 & Cx & _ & J)]; rewrite C0; cbn [is_some];
      eexists; (split; [exact J|]); (split; [assumption|]); (split; [eapply cok_of; [|exact Cx]; assumption|]);
      intros env d X Hd; instances env d X Hd; rewrite <- Vx, Cx; f_equal; cbn [sgn]; ring.
Qed.
Lemma signed_const t c neg : wide (ewidth (elem t)) -> cok t c ->
  exists c', (if neg : bool then negate_const c else FSome c) = FSome c' /\ cok t c' /\
    forall d, (d < dims t)%nat ->
      component d (const_value c') = (sgn neg * component d (const_value c)) mod 2 ^ ewidth (elem t).
Proof using Type.
  intros Hw K. destruct neg.
  - destruct (cok_neg t c Hw K) as (c' & E & K' & V). exists c'. split; [exact E|]. split; [exact K'|].
    intros d Hd. rewrite (V d Hd). cbn [sgn]. f_equal; ring.
  - exists c. split; [reflexivity|]. split; [exact K|]. intros d Hd. cbn [sgn]. rewrite Z.mul_1_l. symmetry.
    apply Z.mod_small, cok_range; auto.
Qed.
Lemma sgn_negb b : sgn (negb b) = - sgn b.
Proof using Type. destruct b; reflexivity. Qed.
Lemma good_reassociate_add_sub i (is_sub : bool) : rinst_ok m i -> ri_op i = ROp (if is_sub then FISub else FIAdd) ->
  good m i (reassociate_add_sub is_sub m i).
Proof using Hm.
  intros Hi Ho. unfold reassociate_add_sub.
  assert (A : arith (if is_sub then FISub else FIAdd)) by (destruct is_sub; exact I).
  destruct (inst_binary i _ Hi Ho A) as (a & b & Ea & Oa & Ob & Ia & Ib & II & V).
  destruct (cst m i 0); [exact I|]. destruct (cst m i 1); [exact I|].
  apply good_check_width; [exact II|]. intros Hw. rewrite Ia, Ib. cbn [fbind].
  defof a ia D L. defof b ib D' L'.
  destruct (rop_is ia FIAdd || rop_is ia FISub) eqn:R; cbn [negb orb]; [|exact I].
  destruct (rop_is ib FIAdd || rop_is ib FISub) eqn:R'; cbn [negb orb]; [|exact I].
  destruct (const_input m ia) as [cl|] eqn:El; [|exact I]. destruct (const_input m ib) as [cr|] eqn:Er; [|exact I].
  destruct (add_sub_side _ a ia cl Oa D R El) as (x & Jx & Ox & Kl & Vx).
  destruct (add_sub_side _ b ib cr Ob D' R' Er) as (y & Jy & Oy & Kr & Vy).
  change (match cst m ia 0 with Some _ => true | None => false end) with (is_some (cst m ia 0)).
  change (match cst m ib 0 with Some _ => true | None => false end) with (is_some (cst m ib 0)).
  rewrite Jx. cbn [fbind]. rewrite Jy. cbn [fbind]. cbv zeta.
  set (ln := if is_some (cst m ia 0) then false else rop_is ia FISub) in *.
  set (xn := if is_some (cst m ia 0) then rop_is ia FISub else false) in *.
  set (rn0 := if is_some (cst m ib 0) then false else rop_is ib FISub) in *.
  set (yn0 := if is_some (cst m ib 0) then rop_is ib FISub else false) in *.
  clearbody ln xn rn0 yn0.
  assert (Sr : exists rn, rn = (if is_sub then negb rn0 else rn0) /\ sgn rn = (if is_sub then - sgn rn0 else sgn rn0)).
  { destruct is_sub; eexists; split; try reflexivity; apply sgn_negb. }
  assert (Sy : exists yn, yn = (if is_sub then negb yn0 else yn0) /\ sgn yn = (if is_sub then - sgn yn0 else sgn yn0)).
  { destruct is_sub; eexists; split; try reflexivity; apply sgn_negb. }
  destruct Sr as (rn & <- & Srn). destruct Sy as (yn & <- & Syn).
  destruct (signed_const _ cl ln Hw Kl) as (cl' & E1 & K1 & V1). rewrite E1. cbn [fbind].
  destruct (signed_const _ cr rn Hw Kr) as (cr' & E2 & K2 & V2). rewrite E2. cbn [fbind].
  perfk FIAdd cl' cr' c E Kc VV.
  assert (Val : forall env d v, rexecution m env -> (d < dims (ri_type i))%nat -> inst_value m env i d = Some v ->
    v = (component d (const_value c) + (sgn xn * component d (env x) + sgn yn * component d (env y))) mod 2 ^ ewidth (elem (ri_type i))).
  { intros env d v X Hd Hv. apply V in Hv. rewrite (Vx env d X Hd), (Vy env d X Hd) in Hv.
    specialize (VV d 0 0 Hd). cbn in VV. injection VV as <-. rewrite (V1 d Hd), (V2 d Hd), Srn, Syn.
    destruct is_sub; cbn in Hv; injection Hv as <-; [rewrite Zminus_mod_idemp_l, Zminus_mod_idemp_r | rewrite Zplus_mod_idemp_l, Zplus_mod_idemp_r]; symmetry; eqring. }
  destruct xn, yn; typed2; intros env d v X Hd _ Hv; rewrite (Val env d v X Hd Hv); cbn; f_equal; modring.
Qed.
End Rules.
