(** Proofs about HexFloat.v: numbers m * 2^e, patterns, and the text forms. *)
From Verif Require Import Base NumberSpec ParseNumber NumberProofs HexFloat HexFloatSpec.
Local Open Scope N_scope.

(** ** Numbers *)
Lemma zpow_pos n : (0 <= n -> 0 < 2 ^ n)%Z.
Proof. intros. apply Z.pow_pos_nonneg; lia. Qed.
Lemma zpow_add a b : (0 <= a -> 0 <= b -> 2 ^ (a + b) = 2 ^ a * 2 ^ b)%Z.
Proof. intros. apply Z.pow_add_r; lia. Qed.
Lemma of_N_pow n : Z.of_N (2 ^ n) = (2 ^ Z.of_N n)%Z.
Proof. rewrite N2Z.inj_pow. reflexivity. Qed.

Lemma scaled_scale a k k' : (k' <= k)%Z -> (k <= snd a)%Z ->
  scaled a k' = (scaled a k * 2 ^ (k - k'))%Z.
Proof.
  intros H1 H2. unfold scaled. replace (snd a - k')%Z with ((snd a - k) + (k - k'))%Z by lia.
  rewrite zpow_add by lia. ring.
Qed.
Lemma scale_le x y k : (0 <= k)%Z -> ((x * 2 ^ k <= y * 2 ^ k) <-> (x <= y))%Z.
Proof. intros. symmetry. apply Z.mul_le_mono_pos_r. now apply zpow_pos. Qed.
Lemma scale_lt x y k : (0 <= k)%Z -> ((x * 2 ^ k < y * 2 ^ k) <-> (x < y))%Z.
Proof. intros. symmetry. apply Z.mul_lt_mono_pos_r. now apply zpow_pos. Qed.
Lemma scale_eq x y k : (0 <= k)%Z -> ((x * 2 ^ k = y * 2 ^ k) <-> (x = y))%Z.
Proof. intros. pose proof (zpow_pos k H). apply Z.mul_cancel_r. lia. Qed.

Lemma dle_at a b k : (k <= snd a)%Z -> (k <= snd b)%Z -> dle a b <-> (scaled a k <= scaled b k)%Z.
Proof.
  intros A B. unfold dle. set (m := Z.min _ _).
  rewrite (scaled_scale a m k), (scaled_scale b m k) by (unfold m; lia).
  now rewrite scale_le by (unfold m; lia).
Qed.
Lemma dlt_at a b k : (k <= snd a)%Z -> (k <= snd b)%Z -> dlt a b <-> (scaled a k < scaled b k)%Z.
Proof.
  intros A B. unfold dlt. set (m := Z.min _ _).
  rewrite (scaled_scale a m k), (scaled_scale b m k) by (unfold m; lia).
  now rewrite scale_lt by (unfold m; lia).
Qed.
Lemma deq_at a b k : (k <= snd a)%Z -> (k <= snd b)%Z -> deq a b <-> (scaled a k = scaled b k)%Z.
Proof.
  intros A B. unfold deq. set (m := Z.min _ _).
  rewrite (scaled_scale a m k), (scaled_scale b m k) by (unfold m; lia).
  now rewrite scale_eq by (unfold m; lia).
Qed.

(** ** Patterns *)
(** The number of a pattern in units of the smallest subnormal. *)
Definition units (fb p : N) : Z :=
  if p / 2 ^ fb =? 0 then Z.of_N p else ((2 ^ Z.of_N fb + Z.of_N (p mod 2 ^ fb)) * 2 ^ (Z.of_N (p / 2 ^ fb) - 1))%Z.
Definition zbias (eb : N) : Z := (2 ^ (Z.of_N eb - 1) - 1)%Z.
Definition unit_exp (eb fb : N) : Z := (1 - zbias eb - Z.of_N fb)%Z.

Lemma value_exp eb fb p : (unit_exp eb fb <= snd (value eb fb p))%Z.
Proof.
  unfold value, unit_exp, zbias. generalize (p / 2 ^ fb) as e. intros e. destruct (N.eqb_spec e 0); cbn [snd]; lia.
Qed.
Lemma value_units eb fb p : scaled (value eb fb p) (unit_exp eb fb) = units fb p.
Proof.
  pose proof (pow2_pos fb) as P. unfold value, units, scaled, unit_exp, zbias.
  destruct (N.eqb_spec (p / 2 ^ fb) 0) as [E|E]; cbn [fst snd].
  - rewrite Z.sub_diag. apply N.div_small_iff in E; [|lia]. rewrite N.mod_small by auto.
    change (2 ^ 0)%Z with 1%Z. apply Z.mul_1_r.
  - rewrite N2Z.inj_add, of_N_pow. f_equal. f_equal. revert E. generalize (p / 2 ^ fb). intros. lia.
Qed.
(** one step to the next pattern is one step of the significand *)
Lemma units_succ fb p : units fb (p + 1) = (units fb p + 2 ^ Z.max 0 (Z.of_N (p / 2 ^ fb) - 1))%Z.
Proof.
  pose proof (pow2_pos fb) as P. set (e := p / 2 ^ fb). set (m := p mod 2 ^ fb).
  assert (PE : p = 2 ^ fb * e + m) by apply N.div_mod'.
  assert (ML : m < 2 ^ fb) by (apply N.mod_lt; lia).
  pose proof (of_N_pow fb) as ZP.
  unfold units at 2. fold e m.
  destruct (N.eq_dec (m + 1) (2 ^ fb)) as [W|W].
  - assert (E' : (p + 1) / 2 ^ fb = e + 1).
    { symmetry. apply N.div_unique with 0; lia. }
    assert (M' : (p + 1) mod 2 ^ fb = 0).
    { symmetry. apply N.mod_unique with (e + 1); lia. }
    unfold units. rewrite E', M'. destruct (N.eqb_spec (e + 1) 0); [lia|].
    destruct (N.eqb_spec e 0) as [E0|E0].
    + rewrite E0 in *. change (Z.max 0 (Z.of_N 0 - 1)) with 0%Z. change (Z.of_N (0 + 1) - 1)%Z with 0%Z.
      change (2 ^ 0)%Z with 1%Z. lia.
    + replace (Z.max 0 (Z.of_N e - 1)) with (Z.of_N e - 1)%Z by lia.
      replace (Z.of_N (e + 1) - 1)%Z with (1 + (Z.of_N e - 1))%Z by lia.
      rewrite zpow_add by lia. change (2 ^ 1)%Z with 2%Z. replace (Z.of_N m) with (2 ^ Z.of_N fb - 1)%Z by lia. ring.
  - assert (E' : (p + 1) / 2 ^ fb = e).
    { symmetry. apply N.div_unique with (m + 1); lia. }
    assert (M' : (p + 1) mod 2 ^ fb = m + 1).
    { symmetry. apply N.mod_unique with e; lia. }
    unfold units. rewrite E', M'. destruct (N.eqb_spec e 0) as [E0|E0].
    + rewrite E0 in *. change (Z.max 0 (Z.of_N 0 - 1)) with 0%Z. change (2 ^ 0)%Z with 1%Z. lia.
    + replace (Z.max 0 (Z.of_N e - 1)) with (Z.of_N e - 1)%Z by lia.
      rewrite N2Z.inj_add. ring.
Qed.
Lemma units_mono fb p q : p < q -> (units fb p < units fb q)%Z.
Proof.
  intros L. remember (N.to_nat (q - p - 1)) as n eqn:E. revert q L E.
  induction n as [|n IH]; intros q L E.
  - replace q with (p + 1) by lia. rewrite units_succ. pose proof (zpow_pos (Z.max 0 (Z.of_N (p / 2 ^ fb) - 1))). lia.
  - specialize (IH (q - 1) ltac:(lia) ltac:(lia)). replace q with ((q - 1) + 1) by lia. rewrite units_succ.
    pose proof (zpow_pos (Z.max 0 (Z.of_N ((q - 1) / 2 ^ fb) - 1))). lia.
Qed.
Lemma units_le fb p q : p <= q <-> (units fb p <= units fb q)%Z.
Proof.
  split; intros L.
  - destruct (N.eq_dec p q) as [->|]; [lia|]. apply Z.lt_le_incl, units_mono. lia.
  - destruct (N.le_gt_cases p q) as [|G]; auto. apply (units_mono fb) in G. lia.
Qed.
Lemma units_lt fb p q : p < q <-> (units fb p < units fb q)%Z.
Proof.
  split; [apply units_mono|]. intros L. destruct (N.lt_ge_cases p q) as [|G]; auto. apply units_le with (fb := fb) in G. lia.
Qed.
Lemma value_dle eb fb p q : dle (value eb fb p) (value eb fb q) <-> p <= q.
Proof. rewrite (dle_at _ _ (unit_exp eb fb)), !value_units by apply value_exp. now rewrite units_le with (fb := fb). Qed.
Lemma value_dlt eb fb p q : dlt (value eb fb p) (value eb fb q) <-> p < q.
Proof. rewrite (dlt_at _ _ (unit_exp eb fb)), !value_units by apply value_exp. now rewrite units_lt with (fb := fb). Qed.

(** Order is compatible with equality of numbers. *)
Lemma deq_dle_r a b c : deq b c -> dle a b <-> dle a c.
Proof.
  intros E. set (k := Z.min (snd a) (Z.min (snd b) (snd c))).
  rewrite (deq_at _ _ k) in E by (unfold k; lia). rewrite (dle_at a b k), (dle_at a c k) by (unfold k; lia). now rewrite E.
Qed.
Lemma deq_dlt_l a b c : deq b c -> dlt b a <-> dlt c a.
Proof.
  intros E. set (k := Z.min (snd a) (Z.min (snd b) (snd c))).
  rewrite (deq_at _ _ k) in E by (unfold k; lia). rewrite (dlt_at b a k), (dlt_at c a k) by (unfold k; lia). now rewrite E.
Qed.

(** A pattern is the truncation of its own number, and of no other pattern's. *)
Lemma rounds_down_exact eb fb p v : deq v (value eb fb p) -> rounds_down eb fb v p.
Proof.
  intros E. split.
  - apply (deq_dle_r _ _ _ E). apply value_dle. lia.
  - apply (deq_dlt_l _ _ _ E). apply value_dlt. lia.
Qed.
Lemma rounds_down_unique eb fb v p q : rounds_down eb fb v p -> rounds_down eb fb v q -> p = q.
Proof.
  intros [A B] [C D].
  set (k := Z.min (snd v) (unit_exp eb fb)).
  pose proof (value_exp eb fb p). pose proof (value_exp eb fb (p + 1)).
  pose proof (value_exp eb fb q). pose proof (value_exp eb fb (q + 1)).
  apply (dle_at _ _ k) in A; try (unfold k; lia). apply (dle_at _ _ k) in C; try (unfold k; lia).
  apply (dlt_at _ _ k) in B; try (unfold k; lia). apply (dlt_at _ _ k) in D; try (unfold k; lia).
  rewrite (scaled_scale (value _ _ _) (unit_exp eb fb) k), value_units in A by (unfold k; lia || auto).
  rewrite (scaled_scale (value _ _ _) (unit_exp eb fb) k), value_units in B by (unfold k; lia || auto).
  rewrite (scaled_scale (value _ _ _) (unit_exp eb fb) k), value_units in C by (unfold k; lia || auto).
  rewrite (scaled_scale (value _ _ _) (unit_exp eb fb) k), value_units in D by (unfold k; lia || auto).
  assert (S1 : (units fb p < units fb (q + 1))%Z) by (apply (scale_lt _ _ (unit_exp eb fb - k)); unfold k in *; lia).
  assert (S2 : (units fb q < units fb (p + 1))%Z) by (apply (scale_lt _ _ (unit_exp eb fb - k)); unfold k in *; lia).
  rewrite <- units_lt in S1, S2. lia.
Qed.

(** The way truncation is established: the significand of the pattern is the integer part of [v]
    in units of its last place. *)
Lemma rounds_down_intro eb fb p v m x k :
  value eb fb p = (m, x) -> (k <= x)%Z -> (k <= snd v)%Z ->
  (Z.of_N m * 2 ^ (x - k) <= scaled v k < (Z.of_N m + 1) * 2 ^ (x - k))%Z ->
  rounds_down eb fb v p.
Proof.
  intros V K1 K2 [A B]. split.
  - apply (dle_at _ _ k); [rewrite V; auto|auto|]. rewrite V. unfold scaled at 1. cbn [fst snd]. auto.
  - set (k' := Z.min k (unit_exp eb fb)). pose proof (value_exp eb fb (p + 1)) as VE.
    pose proof (value_exp eb fb p) as VP. rewrite V in VP. cbn [snd] in VP.
    apply (dlt_at _ _ k'); try (unfold k'; lia).
    rewrite (scaled_scale v k k') by (unfold k'; lia).
    rewrite (scaled_scale _ (unit_exp eb fb) k'), value_units, units_succ by (unfold k'; lia || auto).
    apply Z.lt_le_trans with ((Z.of_N m + 1) * 2 ^ (x - k) * 2 ^ (k - k'))%Z.
    + apply scale_lt; unfold k'; lia.
    + pose proof (value_units eb fb p) as VU. rewrite V in VU. unfold scaled in VU. cbn [fst snd] in VU.
      rewrite <- VU.
      assert (X : (2 ^ Z.max 0 (Z.of_N (p / 2 ^ fb) - 1) = 2 ^ (x - unit_exp eb fb))%Z).
      { f_equal. unfold value in V. revert V. generalize (p / 2 ^ fb). intros e V. destruct (N.eqb_spec e 0); injection V as _ <-; unfold unit_exp, zbias; lia. }
      rewrite X. rewrite <- Z.mul_assoc, <- zpow_add by (unfold k'; lia).
      replace (x - k + (k - k'))%Z with (x - unit_exp eb fb + (unit_exp eb fb - k'))%Z by lia.
      rewrite zpow_add by (unfold k'; lia). apply Z.eq_le_incl. ring.
Qed.
