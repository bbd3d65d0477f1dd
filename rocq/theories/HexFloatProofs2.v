(** Proofs about HexFloat.v: reading a hexadecimal text. *)
From Verif Require Import Base NumberSpec ParseNumber NumberProofs WordsProofs HexFloat HexFloatSpec HexFloatProofs.
Local Open Scope N_scope.

(** A format whose storage is exactly a sign, [eb] exponent bits and [fb] fraction bits. *)
Record fmt_ok (f : fmt) (eb fb : N) : Prop := {
  ok_u : uwidth f = 1 + eb + fb;
  ok_used : used f = uwidth f;
  ok_e : ebits f = eb;
  ok_f : fbits f = fb;
  ok_bias : Z.of_N (bias f) = zbias eb;
  ok_eb : 2 <= eb;
  ok_fb : 1 <= fb;
  ok_64 : uwidth f <= 64;
  ok_sign : has_sign f = true;
  ok_zero : has_zero f = true }.

(** ** Bit arithmetic *)
Lemma set_bits0 n : set_bits 0 n = N.ones n.
Proof. unfold set_bits. apply N.shiftl_0_r. Qed.
Lemma land_set0 x n : N.land x (set_bits 0 n) = x mod 2 ^ n.
Proof. rewrite set_bits0. apply N.land_ones. Qed.
Lemma land_set x y n : N.land (N.shiftl x n) (set_bits n y) = N.shiftl (x mod 2 ^ y) n.
Proof. unfold set_bits. rewrite <- N.shiftl_land, N.land_ones. reflexivity. Qed.
Lemma pow2_add a b : 2 ^ (a + b) = 2 ^ a * 2 ^ b.
Proof. apply N.pow_add_r. Qed.
Lemma pow2_le a b : a <= b -> 2 ^ a <= 2 ^ b.
Proof. intros. apply N.pow_le_mono_r; lia. Qed.
Lemma pow2_lt a b : a < b -> 2 ^ a < 2 ^ b.
Proof. intros. apply N.pow_lt_mono_r; lia. Qed.
Lemma pow2_gt a : a < 2 ^ a.
Proof. apply N.pow_gt_lin_r; lia. Qed.
Lemma wrap_small u x : x < 2 ^ u -> wrap u x = x.
Proof. apply N.mod_small. Qed.
Lemma ones_val n : N.ones n = 2 ^ n - 1.
Proof. rewrite N.ones_equiv. symmetry. apply N.sub_1_r. Qed.

(** the top [u] bits of [n] bits of value [B] *)
Definition top (u n B : N) : N := B * 2 ^ u / 2 ^ n.
Lemma top_small u n B : n <= u -> top u n B = B * 2 ^ (u - n).
Proof.
  intros L. unfold top. replace u with ((u - n) + n) at 1 by lia. rewrite pow2_add, N.mul_assoc.
  apply N.div_mul. pose proof (pow2_pos n). lia.
Qed.
Lemma top_big u n B : u <= n -> top u n B = B / 2 ^ (n - u).
Proof.
  intros L. unfold top. replace n with ((n - u) + u) at 1 by lia. rewrite pow2_add.
  pose proof (pow2_pos u). pose proof (pow2_pos (n - u)). apply N.div_mul_cancel_r; lia.
Qed.
Lemma top_lt u n B : B < 2 ^ n -> top u n B < 2 ^ u.
Proof.
  intros L. unfold top. pose proof (pow2_pos n). pose proof (pow2_pos u).
  apply N.div_lt_upper_bound; [lia|]. apply N.mul_lt_mono_pos_r; lia.
Qed.
(** [top] cut further down *)
Lemma top_cut u n B k : k <= u -> top u n B / 2 ^ (u - k) = top k n B.
Proof.
  intros L. unfold top. pose proof (pow2_pos n). pose proof (pow2_pos (u - k)).
  rewrite N.div_div by lia. replace u with (k + (u - k)) at 1 by lia.
  rewrite pow2_add, N.mul_assoc. apply N.div_mul_cancel_r; lia.
Qed.

Lemma set_nth_top f eb fb n B (b : bool) i : fmt_ok f eb fb -> B < 2 ^ n -> i = N.min n (2 ^ uwidth f - 1) ->
  set_nth_msb f (top (uwidth f) n B) (if b then 1 else 0) i = top (uwidth f) (n + 1) (2 * B + N.b2n b).
Proof.
  intros O BL ->. set (u := uwidth f). pose proof (pow2_gt u) as UG.
  assert (U0 : 0 < u) by (unfold u; rewrite (ok_u _ _ _ O); lia).
  unfold set_nth_msb. fold u.
  destruct (N.lt_ge_cases n u) as [L|L].
  - replace (N.min n (2 ^ u - 1)) with n by lia.
    rewrite (top_small u n), (top_small u (n + 1)) by lia.
    replace (u - n) with ((u - (n + 1)) + 1) by lia. rewrite pow2_add. change (2 ^ 1) with 2.
    assert (Pp := pow2_pos (u - (n + 1))). set (w := 2 ^ (u - (n + 1))) in *.
    destruct b; cbn [N.b2n].
    + destruct (N.eqb_spec 1 0); [lia|]. destruct (N.leb_spec n (u - 1)); [|lia]. cbn [negb andb].
      replace (u - 1 - n) with (u - (n + 1)) by lia.
      rewrite N.shiftl_mul_pow2, N.mul_1_l. fold w.
      replace (B * (w * 2)) with (2 * B * w) by ring. unfold w at 1.
      rewrite <- N.shiftl_mul_pow2, N.lor_comm.
      assert (E : N.lor w (N.shiftl (2 * B) (u - (n + 1))) = (2 * B + 1) * w).
      { replace w with (N.shiftl 1 (u - (n + 1))) at 1 by (rewrite N.shiftl_mul_pow2; apply N.mul_1_l).
        rewrite <- N.shiftl_lor, N.shiftl_mul_pow2. fold w. f_equal.
        replace 1 with (1 mod 2) at 1 by reflexivity.
        replace (2 * B) with (N.shiftl B 1) by (rewrite N.shiftl_mul_pow2; change (2 ^ 1) with 2; lia).
        change (1 mod 2) with 1. rewrite lor_shift_add by (change (2 ^ 1) with 2; lia). change (2 ^ 1) with 2.
        rewrite N.shiftl_mul_pow2. change (2 ^ 1) with 2. lia. }
      rewrite E. apply wrap_small.
      assert (2 ^ u = 2 ^ n * 2 * w).
      { unfold w. replace u with (n + 1 + (u - (n + 1))) at 1 by lia. rewrite !pow2_add. reflexivity. }
      rewrite H0. apply N.mul_lt_mono_pos_r; lia.
    + destruct (N.eqb_spec 0 0); [|lia]. cbn [negb andb]. lia.
  - assert (C : negb ((if b then 1 else 0) =? 0) && (N.min n (2 ^ u - 1) <=? u - 1) = false).
    { apply andb_false_intro2. destruct (N.leb_spec (N.min n (2 ^ u - 1)) (u - 1)); lia. }
    rewrite C. rewrite !top_big by lia. replace (n + 1 - u) with (1 + (n - u)) by lia. rewrite pow2_add.
    change (2 ^ 1) with 2. pose proof (pow2_pos (n - u)). rewrite <- N.div_div by lia.
    f_equal. destruct b; cbn [N.b2n]; [|lia]. apply N.div_unique with 1; lia.
Qed.

(** ** The states of the mantissa loops *)
Lemma log2_step V b : 0 < V -> N.log2 (2 * V + N.b2n b) = N.log2 V + 1.
Proof.
  intros P. destruct b; cbn [N.b2n].
  - rewrite N.log2_succ_double; lia.
  - rewrite N.add_0_r, N.log2_double; lia.
Qed.
Lemma log2_bounds V : 0 < V -> 2 ^ N.log2 V <= V < 2 * 2 ^ N.log2 V.
Proof. intros P. pose proof (N.log2_spec V P). rewrite N.pow_succ_r' in H. lia. Qed.

(** digits before the dot, value [V] so far *)
Definition iseen (f : fmt) (V : N) (s : mant) : Prop :=
  has_int s = true /\ bw s = negb (V =? 0) /\
  if V =? 0 then fr s = 0 /\ idx s = 0 /\ ex s = Z.of_N (bias f)
  else fr s = top (uwidth f) (N.log2 V) (V - 2 ^ N.log2 V) /\
       idx s = N.min (N.log2 V) (2 ^ uwidth f - 1) /\
       ex s = (Z.of_N (bias f) + Z.of_N (N.log2 V))%Z.
(** [q] bits after the dot as well *)
Definition seen (f : fmt) (hi : bool) (V q : N) (s : mant) : Prop :=
  has_int s = hi /\
  if hi then 0 < V /\ fr s = top (uwidth f) (N.log2 V) (V - 2 ^ N.log2 V) /\
       idx s = N.min (N.log2 V) (2 ^ uwidth f - 1) /\
       ex s = (Z.of_N (bias f) + Z.of_N (N.log2 V) - Z.of_N q)%Z
  else if V =? 0 then fr s = 0 /\ idx s = 0 /\ bw s = false /\ ex s = (Z.of_N (bias f) - Z.of_N q)%Z
  else fr s = top (uwidth f) (N.log2 V + 1) V /\ idx s = N.min (N.log2 V + 1) (2 ^ uwidth f - 1) /\
       bw s = true /\ ex s = (Z.of_N (bias f) + Z.of_N (N.log2 V) + 1 - Z.of_N q)%Z.

Lemma idx_step f n : sat_inc_index f (N.min n (2 ^ uwidth f - 1)) = N.min (n + 1) (2 ^ uwidth f - 1).
Proof. unfold sat_inc_index. pose proof (pow2_pos (uwidth f)). destruct (N.eqb_spec (N.min n (2 ^ uwidth f - 1)) (2 ^ uwidth f - 1)); lia. Qed.

Lemma int_bit_step f eb fb V s b : fmt_ok f eb fb -> iseen f V s ->
  (Z.of_N (bias f) + Z.of_N (N.log2 V) < int_max f)%Z ->
  exists s', int_bit f s b = Some s' /\ iseen f (2 * V + N.b2n b) s'.
Proof.
  intros O (H & B & St) L. unfold int_bit. rewrite B. destruct (N.eqb_spec V 0) as [->|V0]; cbn [negb].
  - eexists. split; [reflexivity|]. unfold iseen. cbn [fr idx ex has_int bw]. destruct St as (F & I & X).
    split; auto. destruct b; cbn [N.b2n orb negb N.eqb].
    + change (2 * 0 + 1) with 1. cbn. rewrite F, I, X. pose proof (pow2_gt (uwidth f)).
      split; [reflexivity|]. split; [reflexivity|]. split; [lia|]. change (Z.of_N (N.log2 1)) with 0%Z. lia.
    + change (2 * 0 + 0) with 0. cbn. auto.
  - destruct St as (F & I & X). destruct (Z.eqb_spec (ex s) (int_max f)); [lia|].
    eexists. split; [reflexivity|]. unfold iseen. cbn [fr idx ex has_int bw].
    pose proof (log2_bounds V ltac:(lia)) as [LB UB].
    destruct (N.eqb_spec (2 * V + N.b2n b) 0) as [Z|_]; [destruct b; cbn [N.b2n] in Z; lia|].
    rewrite log2_step by lia. split; auto. split; [reflexivity|].
    split; [|split].
    + rewrite F. rewrite (set_nth_top f eb fb (N.log2 V)); auto; [|lia].
      f_equal. rewrite pow2_add. change (2 ^ 1) with 2. destruct b; cbn [N.b2n]; lia.
    + rewrite I. apply idx_step.
    + rewrite X. lia.
Qed.
Lemma frac_bit_step f eb fb hi V q s b : fmt_ok f eb fb -> seen f hi V q s ->
  (Z.of_N q < - int_min f)%Z ->
  exists s', frac_bit f s b = Some s' /\ seen f hi (2 * V + N.b2n b) (q + 1) s'.
Proof.
  intros O (H & St) L. unfold frac_bit. rewrite H. destruct hi; cbn [negb andb].
  - destruct St as (P & F & I & X). eexists. split; [reflexivity|].
    unfold seen. cbn [fr idx ex has_int bw]. rewrite log2_step by lia.
    pose proof (log2_bounds V ltac:(lia)) as [LB UB].
    split; auto. split; [destruct b; cbn [N.b2n]; lia|]. split; [|split].
    + rewrite F. rewrite (set_nth_top f eb fb (N.log2 V)); auto; [|lia].
      f_equal. rewrite pow2_add. change (2 ^ 1) with 2. destruct b; cbn [N.b2n]; lia.
    + rewrite I. apply idx_step.
    + rewrite X. lia.
  - destruct (N.eqb_spec V 0) as [->|V0].
    + destruct St as (F & I & B & X). rewrite B. destruct b; cbn [orb negb].
      * eexists. split; [reflexivity|]. unfold seen. cbn [fr idx ex has_int bw N.b2n].
        split; auto. change (2 * 0 + 1) with 1. cbn [N.eqb]. change (N.log2 1) with 0.
        split; [|split; [|split]]; auto.
        -- rewrite F, I. replace 0 with (top (uwidth f) 0 0) at 1 by reflexivity.
           pose proof (pow2_gt (uwidth f)).
           rewrite (set_nth_top f eb fb 0 0 true); [reflexivity|exact O|reflexivity|lia].
        -- rewrite I. pose proof (pow2_gt (uwidth f)). rewrite <- idx_step. f_equal. lia.
        -- lia.
      * destruct (Z.eqb_spec (ex s) (int_min f)); [lia|].
        eexists. split; [reflexivity|]. unfold seen. cbn [fr idx ex has_int bw N.b2n].
        split; auto. change (2 * 0 + 0) with 0. cbn. repeat split; auto. lia.
    + destruct St as (F & I & B & X). rewrite B. cbn [orb negb].
      eexists. split; [reflexivity|]. unfold seen. cbn [fr idx ex has_int bw].
      pose proof (log2_bounds V ltac:(lia)) as [LB UB].
      destruct (N.eqb_spec (2 * V + N.b2n b) 0) as [Z|_]; [destruct b; cbn [N.b2n] in Z; lia|].
      rewrite log2_step by lia. split; auto. split; [|split; [|split]]; auto.
      * rewrite F. rewrite (set_nth_top f eb fb (N.log2 V + 1)); auto. rewrite pow2_add. change (2 ^ 1) with 2. lia.
      * rewrite I. apply idx_step.
      * lia.
Qed.

(** ** The loops over digits *)
Definition bval (V : N) (bs : list bool) : N := fold_left (fun a b => 2 * a + N.b2n b) bs V.
Lemma nibble_bval V d : d < 16 -> bval V (nibble_bits d) = 16 * V + d.
Proof.
  intros L. assert (D : bval 0 (nibble_bits d) = d).
  { assert (In d (map N.of_nat (seq 0 16))).
    { apply in_map_iff. exists (N.to_nat d). split; [lia|]. apply in_seq. lia. }
    revert H. cbn [map seq]. cbn [N.of_nat Pos.of_succ_nat Pos.succ]. intros H.
    repeat (destruct H as [<-|H]; [reflexivity|]). destruct H. }
  unfold bval, nibble_bits in *. cbn [fold_left] in *. lia.
Qed.
Lemma digit_lt c d : digit c d -> d < 16.
Proof. intros H; inversion H; lia. Qed.
Lemma digit_char c d : digit c d -> c <> 46 /\ c <> 112 /\ digit_value c = Some d.
Proof. intros H. split; [|split; [|now apply digit_value_spec]]; inversion H; lia. Qed.

Definition num_from (base V : N) (ds : list N) : N := fold_left (fun a d => base * a + d) ds V.
Lemma num_from_lt V ds : Forall (fun d => d < 16) ds -> forall k, V < 2 ^ k ->
  num_from 16 V ds < 2 ^ (k + 4 * N.of_nat (length ds)).
Proof.
  intros F. unfold num_from. revert V. induction F as [|d ds D F IH]; intros V k L.
  - cbn [fold_left length]. now rewrite N.add_0_r.
  - cbn [fold_left length]. replace (k + 4 * N.of_nat (S (length ds))) with ((k + 4) + 4 * N.of_nat (length ds)) by lia.
    apply IH. rewrite pow2_add. change (2 ^ 4) with 16. lia.
Qed.
Lemma log2_lt_of V k : V < 2 ^ k -> 0 < k -> N.log2 V < k.
Proof.
  intros L K. destruct (N.eq_dec V 0) as [->|V0]; [exact K|]. apply N.log2_lt_pow2; lia.
Qed.

Lemma int_digit f eb fb V s d k : fmt_ok f eb fb -> iseen f V s \/ V = 0 /\ ex s = Z.of_N (bias f) /\ fr s = 0 /\ idx s = 0 /\ bw s = false ->
  d < 16 -> V < 2 ^ k -> (Z.of_N (bias f) + Z.of_N k + 4 < int_max f)%Z ->
  exists s', bits_loop (int_bit f) (nibble_bits d)
               {| fr := fr s; idx := idx s; ex := ex s; has_int := true; bw := bw s |} = Some s' /\
             iseen f (16 * V + d) s'.
Proof.
  intros O I D VL M.
  assert (I0 : iseen f V {| fr := fr s; idx := idx s; ex := ex s; has_int := true; bw := bw s |}).
  { destruct I as [(A & B)|(-> & A & B & C & E)].
    - split; auto.
    - unfold iseen. cbn [fr idx ex has_int bw]. rewrite A, B, C, E. cbn. auto. }
  rewrite <- (nibble_bval V d D). unfold nibble_bits, bval. cbn [fold_left bits_loop].
  assert (ST : forall W s b j, iseen f W s -> W < 2 ^ (k + j) -> j < 4 ->
             exists s', int_bit f s b = Some s' /\ iseen f (2 * W + N.b2n b) s' /\ 2 * W + N.b2n b < 2 ^ (k + (j + 1))).
  { intros W t b j IW WL J.
    destruct (int_bit_step f eb fb W t b O IW) as (t' & E & I').
    - assert (N.log2 W <= k + j).
      { destruct (N.eq_dec W 0) as [->|W0]; [cbn; lia|]. apply N.lt_le_incl, N.log2_lt_pow2; lia. }
      lia.
    - exists t'. split; auto. split; auto. rewrite N.add_assoc, (pow2_add (k + j) 1). change (2 ^ 1) with 2.
      destruct b; cbn [N.b2n]; lia. }
  destruct (ST _ _ (N.testbit d 3) 0 I0) as (s1 & -> & I1 & L1); [rewrite N.add_0_r; auto|lia|].
  destruct (ST _ _ (N.testbit d 2) 1 I1) as (s2 & -> & I2 & L2); [auto|lia|].
  destruct (ST _ _ (N.testbit d 1) 2 I2) as (s3 & -> & I3 & L3); [auto|lia|].
  destruct (ST _ _ (N.testbit d 0) 3 I3) as (s4 & -> & I4 & L4); [auto|lia|].
  exists s4. auto.
Qed.
Lemma int_loop_digits f eb fb ip ids c t : fmt_ok f eb fb -> Forall2 digit ip ids -> c = 46 \/ c = 112 ->
  forall V s k, iseen f V s -> V < 2 ^ k ->
  (Z.of_N (bias f) + Z.of_N k + 4 * Z.of_nat (length ids) + 4 < int_max f)%Z ->
  exists s', int_loop f (ip ++ c :: t) s = Some (s', c =? 46, t) /\ iseen f (num_from 16 V ids) s'.
Proof.
  intros O F C. induction F as [|x d ip ids D F IH]; intros V s k I VL M.
  - exists s. cbn [app int_loop num_from fold_left]. split; auto.
    destruct C as [-> | ->]; reflexivity.
  - cbn [app int_loop]. destruct (digit_char _ _ D) as (N1 & N2 & ->).
    apply N.eqb_neq in N1, N2. rewrite N1, N2. cbn [length] in M.
    destruct (int_digit f eb fb V s d k O (or_introl I) (digit_lt _ _ D) VL ltac:(lia)) as (s' & -> & I').
    destruct (IH (16 * V + d) s' (k + 4) I') as (s'' & E & I'').
    + rewrite pow2_add. change (2 ^ 4) with 16. pose proof (digit_lt _ _ D). lia.
    + lia.
    + exists s''. split; auto.
Qed.
Lemma frac_digit f eb fb hi V q s d : fmt_ok f eb fb -> seen f hi V q s -> d < 16 ->
  (Z.of_N q + 4 < - int_min f)%Z ->
  exists s', bits_loop (frac_bit f) (nibble_bits d) s = Some s' /\ seen f hi (16 * V + d) (q + 4) s'.
Proof.
  intros O I D M. rewrite <- (nibble_bval V d D). unfold nibble_bits, bval. cbn [fold_left bits_loop].
  destruct (frac_bit_step f eb fb hi _ _ _ (N.testbit d 3) O I) as (s1 & -> & I1); [lia|].
  destruct (frac_bit_step f eb fb hi _ _ _ (N.testbit d 2) O I1) as (s2 & -> & I2); [lia|].
  destruct (frac_bit_step f eb fb hi _ _ _ (N.testbit d 1) O I2) as (s3 & -> & I3); [lia|].
  destruct (frac_bit_step f eb fb hi _ _ _ (N.testbit d 0) O I3) as (s4 & -> & I4); [lia|].
  exists s4. split; auto. now replace (q + 4) with (q + 1 + 1 + 1 + 1) by lia.
Qed.
Lemma frac_loop_digits f eb fb hi fp fds t : fmt_ok f eb fb -> Forall2 digit fp fds ->
  forall V q s, seen f hi V q s ->
  (Z.of_N q + 4 * Z.of_nat (length fds) < - int_min f)%Z ->
  exists s', frac_loop f (fp ++ 112 :: t) s = Some (s', t) /\
             seen f hi (num_from 16 V fds) (q + 4 * N.of_nat (length fds)) s'.
Proof.
  intros O F. induction F as [|x d fp fds D F IH]; intros V q s I M.
  - exists s. cbn [app frac_loop num_from fold_left length]. split; [reflexivity|]. now rewrite N.add_0_r.
  - cbn [app frac_loop]. destruct (digit_char _ _ D) as (_ & N2 & ->). apply N.eqb_neq in N2. rewrite N2.
    cbn [length] in *.
    destruct (frac_digit f eb fb hi V q s d O I (digit_lt _ _ D) ltac:(lia)) as (s' & -> & I').
    destruct (IH (16 * V + d) (q + 4) s' I' ltac:(lia)) as (s'' & E & I'').
    exists s''. split; auto. now replace (q + 4 * N.of_nat (S (length fds))) with (q + 4 + 4 * N.of_nat (length fds)) by lia.
Qed.
