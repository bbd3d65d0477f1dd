(** Conversions between floating point formats: castTo. *)
From Verif Require Import Base NumberSpec ParseNumber NumberProofs WordsProofs HexFloat HexFloatSpec HexFloatProofs HexFloatProofs2 HexFloatProofs3 HexFloatProofs5 HexFloatProofs6 HexFloatProofs8 HexFloatProofs9.
Local Open Scope N_scope.

(** ** Numbers equal in value round alike *)
Lemma deq_sym a b : deq a b -> deq b a.
Proof. unfold deq. rewrite Z.min_comm. auto. Qed.
Lemma deq_dle_l a b c : deq b c -> dle b a <-> dle c a.
Proof.
  intros E. set (k := Z.min (snd a) (Z.min (snd b) (snd c))).
  rewrite (deq_at _ _ k) in E by (unfold k; lia). rewrite (dle_at b a k), (dle_at c a k) by (unfold k; lia). now rewrite E.
Qed.
Lemma deq_dlt_r a b c : deq b c -> dlt a b <-> dlt a c.
Proof.
  intros E. set (k := Z.min (snd a) (Z.min (snd b) (snd c))).
  rewrite (deq_at _ _ k) in E by (unfold k; lia). rewrite (dlt_at a b k), (dlt_at a c k) by (unfold k; lia). now rewrite E.
Qed.
Lemma deq_deq_l a b c : deq b c -> deq b a <-> deq c a.
Proof. split; intros; eapply deq_trans; eauto using deq_sym. Qed.
Lemma double_deq a b : deq a b -> deq (double a) (double b).
Proof.
  intros E. set (k := Z.min (snd a) (snd b)). rewrite (deq_at _ _ k) in E by (unfold k; lia).
  rewrite (deq_at _ _ k) by (unfold double, k; cbn [snd]; lia). unfold scaled, double in *. cbn [fst snd] in *.
  replace (snd a + 1 - k)%Z with ((snd a - k) + 1)%Z by lia. replace (snd b + 1 - k)%Z with ((snd b - k) + 1)%Z by lia.
  rewrite !zpow_add by (unfold k; lia). rewrite !Z.mul_assoc, E. reflexivity.
Qed.
Lemma rounds_down_deq eb fb v v' p : deq v v' -> rounds_down eb fb v p <-> rounds_down eb fb v' p.
Proof. intros D. unfold rounds_down. now rewrite (deq_dle_r _ _ _ D), (deq_dlt_l _ _ _ D). Qed.
Lemma rounds_up_deq eb fb v v' p : deq v v' -> rounds_up eb fb v p -> rounds_up eb fb v' p.
Proof.
  intros D [A B]. split; [now apply (deq_dle_l _ _ _ D)|]. intros q Q. apply B. now apply (deq_dle_l _ _ _ D).
Qed.
Lemma rounds_nearest_deq eb fb v v' p : deq v v' -> rounds_nearest eb fb v p -> rounds_nearest eb fb v' p.
Proof.
  intros D (q & R & C). exists q. split; [now apply (rounds_down_deq _ _ _ _ _ D)|].
  pose proof (double_deq _ _ D) as DD.
  destruct C as [(E & [C|[[C1 C2]|C]])|(E & N & [C|[C1 C2]])].
  - left. split; auto. left. now apply (deq_dlt_l _ _ _ DD).
  - left. split; auto. right. left. split; auto. now apply (deq_deq_l _ _ _ DD).
  - left. split; auto. right. right. now apply (deq_deq_l _ _ _ D).
  - right. split; auto. split; [rewrite <- (deq_deq_l _ _ _ D); auto|]. left. now apply (deq_dlt_r _ _ _ DD).
  - right. split; auto. split; [rewrite <- (deq_deq_l _ _ _ D); auto|]. right. split; auto. now apply (deq_deq_l _ _ _ DD).
Qed.
Lemma selects_deq eb fb m neg v v' p : deq v v' -> selects eb fb m neg v p -> selects eb fb m neg v' p.
Proof.
  intros D. destruct m; cbn [selects downwards].
  - apply (rounds_down_deq _ _ _ _ _ D).
  - now apply rounds_nearest_deq.
  - destruct neg; [apply (rounds_down_deq _ _ _ _ _ D)|now apply rounds_up_deq].
  - destruct neg; [now apply rounds_up_deq|apply (rounds_down_deq _ _ _ _ _ D)].
Qed.

(** rounding up is the pattern below or its successor *)
Lemma rounds_up_next eb fb v q p : rounds_down eb fb v q -> rounds_up eb fb v p ->
  (deq v (value eb fb q) /\ p = q) \/ (~ deq v (value eb fb q) /\ p = q + 1).
Proof.
  intros [A B] [C D].
  assert (LE : p <= q + 1).
  { apply D. set (k := Z.min (snd v) (snd (value eb fb (q + 1)))).
    rewrite (dlt_at _ _ k) in B by (unfold k; lia). rewrite (dle_at _ _ k) by (unfold k; lia). lia. }
  assert (GE : q <= p).
  { apply (value_dle eb fb). set (k := Z.min (snd v) (Z.min (snd (value eb fb q)) (snd (value eb fb p)))).
    rewrite (dle_at _ _ k) in A by (unfold k; lia). rewrite (dle_at _ _ k) in C by (unfold k; lia).
    rewrite (dle_at _ _ k) by (unfold k; lia). lia. }
  destruct (N.eq_dec p q) as [->|NE].
  - left. split; auto. unfold deq, dle in *. rewrite Z.min_comm in A. lia.
  - right. split; [|lia]. intros E. assert (p <= q); [|lia]. apply D.
    unfold deq, dle in *. lia.
Qed.

Lemma middle_scaled eb fb q k : (k <= snd (value eb fb q))%Z -> (k <= snd (value eb fb (q + 1)))%Z ->
  scaled (middle eb fb q) k = (scaled (value eb fb q) k + scaled (value eb fb (q + 1)) k)%Z /\
  (k <= snd (middle eb fb q))%Z.
Proof.
  intros A B. unfold middle. set (a := value eb fb q) in *. set (b := value eb fb (q + 1)) in *.
  set (m := Z.min (snd a) (snd b)). split; [|cbn [snd]; unfold m; lia].
  rewrite (scaled_scale a m k), (scaled_scale b m k) by (unfold m; lia).
  unfold scaled at 1. cbn [fst snd]. rewrite Z2N.id.
  2:{ unfold scaled. pose proof (zpow_pos (snd a - m) ltac:(unfold m; lia)). pose proof (zpow_pos (snd b - m) ltac:(unfold m; lia)).
      nia. }
  ring.
Qed.

(** ** The number between two neighbours of the target format *)
Section Between.
Context (eb fb n rem t Q : N) (x : Z) (q : N).
Let V := Q * 2 ^ n + rem.
Let v : dyadic := (V, (x - Z.of_N n)%Z).
Hypothesis RL : rem < 2 ^ n.
Hypothesis VQ : value eb fb q = (Q, x).
Hypothesis VN : deq (value eb fb (q + 1)) (Q + 1, x).
Hypothesis XN : (x <= snd (value eb fb (q + 1)))%Z.

Lemma scaled_v : scaled v (x - Z.of_N n) = Z.of_N V.
Proof using All. unfold v, scaled. cbn [fst snd]. rewrite Z.sub_diag. change (2 ^ 0)%Z with 1%Z. lia. Qed.
Lemma scaled_q : scaled (value eb fb q) (x - Z.of_N n) = Z.of_N (Q * 2 ^ n).
Proof using All.
  rewrite VQ. unfold scaled. cbn [fst snd]. replace (x - (x - Z.of_N n))%Z with (Z.of_N n) by lia.
  rewrite <- of_N_pow. lia.
Qed.
Lemma scaled_n : scaled (value eb fb (q + 1)) (x - Z.of_N n) = Z.of_N ((Q + 1) * 2 ^ n).
Proof using All.
  pose proof VN as D. rewrite (deq_at _ _ (x - Z.of_N n)) in D by (cbn [snd]; lia). rewrite D.
  unfold scaled. cbn [fst snd]. replace (x - (x - Z.of_N n))%Z with (Z.of_N n) by lia.
  rewrite <- of_N_pow. lia.
Qed.
Lemma between_down : rounds_down eb fb v q.
Proof using All.
  split.
  - rewrite (dle_at _ _ (x - Z.of_N n)), scaled_v, scaled_q by (rewrite ?VQ; unfold v; cbn [snd]; lia). unfold V. lia.
  - rewrite (dlt_at _ _ (x - Z.of_N n)), scaled_v, scaled_n by (unfold v; cbn [snd]; lia). unfold V. clear - RL. lia.
Qed.
Lemma between_exact : deq v (value eb fb q) <-> rem = 0.
Proof using All.
  rewrite (deq_at _ _ (x - Z.of_N n)), scaled_v, scaled_q by (rewrite ?VQ; unfold v; cbn [snd]; lia). unfold V. lia.
Qed.
Hypothesis PT : N.even q = N.even t.
Lemma between_selects dir m neg p :
  m = match dir with To_zero => Toward_zero | To_nearest_even => Nearest_even
                   | To_positive_infinity => Toward_positive | To_negative_infinity => Toward_negative end ->
  selects eb fb m neg v p -> p = if away dir neg n rem t then q + 1 else q.
Proof using All.
  intros -> S0. pose proof between_down as RD. pose proof between_exact as EX.
  assert (DOWN : forall p, rounds_down eb fb v p -> p = q) by (intros; eapply rounds_down_unique; eauto).
  assert (UP : forall p, rounds_up eb fb v p -> p = if rem =? 0 then q else q + 1).
  { intros p0 H. destruct (rounds_up_next _ _ _ _ _ RD H) as [[A ->]|[A ->]]; rewrite EX in A;
      destruct (N.eqb_spec rem 0); auto; lia. }
  unfold away. destruct dir; cbn [selects downwards] in S0.
  - rewrite (DOWN _ S0). now destruct (rem =? 0).
  - destruct S0 as (q' & R' & C). apply DOWN in R'. subst q'.
    set (k := (x - Z.of_N n)%Z).
    assert (SD : scaled (double v) k = Z.of_N (2 * V) /\ (k <= snd (double v))%Z).
    { unfold double, scaled, v. cbn [fst snd]. split; [|unfold k; lia].
      replace (x - Z.of_N n + 1 - k)%Z with 1%Z by (unfold k; lia). lia. }
    destruct SD as [SD KD].
    destruct (middle_scaled eb fb q k) as [SM KM]; [rewrite VQ; unfold k; cbn [snd]; lia|unfold k; lia|].
    unfold k in SM. rewrite scaled_q, scaled_n in SM. fold k in SM.
    assert (CMP1 : dlt (double v) (middle eb fb q) <-> 2 * rem < 2 ^ n).
    { rewrite (dlt_at _ _ k), SD, SM by auto. unfold V. clear. split; intros; lia. }
    assert (CMP2 : dlt (middle eb fb q) (double v) <-> 2 ^ n < 2 * rem).
    { rewrite (dlt_at _ _ k), SD, SM by auto. unfold V. clear. split; intros; lia. }
    assert (CMP3 : deq (double v) (middle eb fb q) <-> 2 * rem = 2 ^ n).
    { rewrite (deq_at _ _ k), SD, SM by auto. unfold V. clear. split; intros; lia. }
    rewrite CMP1, CMP2, CMP3, EX, PT in C.
    destruct (N.eqb_spec rem 0) as [R0|R0].
    { destruct C as [[-> _]|(_ & F & _)]; [reflexivity|]. now elim F. }
    destruct (N.ltb_spec (2 * rem) (2 ^ n)).
    { destruct C as [[-> _]|(-> & _ & [C|[C _]])]; [reflexivity|lia|lia]. }
    destruct (N.ltb_spec (2 ^ n) (2 * rem)).
    { destruct C as [(_ & [C|[[C _]|C]])|(-> & _)]; try reflexivity; lia. }
    destruct (N.even t) eqn:ET; cbn [negb].
    + destruct C as [[-> _]|(_ & _ & [C|[_ C]])]; [reflexivity|lia|discriminate].
    + destruct C as [(_ & [C|[[_ C]|C]])|(-> & _)]; try reflexivity; try discriminate; lia.
  - destruct neg; cbn [negb] in *.
    + rewrite (DOWN _ S0). now destruct (rem =? 0).
    + rewrite (UP _ S0). now destruct (rem =? 0).
  - destruct neg; cbn [negb] in *.
    + rewrite (UP _ S0). now destruct (rem =? 0).
    + rewrite (DOWN _ S0). now destruct (rem =? 0).
Qed.
End Between.
