(** Proofs about the reducer model. *)
From Verif Require Import Base Reducer ReducerSpec.
Local Open Scope N_scope.

Lemma u32_small x : x < 2 ^ 32 -> u32 x = x.
Proof. intros. unfold u32. apply N.mod_small; auto. Qed.

Lemma faithful_snoc int calls b step : faithful int calls ->
  faithful int (calls ++ [(b, step, int calls b step)]).
Proof.
  intros F before b' step' a after E.
  destruct (list_eq_dec (fun x y : question => ltac:(repeat decide equality)) after []) as [->|N].
  - apply app_inj_tail in E. destruct E as [-> E]. congruence.
  - destruct (exists_last N) as [l [x ->]].
    rewrite app_comm_cons, app_assoc in E. apply app_inj_tail in E. destruct E as [E _]. eapply F; eauto.
Qed.

Section Loop.
Variable validate : binary -> bool.
Variable interesting : interestingness.
Variable step_limit : N.
Variable foe : bool.
Hypothesis limit_small : step_limit < 2 ^ 32.

Notation pass_loop := (pass_loop validate interesting step_limit foe).
Notation round := (round validate interesting step_limit foe).
Notation rounds := (rounds validate interesting step_limit foe).

Definition pass_ok (p : pass) : Prop := 1 <= granularity p < 2 ^ 32 /\ writes_modules (find_with p).

(** What every step keeps. *)
Record good (s : state) : Prop := {
  good_faithful : faithful interesting (asked s);
  good_valid : validate (current s) = true;
  good_accepted : accepted (asked s) (current s);
  good_count : N.of_nat (length (asked s)) <= reductions s + 1 }.

Definition extends (s s' : state) : Prop :=
  reductions s <= reductions s' /\ (exists ext, asked s' = asked s ++ ext) /\
  (reductions s' = reductions s -> s' = s).
Lemma extends_refl s : extends s s.
Proof. split; [lia|]. split; [exists []; rewrite app_nil_r; auto|auto]. Qed.
Lemma extends_trans s1 s2 s3 : extends s1 s2 -> extends s2 s3 -> extends s1 s3.
Proof.
  intros [A [[x B] C]] [D [[y E] F]]. split; [lia|]. split; [exists (x ++ y); rewrite E, B, app_assoc; auto|].
  intros G. rewrite F by lia. apply C. lia.
Qed.

Definition bad (s : state) : Prop :=
  foe = true /\ validate (current s) = false /\ faithful interesting (asked s) /\
  N.of_nat (length (asked s)) <= reductions s + 1.

Lemma try_pass p b : pass_ok p -> pass_ok (fst (try_apply_reduction p b)) /\
  find_with (fst (try_apply_reduction p b)) = find_with p /\
  granularity (fst (try_apply_reduction p b)) <= granularity p.
Proof.
  intros [[G1 G2] W]. unfold try_apply_reduction.
  set (size := opportunities (find_with p) b).
  assert (H : 1 <= (if size <? granularity p then N.max 1 (u32 size) else granularity p) <= granularity p).
  { destruct (N.ltb_spec size (granularity p)); [|lia]. rewrite u32_small by lia. lia. }
  destruct (size <=? index p); cbn [fst find_with granularity].
  - split; [split; auto; cbn [granularity]|split; auto]; zify; Z.to_euclidean_division_equations; lia.
  - split; [split; auto; cbn [granularity]; lia|split; auto; lia].
Qed.

Lemma notify_pass p a : pass_ok p -> pass_ok (notify_interesting p a) /\
  find_with (notify_interesting p a) = find_with p /\ granularity (notify_interesting p a) = granularity p.
Proof. intros [G W]. unfold notify_interesting. destruct a; split; [split|split| |]; auto. split; auto. Qed.

Lemma pass_loop_ok : forall fuel p s w, pass_ok p -> good s -> reductions s + 1 < 2 ^ 32 ->
  (N.to_nat (step_limit - reductions s) <= fuel)%nat -> (1 <= fuel)%nat ->
  match pass_loop fuel p s w with
  | None => False
  | Some (Failed s') => bad s' /\ reductions s < reductions s' <= N.max step_limit (reductions s + 1)
  | Some (Ended p' s' w') =>
      pass_ok p' /\ find_with p' = find_with p /\ good s' /\ extends s s' /\
      reductions s' <= N.max step_limit (reductions s + 1) /\
      (w' = true -> w = true \/ reductions s < reductions s') /\
      (step_limit <= reductions s' /\ reductions s < reductions s' \/
       reductions s' <= N.max step_limit (reductions s) /\
       index p' = 0 /\ granularity p' <= N.max 1 (granularity p / 2))
  end.
Proof.
  induction fuel as [|fuel IH]; intros p s w P G B F F1; [lia|].
  cbn [Reducer.pass_loop]. destruct (try_apply_reduction p (current s)) as [p1 res] eqn:T.
  assert (Tp := try_pass p (current s) P). rewrite T in Tp. cbn [fst] in Tp. destruct Tp as [P1 [Fd Gr]].
  destruct res as [|x res'].
  - split; auto. split; auto. split; auto. split; [apply extends_refl|]. split; [lia|]. split; [auto|].
    right. split; [lia|].
    unfold try_apply_reduction in T. destruct (opportunities (find_with p) (current s) <=? index p) eqn:Q.
    + inversion T; subst. cbn [index granularity]. split; auto.
      destruct P as [[Pa Pb] _].
      destruct (N.ltb_spec (opportunities (find_with p) (current s)) (granularity p)) as [Lt|Ge]; [|lia].
      rewrite u32_small by lia.
      assert (N.max 1 (opportunities (find_with p) (current s)) / 2 <= granularity p / 2) by (apply N.div_le_mono; lia). lia.
    + inversion T. destruct P as [_ W]. exfalso. eapply W; eauto.
  - set (result := x :: res') in *. rewrite u32_small by lia.
    set (n := reductions s + 1).
    destruct (validate result) eqn:V.
    + set (answer := interesting (asked s) result n).
      set (s1 := {| current := _; reductions := _; asked := _ |}).
      set (p2 := notify_interesting p1 answer).
      destruct (notify_pass p1 answer P1) as [P2 [Fd2 Gr2]]. fold p2 in P2, Fd2, Gr2.
      assert (G1 : good s1).
      { destruct G as [Gf Gv [st Ga] Gc]. split; unfold s1; cbn [asked current reductions].
        - apply faithful_snoc; auto.
        - destruct answer; auto.
        - destruct answer eqn:A; [exists n; apply in_or_app; right; left; auto|exists st; apply in_or_app; auto].
        - rewrite app_length. cbn [length]. unfold n. lia. }
      assert (E1 : extends s s1).
      { split; [cbn; lia|]. split; [eexists; reflexivity|]. cbn. unfold n. lia. }
      unfold reached_step_limit. cbn [reductions]. fold s1.
      change (reductions s1) with n.
      destruct (N.leb_spec step_limit n) as [L|L].
      * split; auto. split; [congruence|]. split; auto. split; auto. split; [cbn; unfold n; lia|].
        split; [cbn; right; unfold n; lia|]. left. cbn. split; [exact L|unfold n; lia].
      * assert (RN : reductions s1 = n) by reflexivity.
        specialize (IH p2 s1 (w || answer)%bool P2 G1).
        rewrite RN in IH.
        destruct (pass_loop fuel p2 s1 (w || answer)) as [[p' s' w'|s']|]; [| |apply IH; unfold n in *; lia].
        -- destruct IH as [Q1 [Q2 [Q3 [Q4 [Q5 [Q6 Q7]]]]]]; try (unfold n in *; lia).
           assert (reductions s < reductions s') by (destruct Q4 as [Q4 _]; rewrite RN in Q4; unfold n in *; lia).
           split; auto. split; [congruence|]. split; auto. split; [eapply extends_trans; eauto|].
           split; [unfold n in *; lia|]. split; [auto|].
           destruct Q7 as [[Qa Qb]|[Qa [Qb Qc]]]; [left; split; auto|]. right. split; [unfold n in *; lia|]. split; auto.
           rewrite Gr2 in Qc.
           assert (granularity p1 / 2 <= granularity p / 2) by (apply N.div_le_mono; lia). lia.
        -- destruct IH as [Q1 Q2]; try (unfold n in *; lia). split; auto. unfold n in *. lia.
    + destruct foe eqn:FE.
      * destruct G as [Gf Gv Ga Gc]. split; [split; auto; split; auto; split; auto; cbn; unfold n; lia|]. cbn. unfold n. lia.
      * set (s1 := {| current := current s; reductions := n; asked := asked s |}).
        set (p2 := notify_interesting p1 false).
        destruct (notify_pass p1 false P1) as [P2 [Fd2 Gr2]]. fold p2 in P2, Fd2, Gr2.
        assert (G1 : good s1) by (destruct G; split; auto; cbn; unfold n; lia).
        assert (E1 : extends s s1).
        { split; [cbn; lia|]. split; [exists []; cbn; rewrite app_nil_r; reflexivity|]. cbn. unfold n. lia. }
        unfold reached_step_limit. change (reductions s1) with n.
        destruct (N.leb_spec step_limit n) as [L|L].
        -- split; auto. split; [congruence|]. split; auto. split; auto. split; [cbn; unfold n; lia|].
           split; [cbn; right; unfold n; lia|]. left. cbn. split; [exact L|unfold n; lia].
        -- assert (RN : reductions s1 = n) by reflexivity.
           specialize (IH p2 s1 w P2 G1).
           rewrite RN in IH.
           destruct (Reducer.pass_loop validate interesting step_limit false fuel p2 s1 w) as [[p' s' w'|s']|]; [| |apply IH; unfold n in *; lia].
           ++ destruct IH as [Q1 [Q2 [Q3 [Q4 [Q5 [Q6 Q7]]]]]]; try (unfold n in *; lia).
              assert (reductions s < reductions s') by (destruct Q4 as [Q4 _]; rewrite RN in Q4; unfold n in *; lia).
              split; auto. split; [congruence|]. split; auto. split; [eapply extends_trans; eauto|].
              split; [unfold n in *; lia|]. split; [auto|].
              destruct Q7 as [[Qa Qb]|[Qa [Qb Qc]]]; [left; split; auto|]. right. split; [unfold n in *; lia|]. split; auto.
              rewrite Gr2 in Qc.
              assert (granularity p1 / 2 <= granularity p / 2) by (apply N.div_le_mono; lia). lia.
           ++ destruct IH as [Q1 Q2]; try (unfold n in *; lia). split; auto. unfold n in *. lia.
Qed.

(** *** Minimality *)
Lemma worth_mono : forall fuel p s w p' s' w', pass_loop fuel p s w = Some (Ended p' s' w') -> w = true -> w' = true.
Proof.
  induction fuel as [|fuel IH]; intros p s w p' s' w' H ->; [discriminate|].
  cbn [Reducer.pass_loop] in H. destruct (try_apply_reduction p (current s)) as [p1 res].
  destruct res as [|x res']; [congruence|].
  destruct (validate (x :: res')).
  - cbn [orb] in H. destruct (reached_step_limit _ _) in H; [congruence|]. eapply IH; eauto.
  - destruct foe; [discriminate|]. destruct (reached_step_limit _ _) in H; [congruence|]. eapply IH; eauto.
Qed.

Definition tried (calls : list question) (f : finder) (b : binary) (i : N) : Prop :=
  validate (apply_range f b i (i + 1)) = false \/ rejected calls (apply_range f b i (i + 1)).
Lemma tried_ext calls ext f b i : tried calls f b i -> tried (calls ++ ext) f b i.
Proof. intros [H|[st H]]; [left; auto|right; exists st; apply in_or_app; auto]. Qed.

Lemma pass_minimal : forall fuel p s p' s' w, granularity p = 1 -> counts_in_range (find_with p) ->
  writes_modules (find_with p) ->
  (forall i, i < index p -> tried (asked s) (find_with p) (current s) i) ->
  pass_loop fuel p s w = Some (Ended p' s' false) -> reductions s' < step_limit ->
  current s' = current s /\ exhausted validate (asked s') (find_with p) (current s).
Proof.
  induction fuel as [|fuel IH]; intros p s p' s' w G C W Tr H L; [discriminate|].
  assert (Wf : w = false). { destruct w; auto. apply worth_mono in H; auto. }
  subst w.
  cbn [Reducer.pass_loop] in H.
  destruct (try_apply_reduction p (current s)) as [p1 res] eqn:T.
  unfold try_apply_reduction in T. rewrite G in T.
  set (size := opportunities (find_with p) (current s)) in *.
  assert (Sz : size < 2 ^ 32) by apply C.
  assert (Gg : (if size <? 1 then N.max 1 (u32 size) else 1) = 1).
  { destruct (N.ltb_spec size 1); auto. rewrite u32_small by auto. lia. }
  rewrite Gg in T.
  destruct (N.leb_spec size (index p)) as [Le|Lt].
  - inversion T; subst p1 res. inversion H; subst. split; auto. intros i Hi. apply Tr. fold size in Hi. lia.
  - rewrite !u32_small in T by lia. rewrite N.min_l in T by lia.
    inversion T; subst p1. rename H2 into R. clear T.
    destruct res as [|x res']; [exfalso; eapply W; eauto|].
    destruct (validate (x :: res')) eqn:V.
    + destruct (interesting (asked s) (x :: res') (u32 (reductions s + 1))) eqn:A.
      { cbn [orb] in H. destruct (reached_step_limit _ _) in H; [discriminate|]. apply worth_mono in H; auto. discriminate. }
      cbn [orb] in H. destruct (reached_step_limit step_limit _) eqn:RL in H.
      { inversion H; subst. unfold reached_step_limit in RL. apply N.leb_le in RL. cbn [reductions] in *. lia. }
      apply IH in H; auto.
      intros i Hi. cbn [index notify_interesting granularity find_with asked current] in *.
      rewrite u32_small in Hi by lia. destruct (N.eq_dec i (index p)) as [->|Ne].
      * right. exists (u32 (reductions s + 1)). rewrite R. apply in_or_app. right. left. auto.
      * apply tried_ext, Tr. lia.
    + destruct foe; [discriminate|]. destruct (reached_step_limit step_limit _) eqn:RL in H.
      { inversion H; subst. unfold reached_step_limit in RL. apply N.leb_le in RL. cbn [reductions] in *. lia. }
      apply IH in H; auto.
      intros i Hi. cbn [index notify_interesting granularity find_with asked current] in *.
      rewrite u32_small in Hi by lia. destruct (N.eq_dec i (index p)) as [->|Ne].
      * left. rewrite R. auto.
      * apply Tr. lia.
Qed.

Lemma exhausted_ext calls ext f b : exhausted validate calls f b -> exhausted validate (calls ++ ext) f b.
Proof. intros H i Hi. apply (tried_ext calls ext f b i). apply H; auto. Qed.

(** *** Rounds *)
Definition finished (p p' : pass) : Prop := index p' = 0 /\ granularity p' <= N.max 1 (granularity p / 2).

Lemma round_ok : forall ps s w, Forall pass_ok ps -> good s -> 1 <= step_limit ->
  reductions s + N.of_nat (length ps) < 2 ^ 32 -> step_limit + N.of_nat (length ps) <= 2 ^ 32 ->
  match round ps s w with
  | None => False
  | Some (RoundFailed s') => bad s' /\
      reductions s' <= N.max (step_limit + N.of_nat (length ps - 1)) (reductions s + N.of_nat (length ps))
  | Some (RoundEnded ps' s' w') =>
      Forall pass_ok ps' /\ map find_with ps' = map find_with ps /\ good s' /\ extends s s' /\
      reductions s' <= N.max (step_limit + N.of_nat (length ps - 1)) (reductions s + N.of_nat (length ps)) /\
      (w = true -> w' = true) /\
      (w' = true -> w = true \/ reductions s < reductions s' \/ exists p, In p ps /\ granularity p <> 1) /\
      (step_limit <= reductions s' \/ Forall2 finished ps ps') /\
      (w' = false -> reductions s' < step_limit ->
       Forall (fun p => index p = 0) ps -> Forall (fun p => counts_in_range (find_with p)) ps ->
       current s' = current s /\ Forall (fun p => exhausted validate (asked s') (find_with p) (current s)) ps)
  end.
Proof.
  induction ps as [|p ps IH]; intros s w P G L1 B BL.
  - cbn [Reducer.round length N.of_nat Nat.sub map] in *. repeat (split; [auto; fail|]).
    split; [apply extends_refl|]. split; [lia|]. split; [auto|]. split; [auto|]. split; [right; constructor|]. auto.
  - inversion P as [|? ? Pp Pps]; subst.
    cbn [Reducer.round]. cbn [length] in B, BL.
    assert (F := pass_loop_ok (pass_fuel step_limit) p s (w || negb (reached_minimum_granularity p)) Pp G).
    assert (Lem : forall f, pass_loop (pass_fuel step_limit) p s (w || negb (reached_minimum_granularity p)) = Some f -> True) by auto.
    destruct (pass_loop (pass_fuel step_limit) p s (w || negb (reached_minimum_granularity p))) as [[p1 s1 w1|s1]|] eqn:EL.
    2:{ destruct F as [F1 F2]; unfold pass_fuel; try lia. split; auto. cbn [length]. lia. }
    2:{ apply F; unfold pass_fuel; lia. }
    destruct F as [Q1 [Q2 [Q3 [Q4 [Q5 [Q6 Q7]]]]]]; unfold pass_fuel; try lia.
    specialize (IH s1 w1 Pps Q3 L1).
    destruct (round ps s1 w1) as [[ps' s' w'|s']|] eqn:ER.
    2:{ destruct IH as [I1 I2]; try lia. split; auto. cbn [length]. destruct ps; cbn [length] in *; lia. }
    2:{ apply IH; lia. }
    destruct IH as [I1 [I2 [I3 [I4 [I5 [I6 [I7 [I8 I9]]]]]]]]; try lia.
    split; [constructor; auto|]. split; [cbn; congruence|]. split; auto. split; [eapply extends_trans; eauto|].
    split; [cbn [length]; destruct ps as [|q ps]; [cbn in ER; inversion ER; subst; cbn; lia|]; cbn [length] in *; lia|].
    split.
    { intros ->. apply I6. eapply worth_mono; eauto. }
    split.
    { intros Hw. destruct (I7 Hw) as [H|[H|[q [H1 H2]]]].
      - destruct (Q6 H) as [H0|H0].
        + apply orb_true_iff in H0. destruct H0 as [H0|H0]; auto. right. right. exists p. split; [left; auto|].
          unfold reached_minimum_granularity in H0. apply negb_true_iff, N.eqb_neq in H0. auto.
        + right. left. destruct I4 as [I4 _]. lia.
      - right. left. destruct Q4 as [Q4 _]. lia.
      - right. right. exists q. split; [right; auto|auto]. }
    split.
    { destruct Q7 as [[Qa _]|[_ Qb]]; [left; destruct I4 as [I4 _]; lia|].
      destruct I8 as [I8|I8]; [left; auto|right; constructor; auto]. }
    intros -> L Z CR. inversion Z; inversion CR; subst.
    destruct (I9 eq_refl L) as [Ec Ex]; auto.
    assert (w1 = false) as ->. { destruct w1; auto; symmetry; auto. }
    assert (Gp : granularity p = 1).
    { destruct (N.eq_dec (granularity p) 1); auto. exfalso.
      assert (X : false = true); [|discriminate]. eapply worth_mono; [exact EL|].
      unfold reached_minimum_granularity. apply orb_true_iff. right. apply negb_true_iff, N.eqb_neq; auto. }
    destruct Pp as [_ Pw].
    destruct (pass_minimal _ _ _ _ _ _ Gp H5 Pw (fun i Hi => ltac:(lia)) EL) as [Ec1 Ex1]; [destruct I4 as [I4 _]; lia|].
    split; [congruence|]. rewrite <- Ec1. destruct I4 as [_ [[ext I4] _]]. rewrite I4. constructor.
    + apply exhausted_ext. rewrite Ec1. auto.
    + rewrite <- I4. auto.
Qed.

Fixpoint weight (ps : list pass) : nat :=
  match ps with [] => O | p :: ps' => (N.to_nat (N.log2 (granularity p)) + weight ps')%nat end.

Lemma log2_half g : 2 <= g -> N.log2 (N.max 1 (g / 2)) + 1 = N.log2 g.
Proof.
  intros H. assert (1 <= g / 2) by (apply N.div_le_lower_bound; lia). rewrite N.max_r by auto.
  assert (E := N.div_mod g 2 ltac:(lia)). assert (M := N.mod_lt g 2 ltac:(lia)).
  destruct (N.eq_dec (g mod 2) 0) as [Z|Z].
  - rewrite E at 2. rewrite Z, N.add_0_r, N.log2_double by lia. lia.
  - replace (g mod 2) with 1 in E by lia. rewrite E at 2. rewrite N.log2_succ_double by lia. lia.
Qed.
Lemma finished_log p p' : pass_ok p -> finished p p' ->
  N.log2 (granularity p') <= N.log2 (granularity p) /\
  (granularity p <> 1 -> N.log2 (granularity p') < N.log2 (granularity p)).
Proof.
  intros [[P1 P2] _] [_ F]. apply N.log2_le_mono in F.
  destruct (N.eq_dec (granularity p) 1) as [E|E].
  - rewrite E in *. change (N.max 1 (1 / 2)) with 1 in F. split; [auto|congruence].
  - assert (L := log2_half (granularity p) ltac:(lia)). split; intros; lia.
Qed.
Lemma finished_weight ps ps' : Forall pass_ok ps -> Forall2 finished ps ps' ->
  (weight ps' <= weight ps)%nat /\ ((exists p, In p ps /\ granularity p <> 1) -> (weight ps' < weight ps)%nat).
Proof.
  intros P F. induction F as [|p p' ps ps' Fp F IH]; cbn [weight].
  - split; [lia|]. intros [? [[] _]].
  - inversion P; subst. destruct (IH H2) as [I1 I2]. destruct (finished_log p p' H1 Fp) as [L1 L2].
    split; [lia|]. intros [q [[<-|Hq] Nq]]; [specialize (L2 Nq); lia|].
    assert (weight ps' < weight ps)%nat by (apply I2; eauto). lia.
Qed.

Lemma rounds_ok : forall fuel ps s w, Forall pass_ok ps -> good s ->
  Forall (fun p => index p = 0) ps ->
  step_limit + N.of_nat (length ps) <= 2 ^ 32 ->
  (weight ps + N.to_nat (step_limit - reductions s) + 2 <= fuel)%nat ->
  exists st s', rounds fuel ps s w = Some (st, s') /\ (st <> kStateInvalid -> exists ext, asked s' = asked s ++ ext) /\
    reductions s' <= N.max (reductions s) (step_limit + N.of_nat (length ps - 1)) /\
    ((st = kStateInvalid /\ bad s') \/
     (st = kReachedStepLimit /\ good s' /\ step_limit <= reductions s') \/
     (st = kComplete /\ good s' /\ reductions s' < step_limit /\
      (w = true -> Forall (fun p => counts_in_range (find_with p)) ps ->
       Forall (fun p => exhausted validate (asked s') (find_with p) (current s')) ps))).
Proof.
  intros fuel. induction fuel as [|fuel IH]; intros ps s w P G Z BL Fu; [lia|].
  cbn [Reducer.rounds]. unfold reached_step_limit.
  destruct (N.leb_spec step_limit (reductions s)) as [L|L].
  - cbn [negb andb]. exists kReachedStepLimit, s. split; auto. split; [intros _; exists []; rewrite app_nil_r; auto|].
    split; [lia|]. right. left. auto.
  - cbn [negb andb]. destruct w.
    2:{ exists kComplete, s. split; auto. split; [intros _; exists []; rewrite app_nil_r; auto|]. split; [lia|]. right. right. split; auto. split; auto. split; auto. discriminate. }
    assert (R := round_ok ps s false P G ltac:(lia) ltac:(lia) BL).
    destruct (round ps s false) as [[ps' s' w'|s']|] eqn:ER; [| |contradiction].
    2:{ destruct R as [R1 R2]. exists kStateInvalid, s'. split; auto. split.
        { intros C; contradiction. }
        split; [|left; auto]. destruct ps; [cbn in ER; discriminate|]. cbn [length] in *. lia. }
    destruct R as [R1 [R2 [R3 [R4 [R5 [R6 [R7 [R8 R9]]]]]]]].
    assert (LE : length ps' = length ps).
    { rewrite <- (map_length find_with ps'), R2, map_length. auto. }
    assert (Bd : reductions s' <= N.max (reductions s) (step_limit + N.of_nat (length ps - 1))).
    { destruct ps as [|q ps]; [cbn in ER; inversion ER; subst; lia|]. cbn [length] in *. lia. }
    destruct (N.leb_spec step_limit (reductions s')) as [L'|L'].
    { destruct fuel as [|fuel]; [lia|]. cbn [Reducer.rounds]. unfold reached_step_limit.
      rewrite (proj2 (N.leb_le _ _) L'). cbn [negb andb].
      exists kReachedStepLimit, s'. split; auto. split; [intros _; apply R4|]. split; auto. }
    destruct R8 as [R8|R8]; [lia|].
    destruct w'.
    + destruct (finished_weight ps ps' P R8) as [W1 W2].
      assert (Z' : Forall (fun p => index p = 0) ps').
      { clear - R8. induction R8 as [|a b l l' H]; constructor; auto. apply H. }
      destruct (IH ps' s' true R1 R3 Z') as [st [s2 [E [X [B2 H]]]]].
      * rewrite LE. auto.
      * destruct R4 as [R4 _]. destruct (R7 eq_refl) as [H|[H|H]]; [discriminate|lia|specialize (W2 H); lia].
      * exists st, s2. split; auto. split.
        { intros Ne. destruct (X Ne) as [x X']. destruct R4 as [_ [[y R4] _]]. exists (y ++ x). rewrite X', R4, app_assoc. auto. }
        split; [rewrite LE in B2; lia|].
        destruct H as [H|[H|[H1 [H2 [H3 H4]]]]]; auto. right. right. split; auto. split; auto. split; auto.
        intros _ C. specialize (H4 eq_refl).
        assert (C' : Forall (fun p => counts_in_range (find_with p)) ps').
        { rewrite Forall_forall in *. intros q Hq. assert (In (find_with q) (map find_with ps)) by (rewrite <- R2; apply in_map; auto).
          apply in_map_iff in H. destruct H as [q' [<- Hq']]. auto. }
        specialize (H4 C'). rewrite Forall_forall in *. intros q Hq.
        assert (In (find_with q) (map find_with ps')) by (rewrite R2; apply in_map; auto).
        apply in_map_iff in H. destruct H as [q' [<- Hq']]. auto.
    + destruct fuel as [|fuel]; [lia|]. cbn [Reducer.rounds]. unfold reached_step_limit.
      rewrite (proj2 (N.leb_gt _ _) L'). cbn [negb andb].
      exists kComplete, s'. split; auto. split; [intros _; apply R4|]. split; auto. right. right. split; auto. split; auto. split; auto.
      intros _ C. destruct (R9 eq_refl L' Z C) as [-> Q]. exact Q.
Qed.
End Loop.

Lemma weight_new fs : (weight (map new_pass fs) <= 31 * length fs)%nat.
Proof.
  induction fs as [|f fs IH]; cbn [map weight length]; [lia|].
  change (N.log2 (granularity (new_pass f))) with 31. lia.
Qed.

Lemma run_passes_ok validate interesting step_limit foe fs s :
  step_limit < 2 ^ 32 -> step_limit + N.of_nat (length fs) <= 2 ^ 32 -> Forall writes_modules fs ->
  good validate interesting s ->
  exists st s', run_passes validate interesting step_limit foe (map new_pass fs) s = Some (st, s') /\
    (st <> kStateInvalid -> exists ext, asked s' = asked s ++ ext) /\
    reductions s' <= N.max (reductions s) (step_limit + N.of_nat (length fs - 1)) /\
    ((st = kStateInvalid /\ bad validate interesting foe s') \/
     (st = kReachedStepLimit /\ good validate interesting s' /\ step_limit <= reductions s') \/
     (st = kComplete /\ good validate interesting s' /\ reductions s' < step_limit /\
      (Forall counts_in_range fs -> Forall (fun f => exhausted validate (asked s') f (current s')) fs))).
Proof.
  intros L B W G. unfold run_passes.
  destruct (rounds_ok validate interesting step_limit foe L (round_fuel step_limit (map new_pass fs)) (map new_pass fs) s true) as [st [s' [E [X [Bd H]]]]]; auto.
  - rewrite Forall_forall in *. intros p Hp. apply in_map_iff in Hp. destruct Hp as [f [<- Hf]].
    split; [cbn; lia|]. apply W. auto.
  - rewrite Forall_forall. intros p Hp. apply in_map_iff in Hp. destruct Hp as [f [<- Hf]]. reflexivity.
  - rewrite map_length. auto.
  - unfold round_fuel. rewrite map_length. assert (Wn := weight_new fs). lia.
  - exists st, s'. rewrite map_length in *. split; auto. split; auto. split; auto.
    destruct H as [H|[H|[H1 [H2 [H3 H4]]]]]; auto. right. right. split; auto. split; auto. split; auto.
    intros C. specialize (H4 eq_refl). rewrite Forall_map in H4. cbn [find_with new_pass] in H4. apply H4 in C.
    rewrite Forall_map in C. exact C.
Qed.
