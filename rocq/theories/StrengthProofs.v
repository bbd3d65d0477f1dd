(** Proofs about the strength reduction pass. *)
From Verif Require Import Base StrengthReduction StrengthSpec.
From Coq Require Import Permutation.
Local Open Scope Z_scope.

(** Powers of two. *)
Lemma land_pred_pow2 v : 0 < v -> Z.land (v - 1) v = 0 -> exists k, 0 <= k /\ v = 2 ^ k.
Proof.
  intros Hv H. exists (Z.log2 v). split; [apply Z.log2_nonneg|].
  set (k := Z.log2 v) in *.
  assert (Hb : 2 ^ k <= v < 2 ^ (k + 1)).
  { pose proof (Z.log2_spec v Hv) as Hs. fold k in Hs. rewrite <- Z.add_1_r in Hs. lia. }
  destruct (Z.eq_dec v (2 ^ k)) as [|Hne]; [assumption|exfalso].
  assert (Hk : 0 <= k) by apply Z.log2_nonneg.
  assert (H1 : Z.testbit v k = true) by (apply Z.bit_log2; lia).
  assert (H2 : Z.testbit (v - 1) k = true).
  { assert (Hl : Z.log2 (v - 1) = k) by (apply Z.log2_unique; [assumption|]; rewrite <- Z.add_1_r; lia).
    rewrite <- Hl. apply Z.bit_log2. pose proof (Z.pow_pos_nonneg 2 k). lia. }
  assert (H3 : Z.testbit (Z.land (v - 1) v) k = true) by (rewrite Z.land_spec, H1, H2; reflexivity).
  rewrite H, Z.bits_0 in H3. discriminate.
Qed.
Lemma is_power_of_2_spec v : 0 <= v -> is_power_of_2 v = true -> exists k, 0 <= k /\ v = 2 ^ k.
Proof.
  unfold is_power_of_2. intros Hv. destruct (Z.eqb_spec v 0); [discriminate|].
  intros H. apply Z.eqb_eq in H. apply land_pred_pow2; [lia|assumption].
Qed.
Lemma land_1 v : Z.land v 1 = v mod 2.
Proof. change 1 with (Z.ones 1). rewrite Z.land_ones by lia. reflexivity. Qed.
Lemma ctz_pow2 (k : nat) : forall fuel, (k < fuel)%nat -> count_trailing_zeros fuel (2 ^ Z.of_nat k) = Some (Z.of_nat k).
Proof.
  induction k as [|k IH]; intros [|fuel] H; try lia.
  - reflexivity.
  - cbn [count_trailing_zeros]. rewrite land_1, Nat2Z.inj_succ, Z.pow_succ_r by lia.
    rewrite Z.mul_comm, Z.mod_mul by lia. cbn [Z.eqb].
    rewrite Z.div_mul by lia. rewrite IH by lia. cbn [option_map]. f_equal. lia.
Qed.
Lemma ctz_power v : 0 <= v < 2 ^ 32 -> is_power_of_2 v = true ->
  exists k, count_trailing_zeros 32 v = Some k /\ 0 <= k < 32 /\ v = 2 ^ k.
Proof.
  intros Hv Hp. destruct (is_power_of_2_spec v (proj1 Hv) Hp) as (k & Hk & ->).
  assert (k < 32). { apply (Z.pow_lt_mono_r_iff 2); lia. }
  exists k. split; [|lia]. rewrite <- (Z2Nat.id k) at 1 by lia. rewrite ctz_pow2 by lia. f_equal. lia.
Qed.

Definition instrs (m : smodule) := sm_globals m ++ sm_body m.
Definition nonzero (r : N) := negb (N.eqb r 0).
Definition ids (m : smodule) := filter nonzero (map si_result (instrs m)).

(** How one module follows from another. *)
Record follows (m m' : smodule) : Prop := {
  fo_bound : (sm_bound m <= sm_bound m')%N;
  fo_globals : exists old new, sm_globals m' = old ++ new /\ Forall2 stands_for old (sm_globals m);
  fo_body : Forall2 stands_for (sm_body m') (sm_body m);
  fo_values : forall other env, sexecution other m env -> exists env',
    sexecution other m' env' /\ (forall id, (id < sm_bound m)%N -> env' id = env id) /\
    Forall2 (fun i' i => env' (si_result i') = env (si_result i)) (sm_body m') (sm_body m)
}.
Lemma stands_for_refl i : stands_for i i.
Proof. split; [reflexivity|]. left. auto. Qed.
Lemma stands_for_trans a b c : stands_for a b -> stands_for b c -> stands_for a c.
Proof.
  intros (T1 & H1) (T2 & H2). split; [congruence|].
  destruct H1 as [(A & B & C)|(A & B)], H2 as [(A' & B' & C')|(A' & B')].
  - left. repeat split; congruence.
  - right. split; congruence.
  - right. split; congruence.
  - congruence.
Qed.
Lemma Forall2_refl' {A} (R : A -> A -> Prop) l : (forall x, R x x) -> Forall2 R l l.
Proof. intros H. induction l; constructor; auto. Qed.
Lemma Forall2_trans' {A} (R1 R2 R3 : A -> A -> Prop) l1 l2 l3 :
  (forall a b c, R1 a b -> R2 b c -> R3 a c) -> Forall2 R1 l1 l2 -> Forall2 R2 l2 l3 -> Forall2 R3 l1 l3.
Proof.
  intros H H1. revert l3. induction H1; intros l3 H2; inversion H2; subst; constructor; eauto.
Qed.
Lemma follows_refl m : follows m m.
Proof.
  constructor.
  - lia.
  - exists (sm_globals m), []. rewrite app_nil_r. split; [reflexivity|]. apply Forall2_refl', stands_for_refl.
  - apply Forall2_refl', stands_for_refl.
  - intros other env H. exists env. split; [assumption|]. split; [reflexivity|]. apply Forall2_refl'. reflexivity.
Qed.
Lemma follows_trans a b c : follows a b -> follows b c -> follows a c.
Proof.
  intros [B1 (o1 & n1 & G1 & F1) D1 V1] [B2 (o2 & n2 & G2 & F2) D2 V2]. constructor.
  - lia.
  - rewrite G1 in F2. apply Forall2_app_inv_r in F2. destruct F2 as (p & q & Fp & Fq & ->).
    exists p, (q ++ n2). rewrite G2, app_assoc. split; [reflexivity|].
    eapply Forall2_trans'; [|exact Fp|exact F1]. apply stands_for_trans.
  - eapply Forall2_trans'; [|exact D2|exact D1]. apply stands_for_trans.
  - intros other env H. destruct (V1 other env H) as (e1 & X1 & A1 & R1).
    destruct (V2 other e1 X1) as (e2 & X2 & A2 & R2).
    exists e2. split; [assumption|]. split.
    + intros id Hid. rewrite A2 by lia. apply A1. assumption.
    + eapply Forall2_trans'; [|exact R2|exact R1]. cbv beta. intros; congruence.
Qed.

(** An assignment that agrees on the ids an instruction mentions. *)
Lemma obeys_agree other m m' env env' i :
  (int32_type m' (si_type i) <-> int32_type m (si_type i)) ->
  env' (si_result i) = env (si_result i) -> (forall a, In a (si_args i) -> env' a = env a) ->
  obeys other m env i -> obeys other m' env' i.
Proof.
  intros Ht Hr Ha. assert (Hm : map env' (si_args i) = map env (si_args i)) by (apply map_ext_in; assumption).
  unfold obeys. destruct (si_op i) as [w s|v| | |code].
  - auto.
  - rewrite Ht, Hr, Hm. auto.
  - destruct (si_args i) as [|a [|b [|c l]]]; rewrite ?Hm, ?Hr, ?Ht; auto.
    rewrite !Ha by (cbn; auto). auto.
  - destruct (si_args i) as [|a [|b [|c l]]]; rewrite ?Hm, ?Hr, ?Ht; auto.
    rewrite !Ha by (cbn; auto). auto.
  - rewrite Hr, Hm. auto.
Qed.

(** Adding an instruction with a fresh id to the globals. *)
Lemma int32_type_lt m t : smodule_ok m -> int32_type m t -> (0 < t < sm_bound m)%N.
Proof.
  intros Hm (i & sg & Hi & Ho & <-). assert (Hin : In i (sm_globals m ++ sm_body m)) by (apply in_or_app; auto).
  split; [apply (sok_has_result m Hm i Hin); rewrite Ho; exact I|apply (sok_results m Hm i Hin)].
Qed.
Definition grown (m : smodule) (i : sinst) : smodule :=
  mkSM (sm_globals m ++ [i]) (sm_body m) (sm_bound m + 1).
Definition admissible (m : smodule) (i : sinst) : Prop :=
  si_result i = sm_bound m /\ si_args i = [] /\ (si_type i < sm_bound m)%N /\
  match si_op i with STypeInt _ _ => True | SConstant v => 0 <= v < 2 ^ 32 /\ (0 < si_type i)%N | _ => False end.
Lemma grown_in m i x : In x (instrs (grown m i)) <-> x = i \/ In x (instrs m).
Proof.
  unfold instrs, grown. cbn [sm_globals sm_body]. rewrite !in_app_iff. cbn [In]. intuition.
Qed.
Lemma grown_int32 m i t : int32_type (grown m i) t <-> (int32_type m t \/ (exists sg, si_op i = STypeInt 32 sg) /\ si_result i = t).
Proof.
  unfold int32_type, grown. cbn [sm_globals]. split.
  - intros (x & sg & Hx & Ho & Hr). apply in_app_or in Hx. destruct Hx as [Hx|[->|[]]].
    + left. exists x, sg. auto.
    + right. split; [exists sg|]; assumption.
  - intros [(x & sg & Hx & Ho & Hr)|((sg & Ho) & Hr)].
    + exists x, sg. rewrite in_app_iff. auto.
    + exists i, sg. rewrite in_app_iff. cbn. auto.
Qed.
Lemma grown_old_type m i t : admissible m i -> (t < sm_bound m)%N -> int32_type (grown m i) t <-> int32_type m t.
Proof.
  intros (Hr & _) Ht. rewrite grown_int32. split; [|auto]. intros [H|(_ & H)]; [assumption|]. lia.
Qed.
Lemma NoDup_middle {A} (l1 l2 : list A) x : NoDup (l1 ++ l2) -> ~ In x (l1 ++ l2) -> NoDup (l1 ++ x :: l2).
Proof.
  intros H1 H2. apply (Permutation_NoDup (Permutation_middle l1 l2 x)). constructor; assumption.
Qed.
Lemma grown_ok m i : smodule_ok m -> admissible m i -> smodule_ok (grown m i).
Proof.
  intros Hm Ha. pose proof Ha as (Hr & Hargs & Ht & Hop). pose proof (sok_bound m Hm) as Hb.
  assert (Hmap : forall x, In x (instrs m) -> In x (instrs (grown m i))) by (intros; apply grown_in; auto).
  constructor; fold (instrs (grown m i)) in *.
  - cbn. lia.
  - unfold instrs, grown. cbn [sm_globals sm_body]. rewrite <- app_assoc. cbn [app].
    rewrite map_app, filter_app. cbn [map filter]. rewrite Hr.
    replace (negb (sm_bound m =? 0)%N) with true by lia.
    pose proof (sok_distinct m Hm) as Hd. rewrite map_app, filter_app in Hd.
    apply NoDup_middle; [assumption|]. rewrite <- filter_app, <- map_app. intros Hin.
    apply filter_In in Hin. destruct Hin as (Hin & _). apply in_map_iff in Hin. destruct Hin as (x & Hx & Hin).
    pose proof (sok_results m Hm x Hin). lia.
  - intros x Hx. apply grown_in in Hx. cbn [grown sm_bound]. destruct Hx as [->|Hx]; [lia|].
    pose proof (sok_results m Hm x Hx). lia.
  - intros x Hx Hop'. apply grown_in in Hx. destruct Hx as [->|Hx]; [lia|].
    apply (sok_has_result m Hm x Hx Hop').
  - intros x Hx. apply grown_in in Hx. cbn [grown sm_bound]. destruct Hx as [->|Hx]; [lia|].
    pose proof (sok_types m Hm x Hx). lia.
  - intros x Hx Hop'. apply grown_in in Hx. destruct Hx as [->|Hx].
    + destruct (si_op i); try contradiction. apply Hop.
    + apply (sok_typed m Hm x Hx Hop').
  - intros x a Hx Hina. apply grown_in in Hx. destruct Hx as [->|Hx]; [rewrite Hargs in Hina; destruct Hina|].
    destruct (sok_args m Hm x a Hx Hina) as (H0 & H1). split; [assumption|].
    apply in_map_iff in H1. destruct H1 as (y & <- & Hy). apply in_map. apply Hmap. assumption.
  - intros x v Hx Hv. apply grown_in in Hx. destruct Hx as [->|Hx]; [rewrite Hv in Hop; apply Hop|].
    apply (sok_words m Hm x v Hx Hv).
  - intros x Hx Hmul Hty. apply grown_in in Hx. destruct Hx as [->|Hx]; [rewrite Hmul in Hop; destruct Hop|].
    pose proof (sok_types m Hm x Hx) as Hlt. apply (grown_old_type m i _ Ha Hlt) in Hty.
    destruct (sok_mul m Hm x Hx Hmul Hty) as (H1 & H2). split; [assumption|].
    intros a d v Hina Hd Hda Hdv. apply grown_in in Hd. destruct Hd as [->|Hd].
    + exfalso. destruct (sok_args m Hm x a Hx Hina) as (_ & Hin). apply in_map_iff in Hin.
      destruct Hin as (y & Hy & Hiny). pose proof (sok_results m Hm y Hiny). lia.
    + apply grown_int32. left. apply (H2 a d v Hina Hd Hda Hdv).
Qed.
Definition upd (env : N -> Z) (k : N) (v : Z) (x : N) : Z := if N.eqb x k then v else env x.
Lemma grown_follows m i : smodule_ok m -> admissible m i ->
  (forall v, si_op i = SConstant v -> int32_type m (si_type i)) -> follows m (grown m i).
Proof.
  intros Hm Ha Hc. pose proof Ha as (Hr & Hargs & Ht & Hop). constructor.
  - cbn. lia.
  - exists (sm_globals m), [i]. split; [reflexivity|]. apply Forall2_refl', stands_for_refl.
  - apply Forall2_refl', stands_for_refl.
  - intros other env H.
    set (v := match si_op i with SConstant v => v | _ => 0 end).
    exists (upd env (sm_bound m) v).
    assert (Hag : forall id, (id < sm_bound m)%N -> upd env (sm_bound m) v id = env id)
      by (intros id Hid; unfold upd; destruct (N.eqb_spec id (sm_bound m)); [lia|reflexivity]).
    split; [|split].
    + intros x Hx. apply grown_in in Hx. destruct Hx as [->|Hx].
      * unfold obeys. unfold v in *. destruct (si_op i) as [w sg|c| | |code] eqn:Ho; try contradiction; [exact I|].
        rewrite Hr. split.
        -- intros _. unfold upd. rewrite N.eqb_refl. reflexivity.
        -- intros Hn. exfalso. apply Hn. apply grown_int32. left. apply (Hc c). reflexivity.
      * apply (obeys_agree other m _ env).
        -- apply grown_old_type; [assumption|]. apply (sok_types m Hm x Hx).
        -- apply Hag. apply (sok_results m Hm x Hx).
        -- intros a Hina. apply Hag. destruct (sok_args m Hm x a Hx Hina) as (_ & Hin).
           apply in_map_iff in Hin. destruct Hin as (y & <- & Hy). apply (sok_results m Hm y Hy).
        -- apply H. assumption.
    + exact Hag.
    + cbn [grown sm_body]. assert (Hsub : incl (sm_body m) (instrs m)) by (intros x Hx; apply in_or_app; auto).
      revert Hsub. induction (sm_body m) as [|x l IH]; intros Hsub; constructor.
      * apply Hag. apply (sok_results m Hm x). apply Hsub. left. reflexivity.
      * apply IH. intros y Hy. apply Hsub. right. assumption.
Qed.

(** Replacing one multiplication. *)
Lemma obeys_map other m m' env env' i i' :
  si_op i' = si_op i -> si_type i' = si_type i -> (int32_type m' (si_type i) <-> int32_type m (si_type i)) ->
  env' (si_result i') = env (si_result i) -> map env' (si_args i') = map env (si_args i) ->
  obeys other m env i -> obeys other m' env' i'.
Proof.
  intros Hop Hty Ht Hr Ha. unfold obeys. rewrite Hop, Hty.
  destruct (si_op i) as [w s|v| | |code]; [auto|rewrite ?Hr, ?Ht, ?Ha; auto| | |rewrite ?Hr, ?Ht, ?Ha; auto].
  - destruct (si_args i) as [|a [|b [|c l]]], (si_args i') as [|a' [|b' [|c' l']]]; try discriminate Ha; rewrite ?Hr, ?Ht, ?Ha; auto;
      cbn [map] in Ha |- *; injection Ha as E1 E2; rewrite ?E1, ?E2; auto.
  - destruct (si_args i) as [|a [|b [|c l]]], (si_args i') as [|a' [|b' [|c' l']]]; try discriminate Ha; rewrite ?Hr, ?Ht, ?Ha; auto;
      cbn [map] in Ha |- *; injection Ha as E1 E2; rewrite ?E1, ?E2; auto.
Qed.
Lemma set_inst_split k l i j : nth_error l k = Some j ->
  exists pre post, l = pre ++ j :: post /\ set_inst k i l = pre ++ i :: post.
Proof.
  revert k. induction l as [|x l IH]; intros [|k] H; try discriminate.
  - injection H as ->. exists [], l. auto.
  - destruct (IH k H) as (pre & post & -> & E). exists (x :: pre), post. cbn. rewrite E. auto.
Qed.
Definition swapped (m : smodule) (pre post : list sinst) (inst : sinst) (other c : N) : smodule :=
  replace_all_uses (si_result inst) (sm_bound m)
    (mkSM (sm_globals m) (pre ++ mkSI SShl (si_type inst) (sm_bound m) [other; c] :: post) (sm_bound m + 1)).
Lemma swapped_int32 m pre post inst other c t :
  int32_type (swapped m pre post inst other c) t <-> int32_type m t.
Proof.
  unfold int32_type, swapped. cbn [replace_all_uses sm_globals]. split.
  - intros (x & sg & Hx & Ho & Hr). apply in_map_iff in Hx. destruct Hx as (y & <- & Hy). exists y, sg. auto.
  - intros (x & sg & Hx & Ho & Hr). exists (rename (si_result inst) (sm_bound m) x), sg.
    split; [apply in_map; assumption|]. auto.
Qed.
Lemma renamed_stand r n l : Forall2 stands_for (map (rename r n) l) l.
Proof.
  induction l; constructor; [|assumption]. split; [reflexivity|]. left. cbn. rewrite map_length. auto.
Qed.
Section Swap.
  Variables (m : smodule) (pre post : list sinst) (inst : sinst) (other c : N).
  Hypothesis (Hm : smodule_ok m) (Hbody : sm_body m = pre ++ inst :: post).
  Hypothesis (Hmul : si_op inst = SIMul) (Hty : int32_type m (si_type inst)).
  Hypothesis (Hother : In other (si_args inst)).
  Hypothesis (Hc : In c (map si_result (sm_globals m)) /\ (0 < c)%N).
  Local Notation m' := (swapped m pre post inst other c).
  Local Notation ren := (fun a => if N.eqb a (si_result inst) then sm_bound m else a).
  Local Notation shl := (mkSI SShl (si_type inst) (sm_bound m) [ren other; ren c]).
  Lemma inst_in : In inst (instrs m).
  Proof using Hbody. unfold instrs. rewrite Hbody, !in_app_iff. cbn. auto. Qed.
  Lemma swapped_in x : In x (instrs m') ->
    x = shl \/ exists y, In y (instrs m) /\ x = rename (si_result inst) (sm_bound m) y /\
                          (In y (sm_globals m) \/ In y pre \/ In y post).
  Proof using Hbody.
    unfold instrs, swapped. cbn [replace_all_uses sm_globals sm_body]. rewrite Hbody, map_app. cbn [map].
    rewrite !in_app_iff, in_map_iff. cbn [In]. rewrite !in_map_iff.
    intros [(y & <- & Hy)|[(y & <- & Hy)|[<-|(y & <- & Hy)]]].
    - right. exists y. rewrite !in_app_iff. auto.
    - right. exists y. rewrite !in_app_iff. auto.
    - left. reflexivity.
    - right. exists y. rewrite !in_app_iff. cbn. auto.
  Qed.
  Lemma in_swapped y : In y (sm_globals m) \/ In y pre \/ In y post -> In (rename (si_result inst) (sm_bound m) y) (instrs m').
  Proof using Type.
    unfold instrs, swapped. cbn [replace_all_uses sm_globals sm_body]. rewrite map_app. cbn [map].
    rewrite !in_app_iff. cbn [In]. intros [H|[H|H]]; apply (in_map (rename (si_result inst) (sm_bound m))) in H; auto.
  Qed.
  Lemma shl_in : In shl (instrs m').
  Proof using Type.
    unfold instrs, swapped. cbn [replace_all_uses sm_globals sm_body]. rewrite map_app. cbn [map].
    rewrite !in_app_iff. cbn [In]. auto.
  Qed.
  Lemma arg_defined a : (0 < a)%N -> In a (map si_result (instrs m)) ->
    (0 < ren a)%N /\ In (ren a) (map si_result (instrs m')).
  Proof using Hm Hbody Hmul Hty Hother Hc.
    intros H0 Hin. pose proof (sok_bound m Hm). cbv beta. destruct (N.eqb_spec a (si_result inst)) as [->|Hne].
    - split; [lia|]. apply in_map_iff. exists shl. split; [reflexivity|]. apply shl_in.
    - split; [lia|]. apply in_map_iff in Hin. destruct Hin as (y & <- & Hy).
      apply in_map_iff. exists (rename (si_result inst) (sm_bound m) y). split; [reflexivity|]. apply in_swapped.
      unfold instrs in Hy. rewrite Hbody in Hy. rewrite !in_app_iff in Hy. cbn [In] in Hy.
      destruct Hy as [|[|[->|]]]; auto. congruence.
  Qed.
  Lemma other_defined : (0 < other)%N /\ In other (map si_result (instrs m)).
  Proof using Hm Hbody Hother. apply (sok_args m Hm inst other inst_in Hother). Qed.
  Lemma c_defined : (0 < c)%N /\ In c (map si_result (instrs m)).
  Proof using Hc. destruct Hc as (H1 & H2). split; [assumption|]. unfold instrs. rewrite map_app, in_app_iff. auto. Qed.
  Lemma swapped_results : map si_result (instrs m') =
    map si_result (sm_globals m ++ pre) ++ sm_bound m :: map si_result post.
  Proof using Type.
    unfold instrs, swapped. cbn [replace_all_uses sm_globals sm_body].
    rewrite !map_app. cbn [map]. rewrite !map_map. unfold rename. cbn [si_result].
    rewrite app_assoc. reflexivity.
  Qed.
  Lemma swapped_ok : smodule_ok m'.
  Proof using Hm Hbody Hmul Hty Hother Hc.
    pose proof (sok_bound m Hm) as Hb. constructor; fold (instrs m') in *.
    - cbn. lia.
    - rewrite swapped_results, filter_app. cbn [filter]. replace (negb (sm_bound m =? 0)%N) with true by lia.
      assert (Hsub : forall x, In x (map si_result (sm_globals m ++ pre)) \/ In x (map si_result post) -> (x < sm_bound m)%N).
      { intros x Hx. rewrite !in_map_iff in Hx. destruct Hx as [(y & <- & Hy)|(y & <- & Hy)]; apply (sok_results m Hm);
          rewrite Hbody, !in_app_iff; rewrite ?in_app_iff in Hy; cbn; intuition. }
      pose proof (sok_distinct m Hm) as Hd. rewrite Hbody, app_assoc, map_app, filter_app in Hd. cbn [map filter] in Hd.
      apply NoDup_middle.
      + destruct (negb _) in Hd; [apply NoDup_remove_1 in Hd|]; assumption.
      + rewrite in_app_iff, !filter_In. intros Hin.
        specialize (Hsub (sm_bound m)). intuition lia.
    - intros x Hx. cbn [swapped replace_all_uses sm_bound]. destruct (swapped_in x Hx) as [->|(y & Hy & -> & _)]; cbn; [lia|].
      pose proof (sok_results m Hm y Hy). lia.
    - intros x Hx Hop. destruct (swapped_in x Hx) as [->|(y & Hy & -> & _)]; cbn; [lia|].
      apply (sok_has_result m Hm y Hy Hop).
    - intros x Hx. cbn [swapped replace_all_uses sm_bound]. destruct (swapped_in x Hx) as [->|(y & Hy & -> & _)]; cbn.
      + pose proof (sok_types m Hm inst inst_in). lia.
      + pose proof (sok_types m Hm y Hy). lia.
    - intros x Hx Hop. destruct (swapped_in x Hx) as [->|(y & Hy & -> & _)]; [destruct Hop|].
      apply (sok_typed m Hm y Hy Hop).
    - intros x a Hx Ha. destruct (swapped_in x Hx) as [->|(y & Hy & -> & _)].
      + cbn [si_args In] in Ha. destruct Ha as [<-|[<-|[]]]; apply arg_defined;
          first [apply other_defined|apply c_defined].
      + cbn [rename si_args] in Ha. apply in_map_iff in Ha. destruct Ha as (b & <- & Hbin).
        destruct (sok_args m Hm y b Hy Hbin). apply arg_defined; assumption.
    - intros x v Hx Hv. destruct (swapped_in x Hx) as [->|(y & Hy & -> & _)]; [discriminate|].
      apply (sok_words m Hm y v Hy Hv).
    - intros x Hx Hxm Hxt. apply (proj1 (swapped_int32 m pre post inst other c _)) in Hxt. destruct (swapped_in x Hx) as [->|(y & Hy & -> & _)]; [discriminate|].
      cbn [rename si_op si_type si_args] in *. destruct (sok_mul m Hm y Hy Hxm Hxt) as (H1 & H2).
      split; [rewrite map_length; assumption|].
      intros a d v Ha Hd Hda Hdv. apply (proj2 (swapped_int32 m pre post inst other c _)).
      destruct (swapped_in d Hd) as [->|(z & Hz & -> & _)]; [discriminate|]. cbn [rename si_op si_type si_result] in *.
      pose proof (sok_results m Hm z Hz) as Hlt.
      apply in_map_iff in Ha. destruct Ha as (b & Hba & Hbin).
      destruct (N.eqb_spec b (si_result inst)); [lia|]. apply (H2 b z v Hbin Hz); congruence.
  Qed.
  (** The values. *)
  Lemma swapped_follows (k : Z) (a b : N) :
    si_args inst = [a; b] -> 0 <= k < 32 ->
    (forall ot env, sexecution ot m env -> env c = k /\ (env a * env b) mod 2 ^ 32 = (env other * 2 ^ k) mod 2 ^ 32) ->
    follows m m'.
  Proof using Hm Hbody Hmul Hty Hother Hc.
    intros Hargs Hk Hv. constructor.
    - cbn. lia.
    - exists (map (rename (si_result inst) (sm_bound m)) (sm_globals m)), []. split; [rewrite app_nil_r; reflexivity|].
      apply renamed_stand.
    - unfold swapped. cbn [replace_all_uses sm_body]. rewrite Hbody, map_app. cbn [map].
      apply Forall2_app; [|constructor].
      + apply renamed_stand.
      + split; [reflexivity|]. right. auto.
      + apply renamed_stand.
    - intros ot env H. set (env' := upd env (sm_bound m) (env (si_result inst))).
      assert (Hag : forall id, (id < sm_bound m)%N -> env' id = env id)
        by (intros id Hid; unfold env', upd; destruct (N.eqb_spec id (sm_bound m)); [lia|reflexivity]).
      assert (Hnew : env' (sm_bound m) = env (si_result inst)) by (unfold env', upd; rewrite N.eqb_refl; reflexivity).
      assert (Hren : forall x, In x (map si_result (instrs m)) -> env' (ren x) = env x).
      { intros x Hx. cbv beta. destruct (N.eqb_spec x (si_result inst)) as [->|]; [assumption|]. apply Hag.
        apply in_map_iff in Hx. destruct Hx as (y & <- & Hy). apply (sok_results m Hm y Hy). }
      exists env'. split; [|split].
      + intros x Hx. fold (instrs m') in Hx. destruct (swapped_in x Hx) as [->|(y & Hy & -> & _)].
        * unfold obeys. cbn [si_op si_args si_type si_result]. split.
          -- intros _. rewrite !Hren by first [apply other_defined|apply c_defined].
             destruct (Hv ot env H) as (Ec & Em). rewrite Ec. split; [assumption|]. rewrite Hnew, <- Em.
             pose proof (H inst inst_in) as Hi. unfold obeys in Hi. rewrite Hmul, Hargs in Hi. apply Hi. assumption.
          -- intros Hn. exfalso. apply Hn. apply (proj2 (swapped_int32 m pre post inst other c _)). assumption.
        * apply (obeys_map ot m _ env _ y); try reflexivity.
          -- apply swapped_int32.
          -- cbn [rename si_result]. apply Hag. apply (sok_results m Hm y Hy).
          -- cbn [rename si_args]. rewrite map_map. apply map_ext_in. intros z Hz. apply Hren.
             apply (sok_args m Hm y z Hy Hz).
          -- apply H. assumption.
      + exact Hag.
      + assert (Hall : forall l, incl l (instrs m) -> Forall2 (fun i' i => env' (si_result i') = env (si_result i))
                          (map (rename (si_result inst) (sm_bound m)) l) l).
        { induction l as [|x l IH]; intros Hl; constructor.
          - cbn [rename si_result]. apply Hag. apply (sok_results m Hm). apply Hl. left. reflexivity.
          - apply IH. intros y Hy. apply Hl. right. assumption. }
        unfold swapped. cbn [replace_all_uses sm_body]. rewrite Hbody, map_app. cbn [map].
        apply Forall2_app; [|constructor].
        * apply Hall. intros x Hx. unfold instrs. rewrite Hbody, !in_app_iff. auto.
        * cbn [rename si_result]. assumption.
        * apply Hall. intros x Hx. unfold instrs. rewrite Hbody, !in_app_iff. cbn. auto.
  Qed.
End Swap.

(** The state of the pass. *)
Definition const_of (m : smodule) (v : Z) (c : N) : Prop :=
  exists d, In d (sm_globals m) /\ si_op d = SConstant v /\ si_result d = c /\ int32_type m (si_type d).
Record state_ok (s : sstate) : Prop := {
  st_ok : smodule_ok (ss_module s);
  st_int : ss_int32 s <> 0%N -> int32_type (ss_module s) (ss_int32 s);
  st_uint : ss_uint32 s <> 0%N -> int32_type (ss_module s) (ss_uint32 s);
  st_len : length (ss_constants s) = 33%nat;
  st_const : forall v c, nth_error (ss_constants s) v = Some c -> c <> 0%N -> const_of (ss_module s) (Z.of_nat v) c
}.
Lemma set_nth_length k v l : length (set_nth k v l) = length l.
Proof. revert k; induction l; intros [|k]; cbn; auto. Qed.
Lemma nth_set_nth k v l j c : nth_error (set_nth k v l) j = Some c -> (j = k /\ c = v) \/ nth_error l j = Some c.
Proof.
  revert k j; induction l as [|x l IH]; intros [|k] [|j] H; cbn in *; auto; try discriminate.
  - injection H as <-. auto.
  - destruct (IH k j H) as [(-> & ->)|H']; auto.
Qed.
Lemma find_int_type_spec sg l : find_int_type sg l <> 0%N ->
  exists i, In i l /\ si_op i = STypeInt 32 sg /\ si_result i = find_int_type sg l.
Proof.
  induction l as [|i l IH]; cbn; [congruence|]. intros H.
  destruct (si_op i) as [w s|v| | |code] eqn:Ho.
  - destruct ((w =? 32) && Bool.eqb s sg) eqn:E.
    + apply andb_true_iff in E. destruct E as (E1 & E2). apply Z.eqb_eq in E1. apply Bool.eqb_prop in E2. subst.
      exists i. auto.
    + destruct (IH H) as (x & H1 & H2 & H3). exists x. auto.
  - destruct (IH H) as (x & H1 & H2 & H3). exists x. auto.
  - destruct (IH H) as (x & H1 & H2 & H3). exists x. auto.
  - destruct (IH H) as (x & H1 & H2 & H3). exists x. auto.
  - destruct (IH H) as (x & H1 & H2 & H3). exists x. auto.
Qed.
Lemma find_constants_spec u l : forall ids,
  (forall i v, In i l -> si_op i = SConstant v -> 0 <= v) ->
  length (find_constants u l ids) = length ids /\
  forall v c, nth_error (find_constants u l ids) v = Some c ->
    nth_error ids v = Some c \/ exists d, In d l /\ si_op d = SConstant (Z.of_nat v) /\ si_result d = c /\ si_type d = u.
Proof.
  induction l as [|i l IH]; intros ids Hv; cbn [find_constants]; [auto|].
  edestruct IH as (HL & HC); [intros j v Hj; apply (Hv j v); right; assumption|].
  split.
  - rewrite HL. destruct (si_op i); try reflexivity. destruct (_ && _); [apply set_nth_length|reflexivity].
  - intros v c H. destruct (HC v c H) as [H1|(d & D1 & D2)]; [|right; exists d; cbn; auto].
    destruct (si_op i) as [w s|x| | |code] eqn:Ho; auto.
    destruct (N.eqb (si_type i) u && (x <=? 32)) eqn:E; auto.
    apply andb_true_iff in E. destruct E as (E1 & E2). apply N.eqb_eq in E1.
    destruct (nth_set_nth _ _ _ _ _ H1) as [(-> & ->)|H2]; auto.
    right. exists i. rewrite Z2Nat.id by (apply (Hv i x); cbn; auto). cbn. auto.
Qed.
Lemma initial_ok m : smodule_ok m -> state_ok (initial_state m).
Proof.
  intros Hm. assert (Hsub : incl (sm_globals m) (sm_globals m ++ sm_body m)) by (intros x Hx; apply in_or_app; auto).
  assert (Hty : forall sg, find_int_type sg (sm_globals m) <> 0%N -> int32_type m (find_int_type sg (sm_globals m))).
  { intros sg H. destruct (find_int_type_spec sg _ H) as (i & H1 & H2 & H3). exists i, sg. auto. }
  destruct (find_constants_spec (find_int_type false (sm_globals m)) (sm_globals m) (repeat 0%N 33)) as (HL & HC).
  { intros i v Hi Hv. pose proof (sok_words m Hm i v (Hsub i Hi) Hv). lia. }
  constructor; cbn [initial_state ss_module ss_int32 ss_uint32 ss_constants]; auto.
  intros v c H Hc. destruct (HC v c H) as [H1|(d & D1 & D2 & D3 & D4)].
  - exfalso. apply Hc. apply nth_error_In in H1. apply (repeat_spec 33 0%N). assumption.
  - exists d. repeat split; auto. rewrite D4. apply Hty. rewrite <- D4.
    pose proof (sok_typed m Hm d (Hsub d D1)) as Ht. rewrite D2 in Ht. specialize (Ht I). lia.
Qed.
Lemma const_of_grown m i v c : const_of m v c -> const_of (grown m i) v c.
Proof.
  intros (d & D1 & D2 & D3 & D4). exists d. cbn [grown sm_globals]. rewrite in_app_iff.
  repeat split; auto. apply grown_int32. auto.
Qed.
Lemma grown_state s i : state_ok s -> admissible (ss_module s) i ->
  state_ok (mkSS (grown (ss_module s) i) (ss_int32 s) (ss_uint32 s) (ss_constants s)).
Proof.
  intros [Hm Hi Hu Hl Hc] Ha. constructor; cbn [ss_module ss_int32 ss_uint32 ss_constants].
  - apply grown_ok; assumption.
  - intros H. apply grown_int32. auto.
  - intros H. apply grown_int32. auto.
  - assumption.
  - intros v c H H0. apply const_of_grown. auto.
Qed.
Lemma get_constant_spec limit val s : state_ok s -> 0 <= val < 32 ->
  exists c s', get_constant_id limit val s = SOk (c, s') /\
   (c <> 0%N -> state_ok s' /\ follows (ss_module s) (ss_module s') /\ sm_body (ss_module s') = sm_body (ss_module s) /\
     const_of (ss_module s') val c /\ (forall x, In x (instrs (ss_module s)) -> In x (instrs (ss_module s'))) /\
     (forall t, int32_type (ss_module s) t -> int32_type (ss_module s') t)).
Proof.
  intros Hs Hv. unfold get_constant_id.
  destruct (nth_error (ss_constants s) (Z.to_nat val)) as [id|] eqn:En.
  2:{ apply nth_error_None in En. rewrite (st_len s Hs) in En. lia. }
  destruct (N.eqb_spec id 0) as [->|Hid].
  2:{ exists id, s. split; [reflexivity|]. intros _. split; [assumption|]. split; [apply follows_refl|].
      split; [reflexivity|]. pose proof (st_const s Hs _ _ En Hid) as H. rewrite Z2Nat.id in H by lia. auto. }
  (* the type *)
  set (P := if N.eqb (ss_uint32 s) 0 then _ else _).
  assert (HP : (fst P = 0%N /\ snd P = ss_module s /\ (limit <= sm_bound (ss_module s))%N) \/
    (fst P <> 0%N /\ int32_type (snd P) (fst P) /\ follows (ss_module s) (snd P) /\
     sm_body (snd P) = sm_body (ss_module s) /\ state_ok (mkSS (snd P) (ss_int32 s) (fst P) (ss_constants s)) /\
     (forall x, In x (instrs (ss_module s)) -> In x (instrs (snd P))) /\
     (forall t, int32_type (ss_module s) t -> int32_type (snd P) t))).
  { unfold P. destruct (N.eqb_spec (ss_uint32 s) 0) as [Hu|Hu].
    - unfold take_next_id. destruct (N.leb_spec limit (sm_bound (ss_module s))) as [Hle|Hlt].
      + left. cbn. auto.
      + pose proof (sok_bound _ (st_ok s Hs)) as Hb. destruct (N.eqb_spec (sm_bound (ss_module s)) 0); [lia|].
        right. cbn [fst snd]. set (i := mkSI (STypeInt 32 false) 0 (sm_bound (ss_module s)) []).
        change (add_global _ i) with (grown (ss_module s) i).
        assert (Ha : admissible (ss_module s) i) by (repeat split; cbn; lia).
        assert (Ht : int32_type (grown (ss_module s) i) (sm_bound (ss_module s)))
          by (apply grown_int32; right; split; [exists false|]; reflexivity).
        split; [assumption|]. split; [assumption|].
        split; [apply grown_follows; [apply (st_ok s Hs)|assumption|discriminate]|].
        split; [reflexivity|].
        destruct (grown_state s i Hs Ha) as [A1 A2 A3 A4 A5]. split; [constructor; auto|].
        split; [intros; apply grown_in; auto|intros; apply grown_int32; auto].
    - right. cbn [fst snd]. split; [assumption|]. split; [apply (st_uint s Hs Hu)|]. split; [apply follows_refl|].
      split; [reflexivity|]. destruct s; auto. }
  destruct P as [uint m]. cbn [fst snd] in HP.
  destruct HP as [(-> & -> & Hle)|(Hu & Ht & Hf & Hbd & Hs1 & Hmono & Hmonot)].
  - unfold take_next_id. replace (N.leb limit (sm_bound (ss_module s))) with true by lia.
    cbn. eexists _, _. split; [reflexivity|]. congruence.
  - unfold take_next_id. destruct (N.leb_spec limit (sm_bound m)) as [Hle|Hlt].
    + cbn. eexists _, _. split; [reflexivity|]. congruence.
    + pose proof (sok_bound _ (st_ok _ Hs1)) as Hb. cbn [ss_module] in Hb.
      destruct (N.eqb_spec (sm_bound m) 0); [lia|].
      set (i := mkSI (SConstant val) uint (sm_bound m) []).
      change (add_global _ i) with (grown m i).
      pose proof (int32_type_lt m uint (st_ok _ Hs1) Ht) as Hlt'.
      assert (Hlim : 32 <= 2 ^ 32) by (vm_compute; discriminate).
      assert (Ha : admissible m i) by (repeat split; cbn; lia).
      assert (Hco : const_of (grown m i) val (sm_bound m)).
      { exists i. cbn [grown sm_globals]. rewrite in_app_iff. cbn. repeat split; auto. apply grown_int32. auto. }
      eexists _, _. split; [reflexivity|]. intros _. cbn [ss_module].
      destruct (grown_state _ i Hs1 Ha) as [A1 A2 A3 A4 A5]. cbn [ss_module ss_int32 ss_uint32 ss_constants] in *.
      split; [|split; [|split; [|split]]].
      * constructor; cbn [ss_module ss_int32 ss_uint32 ss_constants]; auto; [rewrite set_nth_length; assumption|].
        intros v c H H0. destruct (nth_set_nth _ _ _ _ _ H) as [(-> & ->)|H1]; [|auto].
        rewrite Z2Nat.id by lia. assumption.
      * eapply follows_trans; [exact Hf|]. apply grown_follows; [apply (st_ok _ Hs1)|assumption|]. auto.
      * assumption.
      * assumption.
      * split; [intros; apply grown_in; auto|intros; apply grown_int32; auto].
Qed.
Lemma find_some_in (l : list sinst) a : In a (map si_result l) ->
  exists d, find (fun i => N.eqb (si_result i) a) l = Some d /\ In d l /\ si_result d = a.
Proof.
  intros H. destruct (find (fun i => N.eqb (si_result i) a) l) as [d|] eqn:E.
  - apply find_some in E. destruct E as (E1 & E2). apply N.eqb_eq in E2. exists d. auto.
  - exfalso. apply in_map_iff in H. destruct H as (x & <- & Hx). pose proof (find_none _ _ E x Hx) as Hn.
    cbn in Hn. rewrite N.eqb_refl in Hn. discriminate.
Qed.
Lemma constant_value other m env d v : sexecution other m env -> In d (instrs m) -> si_op d = SConstant v ->
  int32_type m (si_type d) -> env (si_result d) = v.
Proof.
  intros H Hd Hop Ht. pose proof (H d Hd) as Ho. unfold obeys in Ho. rewrite Hop in Ho. apply Ho. assumption.
Qed.
Definition good_result (s : sstate) (r : sres sstate) : Prop :=
  match r with
  | SBad => False
  | SFailure => True
  | SOk s' => state_ok s' /\ follows (ss_module s) (ss_module s')
  end.
Lemma try_operand_spec limit k inst i s : state_ok s -> (i <= 1)%nat ->
  nth_error (sm_body (ss_module s)) k = Some inst -> si_op inst = SIMul -> int32_type (ss_module s) (si_type inst) ->
  match try_operand limit k inst i s with
  | SBad => False
  | SFailure => True
  | SOk None => True
  | SOk (Some s') => state_ok s' /\ follows (ss_module s) (ss_module s')
  end.
Proof.
  intros Hs Hi Hk Hmul Hty. pose proof (st_ok s Hs) as Hm.
  assert (Hin : In inst (instrs (ss_module s))) by (apply in_or_app; right; eapply nth_error_In; eassumption).
  destruct (sok_mul _ Hm inst Hin Hmul Hty) as (Hlen & Hcs).
  destruct (si_args inst) as [|a [|b [|? ?]]] eqn:Hargs; try discriminate Hlen. clear Hlen.
  assert (Hx : exists x y, nth_error [a; b] i = Some x /\ nth_error [a; b] (1 - i) = Some y /\ In x [a; b] /\ In y [a; b]
                /\ forall (env : N -> Z), env a * env b = env y * env x).
  { destruct i as [|[|]]; [exists a, b|exists b, a|lia]; cbn; repeat split; auto; intros; apply Z.mul_comm || reflexivity. }
  destruct Hx as (x & y & Hnx & Hny & Hix & Hiy & Hxy).
  unfold try_operand. rewrite Hargs, Hnx.
  assert (Hdx : In x (map si_result (instrs (ss_module s)))) by (apply (sok_args _ Hm inst x Hin); rewrite Hargs; assumption).
  destruct (find_some_in _ x Hdx) as (d & Hfind & Hdin & Hdr).
  unfold get_def. unfold instrs in Hfind. rewrite Hfind.
  destruct (si_op d) as [w sg|v| | |code] eqn:Hop; auto.
  destruct (is_power_of_2 v) eqn:Hp; [|exact I].
  pose proof (sok_words _ Hm d v Hdin Hop) as Hv.
  destruct (ctz_power v Hv Hp) as (n & Hn & Hnr & Hvn). rewrite Hn.
  destruct (get_constant_spec limit n s Hs Hnr) as (c & s1 & Hg & Hgs). rewrite Hg. cbn [sbind].
  destruct (N.eqb_spec c 0) as [|Hc0]; [exact I|].
  destruct (Hgs Hc0) as (Hs1 & Hf1 & Hb1 & Hco & Hmono & Hmonot). clear Hgs.
  unfold take_next_id. destruct (N.leb limit (sm_bound (ss_module s1))); [exact I|].
  pose proof (st_ok _ Hs1) as Hm1. pose proof (sok_bound _ Hm1) as Hbd.
  destruct (N.eqb_spec (sm_bound (ss_module s1)) 0) as [|_]; [exact I|]. rewrite Hny. cbn [sm_globals sm_body sm_bound].
  rewrite <- Hb1 in Hk.
  destruct (set_inst_split k _ (mkSI SShl (si_type inst) (sm_bound (ss_module s1)) [y; c]) inst Hk) as (pre & post & Hsplit & Hset).
  rewrite Hset. fold (swapped (ss_module s1) pre post inst y c).
  assert (Hty1 : int32_type (ss_module s1) (si_type inst)) by (apply Hmonot; assumption).
  assert (Hcd : In c (map si_result (sm_globals (ss_module s1))) /\ (0 < c)%N).
  { destruct Hco as (e & E1 & E2 & E3 & E4). split; [rewrite <- E3; apply in_map; assumption|lia]. }
  assert (Hy1 : In y (si_args inst)) by (rewrite Hargs; assumption).
  pose proof (swapped_ok (ss_module s1) pre post inst y c Hm1 Hsplit Hmul Hty1 Hy1 Hcd) as Hok'.
  split.
  - destruct Hs1 as [_ A2 A3 A4 A5]. constructor; cbn [ss_module ss_int32 ss_uint32 ss_constants].
    + assumption.
    + intros H. apply (proj2 (swapped_int32 _ _ _ _ _ _ _)). auto.
    + intros H. apply (proj2 (swapped_int32 _ _ _ _ _ _ _)). auto.
    + assumption.
    + intros w c' H H0. destruct (A5 w c' H H0) as (e & E1 & E2 & E3 & E4).
      exists (rename (si_result inst) (sm_bound (ss_module s1)) e).
      split; [unfold swapped; cbn [replace_all_uses sm_globals]; apply in_map; assumption|].
      split; [assumption|]. split; [assumption|]. apply (proj2 (swapped_int32 _ _ _ _ _ _ _)). assumption.
  - eapply follows_trans; [exact Hf1|]. cbn [ss_module].
    apply (swapped_follows (ss_module s1) pre post inst y c Hm1 Hsplit Hmul Hty1 Hy1 Hcd n a b Hargs Hnr).
    intros ot env He. split.
    + destruct Hco as (e & E1 & E2 & E3 & E4). rewrite <- E3.
      apply (constant_value ot (ss_module s1) env e n He); auto. apply in_or_app. auto.
    + rewrite (Hxy env). f_equal. f_equal. rewrite <- Hdr, <- Hvn.
      apply (constant_value ot (ss_module s1) env d v He); auto. apply Hmonot.
      apply (Hcs x d v Hix Hdin Hdr Hop).
Qed.
Lemma replace_multiply_spec limit k inst s : state_ok s ->
  nth_error (sm_body (ss_module s)) k = Some inst -> si_op inst = SIMul ->
  good_result s (replace_multiply limit k inst s).
Proof.
  intros Hs Hk Hmul. unfold replace_multiply.
  assert (Hin : In inst (instrs (ss_module s))) by (apply in_or_app; right; eapply nth_error_In; eassumption).
  pose proof (sok_typed _ (st_ok s Hs) inst Hin) as Ht0. rewrite Hmul in Ht0. specialize (Ht0 I).
  assert (Hself : good_result s (SOk s)) by (split; [assumption|apply follows_refl]).
  destruct (negb _ && negb _) eqn:E; [assumption|].
  assert (Hty : int32_type (ss_module s) (si_type inst)).
  { apply andb_false_iff in E. rewrite !negb_false_iff, !N.eqb_eq in E. destruct E as [E|E]; rewrite E in *.
    - apply (st_int s Hs). lia.
    - apply (st_uint s Hs). lia. }
  pose proof (try_operand_spec limit k inst 0 s Hs (Nat.le_0_l 1) Hk Hmul Hty) as H0.
  pose proof (try_operand_spec limit k inst 1 s Hs (le_n 1) Hk Hmul Hty) as H1.
  destruct (try_operand limit k inst 0 s) as [| |[s'|]]; cbn; auto.
  destruct (try_operand limit k inst 1 s) as [| |[s'|]]; cbn; auto.
Qed.
Lemma Forall2_len {A B} (R : A -> B -> Prop) l l' : Forall2 R l l' -> length l = length l'.
Proof. induction 1; cbn; auto. Qed.
Lemma scan_spec limit : forall count k s, state_ok s -> (k + count = length (sm_body (ss_module s)))%nat ->
  good_result s (scan limit count k s).
Proof.
  induction count as [|count IH]; intros k s Hs Hlen; cbn [scan].
  - split; [assumption|apply follows_refl].
  - destruct (nth_error (sm_body (ss_module s)) k) as [inst|] eqn:Hk.
    2:{ apply nth_error_None in Hk. lia. }
    assert (Hnext : forall s', good_result s (SOk s') -> good_result s (scan limit count (S k) s')).
    { intros s' (A & B). pose proof (Forall2_len _ _ _ (fo_body _ _ B)) as HL.
      assert (Hlen' : (S k + count = length (sm_body (ss_module s')))%nat) by lia.
      pose proof (IH (S k) s' A Hlen') as H. destruct (scan limit count (S k) s') as [| |s'']; cbn in *; auto.
      destruct H as (C & D). split; [assumption|]. eapply follows_trans; eassumption. }
    assert (Hself : good_result s (SOk s)) by (split; [assumption|apply follows_refl]).
    destruct (si_op inst) eqn:Hop; auto.
    pose proof (replace_multiply_spec limit k inst s Hs Hk Hop) as H.
    destruct (replace_multiply limit k inst s) as [| |s']; cbn [sbind]; [exact H|exact I|]. auto.
Qed.
Lemma strength_spec limit m : smodule_ok m ->
  match strength_reduction limit m with
  | SBad => False
  | SFailure => True
  | SOk m' => smodule_ok m' /\ follows m m'
  end.
Proof.
  intros Hm. unfold strength_reduction.
  pose proof (scan_spec limit (length (sm_body m)) 0 (initial_state m) (initial_ok m Hm) eq_refl) as H.
  destruct (scan _ _ _ _) as [| |s]; cbn in *; auto. destruct H as (A & B). split; [apply (st_ok s A)|assumption].
Qed.

(** Failure only when the ids run out. *)
Definition room (limit : N) (s : sstate) (n : N) (r : sres sstate) : Prop :=
  match r with
  | SBad => True
  | SFailure => False
  | SOk s' => (sm_bound (ss_module s') <= sm_bound (ss_module s) + n)%N
  end.
Lemma get_constant_room limit val s c s' :
  get_constant_id limit val s = SOk (c, s') -> (0 < sm_bound (ss_module s))%N -> (sm_bound (ss_module s) + 3 <= limit)%N ->
  c <> 0%N /\ (sm_bound (ss_module s') <= sm_bound (ss_module s) + 2)%N.
Proof.
  unfold get_constant_id. intros H Hb Hl. destruct (nth_error (ss_constants s) (Z.to_nat val)) as [j|]; [|discriminate].
  destruct (N.eqb_spec j 0) as [Hj|Hj].
  2:{ injection H as <- <-. split; [assumption|lia]. }
  unfold take_next_id in H. destruct (N.eqb_spec (ss_uint32 s) 0) as [Hu|Hu].
  - replace (N.leb limit (sm_bound (ss_module s))) with false in H by lia.
    replace (sm_bound (ss_module s) =? 0)%N with false in H by lia.
    cbn [add_global sm_bound sm_globals sm_body] in H.
    replace (N.leb limit (sm_bound (ss_module s) + 1)) with false in H by lia.
    replace (sm_bound (ss_module s) + 1 =? 0)%N with false in H by lia.
    injection H as <- <-. cbn. lia.
  - replace (N.leb limit (sm_bound (ss_module s))) with false in H by lia.
    replace (sm_bound (ss_module s) =? 0)%N with false in H by lia.
    injection H as <- <-. cbn. lia.
Qed.
Lemma try_operand_room limit k inst i s :
  (0 < sm_bound (ss_module s))%N -> (sm_bound (ss_module s) + 3 <= limit)%N ->
  match try_operand limit k inst i s with
  | SFailure => False
  | SOk (Some s') => (sm_bound (ss_module s') <= sm_bound (ss_module s) + 3)%N
  | _ => True
  end.
Proof.
  intros Hb Hl. unfold try_operand. destruct (nth_error (si_args inst) i); [|exact I].
  destruct (get_def _ _) as [d|]; [|exact I]. destruct (si_op d); auto.
  destruct (is_power_of_2 _); [|exact I]. destruct (count_trailing_zeros _ _); [|exact I].
  destruct (get_constant_id limit z s) as [| |(c & s1)] eqn:Hg; cbn [sbind].
  - exact I.
  - unfold get_constant_id in Hg. destruct (nth_error (ss_constants s) (Z.to_nat z)); [|discriminate].
    destruct (N.eqb n0 0); [|discriminate]. unfold take_next_id in Hg.
    destruct (N.eqb (ss_uint32 s) 0); destruct (N.leb limit (sm_bound (ss_module s))); cbn in Hg;
      repeat (match type of Hg with context [if ?b then _ else _] => destruct b eqn:? end; cbn in Hg); discriminate.
  - destruct (get_constant_room _ _ _ _ _ Hg Hb Hl) as (Hc & Hb1).
    destruct (N.eqb_spec c 0) as [|_]; [contradiction|]. unfold take_next_id.
    replace (N.leb limit (sm_bound (ss_module s1))) with false by lia.
    assert (Hp : (0 < sm_bound (ss_module s1))%N).
    { unfold get_constant_id in Hg. destruct (nth_error (ss_constants s) (Z.to_nat z)); [|discriminate].
      destruct (N.eqb n0 0); [|injection Hg as <- <-; assumption]. unfold take_next_id in Hg.
      destruct (N.eqb (ss_uint32 s) 0); destruct (N.leb limit (sm_bound (ss_module s))); cbn in Hg;
        repeat (match type of Hg with context [if ?b then _ else _] => destruct b eqn:? end; cbn in Hg);
        injection Hg as <- <-; cbn; lia. }
    replace (sm_bound (ss_module s1) =? 0)%N with false by lia.
    destruct (nth_error (si_args inst) (1 - i)); [|exact I]. cbn. lia.
Qed.
Lemma replace_multiply_room limit k inst s :
  (0 < sm_bound (ss_module s))%N -> (sm_bound (ss_module s) + 3 <= limit)%N ->
  room limit s 3 (replace_multiply limit k inst s).
Proof.
  intros Hb Hl. unfold replace_multiply. destruct (negb _ && negb _); [cbn; lia|].
  pose proof (try_operand_room limit k inst 0 s Hb Hl) as H0.
  pose proof (try_operand_room limit k inst 1 s Hb Hl) as H1.
  destruct (try_operand limit k inst 0 s) as [| |[s'|]]; cbn; auto.
  destruct (try_operand limit k inst 1 s) as [| |[s'|]]; cbn; auto. lia.
Qed.
Lemma scan_room limit : forall count k s, state_ok s -> (k + count = length (sm_body (ss_module s)))%nat ->
  (sm_bound (ss_module s) + 3 * N.of_nat count <= limit)%N -> scan limit count k s <> SFailure.
Proof.
  induction count as [|count IH]; intros k s Hs Hlen Hl; cbn [scan]; [discriminate|].
  destruct (nth_error (sm_body (ss_module s)) k) as [inst|] eqn:Hk; [|discriminate].
  destruct (si_op inst) eqn:Hop; try (apply IH; auto; lia).
  pose proof (replace_multiply_spec limit k inst s Hs Hk Hop) as H.
  pose proof (sok_bound _ (st_ok s Hs)) as Hb.
  assert (Hl3 : (sm_bound (ss_module s) + 3 <= limit)%N) by lia.
  pose proof (replace_multiply_room limit k inst s Hb Hl3) as Hr.
  destruct (replace_multiply limit k inst s) as [| |s']; cbn [sbind] in *; [discriminate|destruct Hr|].
  destruct H as (A & B). cbn in Hr. pose proof (Forall2_len _ _ _ (fo_body _ _ B)) as HL.
  apply IH; [assumption|lia|lia].
Qed.
