(** Proofs about the shrinker model. *)
From Verif Require Import Base LcsSpec Reducer ReducerSpec ReducerProofs Shrinker ShrinkerSpec P_Reducer.
Local Open Scope nat_scope.

Lemma sub_refl {A} (l : list A) : subsequence l l.
Proof. induction l; [constructor|apply sub_take; auto]. Qed.
Lemma sub_trans {A} (a b c : list A) : subsequence a b -> subsequence b c -> subsequence a c.
Proof.
  intros H1 H2. revert a H1. induction H2 as [|x xs l H IH|x xs l H IH]; intros a H1; auto.
  - apply sub_skip; auto.
  - inversion H1; subst; [apply sub_skip|apply sub_take]; auto.
Qed.
Lemma sub_nil_l {A} (l : list A) : subsequence [] l.
Proof. induction l; [constructor|apply sub_skip; auto]. Qed.
Lemma sub_length {A} (a b : list A) : subsequence a b -> length a <= length b.
Proof. induction 1; simpl; lia. Qed.

Section Shrinker.
Context {T M : Type}.
Variable initial : list T -> M.
Variable applicable : M -> T -> bool.
Variable apply_ : M -> T -> M.
Variable to_binary : M -> binary.
Variable validate : binary -> bool.
Variable vdr : bool.

Notation replay_loop := (replay_loop applicable apply_ to_binary validate vdr).
Notation replay := (replay initial applicable apply_ to_binary validate vdr).

Lemma replay_loop_sub : forall ts m m' applied, replay_loop m ts = Some (m', applied) -> subsequence applied ts.
Proof.
  induction ts as [|t ts IH]; intros m m' applied H; cbn [Shrinker.replay_loop] in H.
  - inversion H. constructor.
  - destruct (applicable m t).
    + destruct (vdr && _); [discriminate|].
      destruct (replay_loop (apply_ m t) ts) as [[m2 ap]|] eqn:E; [|discriminate]. inversion H; subst. apply sub_take. eauto.
    + apply sub_skip. eauto.
Qed.
Lemma replay_sub ts b applied : replay ts = Some (b, applied) -> subsequence applied ts.
Proof.
  unfold Shrinker.replay, replay_prefix. rewrite firstn_all.
  destruct (replay_loop (initial ts) ts) as [[m ap]|] eqn:E; [|discriminate]. intros H. inversion H; subst.
  eapply replay_loop_sub; eauto.
Qed.

Lemma filter_combine_sub (f : nat * T -> bool) : forall (ts : list T) (k : nat),
  subsequence (map snd (filter f (combine (seq k (length ts)) ts))) ts.
Proof.
  induction ts as [|t ts IH]; intros k; cbn [length seq combine filter map]; [constructor|].
  destruct (f (k, t)); cbn [map snd]; [apply sub_take|apply sub_skip]; auto.
Qed.
Lemma remove_chunk_sub (ts : list T) i c : subsequence (remove_chunk ts i c) ts.
Proof. unfold remove_chunk. apply filter_combine_sub. Qed.

Lemma filter_none {A} (f : A -> bool) l : (forall x, In x l -> f x = true) -> filter f l = l.
Proof. induction l as [|x l IH]; intros H; cbn [filter]; auto. rewrite H by (left; auto). f_equal. apply IH. intros; apply H; right; auto. Qed.
Lemma combine_seq_snd (ts : list T) k : map snd (combine (seq k (length ts)) ts) = ts.
Proof. revert k. induction ts as [|t ts IH]; intros k; cbn [length seq combine map snd]; auto. f_equal; auto. Qed.
Lemma filter_ext_all {A} (f : A -> bool) l : (forall x, In x l -> f x = false) -> filter f l = [].
Proof. induction l as [|x l IH]; intros H; cbn [filter]; auto. rewrite H by (left; auto). apply IH. intros; apply H; right; auto. Qed.
Lemma combine_seq_index (ts : list T) : forall k jt, In jt (combine (seq k (length ts)) ts) -> k <= fst jt < k + length ts.
Proof. intros k [j t] H. apply in_combine_l in H. apply in_seq in H. auto. Qed.

(** RemoveChunk leaves out exactly the chunk. *)
Lemma remove_chunk_eq (ts : list T) i c : i * c <= length ts ->
  remove_chunk ts i c = firstn (i * c) ts ++ skipn ((i + 1) * c) ts.
Proof.
  intros L. unfold remove_chunk. set (lo := i * c) in *. assert (HU : (i + 1) * c = lo + c) by (unfold lo; lia).
  rewrite HU. set (up := Nat.min (lo + c) (length ts)).
  assert (Sp : ts = firstn lo ts ++ firstn (up - lo) (skipn lo ts) ++ skipn up ts).
  { replace (skipn up ts) with (skipn (up - lo) (skipn lo ts)).
    - rewrite firstn_skipn, firstn_skipn. auto.
    - assert (Z : forall (n m : nat) (l : list T), skipn n (skipn m l) = skipn (m + n) l).
      { intros n m. induction m as [|m IH]; intros l; [auto|]. destruct l; [rewrite !skipn_nil; auto|]. cbn [skipn Nat.add]. apply IH. }
      rewrite Z. f_equal. unfold up. lia. }
  assert (L1 : length (firstn lo ts) = lo) by (rewrite firstn_length; lia).
  assert (L2 : length (firstn (up - lo) (skipn lo ts)) = up - lo) by (rewrite firstn_length, skipn_length; unfold up; lia).
  assert (Tail : skipn (lo + c) ts = skipn up ts).
  { unfold up. destruct (Nat.le_gt_cases (lo + c) (length ts)); [f_equal; lia|].
    rewrite Nat.min_r by lia. rewrite !skipn_all2 by lia. auto. }
  rewrite Tail.
  set (a := firstn lo ts) in *. set (b := firstn (up - lo) (skipn lo ts)) in *. set (d := skipn up ts) in *.
  rewrite Sp at 1 2. rewrite !app_length, !seq_app, !Nat.add_0_l.
  assert (CA : forall (n1 n2 : list nat) (l1 l2 : list T), length n1 = length l1 -> combine (n1 ++ n2) (l1 ++ l2) = combine n1 l1 ++ combine n2 l2).
  { induction n1 as [|x n1 IH]; intros n2 [|y l1] l2 E; cbn in *; try lia; auto. f_equal. apply IH. lia. }
  rewrite CA by (rewrite seq_length; auto). rewrite CA by (rewrite seq_length; auto).
  rewrite !filter_app, !map_app.
  rewrite (filter_none _ (combine (seq 0 (length a)) a)).
  2:{ intros jt H. apply combine_seq_index in H. apply negb_true_iff, andb_false_iff. left. apply Nat.leb_gt. lia. }
  rewrite (filter_ext_all _ (combine (seq (length a) (length b)) b)).
  2:{ intros jt H. apply combine_seq_index in H. apply negb_false_iff, andb_true_iff. split; [apply Nat.leb_le; lia|apply Nat.ltb_lt; lia]. }
  rewrite (filter_none _ (combine (seq (length a + length b) (length d)) d)).
  2:{ intros jt H. apply combine_seq_index in H. apply negb_true_iff, andb_false_iff. right. apply Nat.ltb_ge. lia. }
  rewrite !combine_seq_snd. reflexivity.
Qed.

(** Replaying applied transformations applies all of them. *)
Lemma replay_loop_idem : forall ts m m' applied, replay_loop m ts = Some (m', applied) ->
  replay_loop m applied = Some (m', applied).
Proof.
  induction ts as [|t ts IH]; intros m m' applied H; cbn [Shrinker.replay_loop] in H.
  - inversion H. reflexivity.
  - destruct (applicable m t) eqn:A.
    + destruct (vdr && _) eqn:V; [discriminate|].
      destruct (replay_loop (apply_ m t) ts) as [[m2 ap]|] eqn:E; [|discriminate]. inversion H; subst.
      cbn [Shrinker.replay_loop]. rewrite A, V. rewrite (IH _ _ _ E). reflexivity.
    + eauto.
Qed.
Lemma replay_loop_app : forall a b m m' applied, replay_loop m (a ++ b) = Some (m', applied) ->
  exists m1 a1 b1, replay_loop m a = Some (m1, a1) /\ replay_loop m1 b = Some (m', b1) /\ applied = a1 ++ b1.
Proof.
  induction a as [|t a IH]; intros b m m' applied H.
  - exists m, [], applied. auto.
  - cbn [app Shrinker.replay_loop] in *. destruct (applicable m t).
    + destruct (vdr && _); [discriminate|].
      destruct (replay_loop (apply_ m t) (a ++ b)) as [[m2 ap]|] eqn:E; [|discriminate]. inversion H; subst.
      destruct (IH _ _ _ _ E) as [m1 [a1 [b1 [E1 [E2 ->]]]]]. rewrite E1. exists m1, (t :: a1), b1. auto.
    + apply IH. auto.
Qed.

Theorem earlier_chunks_kept ts0 b best i c b' applied : (forall ts ts', initial ts = initial ts') ->
  replay ts0 = Some (b, best) -> i * c <= length best ->
  replay (remove_chunk best i c) = Some (b', applied) -> exists rest, applied = firstn (i * c) best ++ rest.
Proof.
  intros C R L R'. rewrite remove_chunk_eq in R' by auto.
  unfold Shrinker.replay, replay_prefix in *. rewrite firstn_all in *.
  destruct (replay_loop (initial ts0) ts0) as [[m ap]|] eqn:E; [|discriminate]. inversion R; subst. clear R.
  apply replay_loop_idem in E. rewrite <- (firstn_skipn (i * c) best) in E.
  destruct (replay_loop_app _ _ _ _ _ E) as [m1 [a1 [b1 [E1 [E2 E3]]]]].
  assert (A1 : a1 = firstn (i * c) best).
  { assert (S1 := replay_loop_sub _ _ _ _ E1). assert (S2 := replay_loop_sub _ _ _ _ E2).
    apply sub_length in S1, S2. assert (Lf := firstn_length (i * c) best). assert (Ls := skipn_length (i * c) best).
    rewrite firstn_skipn in E3. assert (Lb := f_equal (@length T) E3). rewrite app_length in Lb.
    rewrite E3. rewrite firstn_app. replace (i * c - length a1) with 0 by lia.
    rewrite firstn_O, app_nil_r, firstn_all2; auto. lia. }
  destruct (replay_loop (initial _) _) as [[m3 ap3]|] eqn:E4 in R'; [|discriminate]. inversion R'; subst.
  destruct (replay_loop_app _ _ _ _ _ E4) as [m5 [a5 [b5 [E5 [E6 ->]]]]].
  rewrite (C _ ts0), E1 in E5. inversion E5; subst. exists b5. auto.
Qed.

Variable interesting : interestingness.
Variable step_limit : N.

Notation chunk_loop := (chunk_loop initial applicable apply_ to_binary validate vdr interesting step_limit).
Notation shrink_loop := (shrink_loop initial applicable apply_ to_binary validate vdr interesting step_limit).

Variable is_add : T -> bool.
Variable orig : list T.

Record inv (s : shrink_state) : Prop := {
  inv_faithful : faithful interesting (calls s);
  inv_accepted : accepted (calls s) (best_binary s);
  inv_replayed : exists ts, shrunk_from is_add orig ts /\ replay ts = Some (best_binary s, best s) }.

Lemma shrunk_sub x y : shrunk_from is_add orig x -> subsequence y x -> shrunk_from is_add orig y.
Proof.
  intros [kept [K F]] S. revert kept K F. induction S as [|a xs l S IH|a xs l S IH]; intros kept K F.
  - inversion F; subst. exists []. split; [apply sub_nil_l|constructor].
  - inversion F as [|k ? kept' ? R F' ]; subst. destruct (IH kept') as [k2 [K2 F2]]; auto.
    + eapply sub_trans; [|exact K]. apply sub_skip, sub_refl.
    + exists k2. auto.
  - inversion F as [|k ? kept' ? R F' ]; subst.
    clear IH. assert (X : exists k2, subsequence k2 kept' /\ Forall2 (fun a b => a = b \/ is_add a = true /\ is_add b = true) k2 xs).
    { clear - S F'. revert kept' F'. induction S as [|a xs l S IH|a xs l S IH]; intros kept' F.
      - exists []. split; [apply sub_nil_l|constructor].
      - inversion F; subst. destruct (IH _ H3) as [k2 [A B]]. exists k2. split; auto. apply sub_skip; auto.
      - inversion F; subst. destruct (IH _ H3) as [k2 [A B]]. eexists. split; [apply sub_take; eauto|]. constructor; auto. }
    destruct X as [k2 [A B]]. exists (k :: k2). split; [|constructor; auto].
    eapply sub_trans; [|exact K]. apply sub_take. auto.
Qed.

Lemma inv_best s : inv s -> shrunk_from is_add orig (best s).
Proof. intros [_ _ [ts [H R]]]. eapply shrunk_sub; eauto. eapply replay_sub; eauto. Qed.

Lemma chunk_loop_ok : forall chunks c s p s' p', inv s -> (attempt s <= step_limit)%N ->
  chunk_loop chunks c s p = Some (s', p') ->
  inv s' /\ (attempt s <= attempt s' <= step_limit)%N /\ length (best s') <= length (best s) /\
  (1 <= chunks -> (attempt s < step_limit)%N -> (attempt s < attempt s')%N).
Proof.
  induction chunks as [|i IH]; intros c s p s' p' I L H; cbn [Shrinker.chunk_loop] in H.
  - inversion H; subst. split; auto. split; [lia|]. split; lia.
  - destruct (N.leb_spec step_limit (attempt s)) as [Le|Lt].
    { inversion H; subst. split; auto. split; [lia|]. split; [auto|lia]. }
    destruct (replay (remove_chunk (best s) i c)) as [[tb ap]|] eqn:R; [|discriminate].
    set (answer := interesting (calls s) tb (attempt s)) in *.
    assert (Sb := replay_sub _ _ _ R). assert (Sc := remove_chunk_sub (best s) i c).
    assert (Fa : faithful interesting (calls s ++ [(tb, attempt s, answer)])) by (apply faithful_snoc, I).
    destruct answer eqn:A.
    + apply IH in H; cbn [attempt best] in *.
      * destruct H as [H1 [H2 [H3 H4]]]. split; auto. split; [lia|]. split; [|lia].
        apply sub_length in Sb, Sc. lia.
      * split; cbn [calls best_binary best]; auto.
        -- exists (attempt s). apply in_or_app. right. left. auto.
        -- exists (remove_chunk (best s) i c). split; auto. eapply shrunk_sub; [apply inv_best; eauto|auto].
      * lia.
    + apply IH in H; cbn [attempt best] in *.
      * destruct H as [H1 [H2 [H3 H4]]]. split; auto. split; [lia|]. split; [auto|lia].
      * destruct I as [If [st Ia] Ir]. split; cbn [calls best_binary best]; auto.
        exists st. apply in_or_app. auto.
      * lia.
Qed.

Lemma decrease_ok : forall fuel c r, c < fuel -> exists c', decrease fuel c r = Some c' /\ c' <= r /\ c' <= c.
Proof.
  induction fuel as [|fuel IH]; intros c r H; [lia|]. cbn [decrease].
  destruct (Nat.ltb_spec r c).
  - assert (c / 2 < c) by (apply Nat.div_lt; lia). destruct (IH (c / 2) r) as [c' [E [A B]]]; [lia|]. exists c'. split; auto. lia.
  - exists c. split; auto.
Qed.

Lemma shrink_loop_ok : forall fuel c s, inv s -> (attempt s <= step_limit)%N ->
  N.to_nat (step_limit - attempt s) < fuel ->
  shrink_loop fuel c s = Some ReplayFailed \/
  exists s', shrink_loop fuel c s = Some (Shrunk s') /\ inv s' /\ (attempt s' <= step_limit)%N /\
    length (best s') <= length (best s).
Proof.
  induction fuel as [|fuel IH]; intros c s I L F; [lia|]. cbn [Shrinker.shrink_loop].
  destruct ((attempt s <? step_limit)%N && negb (length (best s) =? 0) && (0 <? c)) eqn:Q.
  2:{ right. exists s. auto. }
  apply andb_true_iff in Q. destruct Q as [Q Q3]. apply andb_true_iff in Q. destruct Q as [Q1 Q2].
  apply N.ltb_lt in Q1. apply Nat.ltb_lt in Q3. apply negb_true_iff, Nat.eqb_neq in Q2.
  set (chunks := (length (best s) + c - 1) / c).
  assert (1 <= chunks). { unfold chunks. apply Nat.div_le_lower_bound; lia. }
  destruct (chunk_loop chunks c s false) as [[s' p]|] eqn:E; [|left; auto].
  apply chunk_loop_ok in E; auto. destruct E as [I' [A' [B' C']]].
  set (c1 := if p then c else c / 2).
  destruct (decrease_ok (S c1) c1 (length (best s'))) as [c' [D _]]; [lia|]. rewrite D.
  destruct (IH c' s' I') as [X|[s2 [X [I2 [A2 B2]]]]]; [lia|lia|left; auto|].
  right. exists s2. split; auto. split; auto. split; auto. lia.
Qed.

(** *** Reduction of added functions *)
Variable add_raw : M -> T -> binary.
Variable with_body : T -> binary -> T.
Variable globals_ok : M -> T -> binary -> bool.
Variable passes cleanup : T -> list finder.
Hypothesis body_add : forall t b, is_add (with_body t b) = true.

Notation to_ask := (to_ask initial applicable apply_ to_binary validate vdr with_body globals_ok).
Notation user_calls := (user_calls initial applicable apply_ to_binary validate vdr with_body globals_ok).
Notation function_interesting := (function_interesting initial applicable apply_ to_binary validate vdr interesting with_body globals_ok).
Notation reduce_function := (reduce_function initial applicable apply_ to_binary validate vdr interesting step_limit add_raw with_body globals_ok passes cleanup).
Notation function_loop := (function_loop initial applicable apply_ to_binary validate vdr interesting step_limit is_add add_raw with_body globals_ok passes cleanup).

Lemma user_calls_app m ts k t : forall a b c,
  user_calls m ts k t c (a ++ b) = user_calls m ts k t c a ++ user_calls m ts k t (c + N.of_nat (length a)) b.
Proof.
  induction a as [|[[x st] ans] a IH]; intros b c; cbn [app Shrinker.user_calls length].
  - rewrite N.add_0_r. auto.
  - rewrite IH, app_assoc. replace (c + 1 + N.of_nat (length a))%N with (c + N.of_nat (S (length a)))%N by lia. auto.
Qed.

Lemma faithful_prefix i (a b : list question) : faithful i (a ++ b) -> faithful i a.
Proof. intros F before x st ans after ->. eapply F. rewrite <- app_assoc. cbn. reflexivity. Qed.

Lemma user_faithful s m k t : faithful interesting (calls s) -> forall qs,
  faithful (function_interesting s m k t) qs ->
  faithful interesting (calls s ++ user_calls m (best s) k t (attempt s) qs).
Proof.
  intros F. induction qs as [|[[x st] ans] qs IH] using rev_ind; intros H.
  - cbn. rewrite app_nil_r. auto.
  - specialize (IH (faithful_prefix _ _ _ H)). rewrite user_calls_app. cbn [Shrinker.user_calls].
    rewrite app_nil_r. assert (A := H qs x st ans [] eq_refl). unfold Shrinker.function_interesting in A.
    destruct (to_ask m (best s) k t x) as [out|] eqn:TA.
    + rewrite app_assoc, A. apply faithful_snoc. auto.
    + rewrite app_nil_r. auto.
Qed.

Lemma user_calls_in m ts k t qs : forall c x st ans out, In (x, st, ans) qs -> to_ask m ts k t x = Some out ->
  exists n, In (out, n, ans) (user_calls m ts k t c qs).
Proof.
  induction qs as [|[[y st0] a] qs IH]; intros c x st ans out Hin E; [destruct Hin|]. destruct Hin as [H|H].
  - inversion H; subst. cbn [Shrinker.user_calls]. rewrite E. exists c. left. auto.
  - destruct (IH (c + 1)%N _ _ _ _ H E) as [n Hn]. exists n. cbn [Shrinker.user_calls]. apply in_or_app. auto.
Qed.

Lemma update_sub_same ts k t b : nth_error ts k = Some t -> is_add t = true ->
  Forall2 (fun a b => a = b \/ (is_add a = true /\ is_add b = true)) ts (update_nth ts k (with_body t b)).
Proof.
  revert k. induction ts as [|x ts IH]; intros [|k] H A; cbn in *; try discriminate.
  - inversion H; subst. constructor; auto. clear. induction ts; constructor; auto.
  - constructor; auto.
Qed.
Lemma shrunk_same x y : shrunk_from is_add orig x ->
  Forall2 (fun a b => a = b \/ (is_add a = true /\ is_add b = true)) x y -> shrunk_from is_add orig y.
Proof.
  intros [kept [K F]] G. exists kept. split; auto. revert y G. clear K.
  induction F as [|a b l l' R F IH]; intros y G; inversion G; subst; constructor; auto.
  destruct R as [->|[R1 R2]]; auto. destruct H1 as [<-|[H1 H2]]; auto.
Qed.

Definition passes_sane : Prop := forall t, sane step_limit (passes t) (cleanup t).
Hypothesis sane_passes : passes_sane.
Definition extra : N -> Prop := fun n => forall t, (N.of_nat (Nat.max (length (passes t)) (length (cleanup t)) - 1) <= n)%N.

Lemma reduce_function_ok s k t ex : extra ex -> inv s -> (attempt s <= step_limit)%N ->
  nth_error (best s) k = Some t -> is_add t = true ->
  exists r, reduce_function s k t = Some r /\
    forall s', r = Reduced s' -> inv s' /\ length (best s') <= length (best s) /\
      (attempt s <= attempt s' <= step_limit + ex)%N.
Proof.
  intros Ex I La Nt At. unfold Shrinker.reduce_function.
  destruct (replay_prefix initial applicable apply_ to_binary validate vdr k (best s)) as [[m pre]|]; [|eexists; split; [reflexivity|discriminate]].
  assert (Sn : sane (step_limit - attempt s) (passes t) (cleanup t)).
  { destruct (sane_passes t) as [A [B C]]. split; auto. split; auto. lia. }
  destruct (reducer_output_valid_and_interesting validate (function_interesting s m k t) (step_limit - attempt s) false (passes t) (cleanup t) (add_raw m t) Sn)
    as [st [out [rs [E [F O]]]]].
  assert (Lim := reducer_step_limit_partial _ _ _ _ _ _ _ _ _ _ Sn E). destruct Lim as [Lm [Lq _]].
  rewrite E.
  assert (G : forall reduced, accepted (asked rs) reduced ->
    exists r, match replay_adapted initial applicable apply_ to_binary validate vdr with_body (best s) k t reduced with
              | None => Some AssertionFailed
              | Some (transformed, applied) =>
                  Some (Reduced {| best_binary := transformed; best := applied;
                                   attempt := N.add (attempt s) (N.of_nat (length (asked rs)) - 1);
                                   calls := calls s ++ user_calls m (best s) k t (attempt s) (asked rs) |})
              end = Some r /\
      forall s', r = Reduced s' -> inv s' /\ length (best s') <= length (best s) /\ (attempt s <= attempt s' <= step_limit + ex)%N).
  { intros reduced [step Acc].
    destruct (replay_adapted _ _ _ _ _ _ _ (best s) k t reduced) as [[tb ap]|] eqn:RA; [|eexists; split; [reflexivity|discriminate]].
    eexists. split; [reflexivity|]. intros s' Es. inversion Es; subst. clear Es. cbn [best attempt].
    assert (TA : to_ask m (best s) k t reduced = Some tb).
    { destruct (in_split _ _ Acc) as [l1 [l2 Sp]]. assert (X := F l1 reduced step true l2 Sp).
      unfold Shrinker.function_interesting in X. destruct (to_ask m (best s) k t reduced) as [o|] eqn:TA; [|discriminate].
      unfold Shrinker.to_ask in TA. rewrite RA in TA. destruct (globals_ok m t reduced); [|discriminate].
      destruct (length (best s) =? length ap); congruence. }
    split; [split; cbn [calls best_binary best]|].
    - apply user_faithful; auto. apply I.
    - destruct (user_calls_in m (best s) k t (asked rs) (attempt s) _ _ _ _ Acc TA) as [n Hn]. exists n. apply in_or_app. auto.
    - exists (adapted with_body (best s) k t reduced). split; [|exact RA].
      apply (shrunk_same (best s)); [apply (inv_best s I)|]. apply update_sub_same; auto.
    - split.
      + apply replay_sub, sub_length in RA. unfold adapted in RA. rewrite update_nth_length in RA. auto.
      + specialize (Ex t). lia. }
  destruct st; try (eexists; split; [reflexivity|discriminate]).
  - destruct O as [b [-> [_ Acc]]]. apply G. auto.
  - destruct O as [b [-> [_ Acc]]]. apply G. auto.
Qed.

Lemma function_loop_ok ex : extra ex -> forall todo k s, inv s -> (attempt s <= step_limit + ex)%N ->
  exists r, function_loop todo k s = Some r /\
    forall s', r = Reduced s' -> inv s' /\ length (best s') <= length (best s) /\ (attempt s' <= step_limit + ex)%N.
Proof.
  intros Ex. induction todo as [|todo IH]; intros k s I L; cbn [Shrinker.function_loop].
  - eexists. split; [reflexivity|]. intros s' E. inversion E; subst. auto.
  - destruct (N.ltb_spec (attempt s) step_limit) as [Lt|Ge].
    2:{ eexists. split; [reflexivity|]. intros s' E. inversion E; subst. auto. }
    destruct (nth_error (best s) k) as [t|] eqn:Nt.
    2:{ eexists. split; [reflexivity|]. intros s' E. inversion E; subst. auto. }
    destruct (is_add t) eqn:At; [|apply IH; auto].
    destruct (reduce_function_ok s k t ex Ex I) as [r [E H]]; auto; [lia|]. rewrite E.
    destruct r as [| |s'].
    + eexists. split; [reflexivity|discriminate].
    + eexists. split; [reflexivity|discriminate].
    + destruct (H s' eq_refl) as [I' [L' A']]. destruct (IH (S k) s' I') as [r [E' H']]; [lia|]. rewrite E'.
      exists r. split; auto. intros s2 E2. destruct (H' s2 E2) as [Q1 [Q2 Q3]]. split; auto. split; auto. lia.
Qed.

(** Reducing an added function loses none of the transformations and changes only that one. *)
Lemma sub_same_length : forall (x y : list T), subsequence x y -> length x = length y -> x = y.
Proof.
  intros x y H. induction H as [|a x y H IH|a x y H IH]; cbn; intros L.
  - reflexivity.
  - apply sub_length in H. cbn in *. lia.
  - f_equal. apply IH. lia.
Qed.
Lemma reduce_function_one s k t s' : (attempt s <= step_limit)%N -> reduce_function s k t = Some (Reduced s') ->
  exists b, best s' = update_nth (best s) k (with_body t b).
Proof.
  intros La. unfold Shrinker.reduce_function.
  destruct (replay_prefix initial applicable apply_ to_binary validate vdr k (best s)) as [[m pre]|]; [|discriminate].
  assert (Sn : sane (step_limit - attempt s) (passes t) (cleanup t)).
  { destruct (sane_passes t) as [A [B C]]. split; auto. split; auto. lia. }
  destruct (reducer_output_valid_and_interesting validate (function_interesting s m k t) (step_limit - attempt s) false (passes t) (cleanup t) (add_raw m t) Sn)
    as [st [out [rs [E [F O]]]]]. rewrite E.
  assert (G : forall reduced, accepted (asked rs) reduced ->
    match replay_adapted initial applicable apply_ to_binary validate vdr with_body (best s) k t reduced with
              | None => Some AssertionFailed
              | Some (transformed, applied) =>
                  Some (Reduced {| best_binary := transformed; best := applied;
                                   attempt := N.add (attempt s) (N.of_nat (length (asked rs)) - 1);
                                   calls := calls s ++ user_calls m (best s) k t (attempt s) (asked rs) |})
              end = Some (Reduced s') -> exists b, best s' = update_nth (best s) k (with_body t b)).
  { intros reduced [step Acc] X. exists reduced.
    destruct (replay_adapted _ _ _ _ _ _ _ (best s) k t reduced) as [[tb ap]|] eqn:RA; [|discriminate].
    injection X as <-. cbn [best].
    assert (LE : length (best s) = length ap).
    { destruct (in_split _ _ Acc) as [l1 [l2 Sp]]. assert (Y := F l1 reduced step true l2 Sp).
      unfold Shrinker.function_interesting in Y. destruct (to_ask m (best s) k t reduced) as [o|] eqn:TA; [|discriminate].
      unfold Shrinker.to_ask in TA. rewrite RA in TA. destruct (globals_ok m t reduced); [|discriminate].
      destruct (Nat.eqb_spec (length (best s)) (length ap)); [assumption | discriminate]. }
    apply replay_sub in RA. apply sub_same_length; [exact RA|]. unfold adapted. rewrite update_nth_length. auto. }
  destruct st; try discriminate.
  - destruct O as [b [-> [_ Acc]]]. apply G. auto.
  - destruct O as [b [-> [_ Acc]]]. apply G. auto.
Qed.
End Shrinker.
