(** Property C40: the fuzzer's shrinker. *)
From Verif Require Import Base LcsSpec Reducer ReducerSpec ReducerProofs P_Reducer Shrinker ShrinkerSpec ShrinkerProofs.
Local Open Scope N_scope.

(** The run ends; when it reports success the output binary was accepted by the interestingness function
    and comes from replaying a sequence obtained from the original one by leaving out transformations (and
    reducing the bodies of AddFunction transformations); the reported sequence is what that replay applied
    and is no longer than the original. *)
Theorem shrinker_output_interesting_and_no_longer :
  forall T M initial applicable apply to_binary validate validate_during_replay interesting step_limit
    is_add_function add_raw_function with_body_from only_irrelevant_globals passes cleanup binary_in
    (transformations : list T),
  (forall t b, is_add_function (with_body_from t b) = true) ->
  (forall t, sane step_limit (passes t) (cleanup t)) ->
  exists st out,
    shrinker_run (M := M) initial applicable apply to_binary validate validate_during_replay interesting step_limit
      is_add_function add_raw_function with_body_from only_irrelevant_globals passes cleanup
      binary_in transformations = Some (st, out) /\
    match out with
    | None => st <> ShrinkComplete /\ st <> ShrinkStepLimitReached
    | Some s =>
        (st = ShrinkComplete \/ st = ShrinkStepLimitReached) /\
        faithful interesting (calls s) /\ accepted (calls s) (best_binary s) /\
        (exists replayed, shrunk_from is_add_function transformations replayed /\
           replay initial applicable apply to_binary validate validate_during_replay replayed =
             Some (best_binary s, best s)) /\
        shrunk_from is_add_function transformations (best s) /\
        (length (best s) <= length transformations)%nat /\
        ((forall t, In t transformations -> is_add_function t = false) -> subsequence (best s) transformations)
    end.
Proof.
  intros T M ini appl app tob val vdr int lim isadd addraw body glob ps cs bin ts HB HS.
  unfold shrinker_run.
  destruct (val bin); cbn [negb]; [|do 2 eexists; split; [reflexivity|cbn; split; discriminate]].
  destruct (replay ini appl app tob val vdr ts) as [[b ap]|] eqn:R; [|do 2 eexists; split; [reflexivity|cbn; split; discriminate]].
  destruct (int [] b 0) eqn:A; cbn [negb]; [|do 2 eexists; split; [reflexivity|cbn; split; discriminate]].
  set (s0 := {| best_binary := b; best := ap; attempt := 0; calls := [(b, 0, true)] |}).
  assert (Same : forall l : list T, Forall2 (fun a b => a = b \/ (isadd a = true /\ isadd b = true)) l l)
    by (induction l; constructor; auto).
  assert (I0 : inv ini appl app tob val vdr int isadd ts s0).
  { split; cbn.
    - rewrite <- A. apply (faithful_snoc int []). intros [|? ?]; cbn; discriminate.
    - exists 0. left. auto.
    - exists ts. split; auto. exists ts. split; [apply sub_refl|apply Same]. }
  destruct (shrink_loop_ok ini appl app tob val vdr int lim isadd ts (shrink_fuel lim) (Nat.max 1 (length ap / 2)) s0 I0)
    as [E|[s [E [I [La Ln]]]]]; [cbn; lia|unfold shrink_fuel; cbn; lia| |]; rewrite E.
  { do 2 eexists; split; [reflexivity|cbn; split; discriminate]. }
  assert (Ex : extra (T := T) ps cs (2 ^ 32)).
  { intros t. destruct (HS t) as [_ [_ X]]. lia. }
  destruct (function_loop_ok ini appl app tob val vdr int lim isadd ts addraw body glob ps cs HB HS _ Ex (length (best s)) 0 s I) as [r [E2 H]]; [lia|].
  rewrite E2. destruct r as [| |s'].
  - do 2 eexists; split; [reflexivity|cbn; split; discriminate].
  - do 2 eexists; split; [reflexivity|cbn; split; discriminate].
  - destruct (H s' eq_refl) as [I' [L' _]].
    do 2 eexists; split; [reflexivity|]. cbn beta iota.
    split; [destruct (attempt s' =? lim); auto|].
    split; [apply I'|]. split; [apply I'|]. split; [apply I'|].
    assert (Sf := inv_best _ _ _ _ _ _ _ _ _ _ I'). split; auto.
    split; [apply replay_sub, sub_length in R; cbn in Ln; lia|].
    intros NA. destruct Sf as [kept [K F]].
    assert (best s' = kept) as ->; auto.
    assert (Hk : forall t, In t kept -> In t ts).
    { clear - K. induction K; intros t Ht; auto; [right; auto|destruct Ht as [<-|Ht]; [left|right]; auto]. }
    assert (NK : forall t, In t kept -> isadd t = false) by auto.
    clear - F NK. induction F as [|x y l l' [->|[Q _]] F IH]; auto.
    + f_equal. apply IH. intros; apply NK; right; auto.
    + rewrite NK in Q by (left; auto). discriminate.
Qed.

(** The number of attempts is bounded by the step limit plus one for each further reduction pass (the
    overrun of C27); the claim that it never exceeds the limit - asserted at the end of Run - is refuted
    below: the shrinker then reports completion although the limit has been passed. *)
Theorem shrinker_attempts_partial :
  forall T M initial applicable apply to_binary validate validate_during_replay interesting step_limit
    is_add_function add_raw_function with_body_from only_irrelevant_globals passes cleanup binary_in
    (transformations : list T) st s overrun,
  (forall t b, is_add_function (with_body_from t b) = true) ->
  (forall t, sane step_limit (passes t) (cleanup t)) ->
  (forall t, N.of_nat (Nat.max (length (passes t)) (length (cleanup t)) - 1) <= overrun) ->
  shrinker_run (M := M) initial applicable apply to_binary validate validate_during_replay interesting step_limit
      is_add_function add_raw_function with_body_from only_irrelevant_globals passes cleanup
      binary_in transformations = Some (st, Some s) ->
  attempt s <= step_limit + overrun.
Proof.
  intros T M ini appl app tob val vdr int lim isadd addraw body glob ps cs bin ts st sf ov HB HS HO.
  unfold shrinker_run.
  destruct (val bin); cbn [negb]; [|discriminate].
  destruct (replay ini appl app tob val vdr ts) as [[b ap]|] eqn:R; [|discriminate].
  destruct (int [] b 0) eqn:A; cbn [negb]; [|discriminate].
  set (s0 := {| best_binary := b; best := ap; attempt := 0; calls := [(b, 0, true)] |}).
  assert (Same : forall l : list T, Forall2 (fun a b => a = b \/ (isadd a = true /\ isadd b = true)) l l)
    by (induction l; constructor; auto).
  assert (I0 : inv ini appl app tob val vdr int isadd ts s0).
  { split; cbn.
    - rewrite <- A. apply (faithful_snoc int []). intros [|? ?]; cbn; discriminate.
    - exists 0. left. auto.
    - exists ts. split; auto. exists ts. split; [apply sub_refl|apply Same]. }
  destruct (shrink_loop_ok ini appl app tob val vdr int lim isadd ts (shrink_fuel lim) (Nat.max 1 (length ap / 2)) s0 I0)
    as [E|[s [E [I [La Ln]]]]]; [cbn; lia|unfold shrink_fuel; cbn; lia| |]; rewrite E; [discriminate|].
  destruct (function_loop_ok ini appl app tob val vdr int lim isadd ts addraw body glob ps cs HB HS ov HO (length (best s)) 0 s I) as [r [E2 H]]; [lia|].
  rewrite E2. destruct r as [| |s']; try discriminate.
  intros Q. inversion Q; subst. apply (H sf eq_refl).
Qed.

(** A toy instance: a module is a list of words, a transformation appends a word; even words are
    inapplicable after an odd one; words above 100 stand for AddFunction. *)
Definition toy_applicable (m : list N) (t : N) : bool := N.odd t || negb (existsb N.odd m).
Definition toy_run (interesting : interestingness) (limit : N) :=
  shrinker_run (fun _ => [0]) toy_applicable (fun m t => m ++ [t]) (fun m => m) (fun _ => true) false
    interesting limit (fun t => 100 <? t) (fun m t => m ++ [t; t; t; t]) (fun t b => 101 + N.of_nat (length b))
    (fun _ _ _ => true) (fun _ => [drop_last; drop_last]) (fun _ => []).
Lemma toy_sane limit t : limit <= 1000 -> sane limit ((fun _ : N => [drop_last; drop_last]) t) [].
Proof.
  intros. split; [repeat constructor; intros ? ? ?; discriminate|]. split; [constructor|].
  change (N.of_nat (Nat.max 1 (Nat.max (length [drop_last; drop_last]) (@length finder [])))) with 2. lia.
Qed.
Example shrinker_example :
  option_map (fun '(st, out) => (st, option_map (fun s => (best_binary s, best s)) out))
    (toy_run (fun _ b _ => existsb (N.eqb 5) b && existsb (fun x => 100 <? x) b) 500 [1; 2] [2; 4; 5; 6; 7; 8; 9; 301; 11; 13]) =
    Some (ShrinkComplete, Some ([0; 5; 103], [5; 103])) /\
  (forall (t : N) (b : binary), (100 <? 101 + N.of_nat (length b)) = true) /\
  (forall t, sane 500 ((fun _ : N => [drop_last; drop_last]) t) []).
Proof.
  split; [vm_compute; reflexivity|]. split; [intros; apply N.ltb_lt; lia|].
  intros t. apply (toy_sane _ t). lia.
Qed.
Theorem shrinker_attempts_refuted :
  exists interesting limit binary_in transformations s,
    toy_run interesting limit binary_in transformations = Some (ShrinkComplete, Some s) /\ limit < attempt s /\
    (forall t, sane limit ((fun _ : N => [drop_last; drop_last]) t) []).
Proof.
  exists (fun _ b _ => existsb (fun x => 105 <? x) b), 2, [1; 2], [301].
  eexists. split; [vm_compute; reflexivity|]. split; [vm_compute; reflexivity|].
  intros t. apply (toy_sane _ t). lia.
Qed.

(** When the module a replay starts from does not depend on the later transformations (no overflow ids
    are needed), removing a chunk does not affect the earlier chunks, as asserted in Run. *)
Theorem shrinker_earlier_chunks_unaffected :
  forall T M initial applicable apply to_binary validate validate_during_replay
    (sequence best applied : list T) b b' chunk_index chunk_size,
  (forall ts ts' : list T, initial ts = initial ts' :> M) ->
  replay initial applicable apply to_binary validate validate_during_replay sequence = Some (b, best) ->
  (chunk_index * chunk_size <= length best)%nat ->
  replay initial applicable apply to_binary validate validate_during_replay
    (remove_chunk best chunk_index chunk_size) = Some (b', applied) ->
  remove_chunk best chunk_index chunk_size =
    firstn (chunk_index * chunk_size) best ++ skipn ((chunk_index + 1) * chunk_size) best /\
  exists rest, applied = firstn (chunk_index * chunk_size) best ++ rest.
Proof. intros. split; [apply (remove_chunk_eq (M := M)); auto|eapply earlier_chunks_kept; eauto]. Qed.
Example earlier_chunks_example :
  replay (fun _ : list N => [0]) toy_applicable (fun m t => m ++ [t]) (fun m => m) (fun _ => true) false [2; 3; 4; 5] =
    Some ([0; 2; 3; 5], [2; 3; 5]) /\
  remove_chunk [2; 3; 5] 1 1 = [2; 5].
Proof. split; vm_compute; reflexivity. Qed.

(** Reducing the body of an added function loses none of the transformations: the sequence afterwards is the sequence
    before with that one transformation replaced. *)
Theorem function_reduction_keeps_the_others :
  forall T M initial applicable apply to_binary validate validate_during_replay interesting step_limit
    add_raw_function with_body_from only_irrelevant_globals passes cleanup (s s' : shrink_state (T := T)) k t,
  (forall t, sane step_limit (passes t) (cleanup t)) ->
  attempt s <= step_limit ->
  reduce_function (M := M) initial applicable apply to_binary validate validate_during_replay interesting step_limit
    add_raw_function with_body_from only_irrelevant_globals passes cleanup s k t = Some (Reduced s') ->
  exists body, best s' = update_nth (best s) k (with_body_from t body).
Proof. intros T M ini appl app tob val vdr int lim addraw body glob ps cs s s' k t HS La H. exact (reduce_function_one ini appl app tob val vdr int lim (fun _ => true) addraw body glob ps cs (fun _ _ => eq_refl) HS s k t s' La H). Qed.
Definition before_reduction : shrink_state (T := N) :=
  {| best_binary := [0; 5; 301]; best := [5; 301]; attempt := 0; calls := [([0; 5; 301], 0, true)] |}.
Example function_reduction_example :
  option_map (fun r => match r with Reduced s => best s | _ => [] end)
    (reduce_function (fun _ => [0]) toy_applicable (fun m t => m ++ [t]) (fun m => m) (fun _ => true) false
      (fun _ b _ => existsb (fun x => 100 <? x) b) 500 (fun m t => m ++ [t; t; t; t]) (fun t b => 101 + N.of_nat (length b))
      (fun _ _ _ => true) (fun _ => [drop_last; drop_last]) (fun _ => []) before_reduction 1 301) = Some [5; 103] /\
  (forall t, sane 500 ((fun _ : N => [drop_last; drop_last]) t) []).
Proof. split; [vm_compute; reflexivity|]. intros t. apply (toy_sane _ t). lia. Qed.

Print Assumptions shrinker_output_interesting_and_no_longer.
Print Assumptions shrinker_attempts_partial.
Print Assumptions shrinker_attempts_refuted.
Print Assumptions shrinker_earlier_chunks_unaffected.
Print Assumptions function_reduction_keeps_the_others.
