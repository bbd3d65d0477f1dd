(** C21: the algebraic simplification rules and strength reduction preserve values. *)
From Verif Require Import Base Fold FoldSpec FoldRules FoldRulesSpec FoldRulesProofs2 FoldRulesProofs4 FoldRulesProofs5
  StrengthReduction StrengthSpec StrengthProofs P_Fold.
Local Open Scope Z_scope.

(** Full statement: when a rule rewrites an instruction, the new instruction has in every execution
    the value the old one had, whenever the latter is defined, for all values of the operands.
    Proved for the integer and boolean rules with the exceptions in [rule_deviation], each of which
    is refuted below.  Missing: floating-point rules and rules on composites. *)
Theorem rules_preserve_value_partial : forall m i n,
  rmodule_ok m -> rinst_ok m i -> apply_rules m i = FSome n ->
  forall env d v, rexecution m env -> (d < dims (ri_type i))%nat -> ~ rule_deviation m env i d ->
    inst_value m env i d = Some v -> new_value m env (ri_type i) n d = Some v.
Proof.
  intros m i n Hm Hi E. pose proof (good_apply_rules m Hm i Hi) as G. rewrite E in G. exact (proj2 G).
Qed.

(** No rule fails an assertion, follows a null pointer or reads past the end on a valid module. *)
Theorem rules_no_undefined : forall m i, rmodule_ok m -> rinst_ok m i -> apply_rules m i <> FBad.
Proof.
  intros m i Hm Hi E. pose proof (good_apply_rules m Hm i Hi) as G. rewrite E in G. exact G.
Qed.

(** The rewritten instruction obeys the typing rules, its new constants are well encoded and the
    instructions inserted before it are well typed, as long as no operand in the module has an
    integer type that differs from the result's only in signedness.  Without that the operand of
    OpCopyObject may have the wrong signedness, see below; nothing else is then wrong. *)
Theorem rules_well_typed_partial : forall m i n,
  rmodule_ok m -> rinst_ok m i -> apply_rules m i = FSome n ->
  new_well_typed false m (ri_type i) n /\ (one_signedness m i -> new_well_typed true m (ri_type i) n).
Proof.
  intros m i n Hm Hi E. split.
  - pose proof (good_apply_rules m Hm i Hi) as G. rewrite E in G. exact (proj1 G).
  - intros Ho. exact (strict_typed m i n Hm Hi Ho E).
Qed.

(** ** Concrete modules *)
Definition rentry := (N * (rinst * option fconst))%type.
Definition rmod (l : list rentry) : rmodule :=
  mkRModule (fun id => option_map fst (lookup id l))
            (fun id => match lookup id l with Some (_, c) => c | None => None end) (fun _ => 1%nat) true.
Definition renv (l : list rentry) (vals : list (N * list Z)) (id : N) : list Z :=
  match lookup id l with
  | Some (_, Some c) => const_value c
  | _ => match lookup id vals with Some v => v | None => [] end
  end.
Lemma rmod_ok l :
  Forall (fun x : rentry => let i := fst (snd x) in fty_ok (ri_type i) /\
     match snd (snd x) with Some c => const_ok (ri_type i) c | None => True end /\
     match ri_op i with ROp o => typed_args (rmod l) i o | _ => True end) l -> rmodule_ok (rmod l).
Proof.
  intros F id i H. rewrite Forall_forall in F. cbn in H. destruct (lookup id l) as [(i', c')|] eqn:E; [|discriminate].
  injection H as <-. pose proof (F _ (lookup_in _ _ _ E)) as (H1 & H2 & H3). cbn [fst snd] in *.
  split; [exact H1|]. split.
  - intros c Hc. cbn in Hc. rewrite E in Hc. subst c'. exact H2.
  - intros o Ho. rewrite Ho in H3. exact H3.
Qed.
Lemma renv_ok l vals :
  Forall (fun x : rentry => let i := fst (snd x) in value_ok (ri_type i) (renv l vals (fst x)) /\
     match ri_op i with
     | ROp _ => Forall (fun d => inst_value (rmod l) (renv l vals) i d = Some (component d (renv l vals (fst x)))) (seq 0 (dims (ri_type i)))
     | _ => True end) l -> rexecution (rmod l) (renv l vals).
Proof.
  intros F. rewrite Forall_forall in F. split; [|split].
  - intros id t H. unfold rtype in H. cbn in H. destruct (lookup id l) as [(i', c')|] eqn:E; [|discriminate].
    injection H as <-. exact (proj1 (F _ (lookup_in _ _ _ E))).
  - intros id c H. cbn in H. unfold renv. destruct (lookup id l) as [(i', c')|]; [|discriminate]. subst c'. reflexivity.
  - intros id i o d H Ho Hd. cbn in H. destruct (lookup id l) as [(i', c')|] eqn:E; [|discriminate]. injection H as <-.
    pose proof (proj2 (F _ (lookup_in _ _ _ E))) as H2. cbn [fst snd] in *. rewrite Ho in H2.
    rewrite Forall_forall in H2. apply H2. apply in_seq. cbn [fst] in *. lia.
Qed.
Definition param (t : fty) : rinst * option fconst := (mkRInst ROther t [], None).
Definition cnst (t : fty) (c : fconst) : rinst * option fconst := (mkRInst ROther t [], Some c).
Definition inst (o : fop) (t : fty) (args : list N) : rinst * option fconst := (mkRInst (ROp o) t args, None).
Ltac typed_solve := eexists; split; [repeat (apply Forall2_cons; [vm_compute; reflexivity|]); apply Forall2_nil|repeat split].
Ltac rmod_solve := apply rmod_ok; forall_solve ltac:(cbv zeta; cbv [param cnst inst]; split; [cbn [fst snd ri_type]; ty_solve|split; [cbn [fst snd ri_type]; const_ok_solve|cbn [fst snd ri_op]; first [exact I|typed_solve]]]).
Ltac renv_solve := apply renv_ok; forall_solve ltac:(cbv zeta; cbv [param cnst inst]; split; [split; [vm_compute; reflexivity|repeat constructor; vm_compute; try congruence]|cbn [fst snd ri_op]; first [exact I|repeat constructor; vm_compute; reflexivity]]).
Ltac rinst_solve := split; [ty_solve|let o := fresh in let H := fresh in intros o H; injection H as <-; typed_solve].

(** ((x - 5) + 7) with the constant first, and (x + c) & d on vectors. *)
Definition ex_list : list rentry :=
  [ (1%N, param I32); (2%N, cnst I32 (i32 5)); (3%N, inst FISub I32 [1%N; 2%N]); (4%N, cnst I32 (i32 7));
    (11%N, param V2); (12%N, cnst V2 (CVector (EInt 32 true) [SCInt 32 true [16]; SCInt 32 true [32]]));
    (13%N, inst FIAdd V2 [12%N; 11%N]);
    (14%N, cnst V2 (CVector (EInt 32 true) [SCInt 32 true [15]; SCInt 32 true [3]])) ].
Definition ex_rule_env := renv ex_list [(1%N, [2 ^ 32 - 1]); (3%N, [2 ^ 32 - 6]); (11%N, [100; 2 ^ 32 - 1]); (13%N, [116; 31])].
Definition ex_rule_add := mkRInst (ROp FIAdd) I32 [4%N; 3%N].
Definition ex_rule_and := mkRInst (ROp FAnd) V2 [13%N; 14%N].
Example rules_example :
  rmodule_ok (rmod ex_list) /\ rinst_ok (rmod ex_list) ex_rule_add /\ rinst_ok (rmod ex_list) ex_rule_and /\
  rexecution (rmod ex_list) ex_rule_env /\ (forall d, ~ rule_deviation (rmod ex_list) ex_rule_env ex_rule_add d) /\
  one_signedness (rmod ex_list) ex_rule_add /\
  apply_rules (rmod ex_list) ex_rule_add = FSome (mkRNew (ROp FIAdd) [AId 1%N; AConst (i32 2)]) /\
  inst_value (rmod ex_list) ex_rule_env ex_rule_add 0 = Some 1 /\
  apply_rules (rmod ex_list) ex_rule_and =
    FSome (mkRNew (ROp FAnd) [AId 11%N; AConst (CVector (EInt 32 true) [SCInt 32 true [15]; SCInt 32 true [3]])]) /\
  inst_value (rmod ex_list) ex_rule_env ex_rule_and 1 = Some 3.
Proof.
  split; [rmod_solve|]. split; [rinst_solve|]. split; [rinst_solve|]. split; [renv_solve|].
  split; [intros d H; exact H|]. split.
  { intros x t H (_ & _ & Hs & Hw). unfold rtype in H. cbn [rmod rm_def] in H.
    destruct (lookup x ex_list) as [(i, c)|] eqn:E; [|discriminate]. injection H as <-.
    apply lookup_in in E. cbn in E.
    repeat (destruct E as [E|E]; [injection E as <- <- <-; first [reflexivity|destruct Hs]|]). destruct E. }
  repeat split; vm_compute; reflexivity.
Qed.

(** ** The exceptions *)
Definition rewrites_wrong (m : rmodule) (i : rinst) (env : N -> list Z) : Prop :=
  rmodule_ok m /\ rinst_ok m i /\ rexecution m env /\
  exists n v, apply_rules m i = FSome n /\ inst_value m env i 0 = Some v /\ new_value m env (ri_type i) n 0 <> Some v.
Ltac rwrong_solve :=
  split; [rmod_solve|]; split; [rinst_solve|]; split; [renv_solve|]; do 2 eexists;
  split; [vm_compute; reflexivity|split; [vm_compute; reflexivity|vm_compute; congruence]].

(** -(x / INT_MIN) is rewritten to x / INT_MIN: 1 instead of -1 for the smallest x; and -(x / 1) is
    rewritten to x / -1, undefined for the smallest x, whereas -(x / 1) is x. *)
Theorem rules_negated_division_refuted :
  (exists m i env, ri_op i = ROp FSNegate /\ rewrites_wrong m i env) /\
  (exists m i env, ri_op i = ROp FSNegate /\ rmodule_ok m /\ rinst_ok m i /\ rexecution m env /\
     exists n v, apply_rules m i = FSome n /\ inst_value m env i 0 = Some v /\ new_value m env (ri_type i) n 0 = None).
Proof.
  split.
  - pose (l := [(1%N, param I32); (2%N, cnst I32 (i32 (2 ^ 31))); (3%N, inst FSDiv I32 [1%N; 2%N])]).
    exists (rmod l), (mkRInst (ROp FSNegate) I32 [3%N]), (renv l [(1%N, [2 ^ 31]); (3%N, [1])]).
    split; [reflexivity|]. rwrong_solve.
  - pose (l := [(1%N, param I32); (2%N, cnst I32 (i32 1)); (3%N, inst FSDiv I32 [1%N; 2%N])]).
    exists (rmod l), (mkRInst (ROp FSNegate) I32 [3%N]), (renv l [(1%N, [2 ^ 31]); (3%N, [2 ^ 31])]).
    split; [reflexivity|]. split; [rmod_solve|]; split; [rinst_solve|]; split; [renv_solve|]; do 2 eexists;
    split; [vm_compute; reflexivity|split; vm_compute; reflexivity].
Qed.
(** -(INT_MIN / x) is rewritten to INT_MIN / x. *)
Theorem rules_negated_dividend_refuted :
  exists m i env, ri_op i = ROp FSNegate /\ rewrites_wrong m i env.
Proof.
  pose (l := [(1%N, param I32); (2%N, cnst I32 (i32 (2 ^ 31))); (3%N, inst FSDiv I32 [2%N; 1%N])]).
  exists (rmod l), (mkRInst (ROp FSNegate) I32 [3%N]), (renv l [(1%N, [2]); (3%N, [3 * 2 ^ 30])]).
  split; [reflexivity|]. rwrong_solve.
Qed.
(** (-x) / (-y) is rewritten to x / y; with the smallest x they have opposite signs. *)
Theorem rules_double_negative_refuted :
  exists m i env, ri_op i = ROp FSDiv /\ rewrites_wrong m i env.
Proof.
  pose (l := [(1%N, param I32); (2%N, param I32); (3%N, inst FSNegate I32 [1%N]); (4%N, inst FSNegate I32 [2%N])]).
  exists (rmod l), (mkRInst (ROp FSDiv) I32 [3%N; 4%N]),
    (renv l [(1%N, [2 ^ 31]); (2%N, [3]); (3%N, [2 ^ 31]); (4%N, [2 ^ 32 - 3])]).
  split; [reflexivity|]. rwrong_solve.
Qed.
(** The operand of the OpCopyObject made from x * 1 has the type of x, which may differ from the
    type of the result. *)
Theorem rules_copy_type_refuted : exists m i n, rmodule_ok m /\ rinst_ok m i /\ apply_rules m i = FSome n /\
  rn_op n = RCopy /\ ~ new_well_typed true m (ri_type i) n.
Proof.
  pose (l := [(1%N, param U32); (2%N, cnst I32 (i32 1))]).
  exists (rmod l), (mkRInst (ROp FIMul) I32 [1%N; 2%N]). eexists.
  split; [rmod_solve|]. split; [rinst_solve|]. split; [vm_compute; reflexivity|]. split; [reflexivity|].
  intros (_ & ts & F & H). cbn [rn_op rn_args] in *. inversion F as [|? ? ? ? H1 F']; subst. inversion F'; subst.
  vm_compute in H1. injection H1 as <-. destruct H as [H|(H & _)]; discriminate H.
Qed.

(** ** Strength reduction *)

(** On a valid module the pass ends, reads no missing definition or operand and fails no assertion;
    it gives a valid module whose instructions stand one for one for those of the original, each
    with the same value in every execution: whatever the other instructions do, values that obey the
    original module extend to values that obey the new one, with every id of the original keeping
    its value (the removed ids are used nowhere, as the new module is valid).  The pass fails only
    when the id bound gets within three times the number of instructions of the limit. *)
Theorem strength_reduction_preserves : forall limit m, smodule_ok m ->
  strength_reduction limit m <> SBad /\
  ((sm_bound m + 3 * N.of_nat (length (sm_body m)) <= limit)%N -> strength_reduction limit m <> SFailure) /\
  forall m', strength_reduction limit m = SOk m' ->
    smodule_ok m' /\ Forall2 stands_for (sm_body m') (sm_body m) /\
    (exists old new, sm_globals m' = old ++ new /\ Forall2 stands_for old (sm_globals m)) /\
    forall other env, sexecution other m env -> exists env',
      sexecution other m' env' /\ (forall id, (id < sm_bound m)%N -> env' id = env id) /\
      Forall2 (fun i' i => env' (si_result i') = env (si_result i)) (sm_body m') (sm_body m).
Proof.
  intros limit m Hm. pose proof (strength_spec limit m Hm) as H. split; [|split].
  - intros E. rewrite E in H. exact H.
  - intros Hl E. unfold strength_reduction in E.
    pose proof (scan_room limit (length (sm_body m)) 0 (initial_state m) (initial_ok m Hm) eq_refl Hl) as Hr.
    destruct (scan _ _ _ _); cbn in E; congruence.
  - intros m' E. rewrite E in H. destruct H as (Hok & [_ Hg Hb Hv]). auto.
Qed.

(** Two multiplications by 8 and 16, the second of the result of the first, of which a later
    instruction uses both; 3 is a constant of the module already, 4 is not. *)
Definition ex_sm : smodule := mkSM
  [ mkSI (STypeInt 32 true) 0 1 []; mkSI (STypeInt 32 false) 0 2 []; mkSI (SConstant 3) 2 3 [];
    mkSI (SConstant 8) 1 4 []; mkSI (SConstant 16) 1 5 [] ]
  [ mkSI (SOther 0) 1 6 []; mkSI SIMul 1 7 [6%N; 4%N]; mkSI SIMul 1 8 [5%N; 7%N]; mkSI (SOther 1) 0 0 [7%N; 8%N] ] 9.
Definition ex_sm_env (id : N) : Z :=
  match id with 3%N => 3 | 4%N => 8 | 5%N => 16 | 6%N => 2 ^ 31 + 5 | 7%N => 40 | 8%N => 640 | _ => 0 end.
Ltac each H := cbn in H; repeat (destruct H as [<-|H]; [|]); [..|destruct H].
Lemma ex_sm_int32 : int32_type ex_sm 1 /\ int32_type ex_sm 2.
Proof.
  split; [exists (mkSI (STypeInt 32 true) 0 1 []), true|exists (mkSI (STypeInt 32 false) 0 2 []), false]; cbn; auto.
Qed.
Example strength_example : smodule_ok ex_sm /\ sexecution (fun _ _ _ _ => True) ex_sm ex_sm_env /\
  strength_reduction 100 ex_sm = SOk (mkSM
    [ mkSI (STypeInt 32 true) 0 1 []; mkSI (STypeInt 32 false) 0 2 []; mkSI (SConstant 3) 2 3 [];
      mkSI (SConstant 8) 1 4 []; mkSI (SConstant 16) 1 5 []; mkSI (SConstant 4) 2 10 [] ]
    [ mkSI (SOther 0) 1 6 []; mkSI SShl 1 9 [6%N; 3%N]; mkSI SShl 1 11 [9%N; 10%N]; mkSI (SOther 1) 0 0 [9%N; 11%N] ] 12).
Proof.
  destruct ex_sm_int32 as (H1 & H2). split; [|split].
  - constructor.
    + reflexivity.
    + vm_compute. repeat constructor; cbn; intuition discriminate.
    + intros i H. each H; reflexivity.
    + intros i H. each H; cbn; intros; try contradiction; reflexivity.
    + intros i H. each H; reflexivity.
    + intros i H. each H; cbn; intros; try contradiction; reflexivity.
    + intros i a H Ha. each H; cbn in Ha; try contradiction; repeat (destruct Ha as [<-|Ha]; [split; [reflexivity|cbn; auto 12]|]); destruct Ha.
    + intros i v H Hv. each H; try discriminate Hv; injection Hv as <-; vm_compute; split; congruence.
    + intros i H Hm _. each H; try discriminate Hm; (split; [reflexivity|]); intros a d v Ha Hd Hr Hv;
        each Hd; try discriminate Hv; assumption.
  - intros i H. each H; unfold obeys; cbn; auto; (split; [intros _; vm_compute; reflexivity|auto]).
  - vm_compute. reflexivity.
Qed.

Print Assumptions rules_preserve_value_partial.
Print Assumptions rules_no_undefined.
Print Assumptions rules_well_typed_partial.
Print Assumptions rules_negated_division_refuted.
Print Assumptions rules_negated_dividend_refuted.
Print Assumptions rules_double_negative_refuted.
Print Assumptions rules_copy_type_refuted.
Print Assumptions strength_reduction_preserves.
