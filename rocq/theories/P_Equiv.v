(** Property C26: synonym classes of the fuzzer. *)
From Verif Require Import Base NamedIds EquivRel EquivSpec EquivProofs.
Local Open Scope N_scope.

(** After every history of calls that respects the stated preconditions no assertion fails, and a
    further query answers according to the smallest equivalence relation containing the pairs merged
    so far: IsEquivalent decides it, GetEquivalenceClass lists the class without repetition. *)
Theorem synonyms_smallest_equivalence : forall cs, legal cs ->
  exists r, run empty_relation cs = Some r /\
    (forall a b, In a (registered cs) -> In b (registered cs) ->
       exists r' answer, is_equivalent r a b = Some (r', answer) /\ (answer = true <-> equivalent cs a b)) /\
    (forall a, In a (registered cs) ->
       exists r' members, equivalence_class r a = Some (r', members) /\ NoDup members /\
         forall b, In b members <-> In b (registered cs) /\ equivalent cs a b).
Proof.
  intros cs L. destruct (history_ok cs L) as [r [E [I [O S]]]]. exists r. split; auto. split.
  - intros a b Ha Hb. destruct (is_equivalent_ok r a b I) as [r' [q [Q [_ Hq]]]]; [rewrite O; auto|rewrite O; auto|].
    exists r', q. split; auto. rewrite Hq. auto.
  - intros a Ha. destruct (equivalence_class_ok r a I) as [r' [l [Q [_ [ND Hl]]]]]; [rewrite O; auto|].
    exists r', l. split; auto. split; auto. intros b. rewrite Hl, O. split; intros [H1 H2]; split; auto; apply S; auto.
Qed.
(** Each class has exactly one representative. *)
Theorem synonyms_one_representative : forall cs, legal cs ->
  exists r, run empty_relation cs = Some r /\
    NoDup (representatives r) /\ incl (representatives r) (registered cs) /\
    forall a, In a (registered cs) ->
      exists x, In x (representatives r) /\ equivalent cs a x /\
        forall y, In y (representatives r) -> equivalent cs a y -> y = x.
Proof.
  intros cs L. destruct (history_ok cs L) as [r [E [I [O S]]]]. exists r. split; auto.
  destruct (representatives_ok r I) as [ND [Inc H]]. split; auto. rewrite O in *. split; auto.
  intros a Ha. destruct (H a Ha) as [x [[Hx Sx] U]]. exists x. split; auto. split; [apply S; auto|].
  intros y Hy Ey. apply U; auto. apply S; auto.
Qed.
(** Queries (which compress paths) leave the relation as it is: dropping them from a history changes
    no later answer. *)
Definition is_query (c : call) : bool :=
  match c with IsEquivalent _ _ | GetEquivalenceClass _ => true | _ => false end.
Theorem synonym_queries_do_not_interfere : forall cs r r', legal cs ->
  run empty_relation cs = Some r ->
  run empty_relation (filter (fun c => negb (is_query c)) cs) = Some r' ->
  forall a b, In a (registered cs) -> In b (registered cs) ->
  exists q s s', is_equivalent r a b = Some (s, q) /\ is_equivalent r' a b = Some (s', q).
Proof.
  intros cs r r' L E E'.
  set (keep := fun c => negb (is_query c)) in *.
  assert (Rg : forall l, registered (filter keep l) = registered l).
  { induction l as [|c l IH]; auto. destruct c; simpl; unfold registered in *; simpl; congruence. }
  assert (L' : legal (filter keep cs)).
  { clear E E'. induction L; rewrite ?filter_app; cbn [filter keep is_query negb app]; rewrite ?app_nil_r; auto;
      constructor; auto; rewrite Rg; auto. }
  assert (Eq : forall a b, equivalent (filter keep cs) a b <-> equivalent cs a b).
  { intros a b. split; induction 1 as [a b H|a|a b H IH|a b c H IH H2 IH2].
    - apply eq_merged. apply filter_In in H. tauto.
    - apply eq_refl_.
    - apply eq_sym_; auto.
    - eapply eq_trans_; eauto.
    - apply eq_merged. apply filter_In. auto.
    - apply eq_refl_.
    - apply eq_sym_; auto.
    - eapply eq_trans_; eauto. }
  intros a b Ha Hb.
  destruct (synonyms_smallest_equivalence cs L) as [r1 [E1 [Q1 _]]].
  destruct (synonyms_smallest_equivalence _ L') as [r2 [E2 [Q2 _]]].
  assert (r1 = r) as -> by congruence. assert (r2 = r') as -> by congruence.
  destruct (Q1 a b Ha Hb) as [s [q [X1 Y1]]].
  destruct (Q2 a b) as [s' [q' [X2 Y2]]]; [rewrite Rg; auto|rewrite Rg; auto|].
  assert (Z : q = true <-> q' = true) by (rewrite Y1, Y2, Eq; reflexivity).
  assert (q = q') as <- by (destruct q, q'; auto; [symmetry|]; apply Z; auto).
  exists q, s, s'. auto.
Qed.

Definition history : list call :=
  [Register 1; Register 2; Register 3; MakeEquivalent 1 2; Register 4; Register 5; MakeEquivalent 4 3;
   IsEquivalent 1 3; MakeEquivalent 2 4; GetEquivalenceClass 1].
Example history_legal : legal history.
Proof.
  change history with (((((((((([] ++ [Register 1]) ++ [Register 2]) ++ [Register 3]) ++ [MakeEquivalent 1 2])
    ++ [Register 4]) ++ [Register 5]) ++ [MakeEquivalent 4 3]) ++ [IsEquivalent 1 3]) ++ [MakeEquivalent 2 4])
    ++ [GetEquivalenceClass 1]).
  Ltac member := simpl; first [tauto | intros H; repeat destruct H as [H|H]; try discriminate H; contradiction].
  apply legal_class; [|member]. apply legal_merge; [|member|member]. apply legal_query; [|member|member].
  apply legal_merge; [|member|member]. apply legal_register; [|member]. apply legal_register; [|member].
  apply legal_merge; [|member|member]. repeat (apply legal_register; [|member]). apply legal_nil.
Qed.
Example history_answers :
  option_map (fun r => (option_map snd (is_equivalent r 1 3), option_map snd (is_equivalent r 5 3),
                        option_map snd (equivalence_class r 2), representatives r)) (run empty_relation history) =
  Some (Some true, Some false, Some [3; 1; 2; 4], [3; 5]).
Proof. vm_compute. reflexivity. Qed.

Print Assumptions synonyms_smallest_equivalence.
Print Assumptions synonyms_one_representative.
Print Assumptions synonym_queries_do_not_interfere.
