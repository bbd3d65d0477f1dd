(** C02: bit vectors behave as sets of indices. *)
From Verif Require Import Base BitVector BitVectorSpec BitVectorProofs.
From Coq Require Import Sorted.
Local Open Scope N_scope.

(** Queries and the return values of Set/Clear after any history.  [members h] is the
    index set the history describes. *)
Theorem bit_vector_behaves_as_set : forall h,
  exists v l, build h = Some v /\
    (forall i, bget v i = Some (members h i)) /\
    (forall i, option_map snd (bset v i) = Some (members h i)) /\
    (forall i, option_map snd (bclear v i) = Some (members h i)) /\
    (bempty v = true <-> forall i, members h i = false) /\
    print_bits v = Some l /\ StronglySorted N.lt l /\ (forall i, In i l <-> members h i = true).
Proof.
  intros h. destruct (build_spec h) as (v & E & W & B).
  destruct (print_loop_spec v 0 W) as (l & P & S & M).
  exists v, l. split; [exact E|].
  split; [intros i; rewrite bget_spec, B; reflexivity|].
  split; [intros i; destruct (bset_spec v i W) as (v' & -> & _); simpl; rewrite B; reflexivity|].
  split; [intros i; destruct (bclear_spec v i W) as (v' & -> & _); simpl; rewrite B; reflexivity|].
  split; [rewrite bempty_spec by exact W; split; intros H i; specialize (H i); rewrite B in *; exact H|].
  split; [exact P|]. split; [exact S|].
  intros i. rewrite M, <- B. replace (i - 64 * 0) with i by lia. split; [tauto|]. intros; split; [lia|assumption].
Qed.

Theorem bit_vector_equality_extensional : forall h1 h2 v1 v2,
  build h1 = Some v1 -> build h2 = Some v2 ->
  (beqb v1 v2 = true <-> forall i, members h1 i = members h2 i).
Proof.
  intros h1 h2 v1 v2 E1 E2.
  destruct (build_spec h1) as (v & E & W & B), (build_spec h2) as (w & E' & W' & B').
  rewrite E1 in E; injection E as <-. rewrite E2 in E'; injection E' as <-.
  rewrite beqb_spec by assumption. split; intros H i; specialize (H i); rewrite B, B' in *; assumption.
Qed.

(** Or returns true whenever the set grew ... *)
Theorem bit_vector_or_reports_every_change : forall h1 h2 v1 v2,
  build h1 = Some v1 -> build h2 = Some v2 ->
  (exists i, members (HOr h1 h2) i <> members h1 i) -> snd (bor v1 v2) = true.
Proof.
  intros h1 h2 v1 v2 E1 E2.
  destruct (build_spec h1) as (v & E & W & B), (build_spec h2) as (w & E' & W' & B').
  rewrite E1 in E; injection E as <-. rewrite E2 in E'; injection E' as <-.
  intros (i & H). apply bor_flag_complete; auto. exists i. rewrite bor_spec, B, B'. exact H.
Qed.

(** ... and only then, provided the argument has no more storage words than the receiver ... *)
Theorem bit_vector_or_flag_exact_partial : forall h1 h2 v1 v2,
  build h1 = Some v1 -> build h2 = Some v2 -> (length v2 <= length v1)%nat ->
  (snd (bor v1 v2) = true <-> exists i, members (HOr h1 h2) i <> members h1 i).
Proof.
  intros h1 h2 v1 v2 E1 E2 L.
  destruct (build_spec h1) as (v & E & W & B), (build_spec h2) as (w & E' & W' & B').
  rewrite E1 in E; injection E as <-. rewrite E2 in E'; injection E' as <-.
  split; intros H.
  - destruct (bor_flag_sound _ _ W W' L H) as (i & Hi). exists i. rewrite bor_spec, B, B' in Hi. exact Hi.
  - eapply bit_vector_or_reports_every_change; eauto.
Qed.

(** ... but the full documented contract ("Return true if |this| changed") is false:
    or-ing an empty but longer vector reports a change although the set did not change. *)
Theorem bit_vector_or_flag_exact_refuted :
  exists h1 h2 v1 v2, build h1 = Some v1 /\ build h2 = Some v2 /\
    snd (bor v1 v2) = true /\ (forall i, members (HOr h1 h2) i = members h1 i).
Proof.
  exists (HNew 64), (HNew 128), (create 64), (create 128).
  split; [reflexivity|]. split; [reflexivity|]. split; [exact (proj1 bor_flag_wrong)|].
  intros i. reflexivity.
Qed.

Example bit_vector_history_example :
  exists v, build (HOr (HSet (HClear (HSet (HSet (HNew 64) 3) 200) 3) 63) (HSet (HNew 1) 64)) = Some v
    /\ print_bits v = Some [63; 64; 200] /\ length v = 4%nat.
Proof. eexists; split; [vm_compute; reflexivity|]. split; vm_compute; reflexivity. Qed.
(** hypotheses of the partial theorem are met by a case where the flag is true *)
Example bit_vector_or_flag_example :
  snd (bor [5] [2]) = true /\ (length [2] <= length [5])%nat.
Proof. split; [reflexivity|simpl; lia]. Qed.

Print Assumptions bit_vector_behaves_as_set.
Print Assumptions bit_vector_equality_extensional.
Print Assumptions bit_vector_or_reports_every_change.
Print Assumptions bit_vector_or_flag_exact_partial.
Print Assumptions bit_vector_or_flag_exact_refuted.
