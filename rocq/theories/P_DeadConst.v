(** C57: unused constants are removed, and only these. *)
From Verif Require Import Base NamedIds NamedIdsProofs LocalElimProofs DeadConst DeadConstSpec DeadConstProofs.
Local Open Scope N_scope.

Lemma goes_other m d i : valid m -> (forall y, In y d -> is_const m y = true) -> In i m -> knd i = Other \/ knd i = Debug -> forall x, In x d -> goes x i = false.
Proof.
  intros V Hd Hi K x Hx. apply Hd, const_iff in Hx. destruct Hx as (c & Hc & Cc & Ec). unfold goes. assert (N.eqb (res i) x = false) as ->; [|destruct K as [-> | ->]; reflexivity]. apply N.eqb_neq. intros E.
  assert (c = i) as -> by (apply (res_unique m); [exact (va_results _ V)|exact Hc|exact Hi|congruence|exact (va_constants _ V c Hc Cc)]). destruct K as [K|K]; rewrite K in Cc; discriminate.
Qed.
Lemma goes_constant i x : is_constant (knd i) = true -> goes x i = (res i =? x).
Proof. intros C. unfold goes. destruct (knd i); try discriminate; apply orb_false_r. Qed.
Lemma goes_about m d i : valid m -> (forall y, In y d -> is_const m y = true) -> In i m -> knd i = Annotation \/ knd i = Name -> forall x, In x d -> goes x i = true <-> about x i.
Proof.
  intros V Hd Hi K x Hx. apply Hd, const_iff in Hx. destruct Hx as (c & Hc & Cc & Ec). unfold goes, about. assert (N.eqb (res i) x = false) as ->.
  { apply N.eqb_neq. intros E. assert (c = i) as -> by (apply (res_unique m); [exact (va_results _ V)|exact Hc|exact Hi|congruence|exact (va_constants _ V c Hc Cc)]). destruct K as [K|K]; rewrite K in Cc; discriminate. }
  cbn [orb]. assert (match knd i with Annotation | Name => match ids i with t :: _ => t =? x | [] => false end | _ => false end = match ids i with t :: _ => t =? x | [] => false end) as -> by (destruct K as [-> | ->]; reflexivity).
  destruct (ids i) as [|t l]; [split; [discriminate|intros (_ & l & E); discriminate]|]. rewrite N.eqb_eq. split; [intros ->; split; [exact K|eauto]|]. intros (_ & k & E). congruence.
Qed.
Lemma result pick m m' : picks pick -> valid m -> eliminate pick m = Some m' -> exists d, m' = fold_left kill d m /\ forall y, In y d <-> is_const m y = true /\ left_ m d y = O.
Proof. intros P V H. unfold eliminate in H. destruct (dead_ok pick m P V) as (d & E & _ & Hd). rewrite E in H. injection H as <-. eauto. Qed.
Lemma constant_kept m d c : In c m -> is_constant (knd c) = true -> In c (fold_left kill d m) <-> ~ In (res c) d.
Proof.
  intros Hc C. rewrite kill_in. split.
  - intros [_ G] K. specialize (G _ K). rewrite (goes_constant _ _ C), N.eqb_refl in G. discriminate.
  - intros N. split; [exact Hc|]. intros x Hx. rewrite (goes_constant _ _ C). apply N.eqb_neq. intros E. apply N. rewrite E. exact Hx.
Qed.

(** The pass ends, with no failed assertion.  Nothing but constants, their names and their decorations is removed; needed constants are not; a name or decoration goes exactly if its target does. *)
Theorem dead_constants_keeps pick m : picks pick -> valid m -> exists m', eliminate pick m = Some m' /\ (exists p, m' = filter p m) /\
  (forall i, In i m -> knd i = Other \/ knd i = Debug -> In i m') /\
  (forall i, In i m -> is_constant (knd i) = true -> needed m (res i) -> In i m') /\
  (forall i, In i m -> knd i = Annotation \/ knd i = Name -> (In i m' <-> forall c, In c m -> is_constant (knd c) = true -> about (res c) i -> In c m')).
Proof.
  intros P V. destruct (dead_ok pick m P V) as (d & E & _ & Hd). assert (Hc : forall y, In y d -> is_const m y = true) by (intros y Hy; apply Hd, Hy). unfold eliminate. rewrite E. eexists. split; [reflexivity|].
  split; [eexists; apply kill_filter|]. split; [|split].
  - intros i Hi K. apply kill_in. split; [exact Hi|]. exact (goes_other m d i V Hc Hi K).
  - intros i Hi C N. apply (constant_kept m d i Hi C). exact (dead_unneeded m V d Hd _ N).
  - intros i Hi K. rewrite kill_in. split.
    + intros [_ G] c Hcm Cc A. apply (constant_kept m d c Hcm Cc). intros D. specialize (G _ D). apply (goes_about m d i V Hc Hi K _ D) in A. congruence.
    + intros G. split; [exact Hi|]. intros x Hx. destruct (goes x i) eqn:Ge; [|reflexivity]. apply (goes_about m d i V Hc Hi K x Hx) in Ge. pose proof (Hc x Hx) as Cx. apply const_iff in Cx. destruct Cx as (c & Hcm & Cc & Ec).
      rewrite <- Ec in Ge. specialize (G c Hcm Cc Ge). apply (constant_kept m d c Hcm Cc) in G. rewrite Ec in G. contradiction.
Qed.
(** every constant that is not needed is removed, if only composites and operations refer to constants *)
Theorem dead_constants_removes_partial pick m m' : picks pick -> valid m -> plain m -> eliminate pick m = Some m' -> forall i, In i m -> is_constant (knd i) = true -> ~ needed m (res i) -> ~ In i m'.
Proof.
  intros P V Pl H i Hi C N K. destruct (result pick m m' P V H) as (d & -> & Hd). apply (constant_kept m d i Hi C) in K. apply K. apply (unneeded_dead m V d Pl Hd); [|exact N]. apply const_iff. exists i. auto.
Qed.
(** the definitions of the constants that are mentioned are still there, if annotations mention constants as targets only *)
Theorem dead_constants_defined_partial pick m m' : picks pick -> valid m -> targets_only m -> eliminate pick m = Some m' ->
  forall i c, In i m' -> In c m -> is_constant (knd c) = true -> In (res c) (ids i) -> In c m'.
Proof.
  intros P V T H i c Hi Hc C U. destruct (result pick m m' P V H) as (d & -> & Hd). apply (constant_kept m d c Hc C). intros D. pose proof Hi as Hi'. apply kill_in in Hi. destruct Hi as [Hi G]. destruct (counts (knd i)) eqn:Ct.
  - pose proof (proj1 (Hd _) D) as [_ Z]. rewrite left_zero in Z. destruct (Z i Hi Ct) as [[F Di]|Nu]; [|exact (Nu U)]. apply (constant_kept m d i Hi (proj1 (followed_constant _ F))) in Hi'. exact (Hi' Di).
  - pose proof (T i (res c) c Hi Ct U Hc C eq_refl) as A. pose proof A as [K _]. apply (goes_about m d i V (fun y Hy => proj1 (proj1 (Hd y) Hy)) Hi K _ D) in A. rewrite (G _ D) in A. discriminate.
Qed.
(** the order in which the working set is emptied makes no difference *)
Theorem dead_constants_order pick pick' m : picks pick -> picks pick' -> valid m -> eliminate pick m = eliminate pick' m.
Proof.
  intros P P' V. destruct (dead_ok pick m P V) as (d & E & _ & Hd). destruct (dead_ok pick' m P' V) as (d' & E' & _ & Hd'). unfold eliminate. rewrite E, E', !kill_filter. f_equal. apply filter_ext. intros i. apply eq_true_iff_eq. rewrite !forallb_forall.
  split; intros G x Hx; apply G, (dead_unique m d d' V Hd Hd' x), Hx.
Qed.

(** ** The full claims do not hold *)
Definition first_ (l : list N) : N := hd 0 l.
Lemma first_picks : picks first_.
Proof. intros [|x l] H; [contradiction|left; reflexivity]. Qed.
(** An OpConstant that only an OpConstantCompositeReplicateEXT refers to, which nothing refers to: the second is removed, the first stays. *)
Module Replicate.
Definition m : list inst := [mkinst Other 1 []; mkinst OtherConstant 2 []; mkinst OtherConstant 3 [2]].
Lemma is_valid : valid m.
Proof.
  constructor.
  - cbn. repeat constructor; cbn; intuition lia.
  - intros i [<-|[<-|[<-|[]]]]; cbn; lia.
  - exists (fun x => if x =? 2 then 1%nat else O). intros i y [<-|[<-|[<-|[]]]]; cbn; intuition (subst; cbn; lia).
Qed.
Lemma unneeded : ~ needed m 2.
Proof.
  assert (K : forall x, needed m x -> x = 2 -> False); [|intros H; exact (K 2 H eq_refl)]. intros x H. destruct H as [i Hi Ki U|i Hi _ Nd U]; intros ->.
  - destruct Hi as [<-|[<-|[<-|[]]]]; cbn in *; intuition discriminate.
  - destruct Hi as [<-|[<-|[<-|[]]]]; cbn in U, Nd; try contradiction. destruct Nd as [j Hj _ U'|j Hj _ _ U']; destruct Hj as [<-|[<-|[<-|[]]]]; cbn in U'; intuition discriminate.
Qed.
End Replicate.
Theorem dead_constants_removes_refuted : exists pick m m' i, picks pick /\ valid m /\ eliminate pick m = Some m' /\ In i m /\ is_constant (knd i) = true /\ ~ needed m (res i) /\ In i m'.
Proof.
  exists first_, Replicate.m, [mkinst Other 1 []; mkinst OtherConstant 2 []], (mkinst OtherConstant 2 []). split; [exact first_picks|]. split; [exact Replicate.is_valid|]. split; [vm_compute; reflexivity|]. split; [cbn; auto|]. split; [reflexivity|]. split; [exact Replicate.unneeded|cbn; auto].
Qed.
(** [OpDecorateId %v UniformId %scope]: the scope is a constant that has no other use, and is removed, but the decoration stays. *)
Module Scope.
Definition m : list inst := [mkinst Annotation 0 [4; 2]; mkinst Other 1 []; mkinst OtherConstant 2 []; mkinst Other 4 [1]].
Lemma is_valid : valid m.
Proof.
  constructor.
  - cbn. repeat constructor; cbn; intuition lia.
  - intros i [<-|[<-|[<-|[<-|[]]]]]; cbn; try discriminate; lia.
  - exists (fun _ => O). intros i y [<-|[<-|[<-|[<-|[]]]]]; cbn; try discriminate; intuition.
Qed.
End Scope.
Theorem dead_constants_defined_refuted : exists pick m m' i c, picks pick /\ valid m /\ eliminate pick m = Some m' /\ In i m' /\ In c m /\ is_constant (knd c) = true /\ In (res c) (ids i) /\ ~ In c m'.
Proof.
  exists first_, Scope.m, [mkinst Annotation 0 [4; 2]; mkinst Other 1 []; mkinst Other 4 [1]], (mkinst Annotation 0 [4; 2]), (mkinst OtherConstant 2 []).
  split; [exact first_picks|]. split; [exact Scope.is_valid|]. split; [vm_compute; reflexivity|]. split; [cbn; auto|]. split; [cbn; auto|]. split; [reflexivity|]. split; [cbn; auto|]. cbn. intuition discriminate.
Qed.

(** ** A module: a used composite (5), an unused one (6) that shares a part (2) with it and has one of its own (3), used twice; with names and decorations *)
Module Shared.
Definition m : list inst := [mkinst Name 0 [6]; mkinst Name 0 [5]; mkinst Annotation 0 [3]; mkinst Annotation 0 [8]; mkinst Other 1 []; mkinst OtherConstant 2 []; mkinst OtherConstant 3 []; mkinst Composite 5 [2; 2]; mkinst SpecComposite 6 [2; 3; 3]; mkinst SpecOp 7 [6; 3]; mkinst Other 8 [1; 5]].
Lemma is_valid : valid m.
Proof.
  constructor.
  - cbn. repeat constructor; cbn; intuition lia.
  - intros i Hi. cbn in Hi. intuition (subst i; cbn in *; try discriminate; lia).
  - exists (fun x => if x =? 2 then 3%nat else if x =? 3 then 3%nat else if x =? 6 then 2%nat else if x =? 5 then 1%nat else if x =? 7 then 1%nat else O). intros i y Hi. cbn in Hi. intuition (subst i; cbn in *; try discriminate; intuition (subst; cbn; lia)).
Qed.
Lemma is_plain : plain m.
Proof. intros i y Hi K U. cbn in Hi. intuition (subst i; cbn in *; try discriminate; contradiction). Qed.
Lemma has_targets_only : targets_only m.
Proof.
  intros i y c Hi K U _ _ _. unfold about. cbn [m In] in Hi. repeat (destruct Hi as [<-|Hi]; [first [discriminate K|cbn in U; destruct U as [<-|[]]; split; [auto|exists []; reflexivity]]|]). destruct Hi.
Qed.
Example works : eliminate first_ m = Some [mkinst Name 0 [5]; mkinst Annotation 0 [8]; mkinst Other 1 []; mkinst OtherConstant 2 []; mkinst Composite 5 [2; 2]; mkinst Other 8 [1; 5]].
Proof. vm_compute. reflexivity. Qed.
Example two_needed : needed m 2.
Proof. apply (Needed_part m 2 (mkinst Composite 5 [2; 2])); [cbn; tauto|reflexivity| |cbn; auto]. apply (Needed_used m 5 (mkinst Other 8 [1; 5])); [cbn; tauto|reflexivity|cbn; auto]. Qed.
Example any_order pick : picks pick -> eliminate pick m = eliminate first_ m.
Proof. intros P. exact (dead_constants_order pick first_ m P first_picks is_valid). Qed.
Example defined m' : eliminate first_ m = Some m' -> forall i c, In i m' -> In c m -> is_constant (knd c) = true -> In (res c) (ids i) -> In c m'.
Proof. exact (dead_constants_defined_partial first_ m m' first_picks is_valid has_targets_only). Qed.
Lemma seven_unneeded : ~ needed m 7.
Proof. intros [i Hi K U|i Hi K _ U]; cbn [m In] in Hi; intuition (subst i; cbn in U; intuition discriminate). Qed.
Lemma six_unneeded : ~ needed m 6.
Proof. intros [i Hi K U|i Hi K Nd U]; cbn [m In] in Hi; repeat (destruct Hi as [<-|Hi]; [first [discriminate K|exact (seven_unneeded Nd)|cbn in U; intuition discriminate]|]); destruct Hi. Qed.
Lemma three_unneeded : ~ needed m 3.
Proof. intros [i Hi K U|i Hi K Nd U]; cbn [m In] in Hi; repeat (destruct Hi as [<-|Hi]; [first [discriminate K|exact (seven_unneeded Nd)|exact (six_unneeded Nd)|cbn in U; intuition discriminate]|]); destruct Hi. Qed.
Example removes m' : eliminate first_ m = Some m' -> ~ In (mkinst OtherConstant 3 []) m'.
Proof. intros H. apply (dead_constants_removes_partial first_ m m' first_picks is_valid is_plain H (mkinst OtherConstant 3 [])); [cbn; tauto|reflexivity|exact three_unneeded]. Qed.
End Shared.

Print Assumptions dead_constants_keeps.
Print Assumptions dead_constants_removes_partial.
Print Assumptions dead_constants_defined_partial.
Print Assumptions dead_constants_order.
Print Assumptions dead_constants_removes_refuted.
Print Assumptions dead_constants_defined_refuted.
