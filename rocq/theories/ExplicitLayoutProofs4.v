(** * Proofs about the check of explicit layouts: bytes and alignments *)

From Coq Require Import ZArith List Bool Lia.
From Verif Require Import ExplicitLayout ExplicitLayoutSpec ExplicitLayoutProofs
  ExplicitLayoutProofs2 ExplicitLayoutProofs3.
Import ListNotations.
Local Open Scope Z_scope.

Lemma pairs_nth {A} (R : A -> A -> Prop) l : ForallOrdPairs R l ->
  forall i j x y, (i < j)%nat -> nth_error l i = Some x -> nth_error l j = Some y -> R x y.
Proof.
  induction 1 as [|z l H1 H2 IH]; intros i j x y L Hi Hj.
  - destruct i; discriminate.
  - destruct j as [|j]; [lia|]. simpl in Hj. destruct i as [|i]; simpl in Hi.
    + injection Hi as <-. rewrite Forall_forall in H1. apply H1.
      eapply nth_error_In; exact Hj.
    + apply (IH i j); [lia|exact Hi|exact Hj].
Qed.

Lemma sized_member ms m : sized (TyStruct ms) -> In m ms -> sized (m_type m).
Proof.
  simpl. induction ms as [|x ms IH]; intros H []; destruct H as [H1 H2].
  - subst; exact H1.
  - apply IH; assumption.
Qed.

(** ** Where the leaves are *)

Lemma leaf_range relaxed md t : proper t -> sized t -> forall mc b0,
  0 <= mx_stride mc -> follows relaxed md mc b0 t ->
  forall b p a n, leaf t mc b p a n -> b <= a /\ a + n <= b + extent mc t.
Proof.
  ty_induction t; intros Hp Hz mc b0 Hmc F b' p a' n' Lf.
  - inversion Lf; subst; simpl; lia.
  - inversion Lf; subst; simpl; lia.
  - inversion Lf; subst. simpl in *. destruct Hp as [Hc Hn].
    pose proof (width_bound _ Hc). nia.
  - simpl in Hp. destruct Hp as (Hc & Hr & Hk). pose proof (width_bound _ Hc).
    inversion F; subst. inversion Lf; subst; simpl;
      match goal with E : mx_col mc = _ |- _ => rewrite E in * end.
    + assert (Z.of_nat i * n' + n' <= r * n') by nia.
      assert (Z.of_nat j * mx_stride mc + mx_stride mc <= k * mx_stride mc) by nia.
      nia.
    + assert (Z.of_nat j * n' + n' <= k * n') by nia.
      assert (Z.of_nat i * mx_stride mc <= (r - 1) * mx_stride mc) by nia.
      nia.
  - inversion F as [| | | |? n0 s0 ? ? Gs Gd Ge Gall| |]; subst.
    inversion Lf as [| | | | |? ? ? ? ? i p0 ? ? Hi Li| |]; subst.
    simpl in Hp, Hz. destruct Hp as (Hp & _).
    specialize (Gall (Z.of_nat i) ltac:(lia)).
    pose proof (IHt Hp Hz mc _ Hmc Gall _ _ _ _ Li) as [B1 B2].
    simpl. assert (Z.of_nat i * s0 <= (n0 - 1) * s0) by nia. nia.
  - destruct Hz.
  - inversion F as [| | | | | |? ? ? HM HP]; subst.
    inversion Lf as [| | | | | | |? ? ? i m o p0 ? ? Ni Eo Li]; subst.
    assert (Hm : In m ms) by (eapply nth_error_In; exact Ni).
    pose proof (proj1 (proper_struct ms) Hp m Hm) as Qm.
    destruct (HM m Hm) as (o' & E & _ & _ & _ & _ & Fm).
    rewrite Eo in E. injection E as <-.
    pose proof (H m Hm (proj1 Qm) (sized_member ms m Hz Hm) (decorations m) _
                  (decorations_nonneg m Qm) Fm _ _ _ _ Li) as [B1 B2].
    rewrite extent_struct.
    pose proof (fold_max_ge (fun m => place m + member_extent m) 0 ms m Hm) as G.
    cbv beta in G. unfold member_extent in *.
    assert (EP : place m = o) by (unfold place; rewrite Eo; reflexivity).
    pose proof (place_nonneg m Qm). lia.
Qed.

(** ** They do not meet *)

Lemma share_apart relaxed md x y b a n a' n' o o' :
  proper (m_type x) -> proper (m_type y) ->
  m_offset x = Some o -> m_offset y = Some o' -> share relaxed md x y ->
  b + o <= a -> b + o' <= a' ->
  ((exists e s, m_type x = TyRuntimeArray e s) \/ a + n <= b + o + member_extent x) ->
  ((exists e s, m_type y = TyRuntimeArray e s) \/ a' + n' <= b + o' + member_extent y) ->
  apart a n a' n'.
Proof.
  intros Px Py Ex Ey Sh La La' Ux Uy. unfold apart.
  destruct Sh as [[_ (Nr & q & q' & E1 & E2 & G)]|[_ (Nr & q & q' & E1 & E2 & G)]].
  - rewrite Ex in E1. rewrite Ey in E2. injection E1 as <-. injection E2 as <-.
    pose proof (free_after_ge relaxed md x o Px).
    destruct Ux as [(e & s & T)|Ux]; [exfalso; exact (Nr e s T)|]. left. lia.
  - rewrite Ey in E1. rewrite Ex in E2. injection E1 as <-. injection E2 as <-.
    pose proof (free_after_ge relaxed md y o' Py).
    destruct Uy as [(e & s & T)|Uy]; [exfalso; exact (Nr e s T)|]. right. lia.
Qed.

Lemma apart_sym a n b k : apart a n b k -> apart b k a n.
Proof. unfold apart; tauto. Qed.

Lemma rows_apart (i j : nat) c : 0 <= c -> (i < j)%nat ->
  Z.of_nat i * c + c <= Z.of_nat j * c.
Proof. intros Hc L. assert (Z.of_nat i + 1 <= Z.of_nat j) by lia. nia. Qed.

Lemma leaves_apart relaxed md t : proper t -> sized t -> forall mc b0,
  0 <= mx_stride mc -> follows relaxed md mc b0 t ->
  forall b p a n p' a' n', leaf t mc b p a n -> leaf t mc b p' a' n' -> p <> p' ->
  apart a n a' n'.
Proof.
  ty_induction t; intros Hp Hz mc b0 Hmc F b' p a1 n1 p' a2 n2 L1 L2 Np.
  - inversion L1; inversion L2; subst; congruence.
  - inversion L1; inversion L2; subst; congruence.
  - inversion L1 as [| |? ? ? ? i Hi| | | | |]; subst.
    inversion L2 as [| |? ? ? ? j Hj| | | | |]; subst.
    destruct Hp as [Hc _]. pose proof (width_bound _ Hc) as B.
    unfold apart. destruct (Nat.lt_trichotomy i j) as [L|[->|L]]; [|congruence|].
    + left. pose proof (rows_apart i j n2 ltac:(lia) L). lia.
    + right. pose proof (rows_apart j i n2 ltac:(lia) L). lia.
  - simpl in Hp. destruct Hp as (Hc & Hr & Hk). pose proof (width_bound _ Hc) as B.
    inversion F as [| | |? ? ? ? ? Fd Fs| | |]; subst. clear F Fd.
    inversion L1 as [| | |? ? ? ? ? j i Ec Hj Hi|? ? ? ? ? j i Ec Hj Hi| | |]; subst;
    inversion L2 as [| | |? ? ? ? ? j' i' Ec' Hj' Hi'|? ? ? ? ? j' i' Ec' Hj' Hi'| | |]; subst;
      try congruence; clear L1 L2; rewrite Ec in Fs; unfold apart.
    + assert (Z.of_nat i * n2 + n2 <= r * n2) by nia.
      assert (Z.of_nat i' * n2 + n2 <= r * n2) by nia.
      assert (0 <= Z.of_nat i * n2) by nia. assert (0 <= Z.of_nat i' * n2) by nia.
      destruct (Nat.lt_trichotomy j j') as [L|[->|L]].
      * left. pose proof (rows_apart j j' (mx_stride mc) Hmc L). lia.
      * destruct (Nat.lt_trichotomy i i') as [L|[->|L]]; [|congruence|].
        -- left. pose proof (rows_apart i i' n2 ltac:(lia) L). lia.
        -- right. pose proof (rows_apart i' i n2 ltac:(lia) L). lia.
      * right. pose proof (rows_apart j' j (mx_stride mc) Hmc L). lia.
    + assert (Z.of_nat j * n2 + n2 <= k * n2) by nia.
      assert (Z.of_nat j' * n2 + n2 <= k * n2) by nia.
      assert (0 <= Z.of_nat j * n2) by nia. assert (0 <= Z.of_nat j' * n2) by nia.
      destruct (Nat.lt_trichotomy i i') as [L|[->|L]].
      * left. pose proof (rows_apart i i' (mx_stride mc) Hmc L). lia.
      * destruct (Nat.lt_trichotomy j j') as [L|[->|L]]; [|congruence|].
        -- left. pose proof (rows_apart j j' n2 ltac:(lia) L). lia.
        -- right. pose proof (rows_apart j' j n2 ltac:(lia) L). lia.
      * right. pose proof (rows_apart i' i (mx_stride mc) Hmc L). lia.
  - inversion F as [| | | |? n0 s0 ? ? Gs Gd Ge Gall| |]; subst.
    inversion L1 as [| | | | |? ? ? ? ? i q ? ? Hi Li| |]; subst.
    inversion L2 as [| | | | |? ? ? ? ? j q' ? ? Hj Lj| |]; subst.
    simpl in Hp, Hz. destruct Hp as (Hp & _).
    pose proof (Gall (Z.of_nat i) ltac:(lia)) as Fi.
    pose proof (Gall (Z.of_nat j) ltac:(lia)) as Fj.
    pose proof (leaf_range relaxed md t Hp Hz mc _ Hmc Fi _ _ _ _ Li) as [B1 B2].
    pose proof (leaf_range relaxed md t Hp Hz mc _ Hmc Fj _ _ _ _ Lj) as [B3 B4].
    destruct (Nat.lt_trichotomy i j) as [L|[->|L]].
    + left. pose proof (rows_apart i j s0 ltac:(lia) L). lia.
    + apply (IHt Hp Hz mc _ Hmc Fi _ q a1 n1 q' a2 n2 Li Lj). congruence.
    + right. pose proof (rows_apart j i s0 ltac:(lia) L). lia.
  - destruct Hz.
  - inversion F as [| | | | | |? ? ? HM HP]; subst.
    inversion L1 as [| | | | | | |? ? ? i x o q ? ? Ni Eo Li]; subst.
    inversion L2 as [| | | | | | |? ? ? j y o' q' ? ? Nj Eo' Lj]; subst.
    assert (Hx : In x ms) by (eapply nth_error_In; exact Ni).
    assert (Hy : In y ms) by (eapply nth_error_In; exact Nj).
    pose proof (proj1 (proper_struct ms) Hp x Hx) as Qx.
    pose proof (proj1 (proper_struct ms) Hp y Hy) as Qy.
    destruct (HM x Hx) as (o1 & E1 & _ & _ & _ & _ & Fx).
    destruct (HM y Hy) as (o2 & E2 & _ & _ & _ & _ & Fy).
    rewrite Eo in E1. injection E1 as <-. rewrite Eo' in E2. injection E2 as <-.
    pose proof (leaf_range relaxed md _ (proj1 Qx) (sized_member ms x Hz Hx) _ _
                  (decorations_nonneg x Qx) Fx _ _ _ _ Li) as [B1 B2].
    pose proof (leaf_range relaxed md _ (proj1 Qy) (sized_member ms y Hz Hy) _ _
                  (decorations_nonneg y Qy) Fy _ _ _ _ Lj) as [B3 B4].
    destruct (Nat.lt_trichotomy i j) as [L|[->|L]].
    + pose proof (pairs_nth _ _ HP i j x y L Ni Nj) as Sh.
      eapply share_apart with (x := x) (y := y) (b := b') (o := o) (o' := o');
        try eassumption; try apply Qx; try apply Qy; right; assumption.
    + rewrite Ni in Nj. injection Nj as <-.
      rewrite Eo in Eo'. injection Eo' as <-.
      apply (H x Hx (proj1 Qx) (sized_member ms x Hz Hx) _ _
               (decorations_nonneg x Qx) Fx _ q a1 n1 q' a2 n2 Li Lj). congruence.
    + pose proof (pairs_nth _ _ HP j i y x L Nj Ni) as Sh.
      apply apart_sym.
      eapply share_apart with (x := y) (y := x) (b := b') (o := o') (o' := o);
        try eassumption; try apply Qx; try apply Qy; right; assumption.
Qed.

(** A member of a block: of known size, or a runtime array. *)
Definition block_member (t : ty) : Prop :=
  sized t \/ exists e s, t = TyRuntimeArray e s /\ sized e.

Lemma block_range relaxed md t : proper t -> block_member t -> forall mc b0,
  0 <= mx_stride mc -> follows relaxed md mc b0 t ->
  forall b p a n, leaf t mc b p a n ->
  b <= a /\ ((exists e s, t = TyRuntimeArray e s) \/ a + n <= b + extent mc t).
Proof.
  intros Hp [Hz|(e & s & -> & Hz)] mc b0 Hmc F b p a n Lf.
  - pose proof (leaf_range relaxed md t Hp Hz mc b0 Hmc F b p a n Lf). tauto.
  - inversion F as [| | | | |? s0 ? ? Gs Gd Ge Gf|]; subst.
    inversion Lf as [| | | | | |? ? ? ? i q ? ? Li|]; subst.
    destruct Hp as (Hp & _).
    pose proof (leaf_range relaxed md e Hp Hz mc _ Hmc Gf _ _ _ _ Li) as [B1 B2].
    split; [nia|]. left. exists e, (Some s0). reflexivity.
Qed.

Lemma block_apart relaxed md t : proper t -> block_member t -> forall mc b0,
  0 <= mx_stride mc -> follows relaxed md mc b0 t ->
  forall b p a n p' a' n', leaf t mc b p a n -> leaf t mc b p' a' n' -> p <> p' ->
  apart a n a' n'.
Proof.
  intros Hp [Hz|(e & s & -> & Hz)] mc b0 Hmc F b p a n p' a' n' L1 L2 Np.
  - exact (leaves_apart relaxed md t Hp Hz mc b0 Hmc F b p a n p' a' n' L1 L2 Np).
  - inversion F as [| | | | |? s0 ? ? Gs Gd Ge Gf|]; subst.
    inversion L1 as [| | | | | |? ? ? ? i q ? ? Li|]; subst.
    inversion L2 as [| | | | | |? ? ? ? j q' ? ? Lj|]; subst.
    destruct Hp as (Hp & _).
    pose proof (leaf_range relaxed md e Hp Hz mc _ Hmc Gf _ _ _ _ Li) as [B1 B2].
    pose proof (leaf_range relaxed md e Hp Hz mc _ Hmc Gf _ _ _ _ Lj) as [B3 B4].
    destruct (Nat.lt_trichotomy i j) as [L|[->|L]].
    + left. pose proof (rows_apart i j s0 ltac:(lia) L). lia.
    + apply (leaves_apart relaxed md e Hp Hz mc _ Hmc Gf _ q a n q' a' n' Li Lj).
      congruence.
    + right. pose proof (rows_apart j i s0 ltac:(lia) L). lia.
Qed.

Lemma block_disjoint relaxed md ms mc b0 :
  proper (TyStruct ms) -> block ms -> follows relaxed md mc b0 (TyStruct ms) ->
  forall b p a n p' a' n',
  leaf (TyStruct ms) mc b p a n -> leaf (TyStruct ms) mc b p' a' n' -> p <> p' ->
  apart a n a' n'.
Proof.
  intros Hp Hb F b p a n p' a' n' L1 L2 Np.
  inversion F as [| | | | | |? ? ? HM HP]; subst.
  inversion L1 as [| | | | | | |? ? ? i x o q ? ? Ni Eo Li]; subst.
  inversion L2 as [| | | | | | |? ? ? j y o' q' ? ? Nj Eo' Lj]; subst.
  assert (Hx : In x ms) by (eapply nth_error_In; exact Ni).
  assert (Hy : In y ms) by (eapply nth_error_In; exact Nj).
  pose proof (proj1 (proper_struct ms) Hp x Hx) as Qx.
  pose proof (proj1 (proper_struct ms) Hp y Hy) as Qy.
  destruct (HM x Hx) as (o1 & E1 & _ & _ & _ & _ & Fx).
  destruct (HM y Hy) as (o2 & E2 & _ & _ & _ & _ & Fy).
  rewrite Eo in E1. injection E1 as <-. rewrite Eo' in E2. injection E2 as <-.
  pose proof (block_range relaxed md _ (proj1 Qx) (Hb x Hx) _ _
                (decorations_nonneg x Qx) Fx _ _ _ _ Li) as [B1 B2].
  pose proof (block_range relaxed md _ (proj1 Qy) (Hb y Hy) _ _
                (decorations_nonneg y Qy) Fy _ _ _ _ Lj) as [B3 B4].
  destruct (Nat.lt_trichotomy i j) as [L|[->|L]].
  - pose proof (pairs_nth _ _ HP i j x y L Ni Nj) as Sh.
    eapply share_apart with (x := x) (y := y) (b := b) (o := o) (o' := o');
      try eassumption; try apply Qx; try apply Qy.
  - rewrite Ni in Nj. injection Nj as <-.
    rewrite Eo in Eo'. injection Eo' as <-.
    apply (block_apart relaxed md _ (proj1 Qx) (Hb x Hx) _ _
             (decorations_nonneg x Qx) Fx _ q a n q' a' n' Li Lj). congruence.
  - pose proof (pairs_nth _ _ HP j i y x L Nj Ni) as Sh.
    apply apart_sym.
    eapply share_apart with (x := y) (y := x) (b := b) (o := o') (o' := o);
      try eassumption; try apply Qx; try apply Qy.
Qed.

(** ** Alignments of the parts *)

Lemma part_follows relaxed md t mc b t' mc' a d :
  part t mc b t' mc' a d -> proper t ->
  (exists b0, follows relaxed md mc b0 t) ->
  proper t' /\ exists b1, follows relaxed md mc' b1 t'.
Proof.
  induction 1 as [ms mc b m o Hm Eo|e n s mc b i Hi|e s mc b i Hi|
                  t mc b t1 mc1 b1 d1 t2 mc2 b2 d2 P1 IH1 P2 IH2];
    intros Hp [b0 F].
  - split; [apply (proj1 (proper_struct ms) Hp m Hm)|].
    inversion F as [| | | | | |? ? ? HM HP]; subst.
    destruct (HM m Hm) as (o1 & _ & _ & _ & _ & _ & Fm). eexists; exact Fm.
  - split; [apply Hp|].
    inversion F as [| | | |? n0 s0 ? ? Gs Gd Ge Gall| |]; subst.
    eexists; apply (Gall i Hi).
  - split; [apply Hp|].
    inversion F as [| | | | |? s0 ? ? Gs Gd Ge Gf|]; subst. eexists; exact Gf.
  - destruct (IH1 Hp (ex_intro _ b0 F)) as [Hp1 F1]. apply IH2; assumption.
Qed.

Lemma part_container t mc b t' mc' a d : part t mc b t' mc' a d ->
  forall relaxed md mcx, alignment relaxed md mcx true t = alignment relaxed md mcx false t.
Proof. induction 1; intros; try reflexivity. apply IHpart1. Qed.

Lemma part_aligned relaxed md t mc b t' mc' a d :
  part t mc b t' mc' a d -> proper t ->
  (exists b0, follows relaxed md mc b0 t) ->
  (alignment relaxed md mc true t | b) ->
  (alignment relaxed md mc' d t' | a).
Proof.
  induction 1 as [ms mc b m o Hm Eo|e n s mc b i Hi|e s mc b i Hi|
                  t mc b t1 mc1 b1 d1 t2 mc2 b2 d2 P1 IH1 P2 IH2];
    intros Hp [b0 F] Hb.
  - inversion F as [| | | | | |? ? ? HM HP]; subst.
    destruct (HM m Hm) as (o1 & E1 & _ & A & _ & _ & Fm).
    rewrite Eo in E1. injection E1 as <-.
    apply Z.divide_add_r; [|exact A].
    eapply Z.divide_trans; [apply member_divides; eassumption|exact Hb].
  - inversion F as [| | | |? n0 s0 ? ? Gs Gd Ge Gall| |]; subst.
    simpl in Gd, Hb, Hp.
    assert (D : (alignment relaxed md mc false e | up md (alignment relaxed md mc false e)))
      by apply up_divide, alignment_pow2, Hp.
    apply Z.divide_add_r; [eapply Z.divide_trans; eassumption|].
    apply Z.divide_mul_r. eapply Z.divide_trans; eassumption.
  - inversion F as [| | | | |? s0 ? ? Gs Gd Ge Gf|]; subst.
    simpl in Gd, Hb, Hp.
    assert (D : (alignment relaxed md mc false e | up md (alignment relaxed md mc false e)))
      by apply up_divide, alignment_pow2, Hp.
    apply Z.divide_add_r; [eapply Z.divide_trans; eassumption|].
    apply Z.divide_mul_r. eapply Z.divide_trans; eassumption.
  - destruct (part_follows relaxed md _ _ _ _ _ _ _ P1 Hp (ex_intro _ b0 F)) as [Hp1 F1].
    apply IH2; [exact Hp1|exact F1|].
    specialize (IH1 Hp (ex_intro _ b0 F) Hb).
    pose proof (part_container _ _ _ _ _ _ _ P2 relaxed md mc1) as E.
    destruct d1; [exact IH1|]. rewrite E. exact IH1.
Qed.
