(** * Proofs about the check of explicit layouts: structures *)

From Coq Require Import ZArith List Bool Lia Permutation Sorted.
From Verif Require Import ExplicitLayout ExplicitLayoutSpec ExplicitLayoutProofs
  ExplicitLayoutProofs2.
Import ListNotations.
Local Open Scope Z_scope.

Definition bounded (b mc_reach : Z) : Prop := 0 <= b /\ b + mc_reach + 2 ^ 16 <= 2 ^ 32.

Lemma pairs_last {A} (R : A -> A -> Prop) l z :
  ForallOrdPairs R (l ++ [z]) -> forall x, In x l -> R x z.
Proof.
  induction l as [|y l IH]; intros H x Hx; [destruct Hx|].
  simpl in H. inversion H as [|? ? H1 H2]; subst.
  destruct Hx as [->|Hx].
  - rewrite Forall_forall in H1. apply H1. apply in_or_app; right; left; reflexivity.
  - apply IH; assumption.
Qed.

Lemma share_sorted relaxed md ms :
  (forall m, In m ms -> m_offset m <> None) ->
  (ForallOrdPairs (makes_room relaxed md) (sort offset_of ms) <->
   ForallOrdPairs (share relaxed md) ms).
Proof.
  intros H. apply sort_pairs. intros x y Hx Hy.
  pose proof (H x Hx) as Ex. pose proof (H y Hy) as Ey.
  unfold share, not_after, offset_of.
  destruct (m_offset x) as [o|] eqn:Ox; [|congruence].
  destruct (m_offset y) as [o'|] eqn:Oy; [|congruence].
  destruct (Z.leb_spec o o') as [L|L]; split.
  - intros [[_ G]|[G _]]; [exact G|]. exfalso. apply G.
    exists o, o'. split; [reflexivity|split; [reflexivity|exact L]].
  - intros G. left. split; [|exact G].
    exists o, o'. split; [reflexivity|split; [reflexivity|exact L]].
  - intros [[(a & a' & E1 & E2 & G) _]|[_ G]]; [|exact G].
    injection E1 as <-. injection E2 as <-. lia.
  - intros G. right. split; [|exact G].
    intros (a & a' & E1 & E2 & G').
    injection E1 as <-. injection E2 as <-. lia.
Qed.

Lemma free_after_ge relaxed md m o :
  proper (m_type m) -> o + member_extent m <= free_after relaxed md m o.
Proof.
  intros Hp. unfold free_after.
  pose proof (pow2_pos _ (alignment_pow2 relaxed md (m_type m) Hp (decorations m) true)) as P.
  pose proof (round_up_bounds (o + extent (decorations m) (m_type m)) _ P) as B.
  unfold member_extent.
  destruct md; [lia| |]; (destruct (m_type m); lia).
Qed.

(** ** Sizes *)

Lemma size_right relaxed md t : proper t -> forall mc b,
  0 <= mx_stride mc -> reach mc t + 2 ^ 16 <= 2 ^ 32 ->
  follows relaxed md mc b t -> get_size mc t = extent mc t.
Proof.
  ty_induction t; intros Hp mc b' Hmc Hb F.
  - reflexivity.
  - reflexivity.
  - simpl in *. destruct Hp as [Hc Hn]. pose proof (width_bound c Hc).
    rewrite w32_small; nia.
  - simpl in *. destruct Hp as (Hc & Hr & Hk). pose proof (width_bound c Hc).
    destruct (mx_col mc).
    + rewrite w32_small; nia.
    + assert (0 <= (r - 1) * mx_stride mc <= r * mx_stride mc) by nia.
      assert (0 <= k * c) by nia.
      rewrite (w32_small ((r - 1) * mx_stride mc)) by lia.
      rewrite (w32_small (k * c)) by lia. rewrite w32_small; lia.
  - inversion F as [| | | |? n0 s0 ? ? Hs Hd Hext Hall| |]; subst.
    destruct Hp as (Hp & (n1 & E & Hn) & Hst). injection E as <-.
    specialize (Hst s0 eq_refl). simpl in Hb.
    pose proof (reach_bounds t Hp mc Hmc) as RB.
    assert (Hn32 : n0 < 2 ^ 32) by nia.
    assert (Hns : 0 <= (n0 - 1) * s0 <= n0 * s0) by nia.
    assert (Es : get_size mc t = extent mc t).
    { apply (IHt Hp mc b' Hmc); [|].
      - assert (0 <= n0 * s0) by nia. lia.
      - specialize (Hall 0 ltac:(lia)). rewrite Z.mul_0_l, Z.add_0_r in Hall. exact Hall. }
    cbn [get_size extent stride_of]. rewrite Es.
    rewrite (proj2 (Z.eqb_neq s0 umax)) by (unfold umax; lia).
    rewrite (w32_small n0) by lia. rewrite (w32_small (n0 - 1)) by lia.
    rewrite (w32_small ((n0 - 1) * s0)) by lia. rewrite w32_small; lia.
  - reflexivity.
  - inversion F as [| | | | | |? ? ? HM HP]; subst.
    pose proof (proj1 (proper_struct ms) Hp) as Q.
    assert (Off : forall m, In m ms -> m_offset m <> None).
    { intros m Hm. destruct (HM m Hm) as (o & E & _). congruence. }
    apply (share_sorted relaxed md ms Off) in HP.
    assert (Es : forall m, In m ms -> get_size (matrix_of m) (m_type m) = member_extent m).
    { intros m Hm. destruct (HM m Hm) as (o & E & _ & _ & _ & _ & Fm).
      destruct (Q m Hm) as (Q1 & Q2 & Q3).
      apply (H m Hm Q1 (decorations m) (b' + o) (decorations_nonneg m (Q m Hm))); [|exact Fm].
      pose proof (reach_member mc ms m Hm) as R.
      pose proof (place_nonneg m (Q m Hm)). unfold member_reach in R. lia. }
    cbn [get_size].
    rewrite (sort_map offset_of fst
      (fun m => (offset_of m, get_size (matrix_of m) (m_type m)))) by reflexivity.
    rewrite <- map_rev. rewrite extent_struct.
    pose proof (sort_perm offset_of ms) as Perm.
    destruct (sort offset_of ms) as [|x0 L0] eqn:SE.
    { apply Permutation_sym, Permutation_nil in Perm. subst ms. reflexivity. }
    destruct (exists_last (l := x0 :: L0)) as (L & z & EL); [discriminate|].
    rewrite EL in *. clear x0 L0 EL.
    rewrite rev_app_distr. cbn [rev app map].
    assert (Hz : In z ms).
    { eapply Permutation_in; [apply Permutation_sym, Perm|].
      apply in_or_app; right; left; reflexivity. }
    rewrite Es by exact Hz.
    destruct (Q z Hz) as (Qz1 & Qz2 & Qz3).
    pose proof (reach_bounds (m_type z) Qz1 (decorations z) (decorations_nonneg z (Q z Hz))) as RZ.
    pose proof (reach_member mc ms z Hz) as RM.
    pose proof (place_nonneg z (Q z Hz)) as PZ.
    pose proof (Off z Hz) as OZ.
    assert (EO : offset_of z = place z).
    { unfold offset_of, place. destruct (m_offset z); congruence. }
    assert (NU : place z <> umax).
    { unfold place, umax. destruct (m_offset z) as [o|]; [|congruence].
      specialize (Qz2 o eq_refl). lia. }
    rewrite EO. rewrite (proj2 (Z.eqb_neq _ _) NU).
    unfold member_extent, member_reach in *.
    rewrite w32_small by lia.
    apply Z.le_antisymm.
    + apply (fold_max_ge (fun m => place m + extent (decorations m) (m_type m)) 0 ms z Hz).
    + apply (fold_max_le (fun m => place m + extent (decorations m) (m_type m))); [lia|].
      intros m Hm.
      assert (Hm' : In m (L ++ [z])) by (eapply Permutation_in; [exact Perm|exact Hm]).
      apply in_app_or in Hm'. destruct Hm' as [Hm'|[->|[]]]; [|lia].
      pose proof (pairs_last _ _ _ HP m Hm') as (_ & o & o' & E1 & E2 & G).
      pose proof (free_after_ge relaxed md m o (proj1 (Q m Hm))) as FG.
      unfold member_extent in FG. unfold place in *. rewrite E1, E2 in *. lia.
Qed.

(** ** Members *)

Section Members.
  Variable relaxed : bool.
  Variable md : mode.
  Variable b : Z.
  Hypothesis Hb : 0 <= b.

  Definition member_info (m : member ty) : info :=
    info_of relaxed md (check_layout relaxed md (m_type m)) m.

  Definition member_decorated (m : member ty) : Prop :=
    m_offset m <> None /\
    (of_matrices (m_type m) ->
       m_major m <> None /\ exists s, m_stride m = Some s /\ s <> 0).

  Lemma decorated_right m :
    decorated (member_info m) = true <-> member_decorated m.
  Proof using.
    unfold decorated, member_decorated. simpl.
    rewrite andb_true_iff. rewrite <- matrices_right.
    unfold has_offset, has_matrix.
    destruct (m_offset m) as [o|];
      [|split; [intros [G _]; discriminate|intros [G _]; congruence]].
    destruct (contains_matrix (m_type m)).
    - rewrite andb_true_iff. rewrite negb_true_iff, Z.eqb_neq.
      destruct (m_major m) as [c|]; destruct (m_stride m) as [s|].
      + split.
        * intros (_ & _ & G). split; [discriminate|]. intros _.
          split; [discriminate|]. exists s. split; [reflexivity|exact G].
        * intros (_ & G). destruct (G eq_refl) as (_ & s' & E & G').
          injection E as <-. auto.
      + split; [intros (_ & _ & G); congruence|].
        intros (_ & G). destruct (G eq_refl) as (_ & s' & E & _). discriminate.
      + split; [intros (_ & G & _); discriminate|].
        intros (_ & G). destruct (G eq_refl) as (G' & _). congruence.
      + split; [intros (_ & G & _); discriminate|].
        intros (_ & G). destruct (G eq_refl) as (G' & _). congruence.
    - split; [|auto]. intros _. split; [discriminate|]. intros; discriminate.
  Qed.

  Definition member_good (m : member ty) : Prop :=
    (alignment relaxed md (decorations m) true (m_type m) | place m) /\
    (alignment relaxed md (decorations m) true (m_type m) | b + place m) /\
    (forall c n, relaxed = true -> md <> Scalar -> m_type m = TyVector c n ->
       ~ straddles (b + place m) (n * c)) /\
    follows relaxed md (decorations m) (b + place m) (m_type m).

  Definition member_ready (m : member ty) : Prop :=
    proper_member m /\ member_decorated m /\
    b + place m + member_reach m + 2 ^ 16 <= 2 ^ 32 /\
    (check_layout relaxed md (m_type m) (b + place m) (decorations m) = true <->
     follows relaxed md (decorations m) (b + place m) (m_type m)).

  Lemma ready_offset m : member_ready m ->
    offset_of m = place m /\ offset_of m <> umax /\ m_offset m = Some (place m).
  Proof using.
    intros ((_ & H & _) & (G & _) & _). unfold offset_of, place, umax.
    destruct (m_offset m) as [o|]; [|congruence].
    specialize (H o eq_refl). repeat split; lia.
  Qed.

  (** The matrix constraints the code works with. *)
  Lemma ready_matrix m inh : member_ready m ->
    let mc := if has_matrix m then matrix_of m else inh in
    get_align relaxed md mc true (m_type m) =
      alignment relaxed md (decorations m) true (m_type m) /\
    get_size mc (m_type m) = get_size (decorations m) (m_type m) /\
    (forall p, check_layout relaxed md (m_type m) p mc =
               check_layout relaxed md (m_type m) p (decorations m)).
  Proof using.
    intros ((Hp & _) & (_ & G) & _). cbv zeta.
    rewrite <- (get_align_right relaxed md (m_type m) Hp).
    unfold has_matrix. destruct (m_major m) eqn:E.
    - repeat split.
    - destruct (contains_matrix (m_type m)) eqn:C.
      + apply matrices_right in C. destruct (G C) as [G' _]. congruence.
      + split; [apply get_align_indep, C|]. split; [apply get_size_indep, C|].
        intros p. apply check_layout_indep, C.
  Qed.

  (** Where the code lets the next member start. *)
  Lemma next_right m : member_ready m ->
    follows relaxed md (decorations m) (b + place m) (m_type m) ->
    let next := w32 (get_size (decorations m) (m_type m) + place m) in
    (if negb (mode_eqb md Scalar) && is_padded (m_type m)
     then align_to next (alignment relaxed md (decorations m) true (m_type m))
     else next) = free_after relaxed md m (place m).
  Proof using Hb.
    intros (Hp & _ & Hr & _) F. cbv zeta.
    pose proof (place_nonneg m Hp) as P.
    pose proof (decorations_nonneg m Hp) as D.
    destruct Hp as (Hp & _).
    pose proof (reach_bounds _ Hp _ D) as RB. unfold member_reach in Hr.
    rewrite (size_right relaxed md _ Hp _ _ D) with (2 := F) by lia.
    rewrite w32_small by lia.
    assert (E : forall x, x = extent (decorations m) (m_type m) + place m ->
      align_to x (alignment relaxed md (decorations m) true (m_type m)) =
      round_up x (alignment relaxed md (decorations m) true (m_type m))).
    { intros x ->.
      destruct (alignment_pow2 relaxed md _ Hp (decorations m) true) as (k & Hk & ->).
      apply align_to_right; lia. }
    specialize (E _ eq_refl).
    unfold free_after. cbv zeta.
    rewrite (Z.add_comm (place m)).
    set (x := extent (decorations m) (m_type m) + place m) in *.
    set (al := alignment relaxed md (decorations m) true (m_type m)) in *.
    clearbody x al.
    destruct md; simpl; [reflexivity| |]; (destruct (m_type m); simpl; first [reflexivity|exact E]).
  Qed.

  Lemma check_members_right inh : forall L total index next,
    ordered offset_of L ->
    (forall m, In m L -> member_ready m) ->
    total = index + Z.of_nat (length L) ->
    (check_members relaxed md b inh total (map member_info L) index next = true <->
     (forall m, In m L -> member_good m /\ next <= place m) /\
     ForallOrdPairs (makes_room relaxed md) L).
  Proof using Hb.
    induction L as [|m L IH]; intros total index next Ho HR Ht.
    - simpl. split; [intros _; split; [intros ? []|constructor]|reflexivity].
    - inversion Ho as [|? ? Ho1 Ho2]; subst.
      pose proof (HR m (or_introl eq_refl)) as R.
      destruct (ready_offset m R) as (EO & NU & MO).
      destruct (ready_matrix m inh R) as (EA & ES & EC).
      assert (Hp := proj1 R). assert (Hprop := proj1 Hp).
      assert (Hd := proj1 (proj2 R)).
      assert (Hreach := proj1 (proj2 (proj2 R))).
      assert (Hiff := proj2 (proj2 (proj2 R))).
      pose proof (place_nonneg m Hp) as P0.
      pose proof (reach_bounds _ Hprop _ (decorations_nonneg m Hp)) as RB.
      unfold member_reach in Hreach.
      pose proof (pow2_pos _ (alignment_pow2 relaxed md _ Hprop (decorations m) true)) as PA.
      cbn [map check_members].
      cbn [member_info info_of i_offset i_has_matrix i_matrix i_align i_size
             i_runtime i_vector i_padded i_check].
      fold (member_info m).
      rewrite (proj2 (Z.eqb_neq _ _) NU). cbv zeta in EA, ES, EC |- *.
      rewrite EA, ES, EC, EO.
      rewrite (w32_small (b + place m)) by lia.
      rewrite !andb_true_iff.
      rewrite !is_aligned_to_right by exact PA.
      rewrite Hiff. rewrite (negb_true_iff (place m <? next)), Z.ltb_ge.
      (* the straddle *)
      assert (St : ((if negb (mode_eqb md Scalar) && relaxed && is_vector (m_type m)
                then negb (has_improper_straddle (b + place m)
                       (get_size no_matrix (m_type m))) else true) = true) <->
              (forall c n, relaxed = true -> md <> Scalar -> m_type m = TyVector c n ->
                 ~ straddles (b + place m) (n * c))).
      { destruct (m_type m) as [| |c n| | | |] eqn:T; cbn [is_vector];
          rewrite ?andb_false_r;
          try (split; [intros _ c0 n0 _ _ X; discriminate|reflexivity]).
        rewrite andb_true_r. simpl in Hprop, RB. destruct Hprop as [Hc Hn].
        pose proof (width_bound c Hc).
        cbn [get_size]. rewrite (Z.mul_comm c n).
        simpl in Hreach.
        rewrite (w32_small (n * c)) by nia.
        destruct md; simpl; [split; [intros _ c0 n0 _ G; congruence|reflexivity]| |];
          (destruct relaxed; simpl; [|split; [intros _ c0 n0 X; discriminate|reflexivity]];
           rewrite negb_true_iff; rewrite straddle_right by nia;
           split; [intros G c0 n0 _ _ X; injection X as <- <-; exact G|
                   intros G; apply (G c n); [reflexivity|discriminate|reflexivity]]). }
      rewrite St. clear St.
      split.
      + intros ((((((Grt & Ga) & Gb) & Gn) & Gs) & Gf) & Grest).
        rewrite (next_right m R Gf) in Grest.
        apply IH in Grest; [|exact Ho1|intros x Hx; apply HR; right; exact Hx|
                            cbn [length]; lia].
        destruct Grest as [G1 G2]. split.
        * intros x [<-|Hx].
          -- split; [|exact Gn]. repeat split; assumption.
          -- split; [apply G1, Hx|].
             rewrite Forall_forall in Ho2. specialize (Ho2 x Hx). simpl in Ho2.
             destruct (ready_offset x (HR x (or_intror Hx))) as (Ex & _ & _).
             lia.
        * constructor; [|exact G2]. rewrite Forall_forall. intros x Hx.
          split.
          -- intros e s Te. rewrite Te in Grt. simpl in Grt.
             rewrite negb_true_iff, negb_false_iff, Z.eqb_eq in Grt.
             destruct L as [|? ?]; [destruct Hx|]. cbn [length] in Grt. lia.
          -- destruct (ready_offset x (HR x (or_intror Hx))) as (_ & _ & Mx).
             exists (place m), (place x). split; [exact MO|]. split; [exact Mx|].
             apply G1, Hx.
      + intros [G1 G2].
        destruct (G1 m (or_introl eq_refl)) as ((Ga & Gb & Gs & Gf) & Gn).
        inversion G2 as [|? ? G3 G4]; subst.
        rewrite (next_right m R Gf).
        assert (Grt : negb (is_runtime (m_type m) &&
                  negb (index =? index + Z.of_nat (length (m :: L)) - 1)) = true).
        { destruct L as [|x L].
          - cbn [length]. rewrite (proj2 (Z.eqb_eq _ _)) by lia.
            rewrite andb_false_r. reflexivity.
          - inversion G3 as [|? ? G5 G6]; subst. destruct G5 as [G5 _].
            destruct (m_type m); try reflexivity. exfalso. eapply G5; reflexivity. }
        repeat (split; [|]); try assumption.
        apply IH; [exact Ho1|intros x Hx; apply HR; right; exact Hx|cbn [length]; lia|].
        split; [|exact G4]. intros x Hx. split; [apply G1; right; exact Hx|].
        rewrite Forall_forall in G3. destruct (G3 x Hx) as (_ & o & o' & E1 & E2 & G).
        destruct (ready_offset x (HR x (or_intror Hx))) as (_ & _ & Mx).
        rewrite MO in E1. rewrite Mx in E2. injection E1 as <-. injection E2 as <-.
        exact G.
  Qed.
End Members.

(** ** The check is right *)

Lemma matrix_check relaxed md mc c r k :
  proper (TyMatrix c r k) -> 0 <= mx_stride mc -> mx_stride mc <> 0 ->
  forall b, check_layout relaxed md (TyMatrix c r k) b mc = true <->
            follows relaxed md mc b (TyMatrix c r k).
Proof.
  intros Hp H0 Hn b. pose proof (get_align_right relaxed md _ Hp mc false) as EA.
  pose proof (alignment_pow2 relaxed md _ Hp mc false) as PA.
  destruct Hp as (Hc & Hr & Hk). pose proof (width_bound c Hc) as B.
  cbn [check_layout]. unfold check_matrix.
  rewrite (proj2 (Z.eqb_neq _ _) Hn).
  change (matrix_align md mc c r k) with (get_align relaxed md mc false (TyMatrix c r k)).
  rewrite EA, andb_true_iff, negb_true_iff, Z.ltb_ge.
  rewrite is_aligned_to_right by (apply pow2_pos, PA).
  rewrite !w32_small by nia.
  rewrite (Z.mul_comm c r), (Z.mul_comm c k).
  split.
  - intros [G1 G2]. constructor; assumption.
  - intros F. inversion F; subst. split; assumption.
Qed.

Lemma array_divides relaxed md mc d e n s :
  proper e ->
  (alignment relaxed md mc true e | alignment relaxed md mc d (TyArray e n s)).
Proof.
  intros Hp. simpl. eapply Z.divide_trans; [apply alignment_direct, Hp|].
  apply up_divide, alignment_pow2, Hp.
Qed.

Lemma check_right relaxed md t : proper t -> forall mc b,
  0 <= mx_stride mc -> (contains_matrix t = true -> mx_stride mc <> 0) ->
  bounded b (reach mc t) ->
  (check_layout relaxed md t b mc = true <-> follows relaxed md mc b t).
Proof.
  ty_induction t; intros Hp mc b' Hmc Hcm (Hb & Hbd);
    try (split; [constructor|reflexivity]).
  - apply matrix_check; [exact Hp|exact Hmc|apply Hcm; reflexivity].
  - (* arrays *)
    pose proof Hp as Hp0. destruct Hp as (Hp & (n0 & -> & Hn) & Hst).
    cbn [contains_matrix] in Hcm.
    cbn [check_layout]. rewrite (get_align_right relaxed md _ Hp0).
    unfold check_array. destruct s as [s0|].
    2: { split; [discriminate|intros F; inversion F]. }
    specialize (Hst s0 eq_refl). cbn [reach] in Hbd.
    pose proof (reach_bounds t Hp mc Hmc) as RB.
    destruct (Z.eqb_spec s0 0) as [->|Hs0].
    { split; [discriminate|]. intros F. inversion F; subst. lia. }
    rewrite (proj2 (Z.eqb_neq s0 umax)) by (unfold umax; lia).
    assert (Hn32 : n0 < 2 ^ 32) by nia.
    rewrite (w32_small n0) by lia. rewrite (Z.max_r 1 n0) by lia.
    rewrite !andb_true_iff, negb_true_iff, Z.ltb_ge.
    rewrite is_aligned_to_right by (apply pow2_pos, alignment_pow2, Hp0).
    assert (Hns : 0 <= n0 * s0) by nia.
    assert (Hpl : forall j, 0 <= j < n0 -> w32 (w32 (j * s0) + b') = b' + j * s0).
    { intros j Hj. assert (0 <= j * s0 <= n0 * s0) by nia.
      rewrite (w32_small (j * s0)) by lia. rewrite w32_small; lia. }
    assert (IH : forall j, 0 <= j < n0 ->
      (check_layout relaxed md t (b' + j * s0) mc = true <->
       follows relaxed md mc (b' + j * s0) t)).
    { intros j Hj. assert (0 <= j * s0 <= n0 * s0) by nia.
      apply IHt; [exact Hp|exact Hmc|exact Hcm|]. split; lia. }
    assert (Hsize : forall b1, follows relaxed md mc b1 t -> get_size mc t = extent mc t).
    { intros b1 F. apply (size_right relaxed md t Hp mc b1 Hmc); [lia|exact F]. }
    split.
    + intros ((G1 & G2) & G3).
      apply check_elements_period in G3; [|lia|lia|].
      2: { intros r. split; [intros []|]. intros (j & Hj & _). lia. }
      destruct G3 as (k & Hk & Hall & Hend).
      assert (Hall' : forall j, 0 <= j < k -> j < n0 /\ follows relaxed md mc (b' + j * s0) t).
      { intros j Hj. destruct (Hall j ltac:(lia)) as [A1 A2].
        rewrite Hpl in A2 by lia. split; [exact A1|]. apply IH; [lia|exact A2]. }
      assert (Hk0 : 0 < k).
      { destruct Hend as [?|(j & ? & _)]; lia. }
      assert (F0 : follows relaxed md mc b' t).
      { destruct (Hall' 0 ltac:(lia)) as [_ F0].
        rewrite Z.mul_0_l, Z.add_0_r in F0. exact F0. }
      rewrite (Hsize _ F0) in G2.
      constructor; [lia|exact G1|exact G2|].
      intros i Hi. destruct Hend as [Hend|(j & Hj & Hdiv)].
      * apply Hall'. lia.
      * set (p := k - j) in *. assert (0 < p) by (unfold p; lia).
        pose proof (Z.mod_pos_bound i p ltac:(lia)) as MB.
        pose proof (Z.div_mod i p ltac:(lia)) as DM.
        destruct (Hall' (i mod p) ltac:(unfold p in *; lia)) as [_ Fi].
        apply follows_shift with (b' + i mod p * s0); [exact Hp| | |exact Fi].
        -- replace (b' + i * s0 - (b' + i mod p * s0)) with ((i - i mod p) * s0) by ring.
           replace (i - i mod p) with (p * (i / p)) by lia.
           replace (p * (i / p) * s0) with ((i / p) * (p * s0)) by ring.
           apply Z.divide_mul_r, Hdiv.
        -- replace (b' + i * s0 - (b' + i mod p * s0)) with ((i - i mod p) * s0) by ring.
           apply Z.divide_mul_r.
           eapply Z.divide_trans; [|exact G1]. apply array_divides, Hp.
    + intros F. inversion F as [| | | |? ? ? ? ? Gs Gd Ge Gall| |]; subst.
      assert (F0 : follows relaxed md mc b' t).
      { specialize (Gall 0 ltac:(lia)). rewrite Z.mul_0_l, Z.add_0_r in Gall. exact Gall. }
      split; [split|].
      * exact Gd.
      * rewrite (Hsize _ F0). exact Ge.
      * apply check_elements_all; [lia|]. intros j Hj. rewrite Hpl by exact Hj.
        apply IH, Gall; exact Hj.
  - (* runtime arrays *)
    pose proof Hp as Hp0. destruct Hp as (Hp & Hst).
    cbn [contains_matrix] in Hcm.
    cbn [check_layout]. rewrite (get_align_right relaxed md _ Hp0).
    unfold check_array. destruct s as [s0|].
    2: { split; [discriminate|intros F; inversion F]. }
    specialize (Hst s0 eq_refl). cbn [reach] in Hbd.
    pose proof (reach_bounds t Hp mc Hmc) as RB.
    destruct (Z.eqb_spec s0 0) as [->|Hs0].
    { split; [discriminate|]. intros F. inversion F; subst. lia. }
    rewrite (proj2 (Z.eqb_neq s0 umax)) by (unfold umax; lia).
    rewrite !andb_true_iff, negb_true_iff, Z.ltb_ge.
    rewrite is_aligned_to_right by (apply pow2_pos, alignment_pow2, Hp0).
    change (Z.max 1 0) with 1.
    assert (E1 : forall f, check_elements 16 f s0 b' 1 0 [] = f b').
    { intros f. cbn [check_elements]. change (0 <? 1) with true. cbv iota zeta.
      rewrite Z.mul_0_l. change (w32 0) with 0. rewrite Z.add_0_l.
      rewrite w32_small by lia. cbn [existsb].
      change (0 + 1 <? 1) with false. cbv iota. apply andb_true_r. }
    rewrite E1.
    rewrite (IHt Hp mc b' Hmc Hcm) by (split; lia).
    split.
    + intros ((G1 & G2) & G3).
      rewrite (size_right relaxed md t Hp mc b' Hmc) in G2; [|lia|exact G3].
      constructor; [lia|exact G1|exact G2|exact G3].
    + intros F. inversion F; subst.
      rewrite (size_right relaxed md t Hp mc b' Hmc); [|lia|assumption].
      repeat split; assumption.
  - (* structures *)
    pose proof (proj1 (proper_struct ms) Hp) as Q.
    cbn [check_layout]. unfold check_struct.
    change (map (fun m => info_of relaxed md (check_layout relaxed md (m_type m)) m) ms)
      with (map (member_info relaxed md) ms).
    rewrite (sort_map offset_of i_offset (member_info relaxed md)) by reflexivity.
    rewrite andb_true_iff, map_length.
    set (L := sort offset_of ms).
    assert (Perm : Permutation ms L) by apply sort_perm.
    assert (InL : forall m, In m L <-> In m ms).
    { intros m. split; apply Permutation_in; [apply Permutation_sym|]; exact Perm. }
    assert (Hdec : forallb decorated (map (member_info relaxed md) L) = true <->
                   forall m, In m ms -> member_decorated m).
    { rewrite forallb_forall. split.
      - intros G m Hm. apply (decorated_right relaxed md). apply G. apply in_map, InL, Hm.
      - intros G i Hi. apply in_map_iff in Hi. destruct Hi as (m & <- & Hm).
        apply decorated_right, G, InL, Hm. }
    rewrite Hdec.
    assert (Hready : (forall m, In m ms -> member_decorated m) ->
                     forall m, In m L -> member_ready relaxed md b' m).
    { intros G m Hm. apply InL in Hm.
      pose proof (Q m Hm) as Qm. pose proof (reach_member mc ms m Hm) as RM.
      pose proof (place_nonneg m Qm) as P0.
      split; [exact Qm|]. split; [apply G, Hm|]. split; [lia|].
      apply (H m Hm (proj1 Qm)).
      - apply decorations_nonneg, Qm.
      - intros C. apply matrices_right in C.
        destruct (G m Hm) as [_ G']. destruct (G' C) as (_ & s & E & Hs).
        simpl. rewrite E. exact Hs.
      - unfold member_reach in RM. split; lia. }
    split.
    + intros [G1 G2]. specialize (Hready G1).
      apply check_members_right in G2;
        [|exact Hb|apply sort_ordered|exact Hready|lia].
      destruct G2 as [G2 G3]. constructor.
      * intros m Hm. destruct (G2 m (proj2 (InL m) Hm)) as [(A1 & A2 & A3 & A4) _].
        destruct (ready_offset relaxed md b' m (Hready m (proj2 (InL m) Hm))) as (_ & _ & MO).
        exists (place m). split; [exact MO|]. split; [apply G1, Hm|].
        repeat split; assumption.
      * apply (share_sorted relaxed md ms); [|exact G3].
        intros m Hm. apply G1, Hm.
    + intros F. inversion F as [| | | | | |? ? ? HM HP]; subst.
      assert (G1 : forall m, In m ms -> member_decorated m).
      { intros m Hm. destruct (HM m Hm) as (o & E & A1 & _).
        split; [congruence|exact A1]. }
      split; [exact G1|]. specialize (Hready G1).
      apply check_members_right;
        [exact Hb|apply sort_ordered|exact Hready|lia|].
      split.
      * intros m Hm. apply InL in Hm. destruct (HM m Hm) as (o & E & _ & A2 & A3 & A4 & A5).
        assert (EP : place m = o) by (unfold place; rewrite E; reflexivity).
        unfold member_good. rewrite EP. split; [repeat split; assumption|].
        rewrite <- EP. apply place_nonneg, Q, Hm.
      * apply (share_sorted relaxed md ms); [|exact HP].
        intros m Hm. apply G1, Hm.
Qed.
