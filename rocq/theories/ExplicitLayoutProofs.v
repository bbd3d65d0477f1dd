(** * Proofs about the check of explicit layouts *)

From Coq Require Import ZArith List Bool Lia Permutation Sorted.
From Verif Require Import ExplicitLayout ExplicitLayoutSpec.
Import ListNotations.
Local Open Scope Z_scope.

(** ** Induction over types *)

Section TyInd.
  Variable P : ty -> Prop.
  Hypothesis Hs : forall b, P (TyScalar b).
  Hypothesis Ho : forall s a, P (TyOpaque s a).
  Hypothesis Hv : forall c n, P (TyVector c n).
  Hypothesis Hm : forall c r k, P (TyMatrix c r k).
  Hypothesis Ha : forall e n s, P e -> P (TyArray e n s).
  Hypothesis Hr : forall e s, P e -> P (TyRuntimeArray e s).
  Hypothesis Ht : forall ms, (forall m, In m ms -> P (m_type m)) -> P (TyStruct ms).

  Fixpoint ty_rect' (t : ty) : P t :=
    match t with
    | TyScalar b => Hs b
    | TyOpaque s a => Ho s a
    | TyVector c n => Hv c n
    | TyMatrix c r k => Hm c r k
    | TyArray e n s => Ha e n s (ty_rect' e)
    | TyRuntimeArray e s => Hr e s (ty_rect' e)
    | TyStruct ms =>
        Ht ms
          ((fix go (l : list (member ty)) : forall m, In m l -> P (m_type m) :=
              match l with
              | [] => fun m H => match H with end
              | x :: l' => fun m H =>
                  match H with
                  | or_introl E => match E in _ = y return P (m_type y) with
                                   | eq_refl => ty_rect' (m_type x)
                                   end
                  | or_intror H' => go l' m H'
                  end
              end) ms)
    end.
End TyInd.

Ltac ty_induction t := induction t using ty_rect'.

(** ** Arithmetic *)

Lemma w32_small x : 0 <= x < 2 ^ 32 -> w32 x = x.
Proof. intros H; unfold w32; apply Z.mod_small; exact H. Qed.

Lemma w32_range x : 0 <= w32 x < 2 ^ 32.
Proof. unfold w32; apply Z.mod_pos_bound; lia. Qed.

Lemma round_up_div x a : 0 < a -> (a | round_up x a).
Proof. intros H; exists ((x + a - 1) / a); reflexivity. Qed.

Lemma round_up_bounds x a : 0 < a -> x <= round_up x a < x + a.
Proof.
  intros H; unfold round_up.
  pose proof (Z.div_mod (x + a - 1) a ltac:(lia)) as E.
  pose proof (Z.mod_pos_bound (x + a - 1) a H) as B.
  lia.
Qed.

Lemma align_to_right x k :
  0 <= k <= 16 -> 0 <= x -> x + 2 ^ 16 <= 2 ^ 32 ->
  align_to x (2 ^ k) = round_up x (2 ^ k).
Proof.
  intros Hk Hx Hb.
  assert (H2 : 1 <= 2 ^ k) by (pose proof (Z.pow_pos_nonneg 2 k); lia).
  assert (H3 : 2 ^ k <= 2 ^ 16) by (apply Z.pow_le_mono_r; lia).
  unfold align_to, round_up.
  rewrite !w32_small by lia.
  replace (2 ^ k - 1) with (Z.ones k) by (rewrite Z.ones_equiv; lia).
  rewrite Z.ldiff_ones_r by lia.
  rewrite Z.shiftr_div_pow2, Z.shiftl_mul_pow2 by lia. reflexivity.
Qed.

Lemma is_aligned_to_right v a :
  0 < a -> is_aligned_to v a = true <-> (a | v).
Proof.
  intros H; unfold is_aligned_to.
  rewrite (proj2 (Z.eqb_neq a 0)) by lia.
  rewrite Z.eqb_eq. apply Z.mod_divide. lia.
Qed.

Lemma straddle_right a n :
  0 <= a -> 1 <= n -> a + n <= 2 ^ 32 ->
  has_improper_straddle a n = false <-> ~ straddles a n.
Proof.
  intros Ha Hn Hb; unfold has_improper_straddle, straddles.
  rewrite w32_small by lia.
  destruct (n <=? 16).
  - rewrite !Z.shiftr_div_pow2 by lia. change (2 ^ 4) with 16.
    rewrite negb_false_iff, Z.eqb_eq. lia.
  - rewrite negb_false_iff, Z.eqb_eq. lia.
Qed.

Lemma straddles_shift a b n :
  (16 | b - a) -> straddles a n -> straddles b n.
Proof.
  intros [q Hq] H. assert (b = a + q * 16) as -> by lia.
  unfold straddles in *. destruct (n <=? 16).
  - replace (a + q * 16 + n - 1) with ((a + n - 1) + q * 16) by lia.
    rewrite !Z.div_add by lia. lia.
  - rewrite Z.mod_add by lia. exact H.
Qed.

(** ** Powers of two *)

Definition pow2 (a : Z) : Prop := exists k, 0 <= k <= 16 /\ a = 2 ^ k.

Lemma pow2_pos a : pow2 a -> 0 < a.
Proof. intros (k & Hk & ->). apply Z.pow_pos_nonneg; lia. Qed.

Lemma pow2_bound a : pow2 a -> 1 <= a <= 2 ^ 16.
Proof.
  intros (k & Hk & ->). split.
  - pose proof (Z.pow_pos_nonneg 2 k); lia.
  - apply Z.pow_le_mono_r; lia.
Qed.

Lemma pow2_divide a b : pow2 a -> pow2 b -> a <= b -> (a | b).
Proof.
  intros (k & Hk & ->) (l & Hl & ->) H.
  assert (k <= l) by (apply (Z.pow_le_mono_r_iff 2); lia).
  exists (2 ^ (l - k)). rewrite <- Z.pow_add_r by lia. f_equal. lia.
Qed.

Lemma pow2_max a b : pow2 a -> pow2 b -> pow2 (Z.max a b).
Proof. intros Ha Hb. destruct (Z.max_spec a b) as [[_ ->]|[_ ->]]; assumption. Qed.

Lemma pow2_16 : pow2 16.
Proof. exists 4; split; [lia|reflexivity]. Qed.

Lemma pow2_1 : pow2 1.
Proof. exists 0; split; [lia|reflexivity]. Qed.

Lemma width_pow2 c : width c -> pow2 c.
Proof.
  intros [->|[->|[->| ->]]];
    [exists 0|exists 1|exists 2|exists 3]; split; try lia; reflexivity.
Qed.

Lemma width_bound c : width c -> 1 <= c <= 8.
Proof. intros [->|[->|[->| ->]]]; lia. Qed.

Lemma round_up_16 a : pow2 a -> round_up a 16 = Z.max a 16.
Proof.
  intros H. pose proof (pow2_bound a H) as B.
  destruct (Z.le_gt_cases 16 a) as [L|L].
  - destruct (pow2_divide 16 a pow2_16 H L) as [q Hq].
    rewrite Z.max_l by lia. unfold round_up. subst a.
    replace (q * 16 + 16 - 1) with (15 + q * 16) by lia.
    rewrite Z.div_add by lia. change (15 / 16) with 0. lia.
  - rewrite Z.max_r by lia. unfold round_up.
    replace (a + 16 - 1) with ((a - 1) + 1 * 16) by lia.
    rewrite Z.div_add by lia. rewrite Z.div_small by lia. reflexivity.
Qed.

Lemma align_to_16 a : pow2 a -> align_to a 16 = round_up a 16.
Proof.
  intros H. pose proof (pow2_bound a H).
  apply (align_to_right a 4); lia.
Qed.

Lemma up_pow2 md a : pow2 a -> pow2 (up md a).
Proof.
  intros H; destruct md; simpl; try exact H.
  rewrite round_up_16 by exact H. apply pow2_max; [exact H|exact pow2_16].
Qed.

Lemma up_divide md a : pow2 a -> (a | up md a).
Proof.
  intros H; destruct md; simpl; try apply Z.divide_refl.
  rewrite round_up_16 by exact H.
  apply pow2_divide; [exact H|apply pow2_max; [exact H|exact pow2_16]|lia].
Qed.

Lemma up_code md a : pow2 a ->
  (if mode_eqb md Extended then align_to a 16 else a) = up md a.
Proof.
  intros H; destruct md; simpl; try reflexivity. apply align_to_16; exact H.
Qed.

(** ** Structures *)

Definition proper_member (m : member ty) : Prop :=
  proper (m_type m) /\
  (forall o, m_offset m = Some o -> 0 <= o < 2 ^ 32 - 1) /\
  (forall s, m_stride m = Some s -> 0 <= s).

Lemma proper_struct ms :
  proper (TyStruct ms) <-> forall m, In m ms -> proper_member m.
Proof.
  simpl. induction ms as [|x ms IH]; simpl.
  - split; [intros _ m []|trivial].
  - rewrite IH. unfold proper_member. split.
    + intros (A & B & C & D) m [<-|H]; [tauto|apply D; exact H].
    + intros H. destruct (H x (or_introl eq_refl)) as (A & B & C).
      split; [exact A|split; [exact B|split; [exact C|]]].
      intros m Hm. apply H. right; exact Hm.
Qed.

Lemma decorations_matrix m : decorations m = matrix_of m.
Proof. reflexivity. Qed.

(** ** Alignments *)

Lemma vector_align_right relaxed md allow c n :
  width c -> 1 <= n ->
  vector_align relaxed md allow c n =
    (if relaxed && allow then c else vector_alignment md c n).
Proof.
  intros Hc Hn. pose proof (width_bound c Hc).
  unfold vector_align, vector_alignment.
  assert (E : w32 (c * (if (n =? 3) || (4 <? n) then 4 else n)) =
              (if 3 <=? n then 4 * c else n * c)).
  { destruct (Z.ltb_spec 4 n) as [L|L].
    - rewrite orb_true_r. rewrite (proj2 (Z.leb_le 3 n)) by lia.
      rewrite w32_small; lia.
    - assert (n = 1 \/ n = 2 \/ n = 3 \/ n = 4) as [->|[->|[->| ->]]] by lia;
        destruct Hc as [->|[->|[->| ->]]]; reflexivity. }
  destruct md; simpl; rewrite ?E; destruct allow, relaxed; reflexivity.
Qed.

Lemma vector_alignment_pow2 md c n :
  width c -> 1 <= n -> pow2 (vector_alignment md c n).
Proof.
  intros Hc Hn. pose proof (width_pow2 c Hc) as P.
  unfold vector_alignment.
  assert (Q : pow2 (if 3 <=? n then 4 * c else n * c)).
  { destruct (Z.leb_spec 3 n).
    - destruct Hc as [->|[->|[->| ->]]];
        [exists 2|exists 3|exists 4|exists 5]; split; try lia; reflexivity.
    - assert (n = 1 \/ n = 2) as [->| ->] by lia.
      + rewrite Z.mul_1_l; exact P.
      + destruct Hc as [->|[->|[->| ->]]];
          [exists 1|exists 2|exists 3|exists 4]; split; try lia; reflexivity. }
  destruct md; assumption.
Qed.

Definition member_alignment relaxed md (m : member ty) : Z :=
  alignment relaxed md (decorations m) true (m_type m).

Lemma struct_align_pow2 relaxed md ms :
  (forall m, In m ms -> pow2 (member_alignment relaxed md m)) ->
  pow2 (fold_right (fun m a => Z.max (up md (member_alignment relaxed md m)) a) 1 ms).
Proof.
  induction ms as [|x ms IH]; intros H; simpl.
  - exact pow2_1.
  - apply pow2_max.
    + apply up_pow2, H. left; reflexivity.
    + apply IH. intros m Hm; apply H; right; exact Hm.
Qed.

Lemma alignment_pow2 relaxed md t : proper t ->
  forall mc d, pow2 (alignment relaxed md mc d t).
Proof.
  ty_induction t; intros Hp mc d; simpl in *.
  - apply width_pow2, Hp.
  - destruct Hp as (_ & k & Hk & ->). exists k; split; [exact Hk|reflexivity].
  - destruct Hp as [Hc Hn]. destruct (relaxed && d).
    + apply width_pow2, Hc.
    + apply vector_alignment_pow2; assumption.
  - destruct Hp as (Hc & Hr & Hk).
    destruct md; [apply width_pow2, Hc| |];
      apply up_pow2, vector_alignment_pow2; try exact Hc;
      destruct (mx_col mc); lia.
  - apply up_pow2, IHt, Hp.
  - apply up_pow2, IHt, Hp.
  - apply (struct_align_pow2 relaxed md ms). intros m Hm.
    pose proof (proj1 (proper_struct ms) Hp m Hm) as Q.
    apply H; [exact Hm|apply Q].
Qed.

Lemma struct_align_right relaxed md ms :
  (forall m, In m ms ->
     pow2 (member_alignment relaxed md m) /\
     get_align relaxed md (matrix_of m) true (m_type m) = member_alignment relaxed md m) ->
  get_align relaxed md no_matrix true (TyStruct ms) =
    fold_right (fun m a => Z.max (up md (member_alignment relaxed md m)) a) 1 ms.
Proof.
  intros H.
  assert (G : forall acc, pow2 acc -> (acc = 1 \/ up md acc = acc) ->
    fold_left (fun align m =>
        let align :=
          Z.max align (get_align relaxed md (matrix_of m) true (m_type m)) in
        if mode_eqb md Extended then align_to align 16 else align) ms acc =
    Z.max acc
      (fold_right (fun m a => Z.max (up md (member_alignment relaxed md m)) a) 1 ms)).
  { induction ms as [|x ms IH]; intros acc Hacc Hu.
    - simpl. pose proof (pow2_bound acc Hacc). lia.
    - cbn [fold_left fold_right].
      destruct (H x (or_introl eq_refl)) as [Hx Ex].
      assert (IH' := IH (fun m Hm => H m (or_intror Hm))). clear IH.
      cbv zeta. rewrite Ex.
      set (a := member_alignment relaxed md x) in *.
      assert (Hm : pow2 (Z.max acc a)) by (apply pow2_max; assumption).
      rewrite up_code by exact Hm.
      assert (Ha : 1 <= a) by (pose proof (pow2_bound a Hx); lia).
      assert (E : up md (Z.max acc a) = Z.max acc (up md a)).
      { destruct md; simpl in *; try reflexivity.
        rewrite !round_up_16 by assumption.
        destruct Hu as [->|Hu].
        - lia.
        - rewrite round_up_16 in Hu by assumption. lia. }
      rewrite E. rewrite IH'.
      + rewrite Z.max_assoc. reflexivity.
      + apply pow2_max; [exact Hacc|apply up_pow2, Hx].
      + right. rewrite <- E.
        destruct md; simpl; try reflexivity.
        rewrite (round_up_16 (Z.max acc a)) by exact Hm.
        rewrite round_up_16; [lia|apply pow2_max; [exact Hm|exact pow2_16]]. }
  specialize (G 1 pow2_1 (or_introl eq_refl)).
  transitivity (Z.max 1
      (fold_right (fun m a => Z.max (up md (member_alignment relaxed md m)) a) 1 ms));
    [exact G|].
  pose proof (pow2_bound _ (struct_align_pow2 relaxed md ms (fun m Hm => proj1 (H m Hm)))).
  lia.
Qed.

Lemma get_align_right relaxed md t : proper t ->
  forall mc d, get_align relaxed md mc d t = alignment relaxed md mc d t.
Proof.
  ty_induction t; intros Hp mc d.
  - reflexivity.
  - reflexivity.
  - simpl in *. destruct Hp as [Hc Hn]. apply vector_align_right; assumption.
  - simpl in *. destruct Hp as (Hc & Hr & Hk).
    unfold matrix_align. destruct md; simpl; [reflexivity| |];
      (destruct (mx_col mc);
       [rewrite vector_align_right by (assumption || lia); rewrite andb_false_r;
        try (rewrite align_to_16 by (apply vector_alignment_pow2; [exact Hc|lia]));
        reflexivity|]).
    + unfold vector_alignment. pose proof (width_bound c Hc).
      assert (k = 2 \/ k = 3 \/ k = 4) as [->|[->| ->]] by lia;
        destruct Hc as [->|[->|[->| ->]]]; reflexivity.
    + pose proof (width_bound c Hc) as B.
      assert (E : w32 (c * (if k =? 3 then 4 else k)) = vector_alignment Extended c k).
      { unfold vector_alignment.
        assert (k = 2 \/ k = 3 \/ k = 4) as [->|[->| ->]] by lia;
          destruct Hc as [->|[->|[->| ->]]]; reflexivity. }
      rewrite E. rewrite align_to_16 by (apply vector_alignment_pow2; [exact Hc|lia]).
      reflexivity.
  - cbn [get_align alignment]. rewrite IHt by apply Hp.
    apply up_code, alignment_pow2, Hp.
  - cbn [get_align alignment]. rewrite IHt by apply Hp.
    apply up_code, alignment_pow2, Hp.
  - pose proof (proj1 (proper_struct ms) Hp) as Q.
    apply (struct_align_right relaxed md ms). intros m Hm.
    destruct (Q m Hm) as (Q1 & _). split.
    + apply alignment_pow2, Q1.
    + apply H; [exact Hm|exact Q1].
Qed.

Lemma member_divides relaxed md mc d ms m :
  proper (TyStruct ms) -> In m ms ->
  (alignment relaxed md (decorations m) true (m_type m)
     | alignment relaxed md mc d (TyStruct ms)).
Proof.
  intros Hp Hm. pose proof (proj1 (proper_struct ms) Hp) as Q.
  assert (Hpow : forall x, In x ms -> pow2 (member_alignment relaxed md x)).
  { intros x Hx. apply alignment_pow2, (Q x Hx). }
  change (alignment relaxed md mc d (TyStruct ms)) with
    (fold_right (fun m a => Z.max (up md (member_alignment relaxed md m)) a) 1 ms).
  change (alignment relaxed md (decorations m) true (m_type m))
    with (member_alignment relaxed md m).
  apply Z.divide_trans with (up md (member_alignment relaxed md m)).
  { apply up_divide, Hpow, Hm. }
  apply pow2_divide.
  - apply up_pow2, Hpow, Hm.
  - apply struct_align_pow2, Hpow.
  - clear Hp Q Hpow. induction ms as [|x ms IH]; [destruct Hm|].
    simpl. destruct Hm as [->|Hm]; [lia|]. specialize (IH Hm). lia.
Qed.

Lemma alignment_direct relaxed md mc t : proper t ->
  (alignment relaxed md mc true t | alignment relaxed md mc false t).
Proof.
  intros Hp; destruct t; simpl in *; try apply Z.divide_refl.
  destruct relaxed; simpl; [|apply Z.divide_refl].
  destruct Hp as [Hc Hn]. unfold vector_alignment.
  destruct md; try apply Z.divide_refl;
    (destruct (3 <=? n); apply Z.divide_factor_r).
Qed.

(** ** Reach and extent *)

Lemma fold_max_ge (f : member ty -> Z) b ms m :
  In m ms -> f m <= fold_right (fun m a => Z.max (f m) a) b ms.
Proof.
  induction ms as [|x ms IH]; intros []; simpl.
  - subst; lia.
  - specialize (IH H); lia.
Qed.

Lemma fold_max_base (f : member ty -> Z) b ms :
  b <= fold_right (fun m a => Z.max (f m) a) b ms.
Proof. induction ms as [|x ms IH]; simpl; lia. Qed.

Lemma fold_max_le (f : member ty -> Z) b ms c :
  b <= c -> (forall m, In m ms -> f m <= c) ->
  fold_right (fun m a => Z.max (f m) a) b ms <= c.
Proof.
  intros Hb. induction ms as [|x ms IH]; intros H; simpl; [exact Hb|].
  apply Z.max_lub; [apply H; left; reflexivity|].
  apply IH. intros m Hm; apply H; right; exact Hm.
Qed.

Definition place (m : member ty) : Z :=
  match m_offset m with Some o => o | None => 0 end.

Definition member_extent (m : member ty) : Z :=
  extent (decorations m) (m_type m).

Lemma extent_struct mc ms :
  extent mc (TyStruct ms) =
    fold_right (fun m a => Z.max (place m + member_extent m) a) 0 ms.
Proof. reflexivity. Qed.

Definition member_reach (m : member ty) : Z :=
  reach (decorations m) (m_type m).

Lemma reach_struct mc ms :
  reach mc (TyStruct ms) =
    fold_right (fun m a => Z.max (place m + member_reach m) a) 0 ms.
Proof. reflexivity. Qed.

Lemma place_nonneg m : proper_member m -> 0 <= place m.
Proof.
  intros (_ & H & _). unfold place. destruct (m_offset m) as [o|]; [|lia].
  specialize (H o eq_refl). lia.
Qed.

Lemma decorations_nonneg m : proper_member m -> 0 <= mx_stride (decorations m).
Proof.
  intros (_ & _ & H). simpl. destruct (m_stride m) as [s|]; [|lia].
  apply H; reflexivity.
Qed.

Lemma reach_bounds t : proper t -> forall mc, 0 <= mx_stride mc ->
  0 <= extent mc t <= reach mc t.
Proof.
  ty_induction t; intros Hp mc Hmc.
  - simpl in *. pose proof (width_bound b Hp). lia.
  - simpl in *. lia.
  - simpl in *. destruct Hp as [Hc Hn]. pose proof (width_bound c Hc). nia.
  - simpl in *. destruct Hp as (Hc & Hr & Hk). pose proof (width_bound c Hc).
    destruct (mx_col mc); nia.
  - destruct Hp as (Hp & (n' & -> & Hn) & Hs). specialize (IHt Hp mc Hmc).
    simpl. destruct s as [s|]; [|lia].
    specialize (Hs s eq_refl). nia.
  - destruct Hp as (Hp & _). specialize (IHt Hp mc Hmc). simpl. lia.
  - pose proof (proj1 (proper_struct ms) Hp) as Q.
    rewrite extent_struct, reach_struct. split.
    + apply fold_max_base.
    + apply fold_max_le; [apply fold_max_base|]. intros m Hm.
      destruct (Q m Hm) as (Q1 & Q2 & Q3).
      pose proof (H m Hm Q1 (decorations m) (decorations_nonneg m (Q m Hm))).
      pose proof (fold_max_ge (fun m => place m + member_reach m) 0 ms m Hm).
      cbv beta in *. unfold member_extent, member_reach in *. lia.
Qed.

Lemma reach_member mc ms m : In m ms ->
  place m + member_reach m <= reach mc (TyStruct ms).
Proof.
  intros Hm. rewrite reach_struct.
  apply (fold_max_ge (fun m => place m + member_reach m) 0 ms m Hm).
Qed.
