(** * Proofs about the check of explicit layouts: the check and the rules *)

From Coq Require Import ZArith List Bool Lia Permutation Sorted.
From Verif Require Import ExplicitLayout ExplicitLayoutSpec ExplicitLayoutProofs.
Import ListNotations.
Local Open Scope Z_scope.

(** ** The sort *)

Section SortFacts.
  Context {A : Type} (key : A -> Z).

  Lemma insert_perm x l : Permutation (x :: l) (insert key x l).
  Proof.
    induction l as [|y l IH]; simpl; [apply Permutation_refl|].
    destruct (key x <=? key y); [apply Permutation_refl|].
    eapply Permutation_trans; [apply perm_swap|]. constructor. exact IH.
  Qed.

  Lemma sort_perm l : Permutation l (sort key l).
  Proof.
    induction l as [|x l IH]; simpl; [constructor|].
    eapply Permutation_trans; [|apply insert_perm]. constructor; exact IH.
  Qed.

  Definition ordered := StronglySorted (fun x y => key x <= key y).

  Lemma insert_ordered x l : ordered l -> ordered (insert key x l).
  Proof.
    unfold ordered. induction l as [|y l IH]; intros H; simpl.
    - repeat constructor.
    - inversion H as [|? ? H1 H2]; subst. destruct (Z.leb_spec (key x) (key y)).
      + constructor; [exact H|]. constructor; [exact H0|].
        eapply Forall_impl; [|exact H2]. intros z Hz; simpl in *; lia.
      + constructor; [apply IH, H1|].
        eapply Permutation_Forall; [apply insert_perm|].
        constructor; [lia|exact H2].
  Qed.

  Lemma sort_ordered l : ordered (sort key l).
  Proof.
    induction l as [|x l IH]; simpl; [constructor|apply insert_ordered, IH].
  Qed.

  (** A relation that the sort turns into one between a member and the later
      ones. *)
  Variable R : A -> A -> Prop.
  Variable Rs : A -> A -> Prop.

  Lemma insert_pairs x l :
    ordered l ->
    (forall y, In y l -> (Rs x y <-> if key x <=? key y then R x y else R y x)) ->
    (ForallOrdPairs R (insert key x l) <-> ForallOrdPairs R l /\ Forall (Rs x) l).
  Proof.
    unfold ordered. induction l as [|y l IH]; intros Ho HR; simpl.
    - split; [intros _; split; constructor|intros _; repeat constructor].
    - inversion Ho as [|? ? Ho1 Ho2]; subst.
      specialize (IH Ho1 (fun z Hz => HR z (or_intror Hz))).
      pose proof (HR y (or_introl eq_refl)) as HRy.
      destruct (Z.leb_spec (key x) (key y)) as [L|L].
      + assert (E : Forall (Rs x) (y :: l) <-> Forall (R x) (y :: l)).
        { rewrite !Forall_forall. split; intros G z Hz; specialize (G z Hz);
            pose proof (HR z Hz) as Z0;
            assert (Lz : key x <=? key z = true) by
              (apply Z.leb_le; destruct Hz as [->|Hz]; [exact L|];
               rewrite Forall_forall in Ho2; specialize (Ho2 z Hz); simpl in Ho2; lia);
            rewrite Lz in Z0; tauto. }
        split.
        * intros G. inversion G; subst. split; [assumption|]. apply E; assumption.
        * intros [G1 G2]. constructor; [apply E, G2|exact G1].
      + split.
        * intros G. inversion G as [|? ? G1 G2]; subst.
          apply IH in G2. destruct G2 as [G2 G3].
          assert (G4 : Forall (R y) (x :: l)).
          { eapply Permutation_Forall; [apply Permutation_sym, insert_perm|exact G1]. }
          inversion G4; subst.
          split; constructor; try assumption. apply HRy; assumption.
        * intros [G1 G2]. inversion G1; subst. inversion G2; subst.
          constructor.
          -- eapply Permutation_Forall; [apply insert_perm|].
             constructor; [apply HRy; assumption|assumption].
          -- apply IH; split; assumption.
  Qed.

  Lemma sort_pairs l :
    (forall x y, In x l -> In y l ->
       (Rs x y <-> if key x <=? key y then R x y else R y x)) ->
    (ForallOrdPairs R (sort key l) <-> ForallOrdPairs Rs l).
  Proof.
    induction l as [|x l IH]; intros HR; simpl.
    - split; intros _; constructor.
    - rewrite insert_pairs.
      + rewrite IH by (intros a b Ha Hb; apply HR; right; assumption).
        assert (E : Forall (Rs x) (sort key l) <-> Forall (Rs x) l).
        { split; intros G.
          - eapply Permutation_Forall; [apply Permutation_sym, sort_perm|exact G].
          - eapply Permutation_Forall; [apply sort_perm|exact G]. }
        rewrite E. split.
        * intros [G1 G2]. constructor; assumption.
        * intros G. inversion G; subst; split; assumption.
      + apply sort_ordered.
      + intros y Hy. apply HR; [left; reflexivity|right].
        eapply Permutation_in; [apply Permutation_sym, sort_perm|exact Hy].
  Qed.
End SortFacts.

Lemma insert_map {A B} (key : A -> Z) (kb : B -> Z) (f : A -> B) x l :
  (forall a, kb (f a) = key a) ->
  insert kb (f x) (map f l) = map f (insert key x l).
Proof.
  intros E. induction l as [|y l IH]; simpl; [reflexivity|].
  rewrite !E. destruct (key x <=? key y); [reflexivity|].
  simpl. rewrite IH. reflexivity.
Qed.

Lemma sort_map {A B} (key : A -> Z) (kb : B -> Z) (f : A -> B) l :
  (forall a, kb (f a) = key a) ->
  sort kb (map f l) = map f (sort key l).
Proof.
  intros E. induction l as [|x l IH]; simpl; [reflexivity|].
  rewrite IH. apply insert_map, E.
Qed.

(** ** Matrix decorations only matter to matrices *)

Lemma matrices_right t : contains_matrix t = true <-> of_matrices t.
Proof.
  ty_induction t; simpl; try tauto; split; try discriminate; try tauto.
Qed.

Lemma get_align_indep relaxed md t : contains_matrix t = false ->
  forall mc mc' d, get_align relaxed md mc d t = get_align relaxed md mc' d t.
Proof.
  ty_induction t; intros H0 mc mc' d; try reflexivity; try discriminate.
  - simpl in *. rewrite (IHt H0 mc mc'). reflexivity.
  - simpl in *. rewrite (IHt H0 mc mc'). reflexivity.
Qed.

Lemma get_size_indep t : contains_matrix t = false ->
  forall mc mc', get_size mc t = get_size mc' t.
Proof.
  ty_induction t; intros H0 mc mc'; try reflexivity; try discriminate.
  simpl in *. rewrite (IHt H0 mc mc'). reflexivity.
Qed.

Lemma extent_indep t : contains_matrix t = false ->
  forall mc mc', extent mc t = extent mc' t.
Proof.
  ty_induction t; intros H0 mc mc'; try reflexivity; try discriminate.
  simpl in *. rewrite (IHt H0 mc mc'). reflexivity.
Qed.

Lemma check_members_ext relaxed md incoming total l : forall mc mc' index next,
  (forall i, In i l -> i_has_matrix i = false ->
     (i_align i mc = i_align i mc') /\ (i_size i mc = i_size i mc') /\
     (forall p, i_check i p mc = i_check i p mc')) ->
  check_members relaxed md incoming mc total l index next =
  check_members relaxed md incoming mc' total l index next.
Proof.
  induction l as [|i l IH]; intros mc mc' index next H; [reflexivity|].
  cbn [check_members].
  assert (IH' : forall index next,
    check_members relaxed md incoming mc total l index next =
    check_members relaxed md incoming mc' total l index next).
  { intros. apply IH. intros j Hj. apply H. right; exact Hj. }
  specialize (H i (or_introl eq_refl)).
  destruct (i_offset i =? umax); [apply IH'|].
  destruct (i_has_matrix i).
  - cbv zeta. rewrite IH'. reflexivity.
  - destruct (H eq_refl) as (E1 & E2 & E3). cbv zeta.
    rewrite E1, E2, E3, IH'. reflexivity.
Qed.

Lemma check_elements_ext todo : forall f g s b num i seen,
  (forall x, f x = g x) ->
  check_elements todo f s b num i seen = check_elements todo g s b num i seen.
Proof.
  induction todo as [|todo IH]; intros f g s b num i seen E; simpl; [reflexivity|].
  rewrite E, (IH f g); [reflexivity|exact E].
Qed.

Lemma check_array_ext al sz s num b f g :
  (forall x, f x = g x) -> check_array al sz s num b f = check_array al sz s num b g.
Proof.
  intros E. unfold check_array. destruct s as [s|]; [|reflexivity].
  rewrite (check_elements_ext 16 f g); [reflexivity|exact E].
Qed.

(** A structure with undecorated matrices is rejected whatever is inherited. *)
Lemma check_layout_indep relaxed md t : contains_matrix t = false ->
  forall b mc mc', check_layout relaxed md t b mc = check_layout relaxed md t b mc'.
Proof.
  ty_induction t; intros H0 b' mc mc';
    [reflexivity|reflexivity|reflexivity|discriminate| | |].
  - cbn [check_layout contains_matrix] in *.
    rewrite (get_size_indep t H0 mc mc').
    rewrite (get_align_indep relaxed md (TyArray t n s) H0 mc mc').
    apply check_array_ext. intros x; apply IHt, H0.
  - cbn [check_layout contains_matrix] in *.
    rewrite (get_size_indep t H0 mc mc').
    rewrite (get_align_indep relaxed md (TyRuntimeArray t s) H0 mc mc').
    apply check_array_ext. intros x; apply IHt, H0.
  - cbn [check_layout]. unfold check_struct.
    set (f := fun m => info_of relaxed md (check_layout relaxed md (m_type m)) m).
    destruct (forallb decorated (sort i_offset (map f ms))) eqn:D; [|reflexivity].
    simpl. apply check_members_ext. intros i Hi Hm.
    rewrite forallb_forall in D. specialize (D i Hi).
    assert (Hi' : In i (map f ms)).
    { eapply Permutation_in; [apply Permutation_sym, sort_perm|exact Hi]. }
    apply in_map_iff in Hi'. destruct Hi' as (m & <- & Hin).
    unfold decorated in D. rewrite andb_true_iff in D. destruct D as [_ D].
    rewrite Hm in D. simpl in D, Hm.
    destruct (contains_matrix (m_type m)) eqn:C; [discriminate|].
    simpl. repeat split.
    + apply get_align_indep, C.
    + apply get_size_indep, C.
    + intros p. apply H; assumption.
Qed.

(** ** The elements of an array *)

Lemma existsb_mod x seen :
  existsb (Z.eqb x) seen = true <-> In x seen.
Proof.
  rewrite existsb_exists. split.
  - intros (y & Hy & E). apply Z.eqb_eq in E. subst; exact Hy.
  - intros H. exists x. split; [exact H|apply Z.eqb_refl].
Qed.

Lemma residue s b i : w32 (w32 (i * s) + b) mod 16 = (i * s + b) mod 16.
Proof.
  unfold w32. rewrite Zplus_mod_idemp_l.
  symmetry. apply Znumtheory.Zmod_div_mod; [lia|lia|].
  exists (2 ^ 28). reflexivity.
Qed.

(** The loop checks a full period of offsets modulo 16. *)
Lemma check_elements_period chk s b num :
  forall todo i seen,
  Z.of_nat todo + i = 16 -> 0 <= i ->
  (forall r, In r seen <-> exists j, 0 <= j < i /\ r = (j * s + b) mod 16) ->
  check_elements todo chk s b num i seen = true ->
  exists k, i <= k /\
    (forall j, i <= j < k -> j < num /\ chk (w32 (w32 (j * s) + b)) = true) /\
    (num <= k \/ exists j, 0 <= j < k /\ (16 | (k - j) * s)).
Proof.
  induction todo as [|todo IH]; intros i seen Ht Hi Hseen H.
  - exists i. split; [lia|]. split; [intros; lia|]. right.
    exists 0. split; [lia|]. exists s. assert (i = 16) by lia. lia.
  - cbn [check_elements] in H. destruct (Z.ltb_spec i num) as [L|L].
    2: { exists i. split; [lia|]. split; [intros; lia|]. left; lia. }
    cbv zeta in H.
    destruct (existsb _ seen) eqn:E.
    + exists i. split; [lia|]. split; [intros; lia|]. right.
      apply existsb_mod in E. apply Hseen in E. destruct E as (j & Hj & E).
      rewrite residue in E. exists j. split; [exact Hj|].
      replace ((i - j) * s) with ((i * s + b) - (j * s + b)) by ring.
      apply Z.mod_divide; [lia|].
      rewrite Zminus_mod, E, Z.sub_diag. reflexivity.
    + apply andb_true_iff in H. destruct H as [H1 H2].
      rewrite residue in H2.
      apply IH in H2; [|lia|lia|].
      2: { intros r. simpl. rewrite Hseen. split.
           - intros [<-|(j & Hj & ->)]; [exists i|exists j]; (split; [lia|reflexivity]).
           - intros (j & Hj & ->). destruct (Z.eq_dec j i) as [->|Ne]; [left; reflexivity|].
             right. exists j. split; [lia|reflexivity]. }
      destruct H2 as (k & Hk & Hc & Hd). exists k. split; [lia|]. split; [|exact Hd].
      intros j Hj. destruct (Z.eq_dec j i) as [->|Ne]; [split; assumption|].
      apply Hc; lia.
Qed.

Lemma check_elements_all chk s b num : forall todo i seen,
  0 <= i -> (forall j, 0 <= j < num -> chk (w32 (w32 (j * s) + b)) = true) ->
  check_elements todo chk s b num i seen = true.
Proof.
  induction todo as [|todo IH]; intros i seen Hi H; simpl; [reflexivity|].
  destruct (Z.ltb_spec i num); [|reflexivity].
  destruct (existsb _ seen); [reflexivity|].
  rewrite H by lia. apply IH; [lia|exact H].
Qed.

(** The seventeenth element would not be looked at. *)
Lemma sixteen_elements chk s b num : forall todo i seen more,
  Z.of_nat todo + i = 16 -> 0 <= i ->
  (0 < i -> In (b mod 16) seen) ->
  check_elements (todo + more) chk s b num i seen =
  check_elements todo chk s b num i seen.
Proof.
  induction todo as [|todo IH]; intros i seen more Ht Hi Hs.
  - destruct more as [|more]; [reflexivity|]. simpl.
    assert (i = 16) as -> by lia.
    destruct (16 <? num); [|reflexivity].
    rewrite residue.
    replace ((16 * s + b) mod 16) with (b mod 16).
    2: { replace (16 * s + b) with (b + s * 16) by ring. rewrite Z.mod_add; lia. }
    rewrite (proj2 (existsb_mod _ _)); [reflexivity|]. apply Hs; lia.
  - simpl. destruct (i <? num); [|reflexivity].
    destruct (existsb _ seen); [reflexivity|]. f_equal.
    apply IH; [lia|lia|]. intros _.
    destruct (Z.eq_dec i 0) as [->|Ne].
    + left. rewrite residue. reflexivity.
    + right. apply Hs. lia.
Qed.

(** ** The rules only depend on the place modulo the alignment and 16 *)

Lemma follows_shift relaxed md t : proper t -> forall mc b b',
  (16 | b' - b) -> (alignment relaxed md mc true t | b' - b) ->
  follows relaxed md mc b t -> follows relaxed md mc b' t.
Proof.
  ty_induction t; intros Hp mc b1 b2 H16 Hal F; inversion F; subst;
    try (constructor; assumption).
  - constructor; try assumption. intros i Hi.
    apply IHt with (b1 + i * s0); [apply Hp| | |apply H7, Hi].
    + replace (b2 + i * s0 - (b1 + i * s0)) with (b2 - b1) by ring. exact H16.
    + replace (b2 + i * s0 - (b1 + i * s0)) with (b2 - b1) by ring.
      eapply Z.divide_trans; [|exact Hal]. simpl.
      eapply Z.divide_trans; [apply alignment_direct, Hp|].
      apply up_divide, alignment_pow2, Hp.
  - constructor; try assumption.
    apply IHt with b1; try assumption; [apply Hp|].
    eapply Z.divide_trans; [|exact Hal]. simpl.
    eapply Z.divide_trans; [apply alignment_direct, Hp|].
    apply up_divide, alignment_pow2, Hp.
  - match goal with G : forall m, In m ms -> exists o, _ |- _ => rename G into HM end.
    constructor; [|assumption]. intros m Hm.
    destruct (HM m Hm) as (o & E & A1 & A2 & A3 & A4 & A5).
    assert (D : (alignment relaxed md (decorations m) true (m_type m) | b2 - b1)).
    { eapply Z.divide_trans; [|exact Hal]. apply member_divides; assumption. }
    exists o. split; [exact E|]. split; [exact A1|]. split; [exact A2|]. split; [|split].
    + replace (b2 + o) with ((b1 + o) + (b2 - b1)) by ring.
      apply Z.divide_add_r; assumption.
    + intros c n Hr Hmd Ht St. apply (A4 c n Hr Hmd Ht).
      apply straddles_shift with (b2 + o); [|exact St].
      replace (b1 + o - (b2 + o)) with (- (b2 - b1)) by ring.
      apply Z.divide_opp_r, H16.
    + apply H with (b1 + o); [exact Hm| | | |exact A5].
      * apply (proj1 (proper_struct ms) Hp m Hm).
      * replace (b2 + o - (b1 + o)) with (b2 - b1) by ring. exact H16.
      * replace (b2 + o - (b1 + o)) with (b2 - b1) by ring. exact D.
Qed.
