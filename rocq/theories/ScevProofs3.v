(** Proofs about the scalar evolution expressions, continued: sums with recurrences. *)
From Verif Require Import Base Scev ScevSpec ScevProofs ScevProofs2.
From Coq Require Import Permutation.
Local Open Scope Z_scope.

(** The children of the rebuilt polynomial. *)
Definition pchild (x : node) : Prop :=
  ok x /\
  match x with
  | NRec l o c => rfp o /\ rfp c
  | NNeg a => exists i, a = NUnknown i
  | _ => rfp x
  end.
Definition nonrecs (cs : list node) : list node := filter (fun x => negb (is_rec x)) cs.
Definition loop_of (n : node) : list N := match n with NRec l _ _ => [l] | _ => [] end.
Definition loops (cs : list node) : list N := flat_map loop_of cs.
Definition rsum (env it : N -> Z) (cs : list node) : Z := sumv env it (filter is_rec cs).
Definition coefsum (env it : N -> Z) (l : N) (cs : list node) : Z :=
  fold_right (fun x s => match x with NRec l' _ c => if N.eqb l' l then val env it c + s else s | _ => s end) 0 cs.

Lemma pchild_nonrec x : pchild x -> is_rec x = false -> rfp x /\ ok x.
Proof.
  intros [O H] R. split; auto. destruct x; try discriminate; auto.
  destruct H as [i ->]. split; cbn; auto. constructor.
Qed.
Lemma sumv_split env it cs : sumv env it cs = rsum env it cs + sumv env it (nonrecs cs).
Proof. unfold rsum, nonrecs. induction cs as [|c cs IH]; simpl; auto. destruct (is_rec c); simpl; lia. Qed.
Lemma nonrecs_good cs : Forall pchild cs -> Forall (fun x => rfp x /\ ok x) (nonrecs cs).
Proof.
  intros F. rewrite Forall_forall in *. intros x J. apply filter_In in J. destruct J as [J R].
  apply pchild_nonrec; auto. destruct (is_rec x); auto; discriminate.
Qed.
Lemma sumv_rec_free env it it' cs : Forall (fun x => rfp x /\ ok x) cs -> sumv env it cs = sumv env it' cs.
Proof. induction 1 as [|c cs [[R _] _] _ IH]; simpl; auto. rewrite IH, (rec_free_val env it it' c R). auto. Qed.

(** The difference between two iterations of a loop shows its coefficients. *)
Lemma rsum_diff env it it' l cs : Forall pchild cs -> (forall k, k <> l -> it k = it' k) ->
  rsum env it cs - rsum env it' cs = coefsum env it l cs * (it l - it' l).
Proof.
  intros F D. unfold rsum. induction F as [|c cs [O H] _ IH]; simpl; auto.
  destruct c; cbn [is_rec]; cbn [sumv fold_right val]; auto.
  destruct H as [[Ro _] [Rc _]].
  rewrite (rec_free_val env it' it _ Ro), (rec_free_val env it' it _ Rc).
  change (fold_right (fun c s => val env it c + s) 0 (filter is_rec cs)) with (sumv env it (filter is_rec cs)).
  change (fold_right (fun c s => val env it' c + s) 0 (filter is_rec cs)) with (sumv env it' (filter is_rec cs)).
  destruct (N.eqb loop l) eqn:E.
  - apply N.eqb_eq in E. subst loop. lia.
  - apply N.eqb_neq in E. rewrite (D loop E). lia.
Qed.
Lemma coefsum_nonzero env it it' l cs : Forall pchild cs -> (forall k, k <> l -> it k = it' k) ->
  sumv env it cs <> sumv env it' cs -> coefsum env it l cs <> 0.
Proof.
  intros F D N0 C. pose proof (rsum_diff env it it' l cs F D) as E. rewrite C in E.
  rewrite (sumv_split env it cs), (sumv_split env it' cs) in N0. rewrite (sumv_rec_free env it it' _ (nonrecs_good cs F)) in N0. lia.
Qed.
Lemma coefsum_perm env it l a b : Permutation a b -> coefsum env it l a = coefsum env it l b.
Proof.
  induction 1; simpl; auto.
  - destruct x; auto. destruct (N.eqb loop l); lia.
  - destruct x, y; auto; destruct (N.eqb loop l); auto; destruct (N.eqb loop0 l); lia.
  - congruence.
Qed.
Lemma coefsum_single env it l o c cs : NoDup (loops cs) -> In (NRec l o c) cs -> coefsum env it l cs = val env it c.
Proof.
  induction cs as [|x cs IH]; [intros _ []|]. intros ND J.
  assert (Z0 : forall cs, ~ In l (loops cs) -> coefsum env it l cs = 0).
  { clear. induction cs as [|y cs IH]; auto. cbn [loops flat_map]. intros N0. simpl. destruct y; auto.
    rewrite IH by (intros X; apply N0; apply in_or_app; auto).
    replace (N.eqb loop l) with false; auto. symmetry. apply N.eqb_neq. intros ->. apply N0. left; auto. }
  destruct J as [-> | J].
  - cbn [loops flat_map loop_of app] in ND. inversion ND; subst. simpl. rewrite N.eqb_refl.
    rewrite (Z0 cs H1). lia.
  - assert (Il : In l (loops cs)) by (apply in_flat_map; exists (NRec l o c); split; auto; left; auto).
    cbn [loops flat_map] in ND. destruct x; simpl; cbn [loop_of app] in ND; try (apply IH; auto; fail).
    inversion ND; subst. replace (N.eqb loop l) with false by (symmetry; apply N.eqb_neq; intros ->; auto).
    apply IH; auto.
Qed.

(** * The recurrences by loop *)
Definition entry_ok (e : rec_entry) : Prop :=
  let '(o, c, b) := e in ok o /\ ok c /\ rfp o /\ rfp c /\ b = false.
Definition esum (env it : N -> Z) (es : list rec_entry) : Z :=
  fold_right (fun '(o, _, _) s => val env it o + s) 0 es.
Definition ecoef (env it : N -> Z) (es : list rec_entry) : Z :=
  fold_right (fun '(_, c, _) s => val env it c + s) 0 es.
Definition mval (env it : N -> Z) (m : list (N * list rec_entry)) : Z :=
  fold_right (fun '(l, es) s => esum env it es + ecoef env it es * it l + s) 0 m.
Definition mcoef (env it : N -> Z) (l : N) (m : list (N * list rec_entry)) : Z :=
  fold_right (fun '(k, es) s => if N.eqb k l then ecoef env it es + s else s) 0 m.
Definition map_ok (m : list (N * list rec_entry)) : Prop :=
  NoDup (map fst m) /\ Forall (fun '(_, es) => Forall entry_ok es) m.

Lemma esum_app env it a b : esum env it (a ++ b) = esum env it a + esum env it b.
Proof. induction a as [|[[o c] n] a IH]; simpl; lia. Qed.
Lemma ecoef_app env it a b : ecoef env it (a ++ b) = ecoef env it a + ecoef env it b.
Proof. induction a as [|[[o c] n] a IH]; simpl; lia. Qed.
Lemma has_loop_in m l : has_loop m l = true <-> In l (map fst m).
Proof.
  induction m as [|[k es] m IH]; simpl; [split; [discriminate|tauto]|].
  rewrite orb_true_iff, N.eqb_eq, IH. tauto.
Qed.

Set Default Proof Using "Type".
Section Order.
Variables (uid addr : node -> N) (laddr : N -> N).
Notation add_child := (add_child uid).
Notation add_children := (add_children uid).

Lemma push_loop_keys m l e : map fst (push_loop m l e) = map fst m.
Proof. induction m as [|[k es] m IH]; simpl; auto. destruct (N.eqb k l); simpl; congruence. Qed.
Lemma push_loop_spec m l o c b : map_ok m -> has_loop m l = true -> entry_ok (o, c, b) ->
  map_ok (push_loop m l (o, c, b)) /\
  (forall env it, mval env it (push_loop m l (o, c, b)) = mval env it m + (val env it o + val env it c * it l)) /\
  (forall env it k, mcoef env it k (push_loop m l (o, c, b)) = mcoef env it k m + (if N.eqb l k then val env it c else 0)).
Proof. clear uid addr laddr.
  intros [ND F] H Eo. split; [split|split].
  - rewrite push_loop_keys; auto.
  - clear H. induction F as [|[k es] m He Fm IH]; simpl; [constructor|]. inversion ND; subst.
    destruct (N.eqb k l); constructor; auto. apply Forall_app; split; auto.
  - intros env it. clear F. induction m as [|[k es] m IH]; [discriminate|]. cbn [has_loop push_loop] in *.
    inversion ND; subst. destruct (N.eqb k l) eqn:E.
    + apply N.eqb_eq in E. subst k. cbn [mval fold_right]. rewrite esum_app, ecoef_app. simpl. lia.
    + cbn [mval fold_right]. fold (mval env it (push_loop m l (o, c, b))). fold (mval env it m). rewrite IH; auto. lia.
  - intros env it j. clear F. induction m as [|[k es] m IH]; [discriminate|]. cbn [has_loop push_loop] in *.
    inversion ND; subst. destruct (N.eqb k l) eqn:E.
    + apply N.eqb_eq in E. subst k. cbn [mcoef fold_right]. rewrite ecoef_app. simpl. destruct (N.eqb l j); lia.
    + cbn [mcoef fold_right]. fold (mcoef env it j (push_loop m l (o, c, b))). fold (mcoef env it j m). rewrite IH; auto.
      destruct (N.eqb k j); lia.
Qed.
Lemma insert_loop_perm m l e : Permutation (insert_loop laddr m l e) ((l, [e]) :: m).
Proof. induction m as [|[k es] m IH]; simpl; auto. destruct (N.leb _ _); auto. rewrite IH. apply perm_swap. Qed.
Lemma mval_perm env it a b : Permutation a b -> mval env it a = mval env it b.
Proof. clear uid addr laddr. unfold mval. induction 1 as [|[k x] a b _ IH|[k x] [j y] a|a b c _ IH1 _ IH2]; cbn [fold_right]; [auto | rewrite IH; auto | lia | congruence]. Qed.
Lemma mcoef_perm env it l a b : Permutation a b -> mcoef env it l a = mcoef env it l b.
Proof. clear uid addr laddr.
  unfold mcoef. induction 1 as [|[k x] a b _ IH|[k x] [j y] a|a b c _ IH1 _ IH2]; cbn [fold_right]; [auto | rewrite IH; auto | | congruence].
  destruct (N.eqb k l), (N.eqb j l); lia. Qed.
Lemma insert_loop_spec m l o c b : map_ok m -> has_loop m l = false -> entry_ok (o, c, b) ->
  map_ok (insert_loop laddr m l (o, c, b)) /\
  (forall env it, mval env it (insert_loop laddr m l (o, c, b)) = mval env it m + (val env it o + val env it c * it l)) /\
  (forall env it k, mcoef env it k (insert_loop laddr m l (o, c, b)) = mcoef env it k m + (if N.eqb l k then val env it c else 0)).
Proof. clear uid addr.
  intros [ND F] H Eo. pose proof (insert_loop_perm m l (o, c, b)) as Pm. split; [split|split].
  - eapply Permutation_NoDup; [apply Permutation_map, Permutation_sym, Pm|]. cbn [map fst]. constructor; auto.
    intros X. apply has_loop_in in X. congruence.
  - eapply Forall_perm; [apply Permutation_sym, Pm|]. constructor; auto.
  - intros. rewrite (mval_perm _ _ _ _ Pm). simpl. lia.
  - intros. rewrite (mcoef_perm _ _ _ _ _ Pm). simpl. destruct (N.eqb l k); lia.
Qed.

Definition no_neg (cs : list node) : Prop := Forall (fun x => match x with NNeg _ => False | _ => True end) cs.

Lemma classify_spec cs : Forall pchild cs -> forall rest m mult, map_ok m -> Forall (fun x => rfp x /\ ok x) rest ->
  exists rest' m' mult', classify uid laddr rest m mult cs = (rest', m', mult') /\
    map_ok m' /\ Forall (fun x => rfp x /\ ok x) rest' /\
    (length rest' = length rest + length (nonrecs cs))%nat /\
    (no_neg cs -> forall env it, sumv env it rest' = sumv env it rest + sumv env it (nonrecs cs)) /\
    (forall env it, mval env it m' = mval env it m + rsum env it cs) /\
    (forall env it k, mcoef env it k m' = mcoef env it k m + coefsum env it k cs) /\
    (forall k, In k (map fst m') <-> In k (map fst m) \/ In k (loops cs)) /\
    (mult' = false -> mult = false /\ NoDup (loops cs) /\ (forall k, In k (loops cs) -> ~ In k (map fst m))) /\
    (mult = false -> NoDup (loops cs) -> (forall k, In k (loops cs) -> ~ In k (map fst m)) -> mult' = false).
Proof. clear addr.
  induction 1 as [|x cs Hx Hcs IH]; intros rest m mult Mok Rok.
  - exists rest, m, mult. cbn [classify nonrecs filter loops flat_map length]. split; auto. split; auto. split; auto.
    split; [lia|]. split; [intros; simpl; lia|]. split; [intros; unfold rsum; simpl; lia|]. split; [intros; simpl; lia|].
    split; [intros k; simpl; tauto|]. split; [intros; split; auto; split; [constructor | intros ? []] | auto].
  - destruct (is_rec x) eqn:R.
    + (* a recurrence *)
      destruct x as [|l o c| | | | |]; try discriminate. destruct Hx as [[Oo Oc] [Ro Rc]].
      assert (Eo : entry_ok (o, c, false)) by (repeat split; auto; apply Ro || apply Rc).
      cbn [classify]. destruct (has_loop m l) eqn:HL.
      * destruct (push_loop_spec m l o c false Mok HL Eo) as (M1 & V1 & C1).
        destruct (IH rest _ true M1 Rok) as (rest' & m' & mult' & E & A1 & A2 & A3 & A4 & A5 & A6 & A7 & A8 & A9).
        exists rest', m', mult'. split; auto. split; auto. split; auto. split; auto.
        split; [intros NN; inversion NN; auto|].
        split; [intros; rewrite A5, V1; unfold rsum; simpl; lia|].
        split; [intros; rewrite A6, C1; simpl; destruct (N.eqb l k); lia|].
        split.
        -- intros k. rewrite A7, push_loop_keys. cbn [loops flat_map loop_of app]. apply has_loop_in in HL.
           split; [intros [|]; auto; right; right; auto | intros [|[<-|]]; auto].
        -- split; [intros E0; apply A8 in E0; destruct E0; discriminate|].
           intros _ _ D. exfalso. apply (D l); [left; auto|]. apply has_loop_in; auto.
      * destruct (insert_loop_spec m l o c false Mok HL Eo) as (M1 & V1 & C1).
        destruct (IH rest _ mult M1 Rok) as (rest' & m' & mult' & E & A1 & A2 & A3 & A4 & A5 & A6 & A7 & A8 & A9).
        assert (KI : forall k, In k (map fst (insert_loop laddr m l (o, c, false))) <-> k = l \/ In k (map fst m)).
        { intros k. pose proof (Permutation_map fst (insert_loop_perm m l (o, c, false))) as Pk. split; intros J.
          - apply (Permutation_in _ Pk) in J. destruct J; auto.
          - apply (Permutation_in _ (Permutation_sym Pk)). destruct J; [left|right]; auto. }
        exists rest', m', mult'. split; auto. split; auto. split; auto. split; auto.
        split; [intros NN; inversion NN; auto|].
        split; [intros; rewrite A5, V1; unfold rsum; simpl; lia|].
        split; [intros; rewrite A6, C1; simpl; destruct (N.eqb l k); lia|].
        split; [intros k; rewrite A7, KI; cbn [loops flat_map loop_of app]; split; [intros [[->|]|]; auto; [right; left; auto | right; right; auto] | intros [|[<-|]]; auto]|].
        cbn [loops flat_map loop_of app]. fold (loops cs). split.
        -- intros E0. destruct (A8 E0) as (B1 & B2 & B3). split; auto. split.
           ++ constructor; auto. intros X. apply (B3 l X). apply KI; auto.
           ++ intros k [<-|X] Y; [apply has_loop_in in Y; congruence|]. apply (B3 k X). apply KI; auto.
        -- intros -> ND D. inversion ND; subst. apply A9; auto. intros k X Y. apply KI in Y. destruct Y as [-> | Y]; auto.
           apply (D k); auto. right; auto.
    + (* another child *)
      destruct (pchild_nonrec x Hx R) as [Rx Ox].
      assert (Cl : exists y, classify uid laddr rest m mult (x :: cs) = classify uid laddr (add_child rest y) m mult cs /\
                   rfp y /\ ok y /\ (match x with NNeg _ => False | _ => True end -> y = x)).
      { destruct x as [| | | |a| |]; try discriminate; try (eexists; split; [reflexivity|]; auto; fail).
        destruct Hx as [_ [i ->]]. exists (NUnknown i). split; [reflexivity|]. split; [split; cbn; auto; constructor|]. split; [exact I|]. intros []. }
      destruct Cl as (y & -> & Ry & Oy & Ey).
      destruct (IH (add_child rest y) m mult Mok) as (rest' & m' & mult' & E & A1 & A2 & A3 & A4 & A5 & A6 & A7 & A8 & A9).
      { apply Forall_add_child. auto. }
      assert (LO : loop_of x = []) by (destruct x; auto; discriminate).
      exists rest', m', mult'. split; auto. split; auto. split; auto.
      split; [rewrite A3, (Permutation_length (add_child_perm uid rest y)); cbn [nonrecs filter]; rewrite R; cbn [negb length]; fold (nonrecs cs); lia|].
      split; [intros NN; inversion NN; subst; intros; rewrite A4, sumv_add_child, Ey; auto; cbn [nonrecs filter]; rewrite R; cbn [negb]; simpl; fold (nonrecs cs); lia|].
      split; [intros; rewrite A5; unfold rsum; cbn [filter]; rewrite R; lia|].
      split; [intros; rewrite A6; destruct x; try discriminate; reflexivity|].
      cbn [loops flat_map]. rewrite LO. cbn [app]. fold (loops cs). auto.
Qed.

(** The fold of each loop. *)
Definition rec_for (e : N * list rec_entry) (r : node) : Prop :=
  exists so sc, r = NRec (fst e) so sc /\ rfp so /\ rfp sc /\ ok r /\
    (forall env it, val env it so = esum env it (snd e)) /\ (forall env it, val env it sc = ecoef env it (snd e)).
Lemma fold_loops_spec simp m : simp_ok simp -> Forall (fun '(_, es) => Forall entry_ok es) m ->
  (forall l es, In (l, es) m -> exists env it, ecoef env it es <> 0) ->
  forall cs, exists nr cs', fold_loops uid simp cs m = SOk (inr cs') /\ Forall2 rec_for m nr /\ Permutation cs' (nr ++ cs).
Proof. clear laddr addr.
  intros HS F. induction F as [|[l es] m He _ IH]; intros NZ cs; cbn [fold_loops].
  - exists [], cs. auto.
  - assert (Ec : Forall (fun x => rfp x /\ ok x) (map (fun '(_, c, b) => neg_if b c) es)).
    { rewrite Forall_map. eapply Forall_impl; [|exact He]. intros [[o c] b] (A & B & C & D & ->). cbn. auto. }
    assert (Eo : Forall (fun x => rfp x /\ ok x) (map (fun '(o, _, b) => neg_if b o) es)).
    { rewrite Forall_map. eapply Forall_impl; [|exact He]. intros [[o c] b] (A & B & C & D & ->). cbn. auto. }
    assert (Vc : forall env it, sumv env it (map (fun '(_, c, b) => neg_if b c) es) = ecoef env it es).
    { intros. clear - He. induction He as [|[[o c] b] es (A & B & C & D & ->) _ IH]; simpl; auto. rewrite IH; auto. }
    assert (Vo : forall env it, sumv env it (map (fun '(o, _, b) => neg_if b o) es) = esum env it es).
    { intros. clear - He. induction He as [|[[o c] b] es (A & B & C & D & ->) _ IH]; simpl; auto. rewrite IH; auto. }
    assert (G : forall xs, Forall (fun x => rfp x /\ ok x) xs ->
      exists y, simp (NAdd (add_children [] xs)) = SOk y /\ rfp y /\ ok y /\ forall env it, val env it y = sumv env it xs).
    { intros xs Fx. destruct (HS (NAdd (add_children [] xs))) as (y & Sy & Ry & Oy & Vy).
      - apply rfp_add, Forall_add_children. split; auto. eapply Forall_impl; [|exact Fx]. intros ? []; auto.
      - apply ok_add, Forall_add_children. split; auto. eapply Forall_impl; [|exact Fx]. intros ? []; auto.
      - exists y. split; auto. split; auto. split; auto. intros. rewrite <- Vy, val_add, sumv_add_children. simpl. lia. }
    destruct (G _ Ec) as (sc & S1 & R1 & O1 & V1). destruct (G _ Eo) as (so & S2 & R2 & O2 & V2).
    rewrite S1. cbn [sbind]. rewrite S2. cbn [sbind].
    assert (NC : sc <> NConst 0).
    { intros ->. destruct (NZ l es (or_introl eq_refl)) as (env & it & C). apply C. rewrite <- Vc, <- V1. reflexivity. }
    assert (NM : forall (A : Type) (a b : A), match sc with NConst 0 => a | _ => b end = b).
    { intros. destruct sc; auto. destruct v; auto. congruence. }
    rewrite NM.
    destruct (IH (fun l0 es0 J => NZ l0 es0 (or_intror J)) (add_child cs (NRec l so sc))) as (nr & cs' & Fo & Fr & Pm).
    exists (NRec l so sc :: nr), cs'. split; auto. split.
    + constructor; auto. exists so, sc. cbn [fst snd]. split; auto. split; auto. split; auto. split; [split; auto|].
      split; intros; [rewrite V2, Vo | rewrite V1, Vc]; auto.
    + rewrite Pm, add_child_perm, <- Permutation_middle. auto.
Qed.
End Order.
