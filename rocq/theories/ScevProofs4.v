(** Proofs about the scalar evolution expressions, continued: the whole simplification, division
    and signs. *)
From Verif Require Import Base Scev ScevSpec ScevProofs ScevProofs2 ScevProofs3.
From Coq Require Import Permutation.
Local Open Scope Z_scope.

Set Default Proof Using "Type".
Section Order.
Variables (uid addr : node -> N) (laddr : N -> N).
Notation add_child := (add_child uid).
Notation add_children := (add_children uid).

Lemma last_rec_some cs : (exists x, In x cs /\ is_rec x = true) -> exists r, last_rec cs = Some r /\ In r cs /\ is_rec r = true.
Proof. clear uid addr laddr.
  unfold last_rec.
  assert (G : forall f, (exists x, In x cs /\ is_rec x = true) \/ (exists r, f = Some r /\ is_rec r = true) ->
    exists r, fold_left (fun found c => if is_rec c then Some c else found) cs f = Some r /\ (In r cs \/ f = Some r) /\ is_rec r = true).
  { induction cs as [|c cs IH]; intros f H; cbn [fold_left].
    - destruct H as [(x & [] & _) | (r & -> & R)]. exists r; auto.
    - destruct (is_rec c) eqn:Rc.
      + destruct (IH (Some c)) as (r & E & J & R); [right; exists c; auto|].
        exists r. split; auto. split; auto. destruct J as [J|J]; [left; right; auto|]. injection J as <-. left; left; auto.
      + destruct (IH f) as (r & E & J & R).
        * destruct H as [(x & [->|J] & Rx) | H]; [congruence | left; exists x; auto | auto].
        * exists r. split; auto. split; auto. destruct J; auto. left; right; auto. }
  intros H. destruct (G None (or_introl H)) as (r & E & [J|J] & R); [|discriminate]. exists r; auto.
Qed.
Lemma last_rec_inv cs r : last_rec cs = Some r -> In r cs /\ is_rec r = true.
Proof. clear uid addr laddr.
  intros E. destruct (existsb is_rec cs) eqn:X.
  - apply existsb_exists in X. destruct (last_rec_some cs X) as (r' & E' & J). rewrite E in E'. injection E' as <-. auto.
  - rewrite last_rec_none in E; [discriminate|]. rewrite Forall_forall. intros x J.
    destruct (is_rec x) eqn:Rx; auto. assert (existsb is_rec cs = true) by (apply existsb_exists; eauto). congruence.
Qed.

Lemma recs_list cs : Forall pchild cs -> flat_map recs cs = filter is_rec cs.
Proof. clear uid addr laddr.
  induction 1 as [|x cs Hx _ IH]; simpl; auto. rewrite IH. destruct (is_rec x) eqn:R.
  - destruct x; try discriminate. destruct Hx as [_ [[R1 _] [R2 _]]]. cbn [recs]. rewrite !rec_free_recs; auto.
  - rewrite rec_free_recs; auto. apply (pchild_nonrec x Hx R).
Qed.

Lemma is_zero_const c : is_const_zero c = true -> c = NConst 0.
Proof. destruct c; try discriminate. destruct v; try discriminate. auto. Qed.
Lemma no_zero cs : (forall l o c, In (NRec l o c) cs -> c <> NConst 0) -> existsb is_zero_rec cs = false.
Proof. clear uid addr laddr.
  intros H. destruct (existsb is_zero_rec cs) eqn:E; auto. apply existsb_exists in E. destruct E as (x & J & Z0).
  destruct x; try discriminate. apply is_zero_const in Z0. subst. exfalso. apply (H _ _ _ J); auto.
Qed.

Lemma simplify_recurrent_spec simp cs l so sc : simp_ok simp -> Forall pchild cs -> rfp so -> ok so -> ok sc ->
  exists m, simplify_recurrent uid simp cs l so sc = SOk m /\ ok m /\
    forall env it, val env it m = val env it so + sumv env it (nonrecs cs) + val env it sc * it l.
Proof. clear laddr addr.
  intros HS F Rso Oso Osc. unfold simplify_recurrent. fold (nonrecs cs).
  pose proof (nonrecs_good cs F) as Fn.
  destruct (HS (NAdd (add_children [so] (nonrecs cs)))) as (y & Sy & Ry & Oy & Vy).
  - apply rfp_add, Forall_add_children. split; auto. eapply Forall_impl; [|exact Fn]. intros ? []; auto.
  - apply ok_add, Forall_add_children. split; auto. eapply Forall_impl; [|exact Fn]. intros ? []; auto.
  - rewrite Sy. cbn [sbind]. exists (NRec l y sc). split.
    + destruct y; auto. destruct Oy.
    + split; [split; auto|]. intros. cbn [val]. rewrite <- Vy, val_add, sumv_add_children. simpl. lia.
Qed.

(** The steps after the polynomial, on a sum of two or more. *)
Lemma finish_sum simp cs : simp_ok simp -> Forall pchild cs -> (2 <= length cs)%nat ->
  (forall l, In l (loops cs) -> exists env it, coefsum env it l cs <> 0) ->
  (no_neg cs \/ NoDup (loops cs) \/ (forall k l, In k (loops cs) -> In l (loops cs) -> k = l)) ->
  exists m, finish uid laddr simp (NAdd cs) = SOk m /\ ok m /\ forall env it, val env it m = sumv env it cs.
Proof. clear addr.
  intros HS F Len NZ Neg. unfold finish, fold_recurrent. cbn [children].
  destruct (classify_spec uid laddr cs F [] [] false) as (rest & m & mult & E & M & Rr & Ln & Vr & Vm & Cm & Km & Mf & Mt).
  { split; constructor. } { constructor. }
  rewrite E. destruct mult; cbn [negb].
  - (* folded *)
    assert (NZm : forall l es, In (l, es) m -> exists env it, ecoef env it es <> 0).
    { intros l es J. destruct (NZ l) as (env & it & C).
      - destruct (proj1 (Km l)) as [[]|]; auto. apply in_map_iff. exists (l, es). auto.
      - exists env, it. intros C0. apply C. replace (coefsum env it l cs) with (mcoef env it l m) by (rewrite Cm; simpl; lia).
        clear - C0 J M. destruct M as [ND _]. unfold mcoef. induction m as [|[k x] m IH]; [destruct J|].
        cbn [fold_right]. inversion ND; subst. destruct J as [J | J].
        + injection J as -> ->. rewrite N.eqb_refl, C0.
          assert (Z0 : forall m, ~ In l (map fst m) -> fold_right (fun '(k, es) s => if N.eqb k l then ecoef env it es + s else s) 0 m = 0).
          { clear. induction m as [|[k x] m IH]; auto. simpl. intros N0. replace (N.eqb k l) with false; [apply IH; tauto|].
            symmetry. apply N.eqb_neq. tauto. }
          rewrite Z0; auto.
        + replace (N.eqb k l) with false; [apply IH; auto|]. symmetry. apply N.eqb_neq. intros ->. apply H1.
          apply in_map_iff. exists (l, es). auto. }
    destruct (fold_loops_spec uid simp m HS (proj2 M) NZm rest) as (nr & cs' & Fo & Fr & Pm).
    rewrite Fo. cbn [sbind].
    assert (Vn : forall env it, sumv env it nr = rsum env it cs).
    { intros env it. replace (rsum env it cs) with (mval env it m) by (rewrite Vm; simpl; lia).
      clear - Fr. unfold mval. induction Fr as [|[l es] r m nr (so & sc & -> & _ & _ & _ & V1 & V2) _ IH]; cbn [sumv fold_right]; auto.
      unfold sumv in IH. rewrite IH. cbn [val fst snd] in *. rewrite V1, V2. lia. }
    assert (Fnr : Forall (fun r => pchild r /\ is_rec r = true) nr).
    { eapply Forall2_right; [exact Fr|]. intros a b _ (so & sc & -> & R1 & R2 & O & _). split; auto. split; auto. }
    assert (Fc' : Forall pchild cs').
    { eapply Forall_perm; [apply Permutation_sym, Pm|]. apply Forall_app. split.
      - eapply Forall_impl; [|exact Fnr]. intros ? []; auto.
      - clear - Rr E F. revert Rr. intros Rr.
        assert (X : Forall (fun x => match x with NNeg _ => False | _ => True end \/ exists i, x = NNeg (NUnknown i)) rest).
        { assert (G : forall cs rest m b rest' m' b', classify uid laddr rest m b cs = (rest', m', b') -> Forall pchild cs ->
             Forall (fun x => match x with NNeg _ => False | _ => True end \/ exists i, x = NNeg (NUnknown i)) rest ->
             Forall (fun x => match x with NNeg _ => False | _ => True end \/ exists i, x = NNeg (NUnknown i)) rest').
          { clear. induction cs as [|x cs IH]; intros rest m b rest' m' b' E F Fr; cbn [classify] in E.
            - injection E as <- <- <-. auto.
            - inversion F as [|? ? Hx Hcs]; subst.
              destruct x as [v|l o c|ds|a b0|a|i|];
                try (eapply IH; [exact E | auto |]; apply Forall_add_child; split; auto; fail).
              + destruct (has_loop m l); eapply IH; eauto.
              + destruct Hx as [_ [i ->]]. eapply IH; [exact E | auto |]. apply Forall_add_child; split; auto. }
          apply (G _ _ _ _ _ _ _ E F). constructor. }
        rewrite Forall_forall in *. intros x J. destruct (Rr x J) as [R O]. split; auto.
        destruct (X x J) as [Y | [i ->]]; [|eauto]. destruct x; auto; try tauto. destruct R as [[] _]. }
    assert (NRin : forall e, In e m -> exists r, In r nr /\ rec_for e r).
    { clear - Fr. induction Fr; intros e0 J; [destruct J|]. destruct J as [<- | J]; [eexists; split; [left; reflexivity|auto]|].
      destruct (IHFr e0 J) as (r & J1 & J2). exists r. split; auto. right; auto. }
    assert (NRfrom : forall r, In r nr -> exists e, In e m /\ rec_for e r).
    { clear - Fr. induction Fr; intros r0 J; [destruct J|]. destruct J as [<- | J]; [eexists; split; [left; reflexivity|auto]|].
      destruct (IHFr r0 J) as (r & J1 & J2). exists r. split; auto. right; auto. }
    assert (NZc : forall l o c, In (NRec l o c) cs' -> c <> NConst 0).
    { intros l o c J ->. apply (Permutation_in _ Pm) in J. apply in_app_or in J. destruct J as [J | J].
      - destruct (NRfrom _ J) as ([l' es] & J1 & (so & sc & Eq & _ & _ & _ & _ & V2)). injection Eq as <- <- <-.
        destruct (NZm _ _ J1) as (env & it & C). apply C. cbn [snd] in V2. rewrite <- (V2 env it). reflexivity.
      - rewrite Forall_forall in Rr. destruct (Rr _ J) as [[[] _] _]. }
    assert (Restrec : filter is_rec rest = []).
    { clear - Rr. induction Rr as [|x r [[R _] _] _ IH]; simpl; auto. rewrite (rec_free_not_rec x R). auto. }
    assert (Mne : m <> []).
    { intros ->. assert (mult_false : true = false); [|discriminate]. apply Mt; auto.
      - assert (loops cs = []) as ->; [|constructor]. destruct (loops cs) as [|k ks] eqn:EL; auto.
        destruct (proj2 (Km k) (or_intror (or_introl eq_refl))). }
    destruct m as [|[l es] m']; [congruence|].
    inversion Fr as [|a0 r b0 nr' Hr Fr' Eqm Eqnr]. subst a0 b0 nr.
    destruct Hr as (so & sc & Er & Rso & Rsc & Or & Vso & Vsc). cbn [fst snd] in *.
    destruct m' as [|[l2 es2] m''].
    + (* one loop *)
      inversion Fr'; subst nr'. subst r. cbn [app] in Pm.
      destruct rest as [|z0 rest].
      * apply Permutation_sym, Permutation_length_1_inv in Pm. subst cs'. cbv beta iota zeta. cbn [sbind]. cbv zeta. cbn [eliminate_zero children].
        rewrite last_rec_none.
        2:{ apply Forall_add_children. split; [|constructor]. constructor; [|constructor; [|constructor]]; apply rec_free_not_rec; [apply Rso | apply Rsc]. }
        exists (NRec l so sc). split; [reflexivity|]. split; [exact Or|]. intros env it. specialize (Vn env it). rewrite (sumv_split env it cs).
        destruct (nonrecs cs); [|cbn in Ln; discriminate]. rewrite <- Vn. simpl. lia.
      * assert (Lc : (2 <= length cs')%nat) by (rewrite (Permutation_length Pm); simpl; lia).
        destruct cs' as [|c1 [|c2 cs']]; [simpl in Lc; lia|simpl in Lc; lia|]. set (cs'' := c1 :: c2 :: cs') in *.
        change (match cs'' with | [] => _ | _ => _ end) with (@SOk node (NAdd cs'')).
        cbv beta iota. cbn [sbind]. cbn [eliminate_zero]. rewrite (no_zero cs'' NZc). cbn [children].
        destruct (last_rec_some cs'') as (r & El & Jr & Rr').
        { exists (NRec l so sc). split; auto. apply (Permutation_in _ (Permutation_sym Pm)). left; auto. }
        assert (Fil : Permutation (filter is_rec cs'') [NRec l so sc]).
        { assert (PF : forall a b, Permutation a b -> Permutation (filter is_rec a) (filter is_rec b)).
          { clear. induction 1; simpl; auto; repeat (destruct (is_rec _)); auto; try (rewrite IHPermutation; auto). apply perm_swap. eapply perm_trans; eauto. }
          rewrite (PF _ _ Pm). cbn [filter is_rec]. cbn [filter] in Restrec. rewrite Restrec. auto. }
        apply Permutation_sym, Permutation_length_1_inv in Fil.
        assert (r = NRec l so sc).
        { assert (In r (filter is_rec cs'')) by (apply filter_In; auto). rewrite Fil in H. destruct H as [|[]]; auto. }
        subst r. rewrite El. cbn [recs]. rewrite recs_list by auto. rewrite Fil. cbn [forallb]. rewrite node_eqb_refl. cbn [andb].
        destruct (simplify_recurrent_spec simp cs l so sc HS F Rso (proj1 Or) (proj2 Or)) as (y & Sy & Oy & Vy).
        exists y. split; auto. split; auto. intros env it. rewrite Vy, (sumv_split env it cs), <- Vn. simpl. lia.
    + (* two loops *)
      inversion Fr' as [|a0 r2 b0 nr'' Hr2 Fr'' Eqm2 Eqnr2]. subst a0 b0 nr'.
      destruct Hr2 as (so2 & sc2 & Er2 & _). cbn [fst snd] in *.
      assert (Lc : (2 <= length cs')%nat) by (rewrite (Permutation_length Pm), app_length; simpl; lia).
      destruct cs' as [|c1 [|c2 cs']]; [simpl in Lc; lia|simpl in Lc; lia|]. set (cs'' := c1 :: c2 :: cs') in *.
      change (match cs'' with | [] => _ | _ => _ end) with (@SOk node (NAdd cs'')).
      cbv beta iota. cbn [sbind]. cbn [eliminate_zero]. rewrite (no_zero cs'' NZc). cbn [children].
      assert (ND2 : l <> l2).
      { destruct M as [ND _]. cbn [map fst] in ND. inversion ND; subst. intros ->. apply H1. left; auto. }
      assert (J1 : In r cs'') by (apply (Permutation_in _ (Permutation_sym Pm)); left; auto).
      assert (J2 : In r2 cs'') by (apply (Permutation_in _ (Permutation_sym Pm)); right; left; auto).
      assert (NoDup (loops cs) -> False).
      { intros ND. assert (true = false); [|discriminate]. apply Mt; auto. }
      assert (Vc : forall env it, sumv env it cs'' = sumv env it cs).
      { intros env it. rewrite (sumv_perm _ _ _ _ Pm), sumv_app, Vn, (sumv_split env it cs).
        destruct Neg as [Neg | [Neg | Neg]].
        - rewrite (Vr Neg). simpl. lia.
        - tauto.
        - exfalso. apply ND2. apply Neg.
          + destruct (proj1 (Km l)) as [[]|]; [left; auto | auto].
          + destruct (proj1 (Km l2)) as [[]|]; [right; left; auto | auto]. }
      assert (Oc : ok (NAdd cs'')).
      { apply ok_add. eapply Forall_impl; [|exact Fc']. intros ? []; auto. }
      destruct (last_rec_some cs'') as (w & El & Jw & Rw).
      { exists r. split; auto. subst r. auto. }
      rewrite El. replace (forallb (fun x => node_eqb w x) (recs (NAdd cs''))) with false.
      * exists (NAdd cs''). split; auto.
      * symmetry. apply not_true_is_false. intros A. rewrite forallb_forall in A.
        cbn [recs] in A. rewrite recs_list in A by auto.
        assert (w = r) by (apply node_eqb_eq, A, filter_In; subst r; auto).
        assert (w = r2) by (apply node_eqb_eq, A, filter_In; subst r2; auto). congruence.
  - (* not folded *)
    cbn [sbind]. destruct (Mf eq_refl) as (_ & ND & _).
    cbn [eliminate_zero].
    assert (NZc : forall l o c, In (NRec l o c) cs -> c <> NConst 0).
    { intros l o c J ->. destruct (NZ l) as (env & it & C).
      - apply in_flat_map. exists (NRec l o (NConst 0)). split; auto. left; auto.
      - apply C. rewrite (coefsum_single env it l o (NConst 0) cs ND J). reflexivity. }
    rewrite (no_zero cs NZc). cbn [children].
    assert (Oc : ok (NAdd cs)) by (apply ok_add; eapply Forall_impl; [|exact F]; intros ? []; auto).
    destruct (last_rec cs) as [r|] eqn:El; [|exists (NAdd cs); auto].
    apply last_rec_inv in El. destruct El as [Jr Rr'].
    destruct (forallb (fun x => node_eqb r x) (recs (NAdd cs))) eqn:A; [|exists (NAdd cs); auto].
    cbn [recs] in A. rewrite recs_list in A by auto. rewrite forallb_forall in A.
    destruct r as [|l o c| | | | |]; try discriminate.
    assert (Pr : pchild (NRec l o c)) by (rewrite Forall_forall in F; apply F; auto).
    destruct Pr as [[Oo Occ] [Ro Rc]].
    destruct (simplify_recurrent_spec simp cs l o c HS F Ro Oo Occ) as (y & Sy & Oy & Vy).
    exists y. split; auto. split; auto. intros env it. rewrite Vy, (sumv_split env it cs).
    assert (filter is_rec cs = [NRec l o c]).
    { assert (In (NRec l o c) (filter is_rec cs)) by (apply filter_In; auto).
      assert (All : forall x, In x (filter is_rec cs) -> x = NRec l o c) by (intros x J; symmetry; apply node_eqb_eq, A; auto).
      assert (NDf : NoDup (loops (filter is_rec cs))).
      { replace (loops (filter is_rec cs)) with (loops cs); auto. clear. induction cs as [|x cs IH]; auto. simpl.
        cbn [loops flat_map]. fold (loops cs). rewrite IH. destruct x; auto. }
      destruct (filter is_rec cs) as [|x [|x' ds]]; [destruct H | f_equal; apply All; left; auto|].
      rewrite (All x (or_introl eq_refl)), (All x' (or_intror (or_introl eq_refl))) in NDf. cbn in NDf. inversion NDf; subst.
      exfalso. apply H2. left; auto. }
    unfold rsum. rewrite H. simpl. lia.
Qed.
End Order.
