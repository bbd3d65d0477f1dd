(** Proofs about the scalar evolution expressions, continued: the whole simplification, division
    and signs. *)
From Verif Require Import Base Scev ScevSpec ScevProofs ScevProofs2 ScevProofs3 ScevProofs4.
From Coq Require Import Permutation.
Local Open Scope Z_scope.

Lemma net_in n t : net n t <> 0 -> exists k, In (t, k) (terms n).
Proof.
  unfold net. induction (terms n) as [|[u v] ts IH]; simpl; [lia|].
  destruct (node_eqb u t) eqn:E.
  - apply node_eqb_eq in E. subst u. intros _. exists v. auto.
  - intros H. destruct IH as [k J]; [lia|]. exists k; auto.
Qed.
Lemma simple_positive n : simple_sum n -> positive n.
Proof.
  intros S0. unfold positive. rewrite Forall_forall. intros [p b] J. apply (ss_products n S0 p b J).
Qed.
Lemma simple_goods n : simple_sum n -> goods n.
Proof.
  intros S0 t J. apply in_map_iff in J. destruct J as ([u v] & <- & J). cbn [fst].
  pose proof (proj1 (computable_ok n) (ss_computable n S0)) as O.
  pose proof (terms_ok _ _ _ O J) as Ot. apply terms_are_terms in J.
  unfold ge. destruct u; try discriminate; [|auto]. split; auto.
  destruct (Z.eq_dec (net n (NRec loop u1 u2)) 0) as [|NZ]; auto. right.
  destruct (ss_recs n S0 _ _ _ NZ) as (L & R & P). split; auto. split.
  - split; auto. unfold positive. rewrite Forall_forall. intros [p b] Jp. apply (P p b Jp).
  - apply (ss_offsets n S0 _ _ _ NZ).
Qed.

Set Default Proof Using "Type".
Section Order.
Variables (uid addr : node -> N) (laddr : N -> N).

Lemma nodup_image {A B} (f : A -> B) l : NoDup l -> (forall x y, In x l -> In y l -> f x = f y -> x = y) -> NoDup (map f l).
Proof. clear uid addr laddr.
  induction 1 as [|x l Nx ND IH]; intros Inj; simpl; constructor.
  - intros J. apply in_map_iff in J. destruct J as (y & E & J). apply Inj in E; [subst; auto | right; auto | left; auto].
  - apply IH. intros. apply Inj; auto; right; auto.
Qed.
Lemma perm_loops a b : Permutation a b -> Permutation (loops a) (loops b).
Proof. clear uid addr laddr.
  unfold loops. induction 1; simpl; auto.
  - apply Permutation_app_head; auto.
  - rewrite !app_assoc. apply Permutation_app_tail, Permutation_app_comm.
  - eapply perm_trans; eauto.
Qed.
Lemma img_loops ts rs : Forall2 img ts rs -> loops rs = loops (map fst ts).
Proof. clear uid addr laddr.
  induction 1 as [|[t k] r ts rs (O & V & M) _ IH]; auto. cbn [loops flat_map map fst]. fold (loops rs). fold (loops (map fst ts)). rewrite IH. f_equal.
  destruct t; try tauto.
  - destruct M as (o' & c' & -> & _). auto.
  - destruct M as [-> | [[_ ->] | [-> | ->]]]; auto.
Qed.
Lemma img_in ts rs r : Forall2 img ts rs -> In r rs -> exists e, In e ts /\ img e r.
Proof. clear uid addr laddr. induction 1; intros J; [destruct J|]. destruct J as [<- | J]; [exists x; split; auto; left; auto|].
  destruct (IHForall2 J) as (e & J1 & J2). exists e. split; auto. right; auto. Qed.

Theorem simplify_simple_sum fuel n : simple_sum n ->
  exists m, simplify uid addr laddr (S (S fuel)) n = SOk m /\ ok m /\ same_val n m.
Proof.
  intros S0. pose proof (proj1 (computable_ok n) (ss_computable n S0)) as O.
  change (simplify uid addr laddr (S (S fuel)) n) with (simplify_step uid addr laddr (simplify uid addr laddr (S fuel)) n).
  set (simp := simplify uid addr laddr (S fuel)).
  assert (HS : simp_ok simp) by apply simplify_simp_ok.
  rewrite step_finish. destruct (handled n); [|exists n; split; auto; split; auto; intros ? ?; auto].
  destruct (simplify_polynomial_spec uid addr simp n O (simple_positive n S0) (simple_goods n S0) (fun _ => HS))
    as (ts & rs & ps & k & cs & S1 & ND & Hts & F & Hps & Pm & V).
  rewrite S1. cbn [sbind].
  assert (Hnet : forall t v, In (t, v) (filter nonzero ts) -> v = net n t /\ net n t <> 0).
  { intros t v J. apply filter_In in J. destruct J as [J Z0]. destruct (Hts t v J) as [_ ->]. split; auto.
    unfold nonzero in Z0. cbn [snd] in Z0. lia. }
  assert (Hps' : forall p, In p ps -> rfp p /\ ok p /\ exists x y, p = NMul x y).
  { intros p J. destruct (Hps p J) as [b Jb]. destruct (ss_products n S0 p b Jb) as [Rp _].
    destruct (products_are_products _ _ _ Jb) as (x & y & -> & E). split; [split; auto|].
    - unfold positive. cbn [products]. rewrite E. repeat constructor.
    - split; [eapply products_ok; eauto | eauto]. }
  assert (Prs : Forall pchild rs).
  { eapply Forall2_right; [exact F|]. intros [t v] r J (Or & Vr & M). split; auto. destruct t; try tauto.
    - destruct M as (o' & c' & -> & R1 & R2). auto.
    - destruct M as [-> | [[_ ->] | [-> | ->]]].
      + split; [exact I | constructor].
      + eauto.
      + split; [cbn; auto | constructor].
      + split; [cbn; auto | constructor]. }
  assert (Fcs : Forall pchild cs).
  { eapply Forall_perm; [apply Permutation_sym, Pm|]. rewrite !Forall_app. split; auto. split.
    - unfold const_part. destruct (Z.eqb k 0); constructor; [|constructor]. split; [exact I|]. split; [exact I | constructor].
    - rewrite Forall_forall. intros p J. destruct (Hps' p J) as (R & Op & x & y & ->). split; auto. }
  assert (Lcs : Permutation (loops cs) (loops (map fst (filter nonzero ts)))).
  { rewrite (perm_loops _ _ Pm). unfold loops. rewrite !flat_map_app. fold (loops rs). rewrite (img_loops _ _ F).
    replace (flat_map loop_of (const_part k)) with (@nil N) by (unfold const_part; destruct (Z.eqb k 0); auto).
    replace (flat_map loop_of ps) with (@nil N).
    - simpl. rewrite app_nil_r. auto.
    - symmetry. apply flat_nil. rewrite Forall_forall. intros p J. destruct (Hps' p J) as (_ & _ & x & y & ->). auto. }
  assert (Lin : forall l, In l (loops cs) -> exists o c, net n (NRec l o c) <> 0).
  { intros l J. apply (Permutation_in _ Lcs) in J. apply in_flat_map in J. destruct J as (t & J & L).
    destruct t; try (destruct L; fail). destruct L as [<-|[]]. apply in_map_iff in J. destruct J as ([u v] & E & J). cbn [fst] in E. subst u.
    exists t1, t2. apply (Hnet _ _ J). }
  assert (Fin : forall P : node -> Prop, True) by auto.
  destruct cs as [|c1 [|c2 cs']].
  - exists (NConst 0). unfold poly_of. rewrite finish_quiet by (left; exact I). split; auto. split; [exact I|]. intros env it. rewrite <- V. auto.
  - exists c1. unfold poly_of. inversion Fcs as [|? ? [O1 P1] _]; subst. rewrite finish_quiet.
    + split; auto. split; auto. intros env it. rewrite <- V. simpl. lia.
    + destruct (is_rec c1) eqn:R.
      * destruct c1; try discriminate. right. exists loop, c1_1, c1_2. destruct P1 as [[] []]. auto.
      * left. apply (pchild_nonrec c1); auto. split; auto.
  - set (cs := c1 :: c2 :: cs') in *. change (poly_of cs) with (NAdd cs).
    destruct (finish_sum uid laddr simp cs HS Fcs) as (m & Fi & Om & Vm).
    + simpl. lia.
    + intros l J. destruct (Lin l J) as (o & c & NZ).
      destruct (ss_varies n S0 l o c NZ) as (env & it & it' & v & v' & D & V1 & V2 & NE).
      exists env, it. apply (coefsum_nonzero env it it' l cs Fcs D). rewrite !V.
      apply value_of_val in V1, V2. destruct V1 as [_ ->], V2 as [_ ->]. auto.
    + destruct (existsb (fun x => match x with NNeg _ => true | _ => false end) cs) eqn:EN.
      * right. apply existsb_exists in EN. destruct EN as (x & J & X). destruct x as [| | | |a| |]; try discriminate.
        assert (Jr : In (NNeg a) rs).
        { apply (Permutation_in _ Pm) in J. apply in_app_or in J. destruct J as [|J]; auto. exfalso.
          apply in_app_or in J. destruct J as [J|J].
          - unfold const_part in J. destruct (Z.eqb k 0); [destruct J | destruct J as [E|[]]; discriminate].
          - destruct (Hps' _ J) as (_ & _ & x & y & E). discriminate. }
        destruct (img_in _ _ _ F Jr) as ([t v] & Jt & _ & _ & M).
        destruct t; try tauto.
        { destruct M as (o' & c' & E & _). discriminate. }
        destruct M as [E | [[E1 E] | [E | E]]]; try discriminate. injection E as ->. subst v.
        destruct (Hnet _ _ Jt) as [Hn _].
        destruct (ss_subtracted n S0 id (eq_sym Hn)) as [One | Each].
        -- right. intros x l J1 J2. destruct (Lin x J1) as (o & c & N1). destruct (Lin l J2) as (o' & c' & N2). eapply One; eauto.
        -- left. eapply Permutation_NoDup; [apply Permutation_sym, Lcs|].
           assert (NDf : NoDup (filter is_rec (map fst (filter nonzero ts)))).
           { apply NoDup_filter. clear - ND. induction ts as [|[t v] ts IH]; simpl; [constructor|].
             inversion ND; subst. destruct (nonzero (t, v)); simpl; auto. constructor; auto.
             intros J. apply H1. apply in_map_iff in J. destruct J as ([u w] & <- & J). apply filter_In in J.
             apply in_map_iff. exists (u, w). tauto. }
           replace (loops (map fst (filter nonzero ts))) with (map (fun t => match t with NRec l _ _ => l | _ => 0%N end) (filter is_rec (map fst (filter nonzero ts)))).
           2:{ clear. induction (map fst (filter nonzero ts)) as [|t l IH]; auto. cbn [filter loops flat_map]. fold (loops l). rewrite <- IH. destruct t; auto. }
           apply nodup_image; auto. intros x y Jx Jy E.
           apply filter_In in Jx, Jy. destruct Jx as [Jx Rx], Jy as [Jy Ry].
           destruct x as [|l o c| | | | |]; try discriminate. destruct y as [|l' o' c'| | | | |]; try discriminate. subst l'.
           apply in_map_iff in Jx, Jy. destruct Jx as ([u w] & E1 & Jx), Jy as ([u' w'] & E2 & Jy). cbn [fst] in E1, E2. subst u u'.
           destruct (Each l o c o' c' (proj2 (Hnet _ _ Jx)) (proj2 (Hnet _ _ Jy))) as [-> ->]. auto.
      * left. unfold no_neg. rewrite Forall_forall. intros x J. destruct x as [| | | |a| |]; auto.
        assert (existsb (fun x => match x with NNeg _ => true | _ => false end) cs = true) by (apply existsb_exists; exists (NNeg a); auto). congruence.
    + exists m. split; auto. split; auto. intros env it. rewrite Vm, V. auto.
Qed.

Theorem simplify_no_recurrence fuel n : computable n -> rec_free n -> (forall p b, In (p, b) (products n) -> b = false) ->
  exists m, simplify uid addr laddr (S fuel) n = SOk m /\ ok m /\ same_val n m.
Proof.
  intros C R P. destruct (simplify_rec_free uid addr laddr (simplify uid addr laddr fuel) n) as (m & E & _ & O & V).
  - split; auto. unfold positive. rewrite Forall_forall. intros [p b] J. eapply P; eauto.
  - apply computable_ok; auto.
  - exists m. auto.
Qed.

(** * Division *)
(** The product with the factor at the left end of the chain, or a direct factor. *)
Fixpoint left_factor (mul x : node) : Prop :=
  match mul with
  | NMul a b => a = x \/ b = x \/ left_factor a x
  | _ => False
  end.
Fixpoint factors (n : node) : list node :=
  match n with NMul a b => n :: factors a ++ factors b | _ => [n] end.
Lemma remove_one_absent mul x : ~ In x (factors mul) -> remove_one uid mul x = mul.
Proof.
  induction mul using node_ind'; intros N0; try reflexivity. cbn [remove_one]. cbn [factors] in N0.
  assert (mul1 <> x). { intros ->. apply N0. right. apply in_or_app. left. destruct x; simpl; auto. }
  assert (mul2 <> x). { intros ->. apply N0. right. apply in_or_app. right. destruct x; simpl; auto. }
  rewrite (proj2 (node_eqb_neq mul1 x)), (proj2 (node_eqb_neq mul2 x)); auto.
  rewrite IHmul1, IHmul2; try (intros J; apply N0; right; apply in_or_app; auto; fail).
  rewrite !node_eqb_refl. destruct mul1, mul2; auto.
Qed.

Fixpoint size (n : node) : nat :=
  match n with NMul a b => S (size a + size b) | _ => 1%nat end.
Lemma remove_one_value mul x env it : ok mul -> left_factor mul x ->
  ok (remove_one uid mul x) /\ val env it mul = val env it (remove_one uid mul x) * val env it x.
Proof. clear laddr addr.
  induction mul using node_ind'; intros O L; try (destruct L; fail). cbn [remove_one]. destruct O as [O1 O2].
  destruct (node_eqb mul1 x) eqn:E1.
  { apply node_eqb_eq in E1. subst x. split; auto. cbn [val]. lia. }
  destruct (node_eqb mul2 x) eqn:E2.
  { apply node_eqb_eq in E2. subst x. split; auto. }
  apply node_eqb_neq in E1, E2. destruct L as [|[|L]]; try congruence.
  destruct (IHmul1 O1 L) as [O3 V].
  destruct mul1; try (destruct L; fail).
  destruct (node_eqb (remove_one uid (NMul mul1_1 mul1_2) x) (NMul mul1_1 mul1_2)) eqn:E3.
  - exfalso. apply node_eqb_eq in E3.
    assert (G : forall m, left_factor m x -> (size (remove_one uid m x) < size m)%nat).
    { clear. induction m using node_ind'; intros L; try (destruct L; fail). cbn [remove_one].
      destruct (node_eqb m1 x) eqn:E1; [simpl; lia|]. destruct (node_eqb m2 x) eqn:E2; [simpl; lia|].
      apply node_eqb_neq in E1, E2. destruct L as [|[|L]]; try congruence. specialize (IHm1 L).
      destruct m1; try (destruct L; fail).
      destruct (node_eqb (remove_one uid (NMul m1_1 m1_2) x) (NMul m1_1 m1_2)) eqn:E3.
      - apply node_eqb_eq in E3. rewrite E3 in IHm1. lia.
      - assert (forall a b, (size (create_multiply uid a b) <= S (size a + size b))%nat).
        { intros a b. assert (size (mul_node uid a b) = S (size a + size b)) by (destruct (mul_node_cases uid a b) as [-> | ->]; simpl; lia).
          destruct a, b; cbn [create_multiply]; try (simpl; lia); lia. }
        specialize (H (remove_one uid (NMul m1_1 m1_2) x) m2). cbn [size] in *. lia. }
    specialize (G (NMul mul1_1 mul1_2) L). rewrite E3 in G. lia.
  - split; [apply ok_multiply; auto|]. rewrite val_multiply; auto. cbn [val]. cbn [val] in V. rewrite V. lia.
Qed.
End Order.

(** * Signs *)
Definition has_sign (s : sgn) (v : Z) : Prop :=
  match s with SAny => True | SStrictNeg => v < 0 | SNeg => v <= 0 | SStrictPos => 0 < v | SPos => 0 <= v end.
Lemma add_sgn_right s t x y : has_sign s x -> has_sign t y -> has_sign (add_sgn s t) (x + y).
Proof. destruct s, t; cbn; auto; lia. Qed.
Lemma mul_sgn_right s t x y : has_sign s x -> has_sign t y -> has_sign (mul_sgn s t) (x * y).
Proof. destruct s, t; cbn; auto; intros; nia. Qed.
Lemma neg_sgn_right s x : has_sign s x -> has_sign (neg_sgn s) (- x).
Proof. destruct s; cbn; auto; lia. Qed.
Lemma weaken_sgn_right s x i : has_sign s x -> 0 <= i -> has_sign (weaken_sgn s) (x * i).
Proof. destruct s; cbn; auto; intros; nia. Qed.

Lemma visit_right signed env it n : (forall i, signed i = false -> 0 <= env i) -> (forall l, 0 <= it l) ->
  forall s, visit signed n = Some s -> has_sign s (val env it n).
Proof.
  intros He Hi. induction n using node_ind'; intros s V; cbn [visit val] in *.
  - injection V as <-. destruct v; cbn; lia.
  - destruct (visit signed n2) as [sc|]; [|discriminate]. destruct (visit signed n1) as [so|]; [|discriminate].
    injection V as <-. rewrite Z.add_comm. apply add_sgn_right; auto. apply weaken_sgn_right; auto.
  - destruct H as [|c cs Hc Hcs]; [discriminate|].
    destruct (visit signed c) as [s0|]; [|discriminate]. specialize (Hc s0 eq_refl). cbn [fold_right].
    assert (G : forall v s0, has_sign s0 v -> (fix go s cs := match cs with
                          | [] => Some s
                          | d :: cs' => match s with
                              | SAny => Some SAny
                              | _ => match visit signed d with None => None | Some t => go (add_sgn s t) cs' end
                              end end) s0 cs = Some s -> has_sign s (v + fold_right (fun c s => val env it c + s) 0 cs)).
    { clear V Hc s0. induction Hcs as [|d cs Hd _ IH]; intros v s0 Hs0 E.
      - injection E as <-. cbn [fold_right]. rewrite Z.add_0_r. auto.
      - cbn [fold_right]. rewrite Z.add_assoc. destruct s0.
        + injection E as <-. exact I.
        + destruct (visit signed d) as [t|]; [|discriminate]. eapply IH; [|exact E]. apply add_sgn_right; auto.
        + destruct (visit signed d) as [t|]; [|discriminate]. eapply IH; [|exact E]. apply add_sgn_right; auto.
        + destruct (visit signed d) as [t|]; [|discriminate]. eapply IH; [|exact E]. apply add_sgn_right; auto.
        + destruct (visit signed d) as [t|]; [|discriminate]. eapply IH; [|exact E]. apply add_sgn_right; auto. }
    eapply G; eauto.
  - destruct (visit signed n1) as [sa|]; [|discriminate]. destruct sa.
    + injection V as <-. exact I.
    + destruct (visit signed n2) as [t|]; [|discriminate]. injection V as <-. apply (mul_sgn_right SStrictNeg); auto.
    + destruct (visit signed n2) as [t|]; [|discriminate]. injection V as <-. apply (mul_sgn_right SNeg); auto.
    + destruct (visit signed n2) as [t|]; [|discriminate]. injection V as <-. apply (mul_sgn_right SStrictPos); auto.
    + destruct (visit signed n2) as [t|]; [|discriminate]. injection V as <-. apply (mul_sgn_right SPos); auto.
  - destruct (visit signed n) as [t|]; [|discriminate]. injection V as <-. apply neg_sgn_right; auto.
  - injection V as <-. destruct (signed i) eqn:E; cbn; auto.
  - injection V as <-. exact I.
Qed.
