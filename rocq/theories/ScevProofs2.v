(** Proofs about the scalar evolution expressions, continued: the simplification. *)
From Verif Require Import Base Scev ScevSpec ScevProofs.
From Coq Require Import Permutation.
Local Open Scope Z_scope.

Definition positive (n : node) : Prop := Forall (fun '(_, b) => b = false) (products n).
Definition rfp (n : node) : Prop := rec_free n /\ positive n.
Definition same_val (x y : node) : Prop := forall env it, val env it x = val env it y.
Definition simp_ok (simp : node -> sres node) : Prop :=
  forall x, rfp x -> ok x -> exists y, simp x = SOk y /\ rfp y /\ ok y /\ same_val x y.

Lemma rfp_linear n : linear n -> rfp n.
Proof. intros [R P]. split; auto. unfold positive. rewrite P. constructor. Qed.
Lemma flat_nil {A B} (f : A -> list B) l : flat_map f l = [] <-> Forall (fun x => f x = []) l.
Proof.
  induction l; simpl; [split; auto|]. split.
  - intros E. apply app_eq_nil in E. destruct E. constructor; auto. apply IHl; auto.
  - intros F. inversion F; subst. rewrite H1. apply IHl; auto.
Qed.
Lemma linear_negation n : linear n -> linear (create_negation n).
Proof.
  intros [R P]. assert (L : linear (NNeg n)) by (split; [exact R | cbn [products]; rewrite P; auto]).
  destruct n; try exact L; split; try exact I; reflexivity.
Qed.
Lemma positive_add cs : positive (NAdd cs) <-> Forall positive cs.
Proof.
  unfold positive. cbn [products]. induction cs; simpl; [split; constructor|].
  rewrite Forall_app, IHcs. split; [intros []; constructor; auto | intros F; inversion F; auto].
Qed.
Lemma rfp_add cs : rfp (NAdd cs) <-> Forall rfp cs.
Proof.
  unfold rfp. rewrite rec_free_add, positive_add. induction cs; [split; auto|].
  split.
  - intros [A B]. inversion A; inversion B; subst. constructor; auto. apply IHcs; auto.
  - intros F. inversion F; subst. apply IHcs in H2. destruct H2, H1. split; constructor; auto.
Qed.

Set Default Proof Using "Type".
Section Order.
Variables (uid addr : node -> N) (laddr : N -> N).
Notation add_child := (add_child uid).
Notation add_children := (add_children uid).

Lemma rfp_multiply c k : rfp c -> rfp (create_multiply uid c (NConst k)).
Proof.
  intros [R P].
  assert (M : rfp (mul_node uid c (NConst k))).
  { destruct (mul_node_cases uid c (NConst k)) as [-> | ->]; split; try (cbn; auto; fail);
      unfold positive; cbn [products]; destruct (scaled _ _); repeat constructor. }
  destruct c; try exact M; split; try exact I; constructor.
Qed.

(** * The terms of the rebuilt polynomial *)
Definition img (e : node * Z) (r : node) : Prop :=
  let (t, k) := e in
  ok r /\ (forall env it, val env it r = k * val env it t) /\
  match t with
  | NUnknown i => r = t \/ (k = -1 /\ r = NNeg t) \/ r = NMul (NConst k) t \/ r = NMul t (NConst k)
  | NRec l o c => exists o' c', r = NRec l o' c' /\ rfp o' /\ rfp c'
  | _ => False
  end.
Definition ge (e : node * Z) : Prop :=
  let (t, k) := e in
  ok t /\
  match t with
  | NUnknown _ => True
  | NRec l o c => k = 0 \/ (linear o /\ rfp c /\ (k = 1 \/ k = -1 \/ o = NConst 0))
  | _ => False
  end.

Lemma update_coefficient_spec simp l o c k :
  simp_ok simp -> ok o -> ok c -> linear o -> rfp c -> (k = -1 \/ o = NConst 0) ->
  exists r, update_coefficient uid simp l o c k = SOk r /\ img (NRec l o c, k) r.
Proof. clear laddr addr.
  intros HS Oo Oc Lo Rc K. unfold update_coefficient.
  destruct (HS (create_multiply uid c (NConst k)) (rfp_multiply c k Rc) (ok_multiply uid c (NConst k) Oc I)) as (y & Sy & Ry & Oy & Vy).
  rewrite Sy. cbn [sbind].
  replace (match y with NCant => create_multiply uid c (NConst k) | _ => y end) with y by (destruct y; auto; destruct Oy).
  eexists. split; [reflexivity|].
  set (o' := if Z.ltb k 0 then create_negation o else o).
  assert (O' : ok o' /\ linear o' /\ forall env it, val env it o' = k * val env it o).
  { unfold o'. destruct K as [-> | ->].
    - cbn [Z.ltb]. change (-1 <? 0) with true. cbv iota. split; [apply ok_negation; auto|]. split; [apply linear_negation; auto|].
      intros. rewrite val_negation. lia.
    - destruct (Z.ltb k 0); (split; [exact I|]; split; [split; [exact I|reflexivity]|]; intros; cbn [val create_negation]; lia). }
  destruct O' as (O1 & O2 & O3). unfold img. split; [split; auto|]. split.
  - intros. cbn [val]. rewrite O3, <- Vy, val_multiply; auto; [|exact I]. cbn [val]. lia.
  - exists o', y. split; auto. split; auto. apply rfp_linear; auto.
Qed.

Lemma add_term_spec simp cs t k : ge (t, k) -> k <> 0 -> (is_rec t = true -> simp_ok simp) ->
  exists r, add_term uid simp cs t k = SOk (add_child cs r) /\ img (t, k) r.
Proof. clear laddr addr.
  intros [Ot G] Hk HS. unfold add_term.
  replace (Z.eqb k 0) with false by lia.
  destruct (Z.eqb k 1) eqn:K1.
  - exists t. split; auto. assert (k = 1) by lia. subst k. split; auto. split; [intros; lia|].
    destruct t; try tauto. exists t1, t2. split; auto. destruct G as [|(L & R & _)]; [lia|]. split; auto. apply rfp_linear; auto.
  - destruct t; try tauto.
    + destruct G as [|(L & R & K)]; [lia|]. destruct Ot as [Oo Oc].
      destruct (update_coefficient_spec simp loop t1 t2 k (HS eq_refl) Oo Oc L R) as (r & U & Ir).
      { destruct K as [|[|]]; auto; lia. }
      rewrite U. cbn [sbind]. exists r. split; auto.
    + destruct (Z.eqb k (-1)) eqn:K2.
      * exists (NNeg (NUnknown id)). split; auto. assert (k = -1) by lia. subst k. split; [exact I|].
        split; [intros; cbn [val]; lia|]. auto.
      * exists (create_multiply uid (NConst k) (NUnknown id)). split; auto.
        change (create_multiply uid (NConst k) (NUnknown id)) with (mul_node uid (NConst k) (NUnknown id)).
        destruct (mul_node_cases uid (NConst k) (NUnknown id)) as [-> | ->];
          (split; [cbn; auto|]; split; [intros; cbn [val]; lia | auto]).
Qed.

Definition nonzero (e : node * Z) : bool := negb (Z.eqb (snd e) 0).
Lemma add_terms_spec simp ts : Forall ge ts -> (existsb is_rec (map fst ts) = true -> simp_ok simp) ->
  forall cs, exists rs cs', add_terms uid simp cs ts = SOk cs' /\ Forall2 img (filter nonzero ts) rs /\
    Permutation cs' (rs ++ cs).
Proof. clear laddr addr.
  induction 1 as [|[t k] ts G Gs IH]; intros HS cs; cbn [add_terms].
  - exists [], cs. cbn. auto.
  - cbn [map fst existsb] in HS.
    assert (HS' : existsb is_rec (map fst ts) = true -> simp_ok simp) by (intros E; apply HS; rewrite E, orb_true_r; auto).
    cbn [filter]. unfold nonzero at 1. cbn [snd]. destruct (Z.eqb k 0) eqn:K0; cbn [negb].
    + assert (k = 0) by lia. subst k. change (add_term uid simp cs t 0) with (@SOk (list node) cs). cbn [sbind]. apply IH; auto.
    + destruct (add_term_spec simp cs t k G) as (r & A & Ir); [lia| |].
      { intros E. apply HS. rewrite E. auto. }
      rewrite A. cbn [sbind]. destruct (IH HS' (add_child cs r)) as (rs & cs' & A2 & F & Pm).
      exists (r :: rs), cs'. split; auto. split; [constructor; auto|].
      rewrite Pm. rewrite add_child_perm. rewrite <- Permutation_middle. auto.
Qed.

Lemma sumv_img env it ts rs : Forall2 img (filter nonzero ts) rs -> sumv env it rs = tval env it ts.
Proof. clear laddr addr uid.
  revert rs. induction ts as [|[t k] ts IH]; cbn [filter]; intros rs F.
  - inversion F. reflexivity.
  - change (tval env it ((t, k) :: ts)) with (k * val env it t + tval env it ts).
    unfold nonzero in F at 1. cbn [snd] in F. destruct (Z.eqb k 0) eqn:K; cbn [negb] in F.
    + rewrite (IH rs F). assert (k = 0) by lia. subst k. lia.
    + inversion F as [|? r ? rs' Hi F']; subst. simpl. rewrite (IH _ F'). destruct Hi as (_ & V & _). rewrite V. lia.
Qed.

(** * The polynomial *)
Definition poly_of (cs : list node) : node := match cs with [c] => c | [] => NConst 0 | _ => NAdd cs end.
Lemma val_poly env it cs : val env it (poly_of cs) = sumv env it cs.
Proof. clear laddr addr uid. destruct cs as [|c [|d cs]]; simpl; auto. lia. Qed.
Lemma ok_poly cs : Forall ok cs -> ok (poly_of cs).
Proof. destruct cs as [|c [|d cs]]; intros F; [exact I | inversion F; auto | apply ok_add; auto]. Qed.

Definition const_part (k : Z) : list node := if Z.eqb k 0 then [] else [NConst k].
Definition goods (n : node) : Prop :=
  forall t, In t (map fst (terms n)) -> ge (t, net n t).

Lemma simplify_polynomial_spec simp n :
  ok n -> positive n -> goods n -> (existsb is_rec (map fst (terms n)) = true -> simp_ok simp) ->
  exists ts rs ps k cs,
    simplify_polynomial uid addr simp n = SOk (poly_of cs) /\
    NoDup (map fst ts) /\ (forall t v, In (t, v) ts -> In t (map fst (terms n)) /\ v = net n t) /\
    Forall2 img (filter nonzero ts) rs /\
    (forall p, In p ps -> exists b, In (p, b) (products n)) /\
    Permutation cs (rs ++ const_part k ++ ps) /\
    (forall env it, sumv env it cs = val env it n).
Proof.
  intros O P G HS. unfold simplify_polynomial.
  set (acc0 := mkAccs [] 0 []).
  assert (I0 : inv_acc acc0) by constructor.
  destruct (gather_spec uid addr n acc0 false I0 O) as (I1 & G1 & K1 & P1 & V1).
  set (acc := gather uid addr acc0 n false) in *. cbv zeta.
  assert (Hts : forall t v, In (t, v) (ac_terms acc) -> In t (map fst (terms n)) /\ v = net n t).
  { intros t v J. split.
    - destruct (K1 t) as [[]|]; auto. apply in_map_iff. exists (t, v). auto.
    - pose proof (get_in _ _ _ I1 J) as E. rewrite G1 in E. unfold sign_of in E. unfold acc0 in E. cbn [ac_terms] in E.
      unfold get in E at 1. simpl in E. lia. }
  assert (Hge : Forall ge (ac_terms acc)).
  { rewrite Forall_forall. intros [t v] J. destruct (Hts t v J) as [Jt ->]. apply G; auto. }
  assert (HS' : existsb is_rec (map fst (ac_terms acc)) = true -> simp_ok simp).
  { intros E. apply HS. apply existsb_exists in E. destruct E as (x & J & R). apply existsb_exists. exists x. split; auto.
    apply in_map_iff in J. destruct J as ([t v] & <- & J). apply (Hts _ _ J). }
  set (cs0 := if Z.eqb (ac_const acc) 0 then ac_new acc else add_child (ac_new acc) (NConst (ac_const acc))).
  destruct (add_terms_spec simp (ac_terms acc) Hge HS' cs0) as (rs & cs & A & F & Pm).
  exists (ac_terms acc), rs, (ac_new acc), (ac_const acc), cs.
  assert (Pm0 : Permutation cs0 (const_part (ac_const acc) ++ ac_new acc)).
  { unfold cs0, const_part. destruct (Z.eqb (ac_const acc) 0); auto. rewrite add_child_perm. auto. }
  rewrite A. cbn [sbind].
  split; [unfold poly_of; destruct cs as [|c [|d cs]]; auto|].
  split; [exact I1|]. split; [exact Hts|]. split; [exact F|].
  split; [intros p J; destruct (P1 p J) as [[]|]; auto|]. split.
  - rewrite Pm, Pm0. auto.
  - intros env it. rewrite (sumv_perm _ _ _ _ Pm), sumv_app, (sumv_perm _ _ _ _ Pm0), sumv_app.
    rewrite (sumv_img env it _ _ F).
    assert (C : sumv env it (const_part (ac_const acc)) = ac_const acc).
    { unfold const_part. destruct (Z.eqb (ac_const acc) 0) eqn:E; simpl; lia. }
    rewrite C. assert (Q : aval env it acc = aval env it acc0 + sign_of false * val env it n).
    { apply V1. eapply Forall_impl; [|exact P]. intros [p b] ->. reflexivity. }
    unfold aval in Q. unfold acc0 in Q. cbn [ac_terms ac_new ac_const] in Q. unfold tval in Q at 2. simpl in Q. lia.
Qed.

(** Without recurrences the first step does it all. *)
Lemma img_rfp e r : is_rec (fst e) = false -> img e r -> rfp r.
Proof. clear laddr addr uid.
  destruct e as [t k]. cbn [fst]. intros Ht (O & V & M). destruct t; try tauto; try discriminate.
  destruct M as [-> | [[-> ->] | [-> | ->]]]; split; cbn; auto; try constructor.
Qed.
Lemma rfp_terms n t : rec_free n -> In t (map fst (terms n)) -> is_rec t = false.
Proof.
  intros R J. apply in_map_iff in J. destruct J as ([u v] & <- & J). cbn [fst].
  apply (terms_rec_free _ _ _ R) in J. destruct u; auto. destruct J.
Qed.
Lemma unknown_goods n : ok n -> rec_free n -> goods n.
Proof.
  intros O R t J. pose proof (rfp_terms n t R J) as T.
  apply in_map_iff in J. destruct J as ([u v] & <- & J). cbn [fst] in *.
  pose proof (terms_ok _ _ _ O J) as Ot. apply terms_are_terms in J. unfold ge. destruct u; try discriminate; auto.
Qed.
Lemma Forall2_right {A B} (P : A -> B -> Prop) (Q : B -> Prop) l r :
  Forall2 P l r -> (forall a b, In a l -> P a b -> Q b) -> Forall Q r.
Proof. induction 1; intros H1; constructor; [eapply H1; eauto; left; auto | apply IHForall2; intros; eapply H1; eauto; right; auto]. Qed.

Lemma rfp_children cs : Forall rfp cs -> rfp (poly_of cs).
Proof. destruct cs as [|c [|d cs]]; intros F; [split; [exact I | constructor] | inversion F; auto | apply rfp_add; auto]. Qed.

Lemma classify_rec_free cs : Forall rec_free cs -> forall rest m,
  exists rest', classify uid laddr rest m false cs = (rest', m, false).
Proof.
  induction 1 as [|c cs Hc Hcs IH]; intros rest m; cbn [classify].
  - exists rest; auto.
  - destruct c as [| | | |a| |]; try (apply IH); try (destruct Hc; fail).
    destruct a; try apply IH. destruct Hc.
Qed.
Lemma children_rec_free n : rec_free n -> Forall rec_free (children uid n).
Proof.
  destruct n; cbn [children]; intros R; try constructor; auto.
  - destruct R.
  - apply rec_free_add; auto.
  - destruct R; auto.
  - destruct R; constructor; auto.
Qed.
Lemma last_rec_none cs : Forall (fun c => is_rec c = false) cs -> last_rec cs = None.
Proof.
  unfold last_rec. generalize (@None node). induction cs as [|c cs IH]; intros f F; [reflexivity|].
  inversion F; subst. cbn [fold_left]. rewrite H1. apply IH; auto.
Qed.
Lemma rec_free_not_rec n : rec_free n -> is_rec n = false.
Proof. destruct n; auto. intros []. Qed.
Lemma eliminate_rec_free n : rec_free n -> eliminate_zero uid n = n.
Proof.
  intros R. unfold eliminate_zero. destruct n; auto. apply rec_free_add in R.
  replace (existsb is_zero_rec cs) with false; auto. symmetry.
  induction R as [|c cs Hc _ IH]; auto. simpl. rewrite IH. destruct c; auto. destruct Hc.
Qed.

(** Everything after the polynomial leaves a recurrence-free expression alone; also a lone
    recurrence over recurrence-free parts. *)
Definition quiet (n : node) : Prop :=
  rec_free n \/ exists l o c, n = NRec l o c /\ rec_free o /\ rec_free c.
Lemma quiet_children n : quiet n -> Forall rec_free (children uid n).
Proof.
  intros [R | (l & o & c & -> & Ro & Rc)].
  - apply children_rec_free; auto.
  - cbn [children]. apply Forall_add_children. split; auto.
Qed.
Lemma fold_quiet simp n : quiet n -> fold_recurrent uid laddr simp n = SOk n.
Proof.
  intros Q. unfold fold_recurrent. destruct (classify_rec_free _ (quiet_children n Q) [] []) as [rest ->]. reflexivity.
Qed.
Lemma eliminate_quiet n : quiet n -> eliminate_zero uid n = n.
Proof. intros [R | (l & o & c & -> & _)]; [apply eliminate_rec_free; auto | reflexivity]. Qed.
Definition finish simp (poly : node) : sres node :=
  dos folded <- fold_recurrent uid laddr simp poly;
  let result := eliminate_zero uid folded in
  match last_rec (children uid result) with
  | None => SOk result
  | Some r =>
      if forallb (fun x => node_eqb r x) (recs result) then
        match r with
        | NRec l o c => simplify_recurrent uid simp (children uid poly) l o c
        | _ => SOk result
        end
      else SOk result
  end.
Lemma finish_quiet simp n : quiet n -> finish simp n = SOk n.
Proof.
  intros Q. unfold finish. rewrite fold_quiet; auto. cbn [sbind]. cbv zeta. rewrite eliminate_quiet; auto.
  rewrite last_rec_none; auto. eapply Forall_impl; [|apply quiet_children; auto]. apply rec_free_not_rec.
Qed.
Definition handled (n : node) : bool := match n with NAdd _ | NMul _ _ | NNeg _ => true | _ => false end.
Lemma step_finish simp n : simplify_step uid addr laddr simp n =
  if handled n then dos poly <- simplify_polynomial uid addr simp n; finish simp poly else SOk n.
Proof. destruct n; reflexivity. Qed.

Theorem simplify_rec_free simp n : rfp n -> ok n ->
  exists m, simplify_step uid addr laddr simp n = SOk m /\ rfp m /\ ok m /\ same_val n m.
Proof.
  intros [R P] O. rewrite step_finish. destruct (handled n) eqn:H.
  2:{ exists n. split; auto. split; [split; auto|]. split; auto. intros ? ?; auto. }
  assert (HS : existsb is_rec (map fst (terms n)) = true -> simp_ok simp).
  { intros E. apply existsb_exists in E. destruct E as (x & J & E). rewrite (rfp_terms _ _ R J) in E. discriminate. }
  destruct (simplify_polynomial_spec simp n O P (unknown_goods n O R) HS)
    as (ts & rs & ps & k & cs & S1 & ND & Hts & F & Hps & Pm & V).
  assert (Crs : Forall (fun r => rfp r /\ ok r) rs).
  { eapply Forall2_right; [exact F|]. intros [t v] r J Ir. apply filter_In in J. destruct J as [J _].
    split; [|apply Ir]. apply (img_rfp (t, v)); auto. apply (rfp_terms n); auto. apply (Hts _ _ J). }
  assert (Ccs : Forall (fun r => rfp r /\ ok r) cs).
  { eapply Forall_perm; [apply Permutation_sym, Pm|]. rewrite !Forall_app. split; auto. split.
    - unfold const_part. destruct (Z.eqb k 0); repeat constructor.
    - rewrite Forall_forall. intros p J. destruct (Hps p J) as [b J1].
      split; [split; [eapply products_rec_free; eauto|] | eapply products_ok; eauto].
      destruct (products_are_products _ _ _ J1) as (x & y & -> & E). unfold positive. cbn [products]. rewrite E. repeat constructor. }
  rewrite S1. cbn [sbind].
  assert (Rp : rfp (poly_of cs)) by (apply rfp_children; eapply Forall_impl; [|exact Ccs]; intros ? [? ?]; auto).
  rewrite finish_quiet by (left; apply Rp).
  exists (poly_of cs). split; auto. split; auto. split; [apply ok_poly; eapply Forall_impl; [|exact Ccs]; intros ? [? ?]; auto|].
  intros env it. rewrite val_poly, V. auto.
Qed.

Lemma simplify_simp_ok fuel : simp_ok (simplify uid addr laddr (S fuel)).
Proof. intros x R O. cbn [simplify]. apply simplify_rec_free; auto. Qed.
End Order.
