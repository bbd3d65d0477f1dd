(** Proofs about the scalar evolution expressions: values, the rebuilt sums and the gathered
    accumulators. *)
From Verif Require Import Base Scev ScevSpec.
From Coq Require Import Permutation.
Local Open Scope Z_scope.

(** * Induction and equality *)
Section NodeInd.
Variable P : node -> Prop.
Hypothesis (Hc : forall v, P (NConst v)) (Hr : forall l o c, P o -> P c -> P (NRec l o c))
  (Ha : forall cs, Forall P cs -> P (NAdd cs)) (Hm : forall a b, P a -> P b -> P (NMul a b))
  (Hn : forall a, P a -> P (NNeg a)) (Hu : forall i, P (NUnknown i)) (Hx : P NCant).
Fixpoint node_ind' (n : node) : P n :=
  match n with
  | NConst v => Hc v
  | NRec l o c => Hr l o c (node_ind' o) (node_ind' c)
  | NAdd cs => Ha cs ((fix go cs : Forall P cs := match cs with
                                    | [] => Forall_nil P
                                    | c :: cs' => Forall_cons c (node_ind' c) (go cs')
                                    end) cs)
  | NMul a b => Hm a b (node_ind' a) (node_ind' b)
  | NNeg a => Hn a (node_ind' a)
  | NUnknown i => Hu i
  | NCant => Hx
  end.
End NodeInd.

Lemma node_eqb_eq x : forall y, node_eqb x y = true <-> x = y.
Proof.
  induction x using node_ind'; destruct y; cbn [node_eqb]; try (split; congruence).
  - rewrite Z.eqb_eq. split; congruence.
  - rewrite !andb_true_iff, N.eqb_eq, IHx1, IHx2. split; [intros [[-> ->] ->]; auto | intros E; injection E as -> -> ->; auto].
  - revert cs0. induction H as [|c cs Hc Hcs IH]; intros [|d ds]; try (split; congruence).
    rewrite andb_true_iff, Hc, IH. split; [intros [-> E]; congruence | intros E; injection E as -> ->; auto].
  - rewrite andb_true_iff, IHx1, IHx2. split; [intros [-> ->]; auto | intros E; injection E as -> ->; auto].
  - rewrite IHx. split; congruence.
  - rewrite N.eqb_eq. split; congruence.
Qed.
Lemma node_eqb_refl x : node_eqb x x = true.
Proof. apply node_eqb_eq; auto. Qed.
Lemma node_eqb_neq x y : node_eqb x y = false <-> x <> y.
Proof.
  destruct (node_eqb x y) eqn:E.
  - apply node_eqb_eq in E. split; [discriminate | contradiction].
  - split; auto. intros _ F. apply node_eqb_eq in F. congruence.
Qed.

(** * Values as a function *)
Fixpoint val (env it : N -> Z) (n : node) : Z :=
  match n with
  | NConst v => v
  | NRec l o c => val env it o + val env it c * it l
  | NAdd cs => fold_right (fun c s => val env it c + s) 0 cs
  | NMul a b => val env it a * val env it b
  | NNeg a => - val env it a
  | NUnknown i => env i
  | NCant => 0
  end.
Fixpoint ok (n : node) : Prop :=
  match n with
  | NCant => False
  | NRec _ o c => ok o /\ ok c
  | NAdd cs => fold_right (fun c P => ok c /\ P) True cs
  | NMul a b => ok a /\ ok b
  | NNeg a => ok a
  | _ => True
  end.
Definition sumv (env it : N -> Z) (cs : list node) : Z := fold_right (fun c s => val env it c + s) 0 cs.

Lemma conj_forall {A} (P : A -> Prop) l : fold_right (fun c Q => P c /\ Q) True l <-> Forall P l.
Proof.
  induction l; simpl; [split; auto|]. rewrite IHl. split; [intros []; constructor; auto | intros H; inversion H; auto].
Qed.
Lemma ok_add cs : ok (NAdd cs) <-> Forall ok cs.
Proof. cbn [ok]. apply conj_forall. Qed.
Lemma rec_free_add cs : rec_free (NAdd cs) <-> Forall rec_free cs.
Proof. cbn [rec_free]. apply conj_forall. Qed.

Lemma value_of_val env it n : forall v, value_of env it n v <-> ok n /\ val env it n = v.
Proof.
  induction n using node_ind'; intros w.
  - cbn. split; [intros H; inversion H; auto | intros [_ <-]; constructor].
  - cbn [ok val]. split.
    + intros H; inversion H; subst. repeat match goal with
        | X : value_of _ _ n1 _ |- _ => apply IHn1 in X | X : value_of _ _ n2 _ |- _ => apply IHn2 in X end. intuition congruence.
    + intros [[Oo Oc] <-]. constructor; [apply IHn1 | apply IHn2]; auto.
  - rewrite ok_add. split.
    + intros Hv. inversion Hv; subst. cbn [val]. clear Hv.
      revert vs H1. induction H as [|c cs Hc Hcs IH]; intros vs F; inversion F; subst; simpl; [split; auto|].
      apply Hc in H1. destruct H1 as [O1 V1]. destruct (IH _ H3) as [O2 V2]. split; [constructor; auto|]. rewrite V2, V1. auto.
    + intros [O <-]. cbn [val].
      replace (fold_right (fun c s => val env it c + s) 0 cs) with (fold_right Z.add 0 (map (val env it) cs)).
      * constructor. induction H as [|c cs Hc Hcs IH]; simpl; [constructor|].
        inversion O; subst. constructor; auto. apply Hc; auto.
      * clear. induction cs; simpl; congruence.
  - cbn [ok val]. split.
    + intros H; inversion H; subst. repeat match goal with
        | X : value_of _ _ n1 _ |- _ => apply IHn1 in X | X : value_of _ _ n2 _ |- _ => apply IHn2 in X end. intuition congruence.
    + intros [[Oo Oc] <-]. constructor; [apply IHn1 | apply IHn2]; auto.
  - cbn [ok val]. split.
    + intros H; inversion H; subst. match goal with X : value_of _ _ n _ |- _ => apply IHn in X end. intuition congruence.
    + intros [O <-]. constructor. apply IHn; auto.
  - cbn. split; [intros H; inversion H; auto | intros [_ <-]; constructor].
  - cbn. split; [intros H; inversion H | intros [[] _]].
Qed.
Lemma computable_ok n : computable n <-> ok n.
Proof.
  split; intros H.
  - destruct (H (fun _ => 0) (fun _ => 0)) as [v V]. apply value_of_val in V. tauto.
  - intros env it. exists (val env it n). apply value_of_val; auto.
Qed.

(** A recurrence-free expression has the same value in all iterations. *)
Lemma rec_free_val env it it' n : rec_free n -> val env it n = val env it' n.
Proof.
  induction n using node_ind'; cbn [val]; intros R; auto.
  - destruct R.
  - apply rec_free_add in R. induction H as [|c cs Hc Hcs IH]; simpl; auto.
    inversion R; subst. rewrite (Hc H1), (IH H2). auto.
  - destruct R. rewrite IHn1, IHn2; auto.
  - cbn in R. rewrite IHn; auto.
Qed.
Lemma rec_free_recs n : rec_free n -> recs n = [].
Proof.
  induction n using node_ind'; cbn [recs]; intros R; auto.
  - destruct R.
  - apply rec_free_add in R. induction H as [|c cs Hc Hcs IH]; simpl; auto.
    inversion R; subst. rewrite (Hc H1), (IH H2). auto.
  - destruct R. rewrite IHn1, IHn2; auto.
Qed.

Set Default Proof Using "Type".
Section Order.
Variables (uid addr : node -> N) (laddr : N -> N).
Notation add_child := (add_child uid).
Notation add_children := (add_children uid).
Notation gather := (gather uid addr).
Notation create_multiply := (create_multiply uid).

Lemma add_child_perm cs c : Permutation (add_child cs c) (c :: cs).
Proof.
  induction cs as [|d cs IH]; simpl; auto.
  destruct (N.leb _ _); auto. rewrite IH. apply perm_swap.
Qed.
Lemma add_children_perm new : forall cs, Permutation (add_children cs new) (new ++ cs).
Proof.
  unfold Scev.add_children. induction new as [|c new IH]; simpl; intros cs; auto.
  rewrite IH, add_child_perm. rewrite <- Permutation_middle. auto.
Qed.
Lemma sumv_perm env it a b : Permutation a b -> sumv env it a = sumv env it b.
Proof. clear laddr addr uid. induction 1; simpl; lia. Qed.
Lemma sumv_app env it a b : sumv env it (a ++ b) = sumv env it a + sumv env it b.
Proof. clear laddr addr uid. induction a; simpl; lia. Qed.
Lemma sumv_add_child env it cs c : sumv env it (add_child cs c) = val env it c + sumv env it cs.
Proof. rewrite (sumv_perm _ _ _ _ (add_child_perm cs c)). auto. Qed.
Lemma sumv_add_children env it cs new : sumv env it (add_children cs new) = sumv env it new + sumv env it cs.
Proof. rewrite (sumv_perm _ _ _ _ (add_children_perm new cs)), sumv_app. auto. Qed.
Lemma val_add env it cs : val env it (NAdd cs) = sumv env it cs.
Proof. reflexivity. Qed.
Lemma Forall_perm {A} (P : A -> Prop) a b : Permutation a b -> Forall P a -> Forall P b.
Proof. intros Q F. rewrite Forall_forall in *. intros x I. apply F. apply Permutation_in with b; auto. apply Permutation_sym; auto. Qed.
Lemma Forall_add_child (P : node -> Prop) cs c : Forall P (add_child cs c) <-> P c /\ Forall P cs.
Proof.
  split.
  - intros F. apply (Forall_perm _ _ _ (add_child_perm cs c)) in F. inversion F; auto.
  - intros [Hc Hcs]. eapply Forall_perm; [apply Permutation_sym, add_child_perm|]. constructor; auto.
Qed.
Lemma Forall_add_children (P : node -> Prop) cs new : Forall P (add_children cs new) <-> Forall P new /\ Forall P cs.
Proof.
  rewrite <- Forall_app. split; intros F.
  - eapply Forall_perm; [apply add_children_perm|]. auto.
  - eapply Forall_perm; [apply Permutation_sym, add_children_perm|]. auto.
Qed.

(** * Constructors *)
Lemma val_negation env it n : val env it (create_negation n) = - val env it n.
Proof. destruct n; reflexivity. Qed.
Lemma ok_negation n : ok (create_negation n) <-> ok n.
Proof. clear laddr addr uid. destruct n; cbn; tauto. Qed.
Lemma rec_free_negation n : rec_free (create_negation n) <-> rec_free n.
Proof. clear laddr addr uid. destruct n; cbn; tauto. Qed.
Lemma mul_node_cases a b : mul_node uid a b = NMul a b \/ mul_node uid a b = NMul b a.
Proof. unfold mul_node, Scev.add_children. simpl. destruct (N.leb _ _); auto. Qed.
Lemma val_multiply env it a b : ok a -> ok b -> val env it (create_multiply a b) = val env it a * val env it b.
Proof. clear laddr addr.
  intros Oa Ob.
  assert (M : val env it (mul_node uid a b) = val env it a * val env it b)
    by (destruct (mul_node_cases a b) as [-> | ->]; cbn [val]; lia).
  destruct a, b; try exact M; try (cbn in Oa; tauto); try (cbn in Ob; tauto); reflexivity.
Qed.
Lemma ok_multiply a b : ok a -> ok b -> ok (create_multiply a b).
Proof. clear laddr addr.
  intros Oa Ob.
  assert (M : ok (mul_node uid a b)) by (destruct (mul_node_cases a b) as [-> | ->]; cbn [ok]; auto).
  destruct a, b; try exact M; try (cbn in Oa; tauto); try (cbn in Ob; tauto); exact I.
Qed.
Lemma val_create_add env it a b : ok a -> ok b -> val env it (create_add uid a b) = val env it a + val env it b.
Proof. clear laddr addr.
  intros Oa Ob.
  assert (M : val env it (NAdd (add_children [] [a; b])) = val env it a + val env it b)
    by (rewrite val_add, sumv_add_children; simpl; lia).
  destruct a, b; try exact M; try (cbn in Oa; tauto); try (cbn in Ob; tauto); reflexivity.
Qed.
Lemma ok_create_add a b : ok a -> ok b -> ok (create_add uid a b).
Proof. clear laddr addr.
  intros Oa Ob.
  assert (M : ok (NAdd (add_children [] [a; b]))) by (apply ok_add, Forall_add_children; auto).
  destruct a, b; try exact M; try (cbn in Oa; tauto); try (cbn in Ob; tauto); exact I.
Qed.

(** * The accumulators *)
Lemma split_scaled a b : split_multiply a b = scaled a b.
Proof. destruct a, b; reflexivity. Qed.
Lemma scaled_val env it a b t v : scaled a b = Some (t, v) -> val env it (NMul a b) = v * val env it t.
Proof. clear laddr addr uid. destruct a, b; cbn [scaled]; intros E; try discriminate; injection E as <- <-; cbn [val]; lia. Qed.
Lemma scaled_term a b t v : scaled a b = Some (t, v) -> is_term t = true /\ (t = a \/ t = b).
Proof. destruct a, b; cbn [scaled]; intros E; try discriminate; injection E as <- <-; auto. Qed.

Definition get (ts : list (node * Z)) (t : node) : Z :=
  fold_right Z.add 0 (map (fun '(u, v) => if node_eqb u t then v else 0) ts).
Definition tval (env it : N -> Z) (ts : list (node * Z)) : Z :=
  fold_right Z.add 0 (map (fun '(u, v) => v * val env it u) ts).

Lemma has_term_in ts t : has_term ts t = true <-> In t (map fst ts).
Proof. clear laddr addr uid.
  induction ts as [|[u k] ts IH]; simpl; [split; [discriminate|tauto]|].
  rewrite orb_true_iff, node_eqb_eq, IH. intuition.
Qed.
Lemma get_bump ts t d : NoDup (map fst ts) -> has_term ts t = true ->
  forall u, get (bump_term ts t d) u = get ts u + (if node_eqb t u then d else 0).
Proof. clear laddr addr uid.
  induction ts as [|[w k] ts IH]; [discriminate|]. cbn [has_term bump_term map fst].
  intros ND H u. inversion ND; subst.
  destruct (node_eqb w t) eqn:E.
  - apply node_eqb_eq in E. subst w. unfold get. simpl. destruct (node_eqb t u); lia.
  - simpl in H. change (get ((w, k) :: bump_term ts t d) u) with ((if node_eqb w u then k else 0) + get (bump_term ts t d) u).
    change (get ((w, k) :: ts) u) with ((if node_eqb w u then k else 0) + get ts u).
    rewrite IH; auto. lia.
Qed.
Lemma tval_bump env it ts t d : has_term ts t = true -> tval env it (bump_term ts t d) = tval env it ts + d * val env it t.
Proof. clear laddr addr uid.
  induction ts as [|[w k] ts IH]; [discriminate|]. cbn [has_term bump_term]. intros H.
  destruct (node_eqb w t) eqn:E.
  - apply node_eqb_eq in E. subst w. unfold tval. simpl. lia.
  - simpl in H. change (tval env it ((w, k) :: bump_term ts t d)) with (k * val env it w + tval env it (bump_term ts t d)).
    change (tval env it ((w, k) :: ts)) with (k * val env it w + tval env it ts). rewrite IH; auto. lia.
Qed.
Lemma bump_keys ts t d : map fst (bump_term ts t d) = map fst ts.
Proof. induction ts as [|[w k] ts IH]; simpl; auto. destruct (node_eqb w t); simpl; congruence. Qed.
Lemma insert_perm ts t d : Permutation (insert_term addr ts t d) ((t, d) :: ts).
Proof.
  induction ts as [|[w k] ts IH]; simpl; auto. destruct (N.leb _ _); auto.
  rewrite IH. apply perm_swap.
Qed.
Lemma zsum_perm a b : Permutation a b -> fold_right Z.add 0 a = fold_right Z.add 0 b.
Proof. induction 1; simpl; lia. Qed.
Lemma accumulate_spec ts t d : NoDup (map fst ts) ->
  NoDup (map fst (accumulate addr ts t d)) /\
  (forall u, get (accumulate addr ts t d) u = get ts u + (if node_eqb t u then d else 0)) /\
  (forall env it, tval env it (accumulate addr ts t d) = tval env it ts + d * val env it t) /\
  (forall u, In u (map fst (accumulate addr ts t d)) -> u = t \/ In u (map fst ts)).
Proof. clear laddr uid.
  intros ND. unfold accumulate. destruct (has_term ts t) eqn:H.
  - rewrite bump_keys. repeat split; auto.
    + intros u. apply get_bump; auto.
    + intros env it. apply tval_bump; auto.
  - assert (NI : ~ In t (map fst ts)) by (intros F; apply has_term_in in F; congruence).
    pose proof (insert_perm ts t d) as Pm.
    assert (Pk : Permutation (map fst (insert_term addr ts t d)) (t :: map fst ts)) by exact (Permutation_map fst Pm).
    repeat split.
    + eapply Permutation_NoDup; [apply Permutation_sym, Pk|]. constructor; auto.
    + intros u. unfold get. rewrite (zsum_perm _ _ (Permutation_map (fun '(u0, v) => if node_eqb u0 u then v else 0) Pm)). simpl. lia.
    + intros env it. unfold tval. rewrite (zsum_perm _ _ (Permutation_map (fun '(u0, v) => v * val env it u0) Pm)). simpl. lia.
    + intros u I. apply (Permutation_in _ Pk) in I. destruct I; auto.
Qed.

(** Adding up the multiplicities. *)
Lemma get_app a b t : get (a ++ b) t = get a t + get b t.
Proof. clear laddr addr uid. unfold get. rewrite map_app. induction (map (fun '(u, v) => if node_eqb u t then v else 0) a); simpl; lia. Qed.
Lemma get_neg ts t : get (map (fun '(u, v) => (u, - v)) ts) t = - get ts t.
Proof. clear laddr addr uid.
  induction ts as [|[u k] ts IH]; auto. unfold get in *. simpl. rewrite IH. destruct (node_eqb u t); lia.
Qed.
Lemma net_get n t : net n t = get (terms n) t.
Proof. reflexivity. Qed.

Definition inv_acc (acc : accs) := NoDup (map fst (ac_terms acc)).
Definition aval env it acc := sumv env it (ac_new acc) + ac_const acc + tval env it (ac_terms acc).

(** What gathering an expression adds to the accumulators: the value, the multiplicities of the
    terms, and the products. *)
Definition xorn (n b : bool) : bool := if n then negb b else b.
Definition gspec (n : node) : Prop := forall acc neg, inv_acc acc -> ok n ->
  let acc' := gather acc n neg in
  inv_acc acc' /\
  (forall u, get (ac_terms acc') u = get (ac_terms acc) u + sign_of neg * net n u) /\
  (forall u, In u (map fst (ac_terms acc')) -> In u (map fst (ac_terms acc)) \/ In u (map fst (terms n))) /\
  (forall p, In p (ac_new acc') -> In p (ac_new acc) \/ exists b, In (p, b) (products n)) /\
  (Forall (fun '(_, b) => xorn neg b = false) (products n) ->
   forall env it, aval env it acc' = aval env it acc + sign_of neg * val env it n).

Lemma gather_list_spec cs : Forall gspec cs -> forall acc neg, inv_acc acc -> Forall ok cs ->
  let acc' := (fix go acc cs := match cs with [] => acc | c :: cs' => go (gather acc c neg) cs' end) acc cs in
  inv_acc acc' /\
  (forall u, get (ac_terms acc') u = get (ac_terms acc) u + sign_of neg * get (flat_map terms cs) u) /\
  (forall u, In u (map fst (ac_terms acc')) -> In u (map fst (ac_terms acc)) \/ In u (map fst (flat_map terms cs))) /\
  (forall p, In p (ac_new acc') -> In p (ac_new acc) \/ exists b, In (p, b) (flat_map products cs)) /\
  (Forall (fun '(_, b) => xorn neg b = false) (flat_map products cs) ->
   forall env it, aval env it acc' = aval env it acc + sign_of neg * sumv env it cs).
Proof. clear laddr.
  induction 1 as [|c cs Hc Hcs IH]; intros acc neg I O; cbv zeta.
  - simpl. repeat split; auto; intros; try (unfold get; simpl; lia).
  - inversion O; subst.
    destruct (Hc acc neg I H1) as (I1 & G1 & K1 & P1 & V1).
    destruct (IH (gather acc c neg) neg I1 H2) as (I2 & G2 & K2 & P2 & V2).
    cbn [flat_map]. repeat split.
    + exact I2.
    + intros u. rewrite G2, G1, get_app, net_get. lia.
    + intros u J. rewrite map_app. destruct (K2 u J) as [J1 | J1]; [destruct (K1 u J1); auto; right; apply in_or_app; auto | right; apply in_or_app; auto].
    + intros p J. destruct (P2 p J) as [J1 | [b J1]]; [destruct (P1 p J1) as [J2 | [b J2]]; auto; right; exists b; apply in_or_app; auto
        | right; exists b; apply in_or_app; auto].
    + intros F env it. apply Forall_app in F. destruct F as [F1 F2]. rewrite (V2 F2), (V1 F1). simpl. lia.
Qed.

Lemma gather_spec n : gspec n.
Proof. clear laddr.
  induction n using node_ind'; intros acc neg I O; cbv zeta.
  - cbn [Scev.gather ac_terms ac_new ac_const terms products]. repeat split; auto; intros.
    + unfold net, get; simpl. lia.
    + unfold aval. simpl. lia.
  - cbn [Scev.gather ac_terms ac_new ac_const terms products].
    destruct (accumulate_spec (ac_terms acc) (NRec l n1 n2) (sign_of neg) I) as (A1 & A2 & A3 & A4).
    repeat split; auto.
    + intros u. rewrite A2. unfold net. cbn [terms map fold_right]. destruct (node_eqb _ _); lia.
    + intros u J. destruct (A4 u J); auto. right. simpl. auto.
    + intros _ env it. unfold aval. cbn [ac_terms ac_new ac_const]. rewrite A3. lia.
  - apply ok_add in O. exact (gather_list_spec cs H acc neg I O).
  - cbn [Scev.gather]. rewrite split_scaled.
    destruct (scaled n1 n2) as [[t v]|] eqn:E; cbn [ac_terms ac_new ac_const terms products]; rewrite ?E.
    + destruct (accumulate_spec (ac_terms acc) t (v * sign_of neg) I) as (A1 & A2 & A3 & A4).
      repeat split; auto.
      * intros u. rewrite A2. unfold net. cbn [terms]. rewrite E. cbn [map fold_right]. destruct (node_eqb _ _); lia.
      * intros u J. destruct (A4 u J); auto. right. simpl. auto.
      * intros _ env it. unfold aval. cbn [ac_terms ac_new ac_const]. rewrite A3, (scaled_val env it _ _ _ _ E). lia.
    + repeat split; auto.
      * intros u. unfold net. cbn [terms]. rewrite E. simpl. lia.
      * intros p J. apply (Permutation_in _ (add_child_perm _ _)) in J. destruct J as [<- | J]; auto. right. exists false. simpl. auto.
      * intros F env it. inversion F; subst. unfold aval. cbn [ac_terms ac_new ac_const]. rewrite sumv_add_child.
        destruct neg; [discriminate|]. unfold sign_of. lia.
  - cbn [Scev.gather terms products]. destruct (IHn acc (negb neg) I O) as (A1 & A2 & A3 & A4 & A5).
    repeat split; auto.
    + intros u. rewrite A2. unfold net at 2. cbn [terms]. fold (get (map (fun '(t, v) => (t, - v)) (terms n)) u).
      rewrite get_neg, net_get. destruct neg; unfold sign_of; simpl; lia.
    + intros u J. destruct (A3 u J) as [?|J1]; auto. right. rewrite map_map.
      apply in_map_iff in J1. destruct J1 as [[t v] [<- J1]]. apply in_map_iff. exists (t, v). auto.
    + intros p J. destruct (A4 p J) as [?|[b J1]]; auto. right. exists (negb b). apply in_map_iff. exists (p, b). auto.
    + intros F env it. rewrite A5.
      * cbn [val]. destruct neg; unfold sign_of; simpl; lia.
      * rewrite Forall_map in F. eapply Forall_impl; [|exact F]. intros [p b] X. destruct neg, b; simpl in *; auto.
  - cbn [Scev.gather ac_terms ac_new ac_const terms products].
    destruct (accumulate_spec (ac_terms acc) (NUnknown i) (sign_of neg) I) as (A1 & A2 & A3 & A4).
    repeat split; auto.
    + intros u. rewrite A2. unfold net. cbn [terms map fold_right]. destruct (node_eqb _ _); lia.
    + intros u J. destruct (A4 u J); auto. right. simpl. auto.
    + intros _ env it. unfold aval. cbn [ac_terms ac_new ac_const]. rewrite A3. lia.
  - destruct O.
Qed.

Lemma get_in ts t k : NoDup (map fst ts) -> In (t, k) ts -> get ts t = k.
Proof. clear laddr addr uid.
  induction ts as [|[u v] ts IH]; [intros _ []|]. cbn [map fst]. intros ND I. inversion ND; subst.
  change (get ((u, v) :: ts) t) with ((if node_eqb u t then v else 0) + get ts t).
  destruct I as [E | I].
  - injection E as -> ->. rewrite node_eqb_refl.
    assert (Z0 : forall ts, ~ In t (map fst ts) -> get ts t = 0).
    { clear. induction ts as [|[u v] ts IH]; simpl; auto. intros N.
      change (get ((u, v) :: ts) t) with ((if node_eqb u t then v else 0) + get ts t).
      replace (node_eqb u t) with false by (symmetry; apply node_eqb_neq; intuition). rewrite IH; intuition. }
    rewrite Z0; auto. lia.
  - replace (node_eqb u t) with false.
    + rewrite IH; auto.
    + symmetry. apply node_eqb_neq. intros ->. apply H1. apply in_map_iff. exists (t, k). auto.
Qed.
Lemma terms_are_terms n t k : In (t, k) (terms n) -> is_term t = true.
Proof. clear laddr addr uid.
  revert k. induction n using node_ind'; cbn [terms In]; intros k I; try tauto.
  - destruct I as [E|[]]. injection E as <- _. auto.
  - induction H as [|c cs Hc Hcs IH]; simpl in I; [tauto|]. apply in_app_or in I. destruct I; eauto.
  - destruct (scaled n1 n2) as [[u v]|] eqn:E; [|destruct I].
    destruct I as [F|[]]. injection F as <- _. apply scaled_term in E. tauto.
  - apply in_map_iff in I. destruct I as [[u v] [F I]]. injection F as <- _. eauto.
  - destruct I as [E|[]]. injection E as <- _. auto.
Qed.
Lemma terms_ok n t k : ok n -> In (t, k) (terms n) -> ok t.
Proof. clear laddr addr uid.
  revert k. induction n using node_ind'; cbn [terms In]; intros k O I; try tauto.
  - destruct I as [E|[]]. injection E as <- _. auto.
  - apply ok_add in O. induction H as [|c cs Hc Hcs IH]; simpl in I; [tauto|]. inversion O; subst. apply in_app_or in I. destruct I; eauto.
  - destruct (scaled n1 n2) as [[u v]|] eqn:E; [|destruct I].
    destruct I as [F|[]]. injection F as <- _. apply scaled_term in E. destruct O. destruct E as [_ [-> | ->]]; auto.
  - apply in_map_iff in I. destruct I as [[u v] [F I]]. injection F as <- _. eauto.
  - destruct I as [E|[]]. injection E as <- _. cbn. auto.
Qed.
Lemma terms_rec_free n t k : rec_free n -> In (t, k) (terms n) -> rec_free t.
Proof. clear laddr addr uid.
  revert k. induction n using node_ind'; cbn [terms In]; intros k O I; try tauto.
  - destruct O.
  - apply rec_free_add in O. induction H as [|c cs Hc Hcs IH]; simpl in I; [tauto|]. inversion O; subst. apply in_app_or in I. destruct I; eauto.
  - destruct (scaled n1 n2) as [[u v]|] eqn:E; [|destruct I].
    destruct I as [F|[]]. injection F as <- _. apply scaled_term in E. destruct O. destruct E as [_ [-> | ->]]; auto.
  - apply in_map_iff in I. destruct I as [[u v] [F I]]. injection F as <- _. eauto.
  - destruct I as [E|[]]. injection E as <- _. cbn. auto.
Qed.
Lemma products_ok n p b : ok n -> In (p, b) (products n) -> ok p.
Proof. clear laddr addr uid.
  revert b. induction n using node_ind'; cbn [products In]; intros k O I; try tauto.
  - apply ok_add in O. induction H as [|c cs Hc Hcs IH]; simpl in I; [tauto|]. inversion O; subst. apply in_app_or in I. destruct I; eauto.
  - destruct (scaled n1 n2) as [[u v]|] eqn:E; [destruct I|].
    destruct I as [F|[]]. injection F as <- _. auto.
  - apply in_map_iff in I. destruct I as [[u v] [F I]]. injection F as <- _. eauto.
Qed.
Lemma products_rec_free n p b : rec_free n -> In (p, b) (products n) -> rec_free p.
Proof. clear laddr addr uid.
  revert b. induction n using node_ind'; cbn [products In]; intros k O I; try tauto.
  - apply rec_free_add in O. induction H as [|c cs Hc Hcs IH]; simpl in I; [tauto|]. inversion O; subst. apply in_app_or in I. destruct I; eauto.
  - destruct (scaled n1 n2) as [[u v]|] eqn:E; [destruct I|].
    destruct I as [F|[]]. injection F as <- _. auto.
  - apply in_map_iff in I. destruct I as [[u v] [F I]]. injection F as <- _. eauto.
Qed.
Lemma products_are_products n p b : In (p, b) (products n) -> exists x y, p = NMul x y /\ scaled x y = None.
Proof. clear laddr addr uid.
  revert b. induction n using node_ind'; cbn [products In]; intros k I; try tauto.
  - induction H as [|c cs Hc Hcs IH]; simpl in I; [tauto|]. apply in_app_or in I. destruct I; eauto.
  - destruct (scaled n1 n2) as [[u v]|] eqn:E; [destruct I|].
    destruct I as [F|[]]. injection F as <- _. eauto.
  - apply in_map_iff in I. destruct I as [[u v] [F I]]. injection F as <- _. eauto.
Qed.
End Order.
