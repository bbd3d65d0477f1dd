(** Proofs about intrusive lists, part 1: the pointer code changes the set of links as intended. *)
From Coq Require Import Permutation.
From Verif Require Import Base IList IListSpec.
Local Open Scope N_scope.

(** ** Edges *)
Fixpoint edges (p : N) (l : list N) (q : N) : list (N * N) :=
  match l with [] => [(p, q)] | x :: l => (p, x) :: edges x l q end.
Definition all_edges (ls : lists) : list (N * N) := flat_map (fun e => edges (fst e) (snd e) (fst e)) ls.
Definition nodes (ls : lists) : list N := flat_map (fun e => fst e :: snd e) ls.

Lemma edges_fst p l q : map fst (edges p l q) = p :: l.
Proof. revert p. induction l as [|x l IH]; intro p; [reflexivity|]. simpl. rewrite IH. reflexivity. Qed.
Lemma edges_snd p l q : map snd (edges p l q) = l ++ [q].
Proof. revert p. induction l as [|x l IH]; intro p; [reflexivity|]. simpl. rewrite IH. reflexivity. Qed.
Lemma all_edges_fst ls : map fst (all_edges ls) = nodes ls.
Proof. induction ls as [|[s l] ls IH]; [reflexivity|]. simpl. rewrite map_app, edges_fst, IH. reflexivity. Qed.
Lemma all_edges_snd ls : Permutation (map snd (all_edges ls)) (nodes ls).
Proof.
  induction ls as [|[s l] ls IH]; [constructor|]. simpl. rewrite map_app, edges_snd, IH.
  change (s :: l ++ nodes ls) with ((s :: l) ++ nodes ls). apply Permutation_app_tail.
  symmetry. apply Permutation_cons_append.
Qed.
Lemma edges_last p l : exists E a, forall xs q, edges p (l ++ xs) q = E ++ edges a xs q.
Proof.
  revert p. induction l as [|x l IH]; intro p; [exists [], p; reflexivity|].
  destruct (IH x) as (E & a & H). exists ((p, x) :: E), a. intros xs q. simpl. rewrite H. reflexivity.
Qed.
Lemma edges_first l q : exists b E, forall p xs, edges p (xs ++ l) q = edges p xs b ++ E.
Proof.
  destruct l as [|x l].
  - exists q, []. intros p xs. rewrite !app_nil_r. reflexivity.
  - exists x, (edges x l q). intros p xs. revert p. induction xs as [|y xs IH]; intro p; [reflexivity|]. simpl. rewrite IH. reflexivity.
Qed.
Lemma edges_inner l : l <> [] -> exists f la M, forall p q, edges p l q = (p, f) :: M ++ [(la, q)].
Proof.
  destruct l as [|x l]; [congruence|]. intros _. exists x.
  destruct (edges_last x l) as (E & a & H). exists a, E. intros p q. simpl. specialize (H [] q). rewrite app_nil_r in H. rewrite H. reflexivity.
Qed.

(** ** Heaps that represent a set of edges *)
Record rep (h : heap) (E : list (N * N)) (H : list N) : Prop := mkRep {
  rep_links : forall a b, In (a, b) E -> next h a = b /\ prev h b = a;
  rep_nodup : NoDup (map fst E);
  rep_perm : Permutation (map fst E) (map snd E);
  rep_null : ~ In 0 (map fst E);
  rep_heads : forall x, sentinel h x = true <-> In x H;
  rep_incl : incl H (map fst E);
  rep_out : forall x, ~ In x (map fst E) -> next h x = 0 /\ prev h x = 0 }.

Lemma rep_ext h E E' H H' : Permutation E E' -> Permutation H H' -> rep h E H -> rep h E' H'.
Proof.
  intros P Q [L D Pm Z S I O]. pose proof (Permutation_map fst P) as P1. pose proof (Permutation_map snd P) as P2.
  constructor.
  - intros a b Hab. apply L. eapply Permutation_in; [symmetry; exact P | exact Hab].
  - eapply Permutation_NoDup; eauto.
  - rewrite <- P1, <- P2. exact Pm.
  - intro Hc. apply Z. eapply Permutation_in; [symmetry; exact P1 | exact Hc].
  - intro x. rewrite S. split; apply Permutation_in; [exact Q | symmetry; exact Q].
  - intros x Hx. eapply Permutation_in; [exact P1|]. apply I. eapply Permutation_in; [symmetry; exact Q | exact Hx].
  - intros x Hx. apply O. intro Hc. apply Hx. eapply Permutation_in; eauto.
Qed.
Definition rep_lists (h : heap) (ls : lists) : Prop := rep h (all_edges ls) (heads ls).

Lemma get_next_ok h p : p <> 0 -> get_next h p = Done (next h p).
Proof. intro. unfold get_next. destruct (N.eqb_spec p 0); congruence. Qed.
Lemma get_prev_ok h p : p <> 0 -> get_prev h p = Done (prev h p).
Proof. intro. unfold get_prev. destruct (N.eqb_spec p 0); congruence. Qed.
Lemma get_sentinel_ok h p : p <> 0 -> get_sentinel h p = Done (sentinel h p).
Proof. intro. unfold get_sentinel. destruct (N.eqb_spec p 0); congruence. Qed.
Lemma set_next_ok h p v : p <> 0 -> set_next h p v = Done (mkHeap (fun q => if q =? p then v else next h q) (prev h) (sentinel h)).
Proof. intro. unfold set_next. destruct (N.eqb_spec p 0); congruence. Qed.
Lemma set_prev_ok h p v : p <> 0 -> set_prev h p v = Done (mkHeap (next h) (fun q => if q =? p then v else prev h q) (sentinel h)).
Proof. intro. unfold set_prev. destruct (N.eqb_spec p 0); congruence. Qed.
Lemma set_sentinel_ok h p v : p <> 0 -> set_sentinel h p v = Done (mkHeap (next h) (prev h) (fun q => if q =? p then v else sentinel h q)).
Proof. intro. unfold set_sentinel. destruct (N.eqb_spec p 0); congruence. Qed.
Lemma bind_done {A B} (a : A) (f : A -> outcome B) : bind (Done a) f = f a.
Proof. reflexivity. Qed.

Ltac neq := first [assumption | congruence].
(** Runs a straight-line piece of pointer code. *)
Ltac run1 :=
  match goal with
  | |- context [get_next _ ?p] => rewrite (get_next_ok _ p) by neq
  | |- context [get_prev _ ?p] => rewrite (get_prev_ok _ p) by neq
  | |- context [get_sentinel _ ?p] => rewrite (get_sentinel_ok _ p) by neq
  | |- context [set_next _ ?p _] => rewrite (set_next_ok _ p) by neq
  | |- context [set_prev _ ?p _] => rewrite (set_prev_ok _ p) by neq
  | |- context [set_sentinel _ ?p _] => rewrite (set_sentinel_ok _ p) by neq
  end.
Ltac known := repeat match goal with
  | H : next ?h ?x = _ |- context [next ?h ?x] => rewrite H
  | H : prev ?h ?x = _ |- context [prev ?h ?x] => rewrite H
  | H : sentinel ?h ?x = _ |- context [sentinel ?h ?x] => rewrite H
  | H : ?a <> ?b |- context [?a =? ?b] => rewrite (proj2 (N.eqb_neq a b) H)
  | H : ?b <> ?a |- context [?a =? ?b] => rewrite (proj2 (N.eqb_neq a b) (not_eq_sym H))
  end.
Ltac simp := unfold require; cbn [next prev sentinel bind negb]; rewrite ?N.eqb_refl; known; cbn [next prev sentinel bind negb].
Ltac runs := simp; repeat (run1; simp).
Ltac ne := let E := fresh in intro E; pose proof (eq_sym E); tauto.
Ltac cmp := repeat match goal with |- context [?a =? ?b] => destruct (N.eqb_spec a b); try subst end.

Lemma in_fst {a b : N} {R} : In (a, b) R -> In a (map fst R).
Proof. apply (in_map fst). Qed.
Lemma in_snd {a b : N} {R} : In (a, b) R -> In b (map snd R).
Proof. apply (in_map snd). Qed.
Lemma rep_nodup_snd h E H : rep h E H -> NoDup (map snd E).
Proof. intros [_ D P _ _ _ _]. eapply Permutation_NoDup; eauto. Qed.
Lemma rep_nonzero_fst h E H a b : rep h E H -> In (a, b) E -> a <> 0.
Proof. intros R Hin ->. apply (rep_null _ _ _ R). eapply in_fst; eauto. Qed.
Lemma rep_nonzero_snd h E H a b : rep h E H -> In (a, b) E -> b <> 0.
Proof.
  intros R Hin ->. apply (rep_null _ _ _ R). eapply Permutation_in; [symmetry; apply (rep_perm _ _ _ R)|]. eapply in_snd; eauto.
Qed.
Lemma rep_not_sentinel h E H x : rep h E H -> ~ In x H -> sentinel h x = false.
Proof. intros R Hx. destruct (sentinel h x) eqn:S; [|reflexivity]. exfalso. apply Hx, (rep_heads _ _ _ R), S. Qed.


Lemma nodup_app_disjoint {A} (l l' : list A) : NoDup (l ++ l') -> forall x, In x l -> ~ In x l'.
Proof.
  induction l as [|a l IH]; [intros _ x []|]. intros H x [E|Hx]; simpl in H; inversion H; subst.
  - intro Hc. apply H2. apply in_or_app. auto.
  - apply IH; assumption.
Qed.
Lemma nodup_app_r {A} (l l' : list A) : NoDup (l ++ l') -> NoDup l'.
Proof. induction l as [|a l IH]; intro H; [exact H|]. inversion H; subst. auto. Qed.
Lemma nodup_app {A} (l l' : list A) : NoDup l -> NoDup l' -> (forall x, In x l -> ~ In x l') -> NoDup (l ++ l').
Proof.
  induction 1 as [|a l Ha Hl IH]; intros Hl' D; [exact Hl'|]. simpl. constructor.
  - rewrite in_app_iff. intros [Hc|Hc]; [contradiction|]. apply (D a); [left; reflexivity | exact Hc].
  - apply IH; [exact Hl'|]. intros x Hx. apply D. right. exact Hx.
Qed.

(** Replacing the edges [Old] by [New]. *)
Lemma rep_rewrite h h' Old New R H H' : rep h (Old ++ R) H ->
  (forall c, ~ In c (map fst Old) -> ~ In c (map fst New) -> next h' c = next h c) ->
  (forall c, ~ In c (map snd Old) -> ~ In c (map snd New) -> prev h' c = prev h c) ->
  (forall a b, In (a, b) New -> next h' a = b /\ prev h' b = a) ->
  NoDup (map fst New) ->
  (forall a, In a (map fst New) -> a <> 0 /\ (In a (map fst Old) \/ ~ In a (map fst (Old ++ R)))) ->
  (forall a, In a (map snd New) -> In a (map snd Old) \/ ~ In a (map fst (Old ++ R))) ->
  Permutation (map fst New ++ map snd Old) (map snd New ++ map fst Old) ->
  (forall x, In x (map fst Old) -> ~ In x (map fst New) -> next h' x = 0 /\ prev h' x = 0) ->
  (forall x, sentinel h' x = true <-> In x H') -> (forall x, In x H' -> In x (map fst New) \/ In x H /\ ~ In x (map fst Old)) ->
  rep h' (New ++ R) H'.
Proof.
  intros G Kn Kp Ln Dn F1 F2 Pm Out Sh Hi. pose proof (rep_nodup_snd _ _ _ G) as D2.
  destruct G as [L D P Z S I O]. rewrite map_app in D, D2, F1, F2, Z, I, O. rewrite !map_app in P.
  assert (Perm : Permutation (map fst New ++ map fst R) (map snd New ++ map snd R)).
  { apply (Permutation_app_inv_l (map snd Old ++ map fst Old)).
    transitivity ((map fst New ++ map snd Old) ++ (map fst Old ++ map fst R)).
    - rewrite <- !app_assoc. rewrite (Permutation_app_swap_app (map fst New)). apply Permutation_app_head.
      rewrite (Permutation_app_swap_app (map fst New)). reflexivity.
    - rewrite Pm, P. rewrite <- !app_assoc. rewrite (Permutation_app_swap_app (map snd Old) (map fst Old)).
      rewrite (Permutation_app_swap_app (map snd New)). apply Permutation_app_head.
      rewrite (Permutation_app_swap_app (map snd New)). reflexivity. }
  assert (Dr1 : forall a, In a (map fst R) -> ~ In a (map fst Old) /\ ~ In a (map fst New)).
  { intros a Ha. assert (No : ~ In a (map fst Old)) by (intro Hc; apply (nodup_app_disjoint _ _ D a Hc Ha)).
    split; [exact No|]. intro Hc. destruct (F1 a Hc) as [_ [Hc'|Hc']]; [contradiction|]. apply Hc'. apply in_or_app. auto. }
  assert (Dr2 : forall a, In a (map snd R) -> ~ In a (map snd Old) /\ ~ In a (map snd New)).
  { intros a Ha. assert (No : ~ In a (map snd Old)) by (intro Hc; apply (nodup_app_disjoint _ _ D2 a Hc Ha)).
    split; [exact No|]. intro Hc. destruct (F2 a Hc) as [Hc'|Hc']; [contradiction|]. apply Hc'.
    eapply Permutation_in; [symmetry; exact P|]. apply in_or_app. auto. }
  constructor.
  - intros a b Hab. apply in_app_or in Hab as [Hab|Hab]; [apply Ln; exact Hab|].
    destruct (L a b (in_or_app _ _ _ (or_intror Hab))) as [L1 L2].
    destruct (Dr1 a (in_fst Hab)) as [Q1 Q2]. destruct (Dr2 b (in_snd Hab)) as [Q3 Q4].
    rewrite Kn, Kp by assumption. auto.
  - rewrite map_app. apply nodup_app; [exact Dn | eapply nodup_app_r; exact D|]. intros x Hx Hc. apply (Dr1 x Hc). exact Hx.
  - rewrite !map_app. exact Perm.
  - rewrite map_app. intro Hc. apply in_app_or in Hc as [Hc|Hc]; [apply (F1 0 Hc); reflexivity|]. apply Z. apply in_or_app. auto.
  - exact Sh.
  - intros x Hx. rewrite map_app. apply in_or_app. destruct (Hi x Hx) as [?|[Hh Hno]]; [auto|]. right.
    specialize (I x Hh). apply in_app_or in I as [?|?]; [contradiction | assumption].
  - intros x Hx. rewrite map_app in Hx. assert (X1 : ~ In x (map fst New)) by (intro; apply Hx, in_or_app; auto).
    assert (X2 : ~ In x (map fst R)) by (intro; apply Hx, in_or_app; auto).
    destruct (in_dec N.eq_dec x (map fst Old)) as [Y|Y]; [apply Out; assumption|].
    assert (X3 : ~ In x (map fst Old ++ map fst R)) by (intro Hc; apply in_app_or in Hc; tauto).
    rewrite Kn by assumption. rewrite Kp; [apply O; exact X3| |].
    + intro Hc. apply X3. eapply Permutation_in; [symmetry; exact P|]. apply in_or_app. auto.
    + intro Hc. apply Hx. eapply Permutation_in; [symmetry; exact Perm|]. apply in_or_app. auto.
Qed.

(** The facts about the edges under the cursor. *)
Ltac facts G :=
  let D1 := fresh "D1" in let D2 := fresh "D2" in
  pose proof (rep_nodup _ _ _ G) as D1; pose proof (rep_nodup_snd _ _ _ G) as D2;
  cbn [map fst snd app] in D1, D2; rewrite !NoDup_cons_iff in D1, D2; cbn [In] in D1, D2.
Ltac node G a b :=
  let X := fresh "L" in let Z1 := fresh "Z" in let Z2 := fresh "Z" in
  pose proof (rep_links _ _ _ G a b ltac:(simpl; auto 7)) as X;
  pose proof (rep_nonzero_fst _ _ _ a b G ltac:(simpl; auto 7)) as Z1;
  pose proof (rep_nonzero_snd _ _ _ a b G ltac:(simpl; auto 7)) as Z2;
  destruct X.
Ltac fin_in := cbn [map fst snd In app] in *; intuition (subst; try congruence; try tauto).
Definition pair_dec (p q : N * N) : {p = q} + {p <> q}.
Proof. decide equality; apply N.eq_dec. Defined.
Ltac count dec := apply (Permutation_count_occ dec); let z := fresh "z" in intro z;
  repeat (progress (repeat rewrite ?count_occ_app; cbn [count_occ]));
  repeat match goal with |- context [dec ?a ?b] => destruct (dec a b) end; lia.
Ltac permn := cbn [map fst snd app]; count N.eq_dec.
Ltac perme := count pair_dec.
Lemma perm_cons_mid {A} (a b : A) l : Permutation (a :: b :: l) (b :: a :: l).
Proof. constructor. Qed.

(** *** Removing a node *)
Lemma remove_edge h a x b R H : rep h ((a, x) :: (x, b) :: R) H -> ~ In x H ->
  exists h', remove_from_list h x = Done h' /\ rep h' ((a, b) :: R) H.
Proof.
  intros G Hx. pose proof (rep_not_sentinel _ _ _ _ G Hx) as Sx. node G a x. node G x b. facts G.
  assert (ax : a <> x) by ne. assert (bx : b <> x) by ne.
  unfold remove_from_list, is_in_a_list. runs. eexists. split; [reflexivity|].
  apply (rep_rewrite h _ [(a, x); (x, b)] [(a, b)] R H H G); cbn [next prev sentinel map fst snd app In].
  - intros c X Y. cmp; tauto.
  - intros c X Y. cmp; tauto.
  - intros c d [E|[]]. inversion E; subst. cmp; try congruence; auto.
  - repeat constructor. intros [].
  - intros c [<-|[]]. auto.
  - intros c [<-|[]]. auto.
  - permn.
  - intros c [<-|[<-|[]]] Y; [tauto|]. rewrite ?N.eqb_refl. known. auto.
  - apply (rep_heads _ _ _ G).
  - intros c Hc. destruct (N.eq_dec c a); [auto|]. right. split; [exact Hc|]. intros [->|[->|[]]]; congruence.
Qed.

(** *** Inserting an unlinked node *)
Definition insert_between (h : heap) (a x b : N) : heap :=
  mkHeap (fun q => if q =? a then x else if q =? x then b else next h q)
         (fun q => if q =? b then x else if q =? x then a else prev h q) (sentinel h).
Lemma insert_edge h h' a x b R H : rep h ((a, b) :: R) H -> ~ In x (map fst ((a, b) :: R)) -> x <> 0 ->
  (forall q, next h' q = next (insert_between h a x b) q) -> (forall q, prev h' q = prev (insert_between h a x b) q) ->
  (forall q, sentinel h' q = sentinel h q) -> rep h' ((a, x) :: (x, b) :: R) H.
Proof.
  intros G Hx x0 En Ep Es. node G a b. facts G.
  assert (Hx2 : ~ In x (map snd ((a, b) :: R))).
  { intro Hc. apply Hx. eapply Permutation_in; [symmetry; apply (rep_perm _ _ _ G) | exact Hc]. }
  assert (ax : a <> x) by (cbn [map fst In] in Hx; ne). assert (bx : b <> x) by (cbn [map snd In] in Hx2; ne).
  apply (rep_rewrite h _ [(a, b)] [(a, x); (x, b)] R H H G); cbn [map fst snd app In].
  - intros c X Y. rewrite En. cbn [next insert_between]. cmp; tauto.
  - intros c X Y. rewrite Ep. cbn [prev insert_between]. cmp; tauto.
  - intros c d [E|[E|[]]]; inversion E; subst c d; rewrite En, Ep; cbn [next prev insert_between]; rewrite ?N.eqb_refl; known; auto.
  - constructor; [intros [?|[]]; congruence|]. constructor; [intros [] | constructor].
  - intros c [<-|[<-|[]]]; split; auto 9.
  - intros c [<-|[<-|[]]]; auto.
  - permn.
  - intros c [<-|[]] Y. tauto.
  - intro c. rewrite Es. apply (rep_heads _ _ _ G).
  - intros c Hc. destruct (N.eq_dec c a); [auto|]. right. split; [exact Hc|]. intros [->|[]]; congruence.
Qed.
Lemma rep_in_list h E H x : rep h E H -> In x (map fst E) -> x <> 0 /\ next h x <> 0 /\ is_in_a_list h x = Done true.
Proof.
  intros G Hx. apply in_map_iff in Hx as ([a b] & E' & Hin). cbn [fst] in E'. subst a.
  pose proof (rep_nonzero_fst _ _ _ _ _ G Hin) as Hx. pose proof (rep_nonzero_snd _ _ _ _ _ G Hin) as Hb.
  destruct (rep_links _ _ _ G _ _ Hin) as [L _]. split; [exact Hx|]. split; [congruence|].
  unfold is_in_a_list. rewrite get_next_ok by exact Hx. cbn [bind]. rewrite L. destruct (N.eqb_spec b 0); [congruence | reflexivity].
Qed.
Lemma rep_not_in_list h E H x : rep h E H -> x <> 0 -> ~ In x (map fst E) -> is_in_a_list h x = Done false.
Proof.
  intros G Hx Hno. unfold is_in_a_list. rewrite get_next_ok by exact Hx. cbn [bind].
  destruct (rep_out _ _ _ G x Hno) as [-> _]. reflexivity.
Qed.
(** The pointer code of the two insertions, once the node is unlinked. *)
Definition link_before (h : heap) (x pos : N) : outcome heap :=
  h <- set_next h x pos; p <- get_prev h pos; h <- set_prev h x p; h <- set_prev h pos x; p <- get_prev h x; set_next h p x.
Definition link_after (h : heap) (x pos : N) : outcome heap :=
  h <- set_prev h x pos; n <- get_next h pos; h <- set_next h x n; h <- set_next h pos x; n <- get_next h x; set_prev h n x.
Lemma link_before_edge h a x b R H : rep h ((a, b) :: R) H -> ~ In x (map fst ((a, b) :: R)) -> x <> 0 ->
  exists h', link_before h x b = Done h' /\ rep h' ((a, x) :: (x, b) :: R) H.
Proof.
  intros G Hx x0. node G a b.
  assert (Hx2 : ~ In x (map snd ((a, b) :: R))).
  { intro Hc. apply Hx. eapply Permutation_in; [symmetry; apply (rep_perm _ _ _ G) | exact Hc]. }
  assert (ax : a <> x) by (cbn [map fst In] in Hx; ne). assert (bx : b <> x) by (cbn [map snd In] in Hx2; ne).
  unfold link_before. runs. eexists. split; [reflexivity|].
  eapply insert_edge; [exact G | exact Hx | exact x0 | | |]; intro q; cbn [next prev sentinel insert_between]; reflexivity.
Qed.
Lemma link_after_edge h a x b R H : rep h ((a, b) :: R) H -> ~ In x (map fst ((a, b) :: R)) -> x <> 0 ->
  exists h', link_after h x a = Done h' /\ rep h' ((a, x) :: (x, b) :: R) H.
Proof.
  intros G Hx x0. node G a b.
  assert (Hx2 : ~ In x (map snd ((a, b) :: R))).
  { intro Hc. apply Hx. eapply Permutation_in; [symmetry; apply (rep_perm _ _ _ G) | exact Hc]. }
  assert (ax : a <> x) by (cbn [map fst In] in Hx; ne). assert (bx : b <> x) by (cbn [map snd In] in Hx2; ne).
  unfold link_after. runs. eexists. split; [reflexivity|].
  eapply insert_edge; [exact G | exact Hx | exact x0 | | |]; intro q; cbn [next prev sentinel insert_between]; reflexivity.
Qed.

(** *** Replacing a node *)
Lemma replace_edge h a x b t R H : rep h ((a, x) :: (x, b) :: R) H -> ~ In x H ->
  ~ In t (map fst ((a, x) :: (x, b) :: R)) -> t <> 0 ->
  exists h', replace_with h x t = Done h' /\ rep h' ((a, t) :: (t, b) :: R) H.
Proof.
  intros G Hx Ht t0. node G a x. node G x b. facts G. pose proof (rep_not_sentinel _ _ _ _ G Hx) as Sx.
  assert (St : sentinel h t = false).
  { apply (rep_not_sentinel _ _ _ _ G). intro Hc. apply Ht. apply (rep_incl _ _ _ G). exact Hc. }
  assert (Ht2 : ~ In t (map snd ((a, x) :: (x, b) :: R))).
  { intro Hc. apply Ht. eapply Permutation_in; [symmetry; apply (rep_perm _ _ _ G) | exact Hc]. }
  cbn [map fst snd In] in Ht, Ht2.
  assert (ax : a <> x) by ne. assert (bx : b <> x) by ne. assert (ta : t <> a) by ne. assert (tx : t <> x) by ne. assert (tb : t <> b) by ne.
  unfold replace_with, is_in_a_list, is_empty_list. runs. eexists. split; [reflexivity|].
  apply (rep_rewrite h _ [(a, x); (x, b)] [(a, t); (t, b)] R H H G); cbn [next prev sentinel map fst snd app In].
  - intros c X Y. cmp; tauto.
  - intros c X Y. cmp; tauto.
  - intros c d [E|[E|[]]]; inversion E; subst c d; rewrite ?N.eqb_refl; known; auto.
  - constructor; [intros [?|[]]; congruence|]. constructor; [intros [] | constructor].
  - intros c [<-|[<-|[]]]; split; auto 9.
  - intros c [<-|[<-|[]]]; auto.
  - permn.
  - intros c [<-|[<-|[]]] Y; [tauto|]. rewrite ?N.eqb_refl. known. auto.
  - apply (rep_heads _ _ _ G).
  - intros c Hc. destruct (N.eq_dec c a); [auto|]. right. split; [exact Hc|]. intros [->|[->|[]]]; congruence.
Qed.

(** *** Moving a whole list to an empty one *)
Lemma replace_list h s f la t R H : rep h ((s, f) :: (la, s) :: (t, t) :: R) H -> In s H -> In t H ->
  exists h', replace_with h s t = Done h' /\ rep h' ((t, f) :: (la, t) :: (s, s) :: R) H.
Proof.
  intros G Hs Ht. node G s f. node G la s. node G t t. facts G.
  assert (Ss : sentinel h s = true) by (apply (rep_heads _ _ _ G), Hs).
  assert (St : sentinel h t = true) by (apply (rep_heads _ _ _ G), Ht).
  assert (st : s <> t) by ne. assert (lt : la <> t) by ne. assert (ft : f <> t) by ne. assert (fs : f <> s) by ne. assert (ls : la <> s) by ne.
  unfold replace_with, is_empty_list. runs. eexists. split; [reflexivity|].
  apply (rep_rewrite h _ [(s, f); (la, s); (t, t)] [(t, f); (la, t); (s, s)] R H H G); cbn [next prev sentinel map fst snd app In].
  - intros c X Y. cmp; tauto.
  - intros c X Y. cmp; tauto.
  - intros c d [E|[E|[E|[]]]]; inversion E; subst c d; rewrite ?N.eqb_refl; known; auto.
  - constructor; [intros [?|[?|[]]]; congruence|]. constructor; [intros [?|[]]; congruence|]. constructor; [intros [] | constructor].
  - intros c [<-|[<-|[<-|[]]]]; split; auto 9.
  - intros c [<-|[<-|[<-|[]]]]; auto 9.
  - permn.
  - intros c [<-|[<-|[<-|[]]]] Y; tauto.
  - apply (rep_heads _ _ _ G).
  - intros c Hc. destruct (N.eq_dec c s); [auto|]. destruct (N.eq_dec c la); [auto|]. destruct (N.eq_dec c t); [auto|].
    right. split; [exact Hc|]. intros [->|[->|[->|[]]]]; congruence.
Qed.
(** *** Moving a list before a node of another *)
Lemma next_node_head h s f R H : rep h ((s, f) :: R) H -> In s H -> (In f H <-> f = s) ->
  list_empty h s = Done (f =? s) /\ next_node h s = Done (if f =? s then 0 else f).
Proof.
  intros G Hs Hf. node G s f. unfold list_empty, next_node. runs.
  destruct (sentinel h f) eqn:Sf.
  - assert (E : f = s) by (apply Hf, (rep_heads _ _ _ G), Sf). rewrite E, !N.eqb_refl. auto.
  - assert (fs : f <> s). { intros ->. assert (sentinel h s = true) by (apply (rep_heads _ _ _ G), Hs). congruence. }
    known. auto.
Qed.
Lemma move_before_edge h p pos s f la R H : rep h ((p, pos) :: (s, f) :: (la, s) :: R) H -> In s H -> ~ In f H ->
  exists h', move_before h pos s = Done h' /\ rep h' ((p, f) :: (la, pos) :: (s, s) :: R) H.
Proof.
  intros G Hs Hf. node G p pos. node G s f. node G la s. facts G.
  assert (Ss : sentinel h s = true) by (apply (rep_heads _ _ _ G), Hs).
  pose proof (rep_not_sentinel _ _ _ _ G Hf) as Sf.
  assert (ps : p <> s) by ne. assert (pl : p <> la) by ne. assert (sl : s <> la) by ne.
  assert (fs : f <> s) by ne. assert (pof : pos <> f) by ne. assert (pos' : pos <> s) by ne.
  unfold move_before, list_empty, next_node. runs. eexists. split; [reflexivity|].
  apply (rep_rewrite h _ [(p, pos); (s, f); (la, s)] [(p, f); (la, pos); (s, s)] R H H G); cbn [next prev sentinel map fst snd app In].
  - intros c X Y. cmp; tauto.
  - intros c X Y. cmp; tauto.
  - intros c d [E|[E|[E|[]]]]; inversion E; subst c d; rewrite ?N.eqb_refl; known; auto.
  - constructor; [intros [?|[?|[]]]; congruence|]. constructor; [intros [?|[]]; congruence|]. constructor; [intros [] | constructor].
  - intros c [<-|[<-|[<-|[]]]]; split; auto 9.
  - intros c [<-|[<-|[<-|[]]]]; auto 9.
  - permn.
  - intros c [<-|[<-|[<-|[]]]] Y; tauto.
  - apply (rep_heads _ _ _ G).
  - intros c Hc. destruct (N.eq_dec c s); [auto|]. destruct (N.eq_dec c la); [auto|]. destruct (N.eq_dec c p); [auto|].
    right. split; [exact Hc|]. intros [->|[->|[->|[]]]]; congruence.
Qed.

(** *** Splicing *)
Lemma splice_edge h s w wn other fp first lp last R H :
  rep h ((fp, first) :: (lp, last) :: (w, wn) :: R) H -> other <> s -> first <> last ->
  exists h', splice h s w other first last = Done h' /\ rep h' ((w, first) :: (lp, wn) :: (fp, last) :: R) H.
Proof.
  intros G os fl. node G fp first. node G lp last. node G w wn. facts G.
  assert (e1 : fp <> lp) by ne. assert (e2 : fp <> w) by ne. assert (e3 : lp <> w) by ne.
  assert (e4 : first <> last) by ne. assert (e5 : first <> wn) by ne. assert (e6 : last <> wn) by ne.
  unfold splice. runs. eexists. split; [reflexivity|].
  apply (rep_rewrite h _ [(fp, first); (lp, last); (w, wn)] [(w, first); (lp, wn); (fp, last)] R H H G); cbn [next prev sentinel map fst snd app In].
  - intros c X Y. cmp; tauto.
  - intros c X Y. cmp; tauto.
  - intros c d [E|[E|[E|[]]]]; inversion E; subst c d; rewrite ?N.eqb_refl; known; auto.
  - constructor; [intros [?|[?|[]]]; congruence|]. constructor; [intros [?|[]]; congruence|]. constructor; [intros [] | constructor].
  - intros c [<-|[<-|[<-|[]]]]; split; auto 9.
  - intros c [<-|[<-|[<-|[]]]]; auto 9.
  - permn.
  - intros c [<-|[<-|[<-|[]]]] Y; tauto.
  - apply (rep_heads _ _ _ G).
  - intros c Hc. destruct (N.eq_dec c fp); [auto|]. destruct (N.eq_dec c lp); [auto|]. destruct (N.eq_dec c w); [auto|].
    right. split; [exact Hc|]. intros [->|[->|[->|[]]]]; congruence.
Qed.

