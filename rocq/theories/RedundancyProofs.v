(** Proofs about the removal of redundant instructions: dominance, and what the ids are made from. *)
From Verif Require Import Base GraphSpec Redundancy RedundancySpec.
From Verif Require LocalElimProofs.
Local Open Scope N_scope.
Notation path_prefix := LocalElimProofs.path_prefix.
Notation path_end := LocalElimProofs.path_end.
Notation dom_reach := LocalElimProofs.dom_reach.
Notation dom_trans := LocalElimProofs.dom_trans.
Notation dom_antisym := LocalElimProofs.dom_antisym.
Notation map_inj_nodup := LocalElimProofs.map_inj_nodup.

(** ** Places *)
Lemma same_label f : well_formed f -> forall b b', In b (blocks f) -> In b' (blocks f) -> label b = label b' -> b = b'.
Proof. intros WF b b'. apply map_inj_nodup, WF. Qed.
Lemma defined_bound f y b j : defined_at f y b j -> (j < S (length (body b)))%nat.
Proof.
  intros [_ H]. destruct j as [|j]; [lia|]. destruct H as (i & H & _). assert (j < length (body b))%nat by (apply nth_error_Some; congruence). lia.
Qed.
Lemma find_block f b : well_formed f -> In b (blocks f) -> find (fun x => label x =? label b) (blocks f) = Some b.
Proof.
  intros WF. pose proof (wf_labels f WF) as Nd. revert Nd. generalize (blocks f). induction l as [|a l IH]; simpl; [tauto|].
  intros Nd H. inversion Nd as [|? ? Na Nd']; subst. destruct (label a =? label b) eqn:E.
  - destruct H as [->|H]; [reflexivity|]. apply N.eqb_eq in E. destruct Na. rewrite E. apply in_map, H.
  - destruct H as [->|H]; [rewrite N.eqb_refl in E; discriminate|auto].
Qed.
Lemma find_block_inv f l b : find (fun x => label x =? l) (blocks f) = Some b -> In b (blocks f) /\ label b = l.
Proof. intros H. apply find_some in H. destruct H as [A B]. apply N.eqb_eq in B. auto. Qed.
Lemma reach_edge f b b' : well_formed f -> In b (blocks f) -> reach f b -> In (label b') (t_succ b) -> reach f b'.
Proof.
  intros WF Hb [l P] H. exists (l ++ [label b']). econstructor; [exact P|]. unfold succs. rewrite find_block by assumption. exact H.
Qed.
Lemma avail_reach f b k y b' j : well_formed f -> reach f b -> available f b k y -> defined_at f y b' j -> reach f b'.
Proof.
  intros WF R [H|(b2 & j2 & H & C)] Hd; [destruct (H _ _ Hd)|].
  destruct (wf_once f WF _ _ _ _ _ H Hd) as [-> ->]. destruct C as [[-> _]|[_ C]]; [exact R|]. eapply dom_reach; eauto.
Qed.
Lemma avail_edge f b b' y : well_formed f -> In b (blocks f) -> reach f b -> In b' (blocks f) -> In (label b') (t_succ b) ->
  available f b' 0 y -> available f b (S (length (body b))) y.
Proof.
  intros WF Hb R Hb' E [N|(b1 & j1 & H1 & C1)]; [left; exact N|]. right. exists b1, j1. split; [exact H1|].
  destruct C1 as [[_ L]|[Ne D]]; [lia|].
  destruct (N.eq_dec (label b1) (label b)) as [El|Nl].
  - left. assert (b1 = b) by (apply (same_label f WF); [apply H1|exact Hb|exact El]). subst b1. split; [reflexivity|]. eapply defined_bound; eauto.
  - right. split; [exact Nl|]. intros l P. assert (P' : path (succs f) (entry f) (label b') (l ++ [label b'])).
    { econstructor; [exact P|]. unfold succs. rewrite find_block by assumption. exact E. }
    specialize (D _ P'). apply in_app_or in D. destruct D as [D|[D|[]]]; [exact D|congruence].
Qed.
Lemma avail_step f b k y : available f b (S k) y -> available f b k y \/ defined_at f y b k.
Proof.
  intros [N|(b1 & j1 & H1 & C1)]; [left; left; exact N|]. destruct C1 as [[-> L]|C].
  - destruct (Nat.eq_dec j1 k) as [->|Ne]; [right; exact H1|]. left. right. exists b, j1. split; [exact H1|]. left. split; [reflexivity|lia].
  - left. right. exists b1, j1. auto.
Qed.
Lemma avail_later f b k k' y : available f b k y -> (k <= k')%nat -> available f b k' y.
Proof.
  intros [N|(b1 & j1 & H1 & C1)] L; [left; exact N|]. right. exists b1, j1. split; [exact H1|]. destruct C1 as [[-> L1]|C]; [left|right; exact C].
  split; [reflexivity|lia].
Qed.
Lemma avail_def f b k k' y : defined_at f y b k -> (k < k')%nat -> available f b k' y.
Proof. intros H L. right. exists b, k. auto. Qed.

(** place [k] of block [c] comes after place [j] of block [c0], or is it *)
Definition later (f : func) (c0 : block) (j : nat) (c : block) (k : nat) : Prop :=
  (c0 = c /\ (j <= k)%nat) \/ (label c0 <> label c /\ dominates (succs f) (entry f) (label c0) (label c)).
Lemma later_reach f c0 j c k : reach f c -> later f c0 j c k -> reach f c0.
Proof. intros R [[-> _]|[_ D]]; [exact R|]. eapply dom_reach; eauto. Qed.
Lemma later_avail f c0 j c k z : reach f c -> later f c0 j c k -> available f c0 j z -> available f c k z.
Proof.
  intros R C1 Hz. destruct Hz as [N|(b2 & j2 & H2 & C2)]; [left; exact N|]. right. exists b2, j2. split; [exact H2|].
  destruct C1 as [[-> L1]|[N1 D1]].
  - destruct C2 as [[-> L2]|C2]; [left; split; [reflexivity|lia]|right; exact C2].
  - destruct C2 as [[-> L2]|[N2 D2]]; [right; auto|]. right. split; [|eapply dom_trans; eauto].
    intros E. apply N1. rewrite E in D2. eapply dom_antisym; eauto.
Qed.
Lemma avail_place f c k y c0 j : well_formed f -> available f c k y -> defined_at f y c0 j -> later f c0 (S j) c k.
Proof.
  intros WF [N|(b1 & j1 & H1 & C1)] H; [destruct (N _ _ H)|]. destruct (wf_once f WF _ _ _ _ _ H1 H) as [-> ->].
  destruct C1 as [[-> L]|C]; [left; split; [reflexivity|lia]|right; exact C].
Qed.
Lemma later_less f c0 j c k : later f c0 (S j) c k -> later f c0 j c k.
Proof. intros [[-> L]|C]; [left; split; [reflexivity|lia]|right; exact C]. Qed.
Lemma avail_ne f c k r y : well_formed f -> defined_at f r c k -> available f c k y -> y <> r.
Proof.
  intros WF Dr [Nd|(b' & j & Dy & C)] ->; [exact (Nd _ _ Dr)|]. destruct (wf_once f WF _ _ _ _ _ Dy Dr) as [-> ->].
  destruct C as [[_ L]|[N _]]; [lia|congruence].
Qed.
Lemma edge_succ f q c : well_formed f -> In q (blocks f) -> (In (label c) (succs f (label q)) <-> In (label c) (t_succ q)).
Proof. intros WF Hq. unfold succs. rewrite (find_block f q WF Hq). reflexivity. Qed.
Lemma succ_block f l c : In c (succs f l) -> exists q, In q (blocks f) /\ label q = l /\ In c (t_succ q).
Proof.
  unfold succs. destruct (find (fun b => label b =? l) (blocks f)) as [q|] eqn:F; [|intros []]. apply find_block_inv in F. destruct F as [A B]. eauto.
Qed.
Lemma entry_no_phi f b : well_formed f -> In b (blocks f) -> label b = entry f -> phis b = [].
Proof.
  intros WF Hb E. pose proof (wf_entry f WF) as W. unfold entry in E. destruct (blocks f) as [|b0 bs] eqn:Eb; [destruct Hb|]. destruct W as [W _].
  assert (b = b0); [|congruence]. apply (same_label f WF); [rewrite Eb; exact Hb|rewrite Eb; left; reflexivity|exact E].
Qed.
(** a way to a block that is not the entry comes from another block *)
Lemma last_step f c l : path (succs f) (entry f) (label c) l -> label c <> entry f ->
  exists q l', In q (blocks f) /\ In (label c) (t_succ q) /\ path (succs f) (entry f) (label q) l' /\ l = l' ++ [label c].
Proof.
  intros P Ne. inversion P as [E1 E2|b0 c0 l' P' Hc E1 E2]; subst; [congruence|]. destruct (succ_block f b0 _ Hc) as (q & Hq & <- & Hs). exists q, l'. auto.
Qed.
(** an id that has a value at the ends of all predecessors has it at the start *)
Lemma avail_join f c y : well_formed f -> In c (blocks f) -> reach f c -> label c <> entry f ->
  (forall q, In q (blocks f) -> reach f q -> In (label c) (t_succ q) -> available f q (S (length (body q))) y) -> available f c 0 y.
Proof.
  intros WF Hc [l0 P0] Ne H. destruct (last_step f c l0 P0 Ne) as (q0 & l1 & Hq & Hs & P1 & _). assert (Rq : reach f q0) by (exists l1; exact P1).
  destruct (H q0 Hq Rq Hs) as [N|(b1 & j1 & H1 & _)]; [left; exact N|]. right. exists b1, j1. split; [exact H1|]. right.
  assert (Q : forall q l, In q (blocks f) -> path (succs f) (entry f) (label q) l -> In (label c) (t_succ q) -> In (label b1) l).
  { intros q l Hq' P Hs'. destruct (H q Hq' (ex_intro _ l P) Hs') as [N|(b2 & j2 & H2 & C2)]; [destruct (N _ _ H1)|]. destruct (wf_once f WF _ _ _ _ _ H2 H1) as [-> ->].
    destruct C2 as [[-> _]|[_ D]]; [|exact (D l P)]. destruct (path_end _ _ _ _ P) as [l' ->]. apply in_or_app. right. left. reflexivity. }
  assert (D : forall l, path (succs f) (entry f) (label c) l -> exists l', l = l' ++ [label c] /\ In (label b1) l').
  { intros l P. destruct (last_step f c l P Ne) as (q & l' & Hq' & Hs' & P' & ->). exists l'. split; [reflexivity|]. eapply Q; eauto. }
  split.
  - intros E. revert P0. remember (length l0) as n eqn:En. revert l0 En. induction n as [n IH] using lt_wf_ind. intros l0 -> P0.
    destruct (D l0 P0) as (l' & -> & Hin). destruct (last_step f c _ P0 Ne) as (q & l2 & Hq' & Hs' & P' & E2). apply app_inj_tail in E2. destruct E2 as [<- _].
    destruct (path_prefix _ _ _ _ P' _ Hin) as (m1 & m2 & -> & Pm). rewrite E in Pm. eapply (IH (length m1)); [|reflexivity|exact Pm]. rewrite !app_length. simpl. lia.
  - intros l P. destruct (D l P) as (l' & -> & Hin). apply in_or_app. left. exact Hin.
Qed.

(** ** What an id is made from *)
Inductive tree := LId (x : N) | Node (op : N) (l : list tree) | TPhi (l : list (tree * N)).
Section TreeInd.
Variable P : tree -> Prop.
Hypothesis HL : forall x, P (LId x).
Hypothesis HN : forall op l, (forall n t, nth_error l n = Some t -> P t) -> P (Node op l).
Hypothesis HP : forall l, P (TPhi l).
Fixpoint tree_ind' (t : tree) : P t :=
  match t with
  | LId x => HL x
  | Node op l => HN op l ((fix go (l : list tree) : forall n t, nth_error l n = Some t -> P t :=
      match l with
      | [] => fun n t H => match n return nth_error [] n = Some t -> P t with O | S _ => fun H => match H with eq_refl => I end end H
      | a :: l' => fun n t H => match n return nth_error (a :: l') n = Some t -> P t with
                                | O => fun H => match H in _ = o return match o with Some t' => P t' | None => True end with eq_refl => tree_ind' a end
                                | S n' => fun H => go l' n' t H
                                end H
      end) l)
  | TPhi l => HP l
  end.
End TreeInd.
(** all the leaves are fine *)
Fixpoint okt (P : N -> Prop) (Q : list (tree * N) -> Prop) (t : tree) : Prop :=
  match t with
  | LId x => P x
  | Node _ l => (fix go (l : list tree) : Prop := match l with [] => True | a :: l' => okt P Q a /\ go l' end) l
  | TPhi K => Q K
  end.
Lemma okt_node P Q op l : okt P Q (Node op l) <-> forall n t, nth_error l n = Some t -> okt P Q t.
Proof.
  simpl. induction l as [|a l IH]; split; intros H.
  - intros [|n] t; discriminate.
  - exact I.
  - intros [|n] t E; simpl in E; [injection E as <-; apply H|]. apply (proj1 IH (proj2 H) n t E).
  - split; [apply (H O a eq_refl)|]. apply IH. intros n t E. apply (H (S n) t E).
Qed.
Lemma okt_mono (P P' : N -> Prop) (Q Q' : list (tree * N) -> Prop) : (forall x, P x -> P' x) -> (forall K, Q K -> Q' K) -> forall t, okt P Q t -> okt P' Q' t.
Proof.
  intros HP HQ. induction t as [x|op l IH|l] using tree_ind'; intros H; [apply HP, H| |apply HQ, H]. apply okt_node. intros n t E. apply (IH n t E).
  exact (proj1 (okt_node P Q op l) H n t E).
Qed.

Definition has (f : func) (i : inst) : Prop := In i (prelude f) \/ exists c j, In c (blocks f) /\ nth_error (body c) j = Some i.
Inductive means (f : func) (comm : N -> bool) : N -> tree -> Prop :=
| M_own x : means f comm x (LId x)
| M_pure r op args ts : has f (IPure r op args) -> length ts = length args ->
    (forall n a t, nth_error args n = Some a -> nth_error ts n = Some t -> means f comm a t) -> means f comm r (Node op ts)
| M_comm r op a b ta tb : has f (IPure r op [a; b]) -> comm op = true -> means f comm a ta -> means f comm b tb -> means f comm r (Node op [tb; ta])
| M_copy r a t : has f (ICopy r a) -> means f comm a t -> means f comm r t
| M_same c p t : In c (blocks f) -> In p (phis c) -> (forall a l, In (a, l) (p_args p) -> means f comm a t) -> means f comm (p_res p) t
| M_phi c p K : In c (blocks f) -> In p (phis c) -> map snd K = map snd (p_args p) ->
    (forall n a l t l', nth_error (p_args p) n = Some (a, l) -> nth_error K n = Some (t, l') -> means f comm a t) -> means f comm (p_res p) (TPhi K).

(** ** Phis with the same predecessors *)
Definition joins (K : list (tree * N)) (b : block) : bool := existsb (fun p => list_eqb N.eqb (map snd (p_args p)) (map snd K)) (phis b).
Lemma list_eqb_eq {A} (eqb : A -> A -> bool) : (forall a b, eqb a b = true <-> a = b) -> forall l m, list_eqb eqb l m = true <-> l = m.
Proof.
  intros H. induction l as [|a l IH]; intros [|b m]; simpl; try (split; (reflexivity || discriminate)).
  rewrite andb_true_iff, H, IH. split; [intros [-> ->]; reflexivity|intros E; injection E; auto].
Qed.
Lemma joins_phi K b : joins K b = true <-> exists p, In p (phis b) /\ map snd (p_args p) = map snd K.
Proof.
  unfold joins. rewrite existsb_exists. split; intros (p & Hp & E); exists p; (split; [exact Hp|]); apply (list_eqb_eq N.eqb N.eqb_eq); exact E.
Qed.
(** every way to the place goes through a block with these predecessors *)
Definition covered (f : func) (c : block) (k : nat) (K : list (tree * N)) : Prop :=
  (joins K c = true /\ (1 <= k)%nat) \/
  (joins K c = false /\ forall l, path (succs f) (entry f) (label c) l -> exists b, In b (blocks f) /\ joins K b = true /\ In (label b) l).
Definition joined (f : func) (K : list (tree * N)) (l : list N) : bool := existsb (fun b => joins K b && existsb (N.eqb (label b)) l) (blocks f).
Lemma joined_in f K l : joined f K l = true <-> exists b, In b (blocks f) /\ joins K b = true /\ In (label b) l.
Proof.
  unfold joined. rewrite existsb_exists. split.
  - intros (b & Hb & E). apply andb_true_iff in E. destruct E as [E1 E2]. apply existsb_exists in E2. destruct E2 as (x & Hx & E2). apply N.eqb_eq in E2. subst x. eauto.
  - intros (b & Hb & E1 & E2). exists b. split; [exact Hb|]. rewrite E1. apply existsb_exists. exists (label b). split; [exact E2|apply N.eqb_refl].
Qed.
Lemma covered_path f c k K l : In c (blocks f) -> covered f c k K -> path (succs f) (entry f) (label c) l -> joined f K l = true.
Proof.
  intros Hc [[J _]|[_ H]] P; apply joined_in; [|apply H, P]. exists c. split; [exact Hc|]. split; [exact J|]. destruct (path_end _ _ _ _ P) as [l' ->].
  apply in_or_app. right. left. reflexivity.
Qed.
Lemma first_join f K : well_formed f -> forall x l, path (succs f) (entry f) x l -> joined f K l = true ->
  exists b q l', In b (blocks f) /\ joins K b = true /\ In q (blocks f) /\ In (label b) (t_succ q) /\ path (succs f) (entry f) (label q) l' /\ joined f K l' = false.
Proof.
  intros WF x l P. induction P as [|x y l P IH Hy]; intros J.
  - exfalso. apply joined_in in J. destruct J as (b & Hb & J & [E|[]]). apply joins_phi in J. destruct J as (p & Hp & _). rewrite (entry_no_phi f b WF Hb (eq_sym E)) in Hp. destruct Hp.
  - destruct (joined f K l) eqn:Jl; [apply IH; reflexivity|]. apply joined_in in J. destruct J as (b & Hb & J & Hin). apply in_app_or in Hin. destruct Hin as [Hin|[E|[]]].
    + assert (T : joined f K l = true) by (apply joined_in; eauto). congruence.
    + subst y. destruct (succ_block f x _ Hy) as (q & Hq & <- & Hs). exists b, q, l. auto 10.
Qed.
Lemma open_pred f K c : well_formed f -> In c (blocks f) -> reach f c -> joins K c = true ->
  exists q l, In q (blocks f) /\ In (label c) (t_succ q) /\ path (succs f) (entry f) (label q) l /\ joined f K l = false.
Proof.
  intros WF Hc [l0 P0] J. assert (J0 : joined f K l0 = true).
  { apply joined_in. exists c. split; [exact Hc|]. split; [exact J|]. destruct (path_end _ _ _ _ P0) as [l' ->]. apply in_or_app. right. left. reflexivity. }
  destruct (first_join f K WF _ _ P0 J0) as (b & q & l & Hb & Jb & Hq & Hs & P & Jl). exists q, l. split; [exact Hq|]. split; [|auto].
  apply joins_phi in J. destruct J as (p & Hp & Ep). apply joins_phi in Jb. destruct Jb as (pb & Hpb & Eb).
  assert (In (label q) (map snd (p_args pb))) as Hin by (apply (wf_preds f WF b pb _ Hb Hpb); eauto). rewrite Eb, <- Ep in Hin.
  apply (wf_preds f WF c p _ Hc Hp) in Hin. destruct Hin as (q' & Hq' & El & Hs'). rewrite <- (same_label f WF q' q Hq' Hq El). exact Hs'.
Qed.
Lemma phi_not_entry f c p : well_formed f -> In c (blocks f) -> In p (phis c) -> label c <> entry f.
Proof. intros WF Hc Hp E. rewrite (entry_no_phi f c WF Hc E) in Hp. destruct Hp. Qed.
Lemma covered_join f c K : well_formed f -> In c (blocks f) -> reach f c -> label c <> entry f ->
  (forall q, In q (blocks f) -> reach f q -> In (label c) (t_succ q) -> covered f q (S (length (body q))) K) -> covered f c 0 K.
Proof.
  intros WF Hc R Ne H. destruct (joins K c) eqn:J.
  - exfalso. destruct (open_pred f K c WF Hc R J) as (q & l & Hq & Hs & P & Jl). rewrite (covered_path f q _ K l Hq (H q Hq (ex_intro _ l P) Hs) P) in Jl. discriminate.
  - right. split; [exact J|]. intros l P. destruct (last_step f c l P Ne) as (q & l' & Hq & Hs & P' & ->).
    pose proof (covered_path f q _ K l' Hq (H q Hq (ex_intro _ l' P') Hs) P') as C. apply joined_in in C. destruct C as (b & Hb & Jb & Hin). exists b. split; [exact Hb|]. split; [exact Jb|].
    apply in_or_app. left. exact Hin.
Qed.
Lemma covered_later f c0 j c k K : well_formed f -> In c0 (blocks f) -> In c (blocks f) -> reach f c -> later f c0 j c k -> covered f c0 j K -> covered f c k K.
Proof.
  intros WF H0 Hc R [[-> L]|[Ne D]] C.
  - destruct C as [[J L']|C]; [left; split; [exact J|lia]|right; exact C].
  - destruct (joins K c) eqn:J.
    + exfalso. destruct (open_pred f K c WF Hc R J) as (q & l & Hq & Hs & P & Jl).
      assert (P' : path (succs f) (entry f) (label c) (l ++ [label c])) by (econstructor; [exact P|apply edge_succ; auto]).
      specialize (D _ P'). apply in_app_or in D. destruct D as [D|[D|[]]]; [|congruence]. destruct (path_prefix _ _ _ _ P _ D) as (l1 & l2 & -> & P1).
      pose proof (covered_path f c0 j K l1 H0 C P1) as J1. apply joined_in in J1. destruct J1 as (b & Hb & Jb & Hin).
      assert (T : joined f K (l1 ++ l2) = true) by (apply joined_in; exists b; split; [exact Hb|]; split; [exact Jb|]; apply in_or_app; left; exact Hin). congruence.
    + right. split; [exact J|]. intros l P. destruct (path_prefix _ _ _ _ P _ (D l P)) as (l1 & l2 & -> & P1).
      pose proof (covered_path f c0 j K l1 H0 C P1) as J1. apply joined_in in J1. destruct J1 as (b & Hb & Jb & Hin). exists b. split; [exact Hb|]. split; [exact Jb|].
      apply in_or_app. left. exact Hin.
Qed.

(** ** The leaves have values where the id has one *)
Definition ready (f : func) (c : block) (k : nat) (t : tree) : Prop := okt (available f c k) (covered f c k) t.
Lemma ready_later f c0 j c k t : well_formed f -> In c0 (blocks f) -> In c (blocks f) -> reach f c -> later f c0 j c k -> ready f c0 j t -> ready f c k t.
Proof.
  intros WF H0 Hc R L. unfold ready. apply okt_mono; [intros x; exact (later_avail f c0 j c k x R L)|intros K; exact (covered_later f c0 j c k K WF H0 Hc R L)].
Qed.
Lemma ready_join f c t : well_formed f -> In c (blocks f) -> reach f c -> label c <> entry f ->
  (forall q, In q (blocks f) -> reach f q -> In (label c) (t_succ q) -> ready f q (S (length (body q))) t) -> ready f c 0 t.
Proof.
  intros WF Hc R Ne. induction t as [x|op l IH|K] using tree_ind'; intros H.
  - apply avail_join; auto.
  - apply okt_node. intros n t E. apply (IH n t E). intros q Hq Rq Hs. exact (proj1 (okt_node _ _ op l) (H q Hq Rq Hs) n t E).
  - apply covered_join; auto.
Qed.
Lemma phi_arg f c p q : well_formed f -> In c (blocks f) -> In p (phis c) -> In q (blocks f) -> In (label c) (t_succ q) -> exists a, In (a, label q) (p_args p).
Proof.
  intros WF Hc Hp Hq Hs. assert (H : In (label q) (map snd (p_args p))) by (apply (wf_preds f WF c p _ Hc Hp); eauto). apply in_map_iff in H. destruct H as ([a l] & <- & H). eauto.
Qed.
Lemma same_ready f c p t : well_formed f -> In c (blocks f) -> In p (phis c) -> reach f c ->
  (forall a l c' k, In (a, l) (p_args p) -> In c' (blocks f) -> reach f c' -> available f c' k a -> ready f c' k t) -> ready f c 0 t.
Proof.
  intros WF Hc Hp R H. apply ready_join; auto; [eapply phi_not_entry; eauto|]. intros q Hq Rq Hs. destruct (phi_arg f c p q WF Hc Hp Hq Hs) as (a & Ha).
  exact (H a (label q) q _ Ha Hq Rq (wf_phis f WF c p a (label q) q Hc Hp Ha Hq eq_refl Rq)).
Qed.
Lemma has_avail f i r c k a : well_formed f -> has f i -> result i = Some r -> In a (reads i) -> reach f c -> available f c k r ->
  (forall c' k', available f c' k' a) \/ exists c0 j, In c0 (blocks f) /\ reach f c0 /\ nth_error (body c0) j = Some i /\ available f c0 (S j) a /\ later f c0 (S j) c k.
Proof.
  intros WF [Hp|(c0 & j & H0 & Hj)] Hr Ha R Av.
  - left. intros c' k'. left. intros b' j'. eapply (wf_constants f WF); eauto.
  - right. assert (D : defined_at f r c0 (S j)) by (split; [exact H0|exists i; auto]). pose proof (later_less _ _ _ _ _ (avail_place f c k r c0 (S j) WF Av D)) as L.
    pose proof (later_reach _ _ _ _ _ R L) as R0. exists c0, j. split; [exact H0|]. split; [exact R0|]. split; [exact Hj|]. split; [|exact L]. eapply (wf_uses f WF); eauto.
Qed.
Lemma means_ready f comm x t : well_formed f -> means f comm x t -> forall c k, In c (blocks f) -> reach f c -> available f c k x -> ready f c k t.
Proof.
  intros WF M. induction M as [x|r op args ts Hi Ln Hm IH|r op a b ta tb Hi Co Ma IHa Mb IHb|r a t Hi Ma IH|c0 p t H0 Hp Hm IH|c0 p K H0 Hp Es Hm IH]; intros c k Hc R Av.
  - exact Av.
  - apply okt_node. intros n t E. assert (exists a, nth_error args n = Some a) as [a Ea].
    { destruct (nth_error args n) as [a|] eqn:Ea; [eauto|]. apply nth_error_None in Ea. assert (n < length ts)%nat by (apply nth_error_Some; congruence). lia. }
    destruct (has_avail f _ r c k a WF Hi eq_refl (nth_error_In _ _ Ea) R Av) as [G|(c0 & j & H0 & R0 & Hj & Aa & L)].
    + apply (IH n a t Ea E c k Hc R (G c k)).
    + apply (ready_later f c0 (S j) c k t WF H0 Hc R L). apply (IH n a t Ea E c0 (S j) H0 R0 Aa).
  - assert (Qa : forall z tz, In z [a; b] -> (forall c k, In c (blocks f) -> reach f c -> available f c k z -> ready f c k tz) -> ready f c k tz).
    { intros z tz Hz Q. destruct (has_avail f _ r c k z WF Hi eq_refl Hz R Av) as [G|(c0 & j & H0 & R0 & Hj & Aa & L)]; [apply Q; auto|]. eapply (ready_later f c0 (S j)); eauto. }
    simpl. split; [apply (Qa b tb); simpl; auto|]. split; [apply (Qa a ta); simpl; auto|exact I].
  - destruct (has_avail f _ r c k a WF Hi eq_refl (or_introl eq_refl) R Av) as [G|(c0 & j & H0 & R0 & Hj & Aa & L)]; [apply IH; auto|]. eapply (ready_later f c0 (S j)); eauto.
  - assert (D : defined_at f (p_res p) c0 0) by (split; [exact H0|eauto]). pose proof (later_less _ _ _ _ _ (avail_place f c k _ c0 0 WF Av D)) as L.
    pose proof (later_reach _ _ _ _ _ R L) as R0. eapply (ready_later f c0 0); eauto. eapply same_ready; eauto.
  - assert (D : defined_at f (p_res p) c0 0) by (split; [exact H0|eauto]). pose proof (avail_place f c k _ c0 0 WF Av D) as L.
    pose proof (later_reach _ _ _ _ _ R L) as R0. simpl. eapply (covered_later f c0 1); eauto. left. split; [|lia]. apply joins_phi. eauto.
Qed.
