(** Proofs about intrusive lists, part 2: the pointers represent the sequences of the specification. *)
From Coq Require Import Permutation.
From Verif Require Import Base IList IListSpec IListEdges.
Local Open Scope N_scope.

(** ** Sequences *)
Lemma mem_in x l : mem x l = true <-> In x l.
Proof.
  unfold mem. rewrite existsb_exists. split; [intros (y & Hy & E); apply N.eqb_eq in E; subst; exact Hy|].
  intro H. exists x. rewrite N.eqb_refl. auto.
Qed.
Lemma in_nodes ls x : In x (nodes ls) <-> In x (heads ls) \/ In x (members ls).
Proof.
  induction ls as [|[s l] ls IH]; [simpl; tauto|]. simpl. rewrite !in_app_iff, IH. tauto.
Qed.
Lemma nodes_app ls ls' : nodes (ls ++ ls') = nodes ls ++ nodes ls'.
Proof. unfold nodes. apply flat_map_app. Qed.
Lemma all_edges_app ls ls' : all_edges (ls ++ ls') = all_edges ls ++ all_edges ls'.
Proof. unfold all_edges. apply flat_map_app. Qed.
Lemma rep_lists_nodup h ls : rep_lists h ls -> NoDup (nodes ls).
Proof. intro G. rewrite <- all_edges_fst. apply (rep_nodup _ _ _ G). Qed.

(** A list containing [x], apart from the others. *)
Lemma split_at ls x : NoDup (nodes ls) -> In x (nodes ls) ->
  exists ls1 s l ls2, ls = ls1 ++ (s, l) :: ls2 /\ In x (s :: l) /\ ~ In x (nodes ls1) /\ ~ In x (nodes ls2) /\ NoDup (s :: l) /\
    (forall y, In y (s :: l) -> ~ In y (nodes ls1) /\ ~ In y (nodes ls2)).
Proof.
  intros D Hx. unfold nodes in Hx. apply in_flat_map in Hx as ([s l] & Hin & Hx). apply in_split in Hin as (ls1 & ls2 & ->).
  cbn [fst snd] in Hx. exists ls1, s, l, ls2. rewrite nodes_app in D. change (nodes ((s, l) :: ls2)) with ((s :: l) ++ nodes ls2) in D.
  assert (Q : forall y, In y (s :: l) -> ~ In y (nodes ls1) /\ ~ In y (nodes ls2)).
  { intros y Hy. split.
    - intro Hc. apply (nodup_app_disjoint _ _ D y Hc). apply in_or_app. auto.
    - apply nodup_app_r in D. apply (nodup_app_disjoint _ _ D y Hy). }
  destruct (Q x Hx). split; [reflexivity|]. split; [exact Hx|]. split; [assumption|]. split; [assumption|]. split; [|exact Q].
  apply nodup_app_r in D. clear -D. revert D. generalize (s :: l). intros L D. induction L as [|a L IH]; [constructor|].
  simpl in D. inversion D; subst. constructor; [|apply IH; assumption]. intro Hc. apply H1. apply in_or_app. auto.
Qed.
Lemma split_list ls s : NoDup (nodes ls) -> In s (heads ls) ->
  exists ls1 l ls2, ls = ls1 ++ (s, l) :: ls2 /\ ~ In s (nodes ls1) /\ ~ In s (nodes ls2) /\ NoDup (s :: l) /\
    (forall y, In y (s :: l) -> ~ In y (nodes ls1) /\ ~ In y (nodes ls2)).
Proof.
  intros D Hs. destruct (split_at ls s D) as (ls1 & t & l & ls2 & E & Hin & N1 & N2 & Dl & Q); [apply in_nodes; auto|].
  destruct Hin as [->|Hin]; [exists ls1, l, ls2; auto|]. exfalso.
  subst ls. unfold heads in Hs. rewrite map_app in Hs. cbn [map fst] in Hs. apply in_app_or in Hs as [Hs|[Hs|Hs]].
  - apply N1, in_nodes. auto.
  - inversion Dl; subst. contradiction.
  - apply N2, in_nodes. auto.
Qed.

Definition same_heads (f : N * list N -> N * list N) : Prop := forall e, fst (f e) = fst e.
Lemma heads_map f ls : same_heads f -> heads (map f ls) = heads ls.
Proof. intro H. unfold heads. rewrite map_map. apply map_ext. intros e. apply H. Qed.
Lemma map_id_on (f : N * list N -> N * list N) ls : (forall s l, In (s, l) ls -> f (s, l) = (s, l)) -> map f ls = ls.
Proof. intro H. induction ls as [|[s l] ls IH]; [reflexivity|]. simpl. rewrite H by (left; reflexivity). rewrite IH; [reflexivity|]. intros; apply H; right; assumption. Qed.
Lemma in_nodes_of ls s l y : In (s, l) ls -> In y (s :: l) -> In y (nodes ls).
Proof. intros Hin Hy. unfold nodes. apply in_flat_map. exists (s, l). auto. Qed.

Lemma before_element_notin pos xs l : ~ In pos l -> before_element pos xs l = l.
Proof.
  induction l as [|y l IH]; intro H; [reflexivity|]. simpl. destruct (N.eqb_spec y pos) as [->|]; [exfalso; apply H; left; reflexivity|].
  rewrite IH; [reflexivity|]. intro Hc. apply H. right. exact Hc.
Qed.
Lemma before_element_at pos xs l1 l2 : ~ In pos l1 -> before_element pos xs (l1 ++ pos :: l2) = l1 ++ xs ++ pos :: l2.
Proof.
  induction l1 as [|y l1 IH]; intro H; simpl; [rewrite N.eqb_refl; reflexivity|].
  destruct (N.eqb_spec y pos) as [->|]; [exfalso; apply H; left; reflexivity|]. rewrite IH; [reflexivity|]. intro Hc. apply H. right. exact Hc.
Qed.
Lemma after_element_notin pos xs l : ~ In pos l -> after_element pos xs l = l.
Proof.
  induction l as [|y l IH]; intro H; [reflexivity|]. simpl. destruct (N.eqb_spec y pos) as [->|]; [exfalso; apply H; left; reflexivity|].
  rewrite IH; [reflexivity|]. intro Hc. apply H. right. exact Hc.
Qed.
Lemma after_element_at pos xs l1 l2 : ~ In pos l1 -> after_element pos xs (l1 ++ pos :: l2) = l1 ++ pos :: xs ++ l2.
Proof.
  induction l1 as [|y l1 IH]; intro H; simpl; [rewrite N.eqb_refl; reflexivity|].
  destruct (N.eqb_spec y pos) as [->|]; [exfalso; apply H; left; reflexivity|]. rewrite IH; [reflexivity|]. intro Hc. apply H. right. exact Hc.
Qed.
Lemma without_notin x l : ~ In x l -> without x l = l.
Proof.
  induction l as [|y l IH]; intro H; [reflexivity|]. simpl. destruct (N.eqb_spec y x) as [->|]; [exfalso; apply H; left; reflexivity|].
  simpl. rewrite IH; [reflexivity|]. intro Hc. apply H. right. exact Hc.
Qed.
Lemma without_at x l1 l2 : NoDup (l1 ++ x :: l2) -> without x (l1 ++ x :: l2) = l1 ++ l2.
Proof.
  intro D. unfold without. rewrite filter_app. cbn [filter]. rewrite N.eqb_refl. cbn [negb].
  assert (~ In x l1) by (intro Hc; apply (nodup_app_disjoint _ _ D x Hc); left; reflexivity).
  assert (~ In x l2) by (apply nodup_app_r in D; inversion D; assumption).
  fold (without x l1). fold (without x l2). rewrite !without_notin by assumption. reflexivity.
Qed.
Lemma put_before_other pos xs ls : ~ In pos (nodes ls) -> map (put_before pos xs) ls = ls.
Proof.
  intro H. apply map_id_on. intros s l Hin. unfold put_before. cbn [fst snd].
  destruct (N.eqb_spec pos s) as [->|]; [exfalso; apply H; eapply in_nodes_of; eauto; left; reflexivity|].
  rewrite before_element_notin; [reflexivity|]. intro Hc. apply H. eapply in_nodes_of; eauto. right. exact Hc.
Qed.
Lemma put_after_other pos xs ls : ~ In pos (nodes ls) -> map (put_after pos xs) ls = ls.
Proof.
  intro H. apply map_id_on. intros s l Hin. unfold put_after. cbn [fst snd].
  destruct (N.eqb_spec pos s) as [->|]; [exfalso; apply H; eapply in_nodes_of; eauto; left; reflexivity|].
  rewrite after_element_notin; [reflexivity|]. intro Hc. apply H. eapply in_nodes_of; eauto. right. exact Hc.
Qed.
Lemma drop_other x ls : ~ In x (members ls) -> drop_everywhere x ls = ls.
Proof.
  intro H. apply map_id_on. intros s l Hin. cbn [fst snd]. rewrite without_notin; [reflexivity|].
  intro Hc. apply H. unfold members. apply in_flat_map. exists (s, l). auto.
Qed.

Lemma put_before_edges ls pos : NoDup (nodes ls) -> In pos (nodes ls) ->
  exists a R, Permutation (all_edges ls) ((a, pos) :: R) /\
    forall xs, Permutation (all_edges (map (put_before pos xs) ls)) (R ++ edges a xs pos).
Proof.
  intros D Hp. destruct (split_at ls pos D Hp) as (ls1 & s & l & ls2 & -> & Hin & N1 & N2 & Dl & _).
  assert (exists l1 l2 q, (forall xs, put_before pos xs (s, l) = (s, l1 ++ xs ++ l2)) /\ l = l1 ++ l2 /\
            (forall p xs, edges p (xs ++ l2) s = edges p xs pos ++ q)) as (l1 & l2 & q & Hput & -> & Hq).
  { destruct (N.eq_dec pos s) as [->|Hne].
    - exists l, [], []. split; [|split].
      + intro xs. unfold put_before. cbn [fst snd]. rewrite N.eqb_refl, app_nil_r. reflexivity.
      + rewrite app_nil_r. reflexivity.
      + intros p xs. rewrite !app_nil_r. reflexivity.
    - destruct Hin as [?|Hin]; [congruence|]. apply in_split in Hin as (l1 & l2 & ->).
      exists l1, (pos :: l2), (edges pos l2 s). split; [|split; [reflexivity|]].
      + intro xs. unfold put_before. cbn [fst snd]. rewrite (proj2 (N.eqb_neq _ _) Hne). rewrite before_element_at; [reflexivity|].
        inversion Dl; subst. intro Hc. apply (nodup_app_disjoint _ _ H2 pos Hc). left. reflexivity.
      + intros p xs. revert p. induction xs as [|y xs IH]; intro p; [reflexivity|]. simpl. rewrite IH. reflexivity. }
  destruct (edges_last s l1) as (E & a & HE). exists a, (all_edges ls1 ++ E ++ q ++ all_edges ls2). split.
  - rewrite all_edges_app. cbn [all_edges flat_map fst snd]. fold (all_edges ls2). rewrite HE.
    specialize (Hq a []). cbn [app edges] in Hq. rewrite Hq. perme.
  - intro xs. rewrite map_app. cbn [map]. rewrite (put_before_other pos xs ls1), (put_before_other pos xs ls2) by assumption.
    rewrite Hput, all_edges_app. cbn [all_edges flat_map fst snd]. fold (all_edges ls2). rewrite HE, Hq. perme.
Qed.
Lemma put_after_edges ls pos : NoDup (nodes ls) -> In pos (nodes ls) ->
  exists b R, Permutation (all_edges ls) ((pos, b) :: R) /\
    forall xs, Permutation (all_edges (map (put_after pos xs) ls)) (R ++ edges pos xs b).
Proof.
  intros D Hp. destruct (split_at ls pos D Hp) as (ls1 & s & l & ls2 & -> & Hin & N1 & N2 & Dl & _).
  assert (exists l1 l2 E, (forall xs, put_after pos xs (s, l) = (s, l1 ++ xs ++ l2)) /\ l = l1 ++ l2 /\
            (forall xs q, edges s (l1 ++ xs) q = E ++ edges pos xs q)) as (l1 & l2 & E & Hput & -> & HE).
  { destruct (N.eq_dec pos s) as [->|Hne].
    - exists [], l, []. split; [|split; reflexivity].
      intro xs. unfold put_after. cbn [fst snd]. rewrite N.eqb_refl. reflexivity.
    - destruct Hin as [?|Hin]; [congruence|]. apply in_split in Hin as (l1 & l2 & ->).
      exists (l1 ++ [pos]), l2, (edges s l1 pos). split; [|split; [rewrite <- app_assoc; reflexivity|]].
      + intro xs. unfold put_after. cbn [fst snd]. rewrite (proj2 (N.eqb_neq _ _) Hne). rewrite after_element_at, <- app_assoc; [reflexivity|].
        inversion Dl; subst. intro Hc. apply (nodup_app_disjoint _ _ H2 pos Hc). left. reflexivity.
      + intros xs q. rewrite <- app_assoc. cbn [app]. clear. generalize s. induction l1 as [|y l1 IH]; intro p; [reflexivity|]. simpl. rewrite IH. reflexivity. }
  destruct (edges_first l2 s) as (b & E2 & HE2). exists b, (all_edges ls1 ++ E ++ E2 ++ all_edges ls2). split.
  - rewrite all_edges_app. cbn [all_edges flat_map fst snd]. fold (all_edges ls2). rewrite HE.
    specialize (HE2 pos []). cbn [app edges] in HE2. rewrite HE2. perme.
  - intro xs. rewrite map_app. cbn [map]. rewrite (put_after_other pos xs ls1), (put_after_other pos xs ls2) by assumption.
    rewrite Hput, all_edges_app. cbn [all_edges flat_map fst snd]. fold (all_edges ls2). rewrite HE, HE2. perme.
Qed.

(** A member, with the edges around it, when the member is replaced by [xs]. *)
Lemma member_edges ls x : NoDup (nodes ls) -> In x (members ls) ->
  exists ls1 s l1 l2 ls2 a b R, ls = ls1 ++ (s, l1 ++ x :: l2) :: ls2 /\ ~ In x (nodes ls1) /\ ~ In x (nodes ls2) /\ NoDup (s :: l1 ++ x :: l2) /\
    Permutation (all_edges ls) ((a, x) :: (x, b) :: R) /\
    forall xs, Permutation (all_edges (ls1 ++ (s, l1 ++ xs ++ l2) :: ls2)) (R ++ edges a xs b).
Proof.
  intros D Hx. destruct (split_at ls x D) as (ls1 & s & l & ls2 & -> & Hin & N1 & N2 & Dl & _); [apply in_nodes; auto|].
  destruct Hin as [->|Hin].
  { exfalso. unfold members in Hx. apply in_flat_map in Hx as ([t lt] & Ht & Hx). cbn [snd] in Hx. apply in_app_or in Ht as [Ht|[Ht|Ht]].
    - apply N1. eapply in_nodes_of; eauto. right. exact Hx.
    - inversion Ht; subst. inversion Dl; subst. contradiction.
    - apply N2. eapply in_nodes_of; eauto. right. exact Hx. }
  apply in_split in Hin as (l1 & l2 & ->). destruct (edges_last s l1) as (E & a & HE). destruct (edges_first l2 s) as (b & E2 & HE2).
  exists ls1, s, l1, l2, ls2, a, b, (all_edges ls1 ++ E ++ E2 ++ all_edges ls2).
  split; [reflexivity|]. split; [exact N1|]. split; [exact N2|]. split; [exact Dl|]. split.
  - rewrite all_edges_app. cbn [all_edges flat_map fst snd]. fold (all_edges ls2). rewrite HE. cbn [edges].
    pose proof (HE2 x []) as X. cbn [app edges] in X. rewrite X. perme.
  - intro xs. rewrite all_edges_app. cbn [all_edges flat_map fst snd]. fold (all_edges ls2). rewrite HE, HE2. perme.
Qed.
Lemma drop_split ls1 s l1 x l2 ls2 : ~ In x (nodes ls1) -> ~ In x (nodes ls2) -> NoDup (s :: l1 ++ x :: l2) ->
  drop_everywhere x (ls1 ++ (s, l1 ++ x :: l2) :: ls2) = ls1 ++ (s, l1 ++ l2) :: ls2.
Proof.
  intros N1 N2 D. unfold drop_everywhere. rewrite map_app. cbn [map fst snd]. fold (drop_everywhere x ls1). fold (drop_everywhere x ls2).
  rewrite !drop_other; [|intro; apply N2, in_nodes; auto | intro; apply N1, in_nodes; auto].
  rewrite without_at by (inversion D; assumption). reflexivity.
Qed.
Lemma member_not_head ls x : NoDup (nodes ls) -> In x (members ls) -> ~ In x (heads ls).
Proof.
  intros D Hx Hh. destruct (member_edges ls x D Hx) as (ls1 & s & l1 & l2 & ls2 & a & b & R & -> & N1 & N2 & Dl & _).
  unfold heads in Hh. rewrite map_app in Hh. cbn [map fst] in Hh. apply in_app_or in Hh as [Hh|[Hh|Hh]].
  - apply N1, in_nodes. auto.
  - subst. inversion Dl; subst. apply H1. apply in_or_app. right. left. reflexivity.
  - apply N2, in_nodes. auto.
Qed.

(** ** The calls *)
Lemma heads_split ls1 s l l' ls2 : heads (ls1 ++ (s, l) :: ls2) = heads (ls1 ++ (s, l') :: ls2).
Proof. unfold heads. rewrite !map_app. reflexivity. Qed.
Lemma remove_ok h ls x : rep_lists h ls -> In x (members ls) ->
  exists h', remove_from_list h x = Done h' /\ rep_lists h' (drop_everywhere x ls).
Proof.
  intros G Hx. pose proof (rep_lists_nodup _ _ G) as D.
  destruct (member_edges ls x D Hx) as (ls1 & s & l1 & l2 & ls2 & a & b & R & E & N1 & N2 & Dl & P & Q).
  pose proof (rep_ext _ _ _ _ _ P (Permutation_refl _) G) as G'.
  destruct (remove_edge _ _ _ _ _ _ G' (member_not_head ls x D Hx)) as (h' & Hr & G2). exists h'. split; [exact Hr|].
  subst ls. rewrite drop_split by assumption. specialize (Q []). cbn [app edges] in Q.
  eapply rep_ext; [|apply Permutation_refl'; apply heads_split|exact G2]. rewrite Q. perme.
Qed.
Lemma drop_nodes ls x y : y <> x -> In y (nodes ls) -> In y (nodes (drop_everywhere x ls)).
Proof.
  intros Hne Hy. unfold nodes in *. apply in_flat_map in Hy as ([s l] & Hin & Hy). apply in_flat_map.
  exists (s, without x l). split; [apply (in_map (fun e => (fst e, without x (snd e)))) in Hin; exact Hin|].
  cbn [fst snd] in *. destruct Hy as [->|Hy]; [left; reflexivity|]. right. unfold without. apply filter_In. split; [exact Hy|].
  destruct (N.eqb_spec y x); [congruence | reflexivity].
Qed.
Lemma heads_drop x ls : heads (drop_everywhere x ls) = heads ls.
Proof. apply heads_map. intro; reflexivity. Qed.
Lemma drop_not_in ls x : ~ In x (heads ls) -> ~ In x (nodes (drop_everywhere x ls)).
Proof.
  intros Hh Hc. apply in_nodes in Hc as [Hc|Hc].
  - rewrite heads_drop in Hc. contradiction.
  - unfold members, drop_everywhere in Hc. apply in_flat_map in Hc as ([s l] & Hin & Hc). apply in_map_iff in Hin as ([t lt] & E & Hin).
    cbn [fst snd] in *. inversion E; subst. unfold without in Hc. apply filter_In in Hc as [_ Hc]. rewrite N.eqb_refl in Hc. discriminate.
Qed.
Lemma unlinked_spec ls x : unlinked ls x = true <-> x <> 0 /\ ~ In x (nodes ls).
Proof.
  unfold unlinked, is_list, is_member. rewrite in_nodes, <- !mem_in, !andb_true_iff, !negb_true_iff, <- !not_true_iff_false, N.eqb_eq. tauto.
Qed.
(** Before a node is linked anywhere it is taken out of its list. *)
Lemma detach_ok h ls x : rep_lists h ls -> unlinked ls x || is_member ls x = true ->
  x <> 0 /\ sentinel h x = false /\ exists h', (i <- is_in_a_list h x; if i then remove_from_list h x else Done h) = Done h' /\
    rep_lists h' (drop_everywhere x ls) /\ ~ In x (nodes (drop_everywhere x ls)).
Proof.
  intros G Hx. pose proof (rep_lists_nodup _ _ G) as D. apply orb_true_iff in Hx as [Hx|Hx].
  - apply unlinked_spec in Hx as [x0 Hno]. split; [exact x0|].
    assert (Hm : ~ In x (members ls)) by (intro; apply Hno, in_nodes; auto).
    assert (Hh : ~ In x (heads ls)) by (intro; apply Hno, in_nodes; auto).
    split; [apply (rep_not_sentinel _ _ _ _ G Hh)|]. exists h.
    rewrite (rep_not_in_list _ _ _ x G x0) by (rewrite all_edges_fst; exact Hno). cbn [bind].
    split; [reflexivity|]. split; [rewrite drop_other by exact Hm; exact G | apply drop_not_in; exact Hh].
  - apply mem_in in Hx. pose proof (member_not_head ls x D Hx) as Hh.
    destruct (rep_in_list _ _ _ x G) as (x0 & _ & Hin); [rewrite all_edges_fst; apply in_nodes; auto|].
    split; [exact x0|]. split; [apply (rep_not_sentinel _ _ _ _ G Hh)|].
    destruct (remove_ok h ls x G Hx) as (h' & E & G'). exists h'. rewrite Hin. cbn [bind].
    split; [exact E|]. split; [exact G' | apply drop_not_in; exact Hh].
Qed.
Lemma position_spec ls pos : is_list ls pos || is_member ls pos = true <-> In pos (nodes ls).
Proof. unfold is_list, is_member. rewrite in_nodes, orb_true_iff, !mem_in. tauto. Qed.
Lemma bind_assoc_if h x (k : heap -> outcome heap) :
  (i <- is_in_a_list h x; h <- (if i then remove_from_list h x else Done h); k h) =
  bind (i <- is_in_a_list h x; if i then remove_from_list h x else Done h) k.
Proof. destruct (is_in_a_list h x) as [[]| |]; reflexivity. Qed.
Lemma insert_before_ok h ls x pos : rep_lists h ls -> unlinked ls x || is_member ls x = true -> In pos (nodes ls) -> x <> pos ->
  exists h', insert_before h x pos = Done h' /\ rep_lists h' (map (put_before pos [x]) (drop_everywhere x ls)).
Proof.
  intros G Hx Hp Hne. destruct (detach_ok h ls x G Hx) as (x0 & Sx & h1 & E1 & G1 & No1).
  pose proof (drop_nodes ls x pos (not_eq_sym Hne) Hp) as Hp1.
  destruct (put_before_edges _ pos (rep_lists_nodup _ _ G1) Hp1) as (a & R & P & Q).
  pose proof (rep_ext _ _ _ _ _ P (Permutation_refl _) G1) as G1'.
  destruct (link_before_edge h1 a x pos R _ G1') as (h2 & E2 & G2); [|exact x0|].
  { intro Hc. apply No1. rewrite <- all_edges_fst. eapply Permutation_in; [symmetry; apply (Permutation_map fst P) | exact Hc]. }
  exists h2. split.
  - unfold insert_before. rewrite get_sentinel_ok by exact x0. cbn [bind]. rewrite Sx. cbn [negb require bind].
    destruct (rep_in_list _ _ _ pos G) as (_ & _ & ->); [rewrite all_edges_fst; exact Hp|]. cbn [require bind].
    rewrite bind_assoc_if, E1. exact E2.
  - eapply rep_ext; [| |exact G2]; [rewrite (Q [x]); cbn [edges]; perme|].
    rewrite (heads_map (put_before pos [x])) by (intro; reflexivity). reflexivity.
Qed.
Lemma insert_after_ok h ls x pos : rep_lists h ls -> unlinked ls x || is_member ls x = true -> In pos (nodes ls) -> x <> pos ->
  exists h', insert_after h x pos = Done h' /\ rep_lists h' (map (put_after pos [x]) (drop_everywhere x ls)).
Proof.
  intros G Hx Hp Hne. destruct (detach_ok h ls x G Hx) as (x0 & Sx & h1 & E1 & G1 & No1).
  pose proof (drop_nodes ls x pos (not_eq_sym Hne) Hp) as Hp1.
  destruct (put_after_edges _ pos (rep_lists_nodup _ _ G1) Hp1) as (b & R & P & Q).
  pose proof (rep_ext _ _ _ _ _ P (Permutation_refl _) G1) as G1'.
  destruct (link_after_edge h1 pos x b R _ G1') as (h2 & E2 & G2); [|exact x0|].
  { intro Hc. apply No1. rewrite <- all_edges_fst. eapply Permutation_in; [symmetry; apply (Permutation_map fst P) | exact Hc]. }
  exists h2. split.
  - unfold insert_after. rewrite get_sentinel_ok by exact x0. cbn [bind]. rewrite Sx. cbn [negb require bind].
    destruct (rep_in_list _ _ _ pos G) as (_ & _ & ->); [rewrite all_edges_fst; exact Hp|]. cbn [require bind].
    rewrite (proj2 (N.eqb_neq _ _) Hne). cbn [negb require bind]. rewrite bind_assoc_if, E1. exact E2.
  - eapply rep_ext; [| |exact G2]; [rewrite (Q [x]); cbn [edges]; perme|].
    rewrite (heads_map (put_after pos [x])) by (intro; reflexivity). reflexivity.
Qed.
Lemma replace_node_ok h ls x t : rep_lists h ls -> In x (members ls) -> unlinked ls t = true ->
  exists h', replace_with h x t = Done h' /\
    rep_lists h' (map (fun e => (fst e, map (fun y => if y =? x then t else y) (snd e))) ls).
Proof.
  intros G Hx Ht. apply unlinked_spec in Ht as [t0 Ht]. pose proof (rep_lists_nodup _ _ G) as D.
  destruct (member_edges ls x D Hx) as (ls1 & s & l1 & l2 & ls2 & a & b & R & E & N1 & N2 & Dl & P & Q).
  pose proof (rep_ext _ _ _ _ _ P (Permutation_refl _) G) as G'.
  destruct (replace_edge _ _ _ _ t _ _ G' (member_not_head ls x D Hx)) as (h' & Hr & G2); [|exact t0|].
  { intro Hc. apply Ht. rewrite <- all_edges_fst. eapply Permutation_in; [symmetry; apply (Permutation_map fst P) | exact Hc]. }
  exists h'. split; [exact Hr|].
  assert (Hid : forall l, ~ In x l -> map (fun y => if y =? x then t else y) l = l).
  { intros l Hl. rewrite <- (map_id l) at 2. apply map_ext_in. intros y Hy. destruct (N.eqb_spec y x); [subst; contradiction | reflexivity]. }
  assert (Hid2 : forall ls', ~ In x (nodes ls') -> map (fun e => (fst e, map (fun y => if y =? x then t else y) (snd e))) ls' = ls').
  { intros ls' Hl. apply map_id_on. intros s' l' Hin. cbn [fst snd]. rewrite Hid; [reflexivity|].
    intro Hc. apply Hl. eapply in_nodes_of; eauto. right. exact Hc. }
  subst ls. rewrite map_app. cbn [map fst snd]. rewrite !Hid2 by assumption. rewrite map_app. cbn [map]. rewrite N.eqb_refl.
  inversion Dl; subst. rewrite (Hid l1), (Hid l2).
  - eapply rep_ext; [|apply Permutation_refl'; apply heads_split|exact G2]. specialize (Q [t]). cbn [app] in Q. rewrite Q. cbn [edges]. perme.
  - apply nodup_app_r in H2. inversion H2; assumption.
  - intro Hc. apply (nodup_app_disjoint _ _ H2 x Hc). left. reflexivity.
Qed.

(** Whole lists. *)
Lemma set_contents_other s l ls : ~ In s (nodes ls) -> set_contents s l ls = ls.
Proof.
  intro H. apply map_id_on. intros t lt Hin. cbn [fst]. destruct (N.eqb_spec t s) as [->|]; [|reflexivity].
  exfalso. apply H. eapply in_nodes_of; eauto. left. reflexivity.
Qed.
Lemma set_contents_split s l l' ls1 ls2 : ~ In s (nodes ls1) -> ~ In s (nodes ls2) ->
  set_contents s l' (ls1 ++ (s, l) :: ls2) = ls1 ++ (s, l') :: ls2.
Proof.
  intros N1 N2. unfold set_contents. rewrite map_app. cbn [map fst]. rewrite N.eqb_refl.
  fold (set_contents s l' ls1). fold (set_contents s l' ls2). rewrite !set_contents_other by assumption. reflexivity.
Qed.
Lemma contents_split s l ls1 ls2 : ~ In s (nodes ls1) -> contents (ls1 ++ (s, l) :: ls2) s = l.
Proof.
  intro N1. unfold contents. induction ls1 as [|[t lt] ls1 IH]; cbn [app find fst]; [rewrite N.eqb_refl; reflexivity|].
  destruct (N.eqb_spec t s) as [->|]; [exfalso; apply N1; left; reflexivity|]. apply IH. intro Hc. apply N1.
  change (nodes ((t, lt) :: ls1)) with ((t :: lt) ++ nodes ls1). apply in_or_app. auto.
Qed.
Lemma heads_set_contents s l ls : heads (set_contents s l ls) = heads ls.
Proof. apply heads_map. intros [t lt]. cbn [fst]. destruct (N.eqb_spec t s); [subst; reflexivity | reflexivity]. Qed.
Lemma all_edges_split ls1 s l ls2 : Permutation (all_edges (ls1 ++ (s, l) :: ls2)) (edges s l s ++ all_edges ls1 ++ all_edges ls2).
Proof. rewrite all_edges_app. cbn [all_edges flat_map fst snd]. fold (all_edges ls2). perme. Qed.

Lemma new_list_ok h ls s : rep_lists h ls -> unlinked ls s = true ->
  exists h', new_list h s = Done h' /\ rep_lists h' ((s, []) :: ls).
Proof.
  intros G Hs. apply unlinked_spec in Hs as [s0 Hs]. unfold new_list. runs. eexists. split; [reflexivity|].
  unfold rep_lists. change (all_edges ((s, []) :: ls)) with ([(s, s)] ++ all_edges ls).
  assert (Hs' : ~ In s (map fst (all_edges ls))) by (rewrite all_edges_fst; exact Hs).
  apply (rep_rewrite h _ [] [(s, s)] (all_edges ls) (heads ls) (heads ((s, []) :: ls)) G); cbn [next prev sentinel map fst snd app In heads].
  - intros c X Y. cmp; tauto.
  - intros c X Y. cmp; tauto.
  - intros c d [E|[]]. inversion E; subst. rewrite !N.eqb_refl. auto.
  - repeat constructor. intros [].
  - intros c [<-|[]]. auto.
  - intros c [<-|[]]. auto.
  - permn.
  - intros c [].
  - intro c. pose proof (rep_heads _ _ _ G c). cmp; [tauto|]. rewrite H. split; [auto|]. intros [?|?]; [congruence | assumption].
  - intros c [<-|Hc]; auto.
Qed.
Lemma move_assign_ok h ls s from : rep_lists h ls -> In s (heads ls) -> In from (heads ls) -> contents ls s = [] ->
  exists h', move_assign h s from = Done h' /\ rep_lists h' (set_contents s (contents ls from) (set_contents from [] ls)).
Proof.
  intros G Hs Hf Hc. pose proof (rep_lists_nodup _ _ G) as D.
  destruct (split_list ls s D Hs) as (ls1 & l & ls2 & E & N1 & N2 & Dl & Ql).
  assert (l = []) by (rewrite E, contents_split in Hc; assumption). subst l.
  destruct (rep_in_list _ _ _ s G) as (s0 & _ & _); [rewrite all_edges_fst; apply in_nodes; auto|].
  destruct (rep_in_list _ _ _ from G) as (f0 & _ & _); [rewrite all_edges_fst; apply in_nodes; auto|].
  assert (Ss : sentinel h s = true) by (apply (rep_heads _ _ _ G), Hs).
  assert (Sf : sentinel h from = true) by (apply (rep_heads _ _ _ G), Hf).
  assert (Es : next h s = s /\ prev h s = s).
  { apply (rep_links _ _ _ G). rewrite E, all_edges_app. cbn [all_edges flat_map fst snd edges]. apply in_or_app. right. left. reflexivity. }
  destruct Es as [Ns Ps].
  destruct (split_list ls from D Hf) as (ms1 & m & ms2 & E' & M1 & M2 & Dm & Qm).
  assert (Cf : contents ls from = m) by (rewrite E', contents_split; auto). rewrite Cf.
  destruct m as [|x m].
  { exists h. assert (Ef : next h from = from /\ prev h from = from).
    { apply (rep_links _ _ _ G). rewrite E', all_edges_app. cbn [all_edges flat_map fst snd edges]. apply in_or_app. right. left. reflexivity. }
    destruct Ef as [Nf Pf]. split; [unfold move_assign, replace_with, is_empty_list; runs; reflexivity|].
    replace (set_contents from [] ls) with ls by (rewrite E', set_contents_split by assumption; reflexivity).
    replace (set_contents s [] ls) with ls by (rewrite E, set_contents_split by assumption; reflexivity). exact G. }
  assert (Hne : from <> s) by (intros ->; congruence).
  destruct (edges_inner (x :: m) ltac:(discriminate)) as (f & la & M & HM).
  (* split the empty list off the rest *)
  assert (Hse : In s (heads (ms1 ++ ms2))).
  { rewrite E' in Hs. unfold heads in *. rewrite map_app in Hs |- *. cbn [map fst] in Hs. apply in_app_or in Hs as [?|[?|?]]; [|congruence|]; apply in_or_app; auto. }
  assert (Hcont : forall k, set_contents s k (set_contents from [] ls) = set_contents s k ms1 ++ (from, []) :: set_contents s k ms2).
  { intro k. rewrite E', set_contents_split by assumption. unfold set_contents. rewrite map_app. cbn [map fst].
    rewrite (proj2 (N.eqb_neq _ _) Hne). reflexivity. }
  assert (Hms : exists R, Permutation (all_edges ms1 ++ all_edges ms2) ((s, s) :: R) /\
     forall k, Permutation (all_edges (set_contents s k ms1) ++ all_edges (set_contents s k ms2)) (edges s k s ++ R)).
  { assert (Dms : NoDup (nodes (ms1 ++ ms2))).
    { rewrite nodes_app. rewrite E', nodes_app in D. change (nodes ((from, x :: m) :: ms2)) with ((from :: x :: m) ++ nodes ms2) in D.
      apply (Permutation_NoDup (Permutation_app_swap_app _ _ _)) in D. apply nodup_app_r in D. exact D. }
    destruct (split_list _ s Dms Hse) as (p1 & l0 & p2 & Ep & P1 & P2 & _).
    assert (l0 = []).
    { assert (Hin : In (s, l0) ls). { rewrite E'. assert (In (s, l0) (ms1 ++ ms2)) by (rewrite Ep; apply in_or_app; right; left; reflexivity).
        apply in_app_or in H as [?|?]; apply in_or_app; [left; assumption | right; right; assumption]. }
      rewrite E in Hin. apply in_app_or in Hin as [Hin|[Hin|Hin]]; [exfalso; apply N1; eapply in_nodes_of; eauto; left; reflexivity | congruence |
        exfalso; apply N2; eapply in_nodes_of; eauto; left; reflexivity]. }
    subst l0. exists (all_edges p1 ++ all_edges p2). split.
    - rewrite <- all_edges_app, Ep, all_edges_split. reflexivity.
    - intro k. rewrite <- all_edges_app. unfold set_contents. rewrite <- map_app. fold (set_contents s k (ms1 ++ ms2)). rewrite Ep.
      rewrite set_contents_split by assumption. apply all_edges_split. }
  destruct Hms as (R & PR & QR).
  assert (P : Permutation (all_edges ls) ((from, f) :: (la, from) :: (s, s) :: M ++ R)).
  { rewrite E', all_edges_split, PR, (HM from from). perme. }
  pose proof (rep_ext _ _ _ _ _ P (Permutation_refl _) G) as G'.
  destruct (replace_list _ _ _ _ _ _ _ G' Hf Hs) as (h' & Hr & G2). exists h'. split; [exact Hr|].
  unfold rep_lists. rewrite Hcont. eapply rep_ext; [| |exact G2].
  - rewrite all_edges_split, QR, (HM s s). cbn [edges]. perme.
  - apply Permutation_refl'. rewrite <- Hcont, !heads_set_contents. reflexivity.
Qed.
Lemma move_construct_ok h ls s from : rep_lists h ls -> unlinked ls s = true -> In from (heads ls) ->
  exists h', move_construct h s from = Done h' /\ rep_lists h' ((s, contents ls from) :: set_contents from [] ls).
Proof.
  intros G Hs Hf. destruct (new_list_ok h ls s G Hs) as (h1 & E1 & G1).
  apply unlinked_spec in Hs as [s0 Hs]. assert (Hne : from <> s) by (intros ->; apply Hs, in_nodes; auto).
  destruct (move_assign_ok h1 ((s, []) :: ls) s from G1) as (h2 & E2 & G2).
  - left. reflexivity.
  - right. exact Hf.
  - unfold contents. cbn [find fst]. rewrite N.eqb_refl. reflexivity.
  - exists h2. split.
    + unfold move_construct. unfold new_list in E1. destruct (set_next h s s) as [ha| |]; [|discriminate|discriminate]. cbn [bind] in *.
      destruct (set_prev ha s s) as [hb| |]; [|discriminate|discriminate]. cbn [bind] in *. rewrite E1. exact E2.
    + replace ((s, contents ls from) :: set_contents from [] ls)
        with (set_contents s (contents ((s, []) :: ls) from) (set_contents from [] ((s, []) :: ls))); [exact G2|].
      unfold set_contents at 2. cbn [map fst]. fold (set_contents from [] ls).
      rewrite (proj2 (N.eqb_neq s from)) by congruence. unfold set_contents at 1. cbn [map fst]. rewrite N.eqb_refl.
      fold (set_contents s (contents ((s, []) :: ls) from) (set_contents from [] ls)). rewrite set_contents_other.
      * unfold contents. cbn [find fst]. rewrite (proj2 (N.eqb_neq s from)) by congruence. reflexivity.
      * intro Hc. apply Hs. apply in_nodes. apply in_nodes in Hc as [Hc|Hc]; [rewrite heads_set_contents in Hc; auto|].
        right. unfold members in *. apply in_flat_map in Hc as ([t lt] & Hin & Hc). apply in_map_iff in Hin as ([u lu] & Eu & Hin). cbn [fst] in Eu.
        destruct (u =? from); inversion Eu; subst; [destruct Hc|]. apply in_flat_map. exists (t, lt). auto.
Qed.
Lemma push_back_ok h ls s x : rep_lists h ls -> unlinked ls x || is_member ls x = true -> In s (heads ls) ->
  exists h', push_back h s x = Done h' /\
    rep_lists h' (map (fun e => if fst e =? s then (s, snd e ++ [x]) else e) (drop_everywhere x ls)).
Proof.
  intros G Hx Hs. pose proof (rep_lists_nodup _ _ G) as D. assert (Hne : x <> s).
  { intros ->. apply orb_true_iff in Hx as [Hx|Hx]; [apply unlinked_spec in Hx as [_ Hx]; apply Hx, in_nodes; auto|].
    apply mem_in in Hx. apply (member_not_head ls s D Hx Hs). }
  destruct (insert_before_ok h ls x s G Hx ltac:(apply in_nodes; auto) Hne) as (h' & E & G'). exists h'. split; [exact E|].
  replace (map (fun e => if fst e =? s then (s, snd e ++ [x]) else e) (drop_everywhere x ls))
    with (map (put_before s [x]) (drop_everywhere x ls)); [exact G'|].
  apply map_ext_in. intros [t l] Hin. unfold put_before. cbn [fst snd]. rewrite (N.eqb_sym t s).
  destruct (N.eqb_spec s t) as [->|Hst]; [reflexivity|]. rewrite before_element_notin; [reflexivity|].
  intro Hc. apply in_map_iff in Hin as ([u lu] & Eu & Hin). cbn [fst snd] in Eu. inversion Eu; subst.
  apply filter_In in Hc as [Hc _]. apply (member_not_head ls s D); [|exact Hs]. unfold members. apply in_flat_map. exists (t, lu). auto.
Qed.
Lemma clear_ok : forall l fuel h ls1 s ls2, rep_lists h (ls1 ++ (s, l) :: ls2) -> (length l < fuel)%nat ->
  exists h', clear fuel h s = Done h' /\ rep_lists h' (ls1 ++ (s, []) :: ls2).
Proof.
  induction l as [|x l IH]; intros fuel h ls1 s ls2 G Hl; (destruct fuel as [|fuel]; [simpl in Hl; lia|]); cbn [clear];
    assert (Hs : In s (heads (ls1 ++ (s, []) :: ls2))) by (unfold heads; rewrite map_app; apply in_or_app; right; left; reflexivity).
  - assert (G' : rep h ((s, s) :: all_edges ls1 ++ all_edges ls2) (heads (ls1 ++ (s, []) :: ls2))).
    { eapply rep_ext; [|reflexivity | exact G]. apply (all_edges_split ls1 s [] ls2). }
    destruct (next_node_head _ _ _ _ _ G' Hs ltac:(tauto)) as [-> _]. rewrite N.eqb_refl. cbn [bind]. eauto.
  - pose proof (rep_lists_nodup _ _ G) as D.
    assert (Hx : In x (members (ls1 ++ (s, x :: l) :: ls2))).
    { unfold members. rewrite flat_map_app. apply in_or_app. right. left. reflexivity. }
    pose proof (member_not_head _ _ D Hx) as Hnh.
    assert (G' : rep h ((s, x) :: edges x l s ++ all_edges ls1 ++ all_edges ls2) (heads (ls1 ++ (s, x :: l) :: ls2))).
    { eapply rep_ext; [|reflexivity | exact G]. apply (all_edges_split ls1 s (x :: l) ls2). }
    assert (Hxs : x <> s) by (intros ->; apply Hnh; rewrite (heads_split ls1 s (s :: l) [] ls2); exact Hs).
    rewrite (heads_split ls1 s [] (x :: l) ls2) in Hs.
    destruct (next_node_head _ _ _ _ _ G' Hs) as [E1 E2]. { split; [contradiction | congruence]. }
    rewrite (proj2 (N.eqb_neq _ _) Hxs) in E1, E2. rewrite E1. cbn [bind]. unfold front. rewrite E2. cbn [bind].
    assert (x0 : x <> 0). { apply (rep_nonzero_snd _ _ _ s x G'). left. reflexivity. }
    rewrite (proj2 (N.eqb_neq _ _) x0). cbn [negb require bind].
    destruct (remove_ok h _ x G Hx) as (h1 & E3 & G1). rewrite E3. cbn [bind].
    destruct (split_at _ x D) as (p1 & t & k & p2 & Ep & _ & _ & _ & _ & _). { apply in_nodes. auto. }
    apply (IH fuel h1 ls1 s ls2); [|simpl in Hl; lia].
    replace (ls1 ++ (s, l) :: ls2) with (drop_everywhere x (ls1 ++ (s, [] ++ x :: l) :: ls2)); [exact G1|].
    assert (Q : forall y, In y (s :: x :: l) -> ~ In y (nodes ls1) /\ ~ In y (nodes ls2)).
    { rewrite nodes_app in D. change (nodes ((s, x :: l) :: ls2)) with ((s :: x :: l) ++ nodes ls2) in D. intros y Hy. split.
      - intro Hc. apply (nodup_app_disjoint _ _ D y Hc). apply in_or_app. auto.
      - apply nodup_app_r in D. apply (nodup_app_disjoint _ _ D y Hy). }
    rewrite drop_split; [reflexivity| | |].
    + apply Q. simpl. auto.
    + apply Q. simpl. auto.
    + rewrite nodes_app in D. apply nodup_app_r in D. change (nodes ((s, x :: l) :: ls2)) with ((s :: x :: l) ++ nodes ls2) in D.
      clear -D. cbn [app]. revert D. generalize (s :: x :: l). intros L D. induction L as [|a L IHL]; [constructor|].
      simpl in D. inversion D; subst. constructor; [|apply IHL; assumption]. intro Hc. apply H1. apply in_or_app. auto.
Qed.

Lemma nodup_prefix {A} (l l' : list A) : NoDup (l ++ l') -> NoDup l.
Proof.
  induction l as [|a l IH]; intro D; [constructor|]. simpl in D. inversion D; subst. constructor; [|apply IH; assumption].
  intro Hc. apply H1. apply in_or_app. auto.
Qed.
Lemma contains_spec s l x : contains s l x = true <-> In x (s :: l).
Proof. unfold contains. rewrite orb_true_iff, N.eqb_eq, mem_in. simpl. intuition. Qed.
Lemma in_same_list_spec ls1 s l ls2 x y : In y (s :: l) -> in_same_list (ls1 ++ (s, l) :: ls2) x y = false -> ~ In x (s :: l).
Proof.
  intros Hy Hf Hx. unfold in_same_list in Hf. rewrite <- not_true_iff_false in Hf. apply Hf. apply existsb_exists. exists (s, l).
  split; [apply in_or_app; right; left; reflexivity|]. cbn [fst snd]. rewrite andb_true_iff, !contains_spec. auto.
Qed.
Lemma move_before_ok h ls pos s : rep_lists h ls -> In s (heads ls) -> In pos (nodes ls) -> in_same_list ls pos s = false ->
  exists h', move_before h pos s = Done h' /\ rep_lists h' (map (put_before pos (contents ls s)) (set_contents s [] ls)).
Proof.
  intros G Hs Hp Hd. pose proof (rep_lists_nodup _ _ G) as D.
  destruct (split_list ls s D Hs) as (ls1 & l & ls2 & -> & N1 & N2 & Dl & Ql).
  rewrite contents_split, set_contents_split by assumption.
  pose proof (in_same_list_spec _ _ _ _ _ s ltac:(left; reflexivity) Hd) as Hnp.
  assert (Hp0 : In pos (nodes (ls1 ++ (s, []) :: ls2))).
  { rewrite nodes_app in Hp |- *. change (nodes ((s, l) :: ls2)) with ((s :: l) ++ nodes ls2) in Hp.
    apply in_app_or in Hp as [Hp|Hp]; [apply in_or_app; auto|]. apply in_app_or in Hp as [Hp|Hp]; [contradiction|].
    apply in_or_app. right. right. exact Hp. }
  assert (D0 : NoDup (nodes (ls1 ++ (s, []) :: ls2))).
  { rewrite nodes_app in D |- *. change (nodes ((s, l) :: ls2)) with (s :: l ++ nodes ls2) in D.
    change (nodes ((s, []) :: ls2)) with (s :: nodes ls2).
    assert (Permutation (nodes ls1 ++ s :: l ++ nodes ls2) (l ++ nodes ls1 ++ s :: nodes ls2)) by permn.
    apply (Permutation_NoDup H) in D. apply nodup_app_r in D. exact D. }
  destruct (put_before_edges _ pos D0 Hp0) as (a & R & P & Q).
  destruct l as [|x l].
  { exists h. split.
    - unfold move_before. assert (G' : rep h ((s, s) :: all_edges ls1 ++ all_edges ls2) (heads (ls1 ++ (s, []) :: ls2))).
      { eapply rep_ext; [|reflexivity | exact G]. apply (all_edges_split ls1 s [] ls2). }
      destruct (next_node_head _ _ _ _ _ G' Hs ltac:(tauto)) as [-> _]. rewrite N.eqb_refl. reflexivity.
    - eapply rep_ext; [| |exact G].
      + rewrite (Q []), P. cbn [edges]. perme.
      + rewrite (heads_map (put_before pos [])) by (intro; reflexivity). reflexivity. }
  destruct (edges_inner (x :: l) ltac:(discriminate)) as (f & la & M & HM).
  assert (Hf : f = x). { specialize (HM 0 0). cbn [edges] in HM. congruence. } subst f.
  assert (Hxs : In (s, s) R).
  { assert (In (s, s) ((a, pos) :: R)).
    { eapply Permutation_in; [exact P|]. rewrite all_edges_app. apply in_or_app. right. left. reflexivity. }
    destruct H as [E|H]; [|exact H]. inversion E; subst. exfalso. apply Hnp. left. reflexivity. }
  apply in_split in Hxs as (R1 & R2 & ->).
  assert (PR : Permutation (all_edges ls1 ++ all_edges ls2) ((a, pos) :: R1 ++ R2)).
  { rewrite all_edges_split in P. cbn [edges app] in P. apply (Permutation_cons_inv (a := (s, s))).
    rewrite P. perme. }
  assert (PP : Permutation (all_edges (ls1 ++ (s, x :: l) :: ls2)) ((a, pos) :: (s, x) :: (la, s) :: M ++ R1 ++ R2)).
  { rewrite all_edges_split, PR, (HM s s). perme. }
  pose proof (rep_ext _ _ _ _ _ PP (Permutation_refl _) G) as G'.
  assert (Hx : In x (members (ls1 ++ (s, x :: l) :: ls2))).
  { unfold members. rewrite flat_map_app. apply in_or_app. right. left. reflexivity. }
  destruct (move_before_edge _ _ _ _ _ _ _ _ G' Hs (member_not_head _ _ D Hx)) as (h' & E & G2). exists h'. split; [exact E|].
  eapply rep_ext; [| |exact G2].
  - rewrite (Q (x :: l)), (HM a pos). perme.
  - rewrite (heads_map (put_before pos (x :: l))) by (intro; reflexivity). apply Permutation_refl'. apply heads_split.
Qed.

(** Splicing. *)
Lemma from_split first l : In first l -> exists l1, l = l1 ++ from first l /\ exists l2, from first l = first :: l2.
Proof.
  induction l as [|y l IH]; intro H; [destruct H|]. simpl. destruct (N.eqb_spec y first) as [->|Hne].
  - exists []. split; [reflexivity|]. eauto.
  - destruct H as [?|H]; [congruence|]. destruct (IH H) as (l1 & E & F). exists (y :: l1). split; [simpl; rewrite <- E; reflexivity | exact F].
Qed.
Lemma until_split last l : (In last l -> exists l2, l = until last l ++ last :: l2) /\ (~ In last l -> until last l = l).
Proof.
  induction l as [|y l [IH1 IH2]]; [split; [intros [] | reflexivity]|]. simpl. destruct (N.eqb_spec y last) as [->|Hne].
  - split; [intros _; exists l; reflexivity|]. intro H. exfalso. apply H. left. reflexivity.
  - split.
    + intros [?|H]; [congruence|]. destruct (IH1 H) as (l2 & E). exists l2. simpl. rewrite <- E. reflexivity.
    + intro H. rewrite IH2; [reflexivity|]. intro Hc. apply H. right. exact Hc.
Qed.
Lemma filter_range l1 r l2 : NoDup (l1 ++ r ++ l2) -> filter (fun y => negb (mem y r)) (l1 ++ r ++ l2) = l1 ++ l2.
Proof.
  intro D. rewrite !filter_app.
  assert (Hr : filter (fun y => negb (mem y r)) r = []).
  { assert (forall k, incl k r -> filter (fun y => negb (mem y r)) k = []).
    { induction k as [|y k IH]; intro Hi; [reflexivity|]. simpl. rewrite (proj2 (mem_in y r)) by (apply Hi; left; reflexivity). simpl. apply IH. intros z Hz. apply Hi. right. exact Hz. }
    apply H. intros z Hz. exact Hz. }
  assert (Hk : forall k, (forall y, In y k -> ~ In y r) -> filter (fun y => negb (mem y r)) k = k).
  { induction k as [|y k IH]; intro Hi; [reflexivity|]. simpl. destruct (mem y r) eqn:E; [exfalso; apply (Hi y); [left; reflexivity | apply mem_in; exact E]|].
    simpl. rewrite IH; [reflexivity|]. intros z Hz. apply Hi. right. exact Hz. }
  rewrite Hr, (Hk l1), (Hk l2); [reflexivity| |].
  - intros y Hy Hc. apply nodup_app_r in D. apply (nodup_app_disjoint _ _ D y Hc Hy).
  - intros y Hy Hc. apply (nodup_app_disjoint _ _ D y Hy). apply in_or_app. auto.
Qed.
(** The range [first, last) of a sequence, and what is before and after it. *)
Lemma range_split other l first last : NoDup (other :: l) -> In first (other :: l) -> In last (other :: l) ->
  (In last (from first l) \/ last = other) -> first <> last ->
  exists l1 r l2, l = l1 ++ (first :: r) ++ l2 /\ range first last l = first :: r /\
    exists b, b = last /\ forall p xs, exists E, edges p (xs ++ l2) other = edges p xs b ++ E /\ forall p' xs', edges p' (xs' ++ l2) other = edges p' xs' b ++ E.
Proof.
  intros D Hf Hl Hr Hne. assert (Hfl : In first l).
  { destruct Hf as [->|Hf]; [|exact Hf]. destruct Hr as [Hr|?]; [|congruence]. exfalso.
    inversion D; subst. clear -Hr H1. induction l as [|y l IH]; [destruct Hr|]. simpl in Hr.
    destruct (N.eqb_spec y first) as [->|]; [apply H1; left; reflexivity|]. apply IH; [exact Hr|]. intro Hc. apply H1. right. exact Hc. }
  destruct (from_split first l Hfl) as (l1 & E & l2 & F). rewrite F in E. unfold range. rewrite F. cbn [until].
  destruct (N.eqb_spec first last) as [|_]; [congruence|].
  destruct (proj1 (NoDup_cons_iff _ _) D) as [Hno Dl].
  assert (exists r l3, until last l2 = r /\ l2 = r ++ l3 /\ (exists E, forall p xs, edges p (xs ++ l3) other = edges p xs last ++ E)) as (r & l3 & Er & E3 & E0 & HE).
  { destruct Hr as [Hr| ->].
    - rewrite F in Hr. destruct Hr as [?|Hr]; [congruence|]. destruct (proj1 (until_split last l2) Hr) as (l3 & E3).
      exists (until last l2), (last :: l3). split; [reflexivity|]. split; [exact E3|]. exists (edges last l3 other).
      intros p xs. revert p. induction xs as [|y xs IH]; intro p; [reflexivity|]. simpl. rewrite IH. reflexivity.
    - exists l2, []. split; [|split].
      + apply (proj2 (until_split other l2)). intro Hc. apply Hno. rewrite E. apply in_or_app. right. right. exact Hc.
      + rewrite app_nil_r. reflexivity.
      + exists []. intros p xs. rewrite !app_nil_r. reflexivity. }
  exists l1, r, l3. split; [rewrite E, E3 at 1; reflexivity|]. split; [rewrite Er; reflexivity|].
  exists last. split; [reflexivity|]. intros p xs. exists E0. split; [apply HE|]. intros p' xs'. apply HE.
Qed.
Lemma splice_ok h ls s where_ other first last : rep_lists h ls -> In s (heads ls) -> In other (heads ls) ->
  In where_ (s :: contents ls s) -> In first (other :: contents ls other) -> In last (other :: contents ls other) ->
  (In last (from first (contents ls other)) \/ last = other) -> s <> other -> first <> last ->
  exists h', splice h s where_ other first last = Done h' /\
    rep_lists h' (map (put_after where_ (range first last (contents ls other)))
                      (map (fun e => if fst e =? other
                                     then (other, filter (fun y => negb (mem y (range first last (snd e)))) (snd e)) else e) ls)).
Proof.
  intros G Hs Ho Hw Hf Hl Hr Hso Hfl. pose proof (rep_lists_nodup _ _ G) as D.
  destruct (split_list ls other D Ho) as (ls1 & l & ls2 & El & N1 & N2 & Dl & Ql).
  assert (Cl : contents ls other = l) by (rewrite El, contents_split; auto). rewrite Cl in *.
  destruct (range_split other l first last Dl Hf Hl Hr Hfl) as (l1 & r & l2 & E & Er & b & -> & HE).
  destruct (HE other l1) as (E2 & _ & HE2). clear HE.
  assert (Hmap : map (fun e => if fst e =? other then (other, filter (fun y => negb (mem y (range first last (snd e)))) (snd e)) else e) ls =
                 ls1 ++ (other, l1 ++ l2) :: ls2).
  { rewrite El, map_app. cbn [map fst snd]. rewrite N.eqb_refl, Er.
    rewrite !map_id_on.
    - rewrite E, filter_range; [reflexivity|]. rewrite <- E. inversion Dl; assumption.
    - intros t lt Hin. cbn [fst]. destruct (N.eqb_spec t other) as [->|]; [|reflexivity]. exfalso. apply N2. eapply in_nodes_of; eauto. left. reflexivity.
    - intros t lt Hin. cbn [fst]. destruct (N.eqb_spec t other) as [->|]; [|reflexivity]. exfalso. apply N1. eapply in_nodes_of; eauto. left. reflexivity. }
  rewrite Hmap, Er.
  assert (Hw1 : In where_ (nodes (ls1 ++ ls2)) /\ ~ In where_ (other :: l)).
  { destruct (split_list ls s D Hs) as (ms1 & m & ms2 & Em & M1 & M2 & Dm & Qm). rewrite Em, contents_split in Hw by assumption.
    assert (Hin : In (s, m) ls) by (rewrite Em; apply in_or_app; right; left; reflexivity).
    rewrite El in Hin. assert (Hin' : In (s, m) (ls1 ++ ls2)).
    { apply in_app_or in Hin as [?|[?|?]]; [apply in_or_app; auto | congruence | apply in_or_app; auto]. }
    split; [eapply in_nodes_of; eauto|]. intro Hc. destruct (Ql _ Hc) as [Q1 Q2].
    apply in_app_or in Hin' as [?|?]; [apply Q1 | apply Q2]; eapply in_nodes_of; eauto. }
  destruct Hw1 as [Hw1 Hw2].
  set (ls' := ls1 ++ (other, l1 ++ l2) :: ls2) in *.
  assert (Hw' : In where_ (nodes ls')).
  { unfold ls'. rewrite nodes_app in Hw1 |- *. change (nodes ((other, l1 ++ l2) :: ls2)) with ((other :: l1 ++ l2) ++ nodes ls2).
    apply in_app_or in Hw1 as [?|?]; apply in_or_app; [auto|]. right. apply in_or_app. auto. }
  assert (D' : NoDup (nodes ls')).
  { unfold ls'. rewrite El, nodes_app in D. rewrite nodes_app. change (nodes ((other, l) :: ls2)) with (other :: l ++ nodes ls2) in D.
    change (nodes ((other, l1 ++ l2) :: ls2)) with (other :: (l1 ++ l2) ++ nodes ls2). rewrite E in D.
    assert (P : Permutation (nodes ls1 ++ other :: (l1 ++ (first :: r) ++ l2) ++ nodes ls2) ((first :: r) ++ nodes ls1 ++ other :: (l1 ++ l2) ++ nodes ls2)) by permn.
    apply (Permutation_NoDup P) in D. apply nodup_app_r in D. exact D. }
  destruct (put_after_edges ls' where_ D' Hw') as (wn & R & P & Q).
  destruct (edges_last other l1) as (E1 & fp & HE1).
  destruct (edges_inner (first :: r) ltac:(discriminate)) as (f & lp & M & HM).
  assert (f = first). { specialize (HM 0 0). cbn [edges] in HM. congruence. } subst f.
  assert (P' : Permutation (all_edges ls') ((fp, last) :: E1 ++ E2 ++ all_edges ls1 ++ all_edges ls2)).
  { unfold ls'. rewrite all_edges_split, HE1. specialize (HE2 fp []). cbn [app edges] in HE2. rewrite HE2. perme. }
  assert (HR : exists R', Permutation R ((fp, last) :: R') /\ Permutation (E1 ++ E2 ++ all_edges ls1 ++ all_edges ls2) ((where_, wn) :: R')).
  { assert (Hin : In (fp, last) ((where_, wn) :: R)) by (eapply Permutation_in; [exact P|]; eapply Permutation_in; [symmetry; exact P'|]; left; reflexivity).
    destruct Hin as [X|Hin].
    - (* the edge after [where_] cannot be the one of the other list *)
      exfalso. inversion X; subst. assert (In fp (other :: l1)).
      { assert (In fp (map fst (edges other (l1 ++ []) 0))) by (rewrite (HE1 [] 0), map_app; apply in_or_app; right; left; reflexivity).
        rewrite edges_fst, app_nil_r in H. exact H. }
      apply Hw2. destruct H as [->|H]; [left; reflexivity|]. right. apply in_or_app. auto.
    - apply in_split in Hin as (R1 & R2 & ->). exists (R1 ++ R2). split; [perme|].
      apply (Permutation_cons_inv (a := (fp, last))). rewrite <- P', P. perme. }
  destruct HR as (R' & PR1 & PR2).
  assert (PP : Permutation (all_edges ls) ((fp, first) :: (lp, last) :: (where_, wn) :: M ++ R')).
  { rewrite El, all_edges_split, E, HE1. rewrite HE2, (HM fp last).
    transitivity ((fp, first) :: (lp, last) :: M ++ (E1 ++ E2 ++ all_edges ls1 ++ all_edges ls2)); [perme|]. rewrite PR2. perme. }
  pose proof (rep_ext _ _ _ _ _ PP (Permutation_refl _) G) as G'.
  destruct (splice_edge h s where_ wn other fp first lp last _ _ G' (not_eq_sym Hso) Hfl) as (h' & Hr' & G2). exists h'. split; [exact Hr'|].
  eapply rep_ext; [| |exact G2].
  - rewrite (Q (first :: r)), (HM where_ wn), PR1. perme.
  - rewrite (heads_map (put_after where_ (first :: r))) by (intro; reflexivity). rewrite El. unfold ls'. apply Permutation_refl'. apply heads_split.
Qed.

(** ** Histories *)
Lemma fresh_ok : rep_lists fresh_heap [].
Proof.
  constructor; simpl.
  - intros ? ? [].
  - constructor.
  - constructor.
  - intros [].
  - intro x. split; [discriminate | intros []].
  - intros x [].
  - auto.
Qed.
Lemma perform_ok fuel h ls c ls' : rep_lists h ls -> (forall s, In s (heads ls) -> (length (contents ls s) < fuel)%nat) ->
  spec_call ls c = Some ls' -> exists h', perform fuel h c = Done h' /\ rep_lists h' ls'.
Proof.
  intros G Hfuel. pose proof (rep_lists_nodup _ _ G) as D. destruct c; cbn [spec_call perform].
  - destruct (unlinked ls s) eqn:U; [|discriminate]. intro E; inversion E; subst. apply new_list_ok; assumption.
  - destruct (unlinked ls s && is_list ls _) eqn:U; [|discriminate]. intro E; inversion E; subst.
    apply andb_true_iff in U as [U1 U2]. apply mem_in in U2. apply move_construct_ok; assumption.
  - destruct (is_list ls s && is_list ls _ && _) eqn:U; [|discriminate]. intro E; inversion E; subst.
    apply andb_true_iff in U as [U U3]. apply andb_true_iff in U as [U1 U2]. apply mem_in in U1, U2.
    apply move_assign_ok; try assumption. destruct (contents ls s); [reflexivity | discriminate].
  - destruct (_ && _) eqn:U; [|discriminate]. intro E; inversion E; subst.
    apply andb_true_iff in U as [U U3]. apply andb_true_iff in U as [U1 U2]. apply position_spec in U2. apply negb_true_iff, N.eqb_neq in U3.
    apply insert_before_ok; assumption.
  - destruct (_ && _) eqn:U; [|discriminate]. intro E; inversion E; subst.
    apply andb_true_iff in U as [U U3]. apply andb_true_iff in U as [U1 U2]. apply position_spec in U2. apply negb_true_iff, N.eqb_neq in U3.
    apply insert_after_ok; assumption.
  - destruct (is_member ls x) eqn:U; [|discriminate]. intro E; inversion E; subst. apply remove_ok; [assumption | apply mem_in; exact U].
  - destruct (is_member ls x && unlinked ls target) eqn:U; [|discriminate]. intro E; inversion E; subst. apply andb_true_iff in U as [U1 U2].
    apply replace_node_ok; [assumption | apply mem_in; exact U1 | exact U2].
  - destruct (_ && is_list ls s) eqn:U; [|discriminate]. intro E; inversion E; subst. apply andb_true_iff in U as [U1 U2].
    apply push_back_ok; [assumption | exact U1 | apply mem_in; exact U2].
  - destruct (is_list ls s) eqn:U; [|discriminate]. intro E; inversion E; subst. apply mem_in in U. pose proof (Hfuel s U) as Hl.
    destruct (split_list ls s D U) as (ls1 & l & ls2 & -> & N1 & N2 & _). rewrite contents_split in Hl by assumption.
    rewrite set_contents_split by assumption. eapply clear_ok; eassumption.
  - destruct (_ && _) eqn:U; [|discriminate]. intro E; inversion E; subst.
    apply andb_true_iff in U as [U U3]. apply andb_true_iff in U as [U1 U2]. apply position_spec in U2. apply negb_true_iff in U3. apply mem_in in U1.
    apply move_before_ok; assumption.
  - destruct (_ && _) eqn:U; [|discriminate]. rewrite !andb_true_iff in U. destruct U as [[[[[U1 U2] U3] U4] U5] U6].
    apply mem_in in U1, U2. apply contains_spec in U3, U4, U5. apply orb_true_iff in U6. rewrite mem_in, N.eqb_eq in U6.
    destruct (N.eqb_spec s other) as [Eo|Eo]; [|destruct (N.eqb_spec first last) as [Ef|Ef]]; cbn [orb]; intro E; inversion E; subst.
    + exists h. split; [|exact G]. unfold splice. rewrite N.eqb_refl. destruct (first =? last); reflexivity.
    + exists h. split; [|exact G]. unfold splice. rewrite N.eqb_refl. reflexivity.
    + apply splice_ok; assumption.
Qed.

Lemma perform_all_ok : forall cs h ls ls', rep_lists h ls -> spec_calls ls cs = Some ls' ->
  exists n, forall fuel, (n <= fuel)%nat -> exists h', perform_all fuel h cs = Done h' /\ rep_lists h' ls'.
Proof.
  (* the fuel only bounds the loop of [clear], so any amount above the sizes met works *)
  assert (Hmono : forall fuel fuel' h s h', (fuel <= fuel')%nat -> clear fuel h s = Done h' -> clear fuel' h s = Done h').
  { induction fuel as [|fuel IH]; intros fuel' h s h' Hle; [discriminate|]. destruct fuel' as [|fuel']; [lia|]. cbn [clear].
    destruct (list_empty h s) as [[]| |]; cbn [bind]; auto. destruct (front h s); cbn [bind]; auto.
    destruct (remove_from_list h a); cbn [bind]; auto. apply IH. lia. }
  assert (Hperf : forall fuel fuel' h c h', (fuel <= fuel')%nat -> perform fuel h c = Done h' -> perform fuel' h c = Done h').
  { intros fuel fuel' h c h' Hle. destruct c; cbn [perform]; auto. apply Hmono. exact Hle. }
  assert (Hmax : forall ls : lists, exists n, forall s, (length (contents ls s) < n)%nat).
  { induction ls as [|[t l] ls [n IH]]; [exists 1%nat; intro; simpl; lia|]. exists (S (length l + n))%nat. intro s.
    specialize (IH s). unfold contents in *. cbn [find fst]. destruct (t =? s); [lia|]. lia. }
  induction cs as [|c cs IH]; intros h ls ls' G E; cbn [spec_calls perform_all] in *.
  { inversion E; subst. exists 0%nat. eauto. }
  destruct (spec_call ls c) as [ls1|] eqn:E1; [|discriminate]. destruct (Hmax ls) as [n Hn].
  destruct (perform_ok n h ls c ls1 G (fun s _ => Hn s) E1) as (h1 & P1 & G1).
  destruct (IH h1 ls1 ls' G1 E) as (m & Hm). exists (n + m)%nat. intros fuel Hf.
  rewrite (Hperf n fuel h c h1 ltac:(lia) P1). cbn [bind]. apply Hm. lia.
Qed.

(** ** Reading a list *)
Lemma forward_ok h s : s <> 0 -> forall l p fuel, (forall a b, In (a, b) (edges p l s) -> next h a = b) ->
  ~ In 0 l -> ~ In s l -> (length l < fuel)%nat -> forward_from fuel h s (next h p) = Done l.
Proof.
  intro s0. induction l as [|x l IH]; intros p fuel HL H0 Hs Hf; (destruct fuel as [|fuel]; [simpl in Hf; lia|]); cbn [forward_from].
  - rewrite (HL p s) by (left; reflexivity). rewrite N.eqb_refl. reflexivity.
  - rewrite (HL p x) by (left; reflexivity). cbn [In] in H0, Hs. rewrite (proj2 (N.eqb_neq x s)) by tauto.
    rewrite get_next_ok by tauto. cbn [bind]. rewrite IH; [reflexivity| |tauto|tauto|simpl in Hf; lia].
    intros a b Hab. apply HL. right. exact Hab.
Qed.
Lemma backward_ok h s : s <> 0 -> forall l q fuel, (forall a b, In (a, b) (edges s l q) -> prev h b = a) ->
  ~ In 0 l -> ~ In s l -> (length l < fuel)%nat -> backward_from fuel h s (prev h q) = Done (rev l).
Proof.
  intro s0. induction l as [|x l IH] using rev_ind; intros q fuel HL H0 Hs Hf; (destruct fuel as [|fuel]; [rewrite ?app_length in Hf; simpl in Hf; lia|]); cbn [backward_from].
  - rewrite (HL s q) by (left; reflexivity). rewrite N.eqb_refl. reflexivity.
  - assert (He : edges s (l ++ [x]) q = edges s l x ++ [(x, q)]).
    { clear. generalize s. induction l as [|y l IHl]; intro p; [reflexivity|]. simpl. rewrite IHl. reflexivity. }
    rewrite He in HL. rewrite (HL x q) by (apply in_or_app; right; left; reflexivity).
    rewrite in_app_iff in H0, Hs. cbn [In] in H0, Hs. rewrite (proj2 (N.eqb_neq x s)) by tauto.
    rewrite get_prev_ok by tauto. cbn [bind]. rewrite IH.
    + cbn [bind]. rewrite rev_app_distr. reflexivity.
    + intros a b Hab. apply HL. apply in_or_app. auto.
    + tauto.
    + tauto.
    + rewrite app_length in Hf. simpl in Hf. lia.
Qed.
Lemma reading_ok h ls s l : rep_lists h ls -> In (s, l) ls ->
  s <> 0 /\ ~ In 0 l /\ ~ In s l /\ (forall a b, In (a, b) (edges s l s) -> next h a = b /\ prev h b = a).
Proof.
  intros G Hin. pose proof (rep_lists_nodup _ _ G) as D. pose proof (rep_null _ _ _ G) as Z. rewrite all_edges_fst in Z.
  split; [intros ->; apply Z; eapply in_nodes_of; eauto; left; reflexivity|].
  split; [intro Hc; apply Z; eapply in_nodes_of; eauto; right; exact Hc|]. split.
  - intro Hc. apply (member_not_head ls s D).
    + unfold members. apply in_flat_map. exists (s, l). auto.
    + unfold heads. apply (in_map fst) in Hin. exact Hin.
  - intros a b Hab. apply (rep_links _ _ _ G). unfold all_edges. apply in_flat_map. exists (s, l). auto.
Qed.
