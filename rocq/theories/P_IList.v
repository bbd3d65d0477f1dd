(** Property C38: intrusive lists behave like sequences. *)
From Verif Require Import Base IList IListSpec IListEdges IListProofs.
Local Open Scope N_scope.

(** What can be observed of the pointers agrees with the sequences [ls]: iterating forwards and backwards over
    each list, its emptiness, first and last element, which nodes are in a list, and each node's neighbours. *)
Record observed_as (h : heap) (ls : lists) : Prop := {
  obs_forward : forall s l, In (s, l) ls -> forall fuel, (length l < fuel)%nat -> forward fuel h s = Done l;
  obs_backward : forall s l, In (s, l) ls -> forall fuel, (length l < fuel)%nat -> backward fuel h s = Done (rev l);
  obs_empty : forall s l, In (s, l) ls -> list_empty h s = Done match l with [] => true | _ => false end;
  obs_front : forall s x l, In (s, x :: l) ls -> front h s = Done x;
  obs_back : forall s l x, In (s, l ++ [x]) ls -> back h s = Done x;
  obs_member : forall x, x <> 0 -> (forall s l, In (s, l) ls -> x <> s) ->
    (is_in_a_list h x = Done true <-> exists s l, In (s, l) ls /\ In x l) /\
    (is_in_a_list h x = Done false <-> ~ exists s l, In (s, l) ls /\ In x l);
  obs_next : forall s l1 x y l2, In (s, l1 ++ x :: y :: l2) ls -> next_node h x = Done y /\ previous_node h y = Done x;
  obs_ends : forall s x l y, In (s, x :: l) ls -> x :: l = removelast (x :: l) ++ [y] -> previous_node h x = Done 0 /\ next_node h y = Done 0 }.

Lemma edges_at p l1 x y l2 q : In (x, y) (edges p (l1 ++ x :: y :: l2) q).
Proof. revert p. induction l1 as [|z l1 IH]; intro p; simpl; auto. Qed.
Lemma edges_end p l x q : In (x, q) (edges p (l ++ [x]) q).
Proof. revert p. induction l as [|z l IH]; intro p; simpl; auto. Qed.
Lemma rep_observed h ls : rep_lists h ls -> observed_as h ls.
Proof.
  intro G. pose proof (rep_lists_nodup _ _ G) as D.
  assert (Hhead : forall s l, In (s, l) ls -> sentinel h s = true).
  { intros s l Hin. apply (rep_heads _ _ _ G). unfold heads. apply (in_map fst) in Hin. exact Hin. }
  assert (Hmem : forall s l x, In (s, l) ls -> In x l -> sentinel h x = false /\ x <> 0).
  { intros s l x Hin Hx. destruct (reading_ok h ls s l G Hin) as (_ & Z & _ & _). split; [|intros ->; contradiction].
    apply (rep_not_sentinel _ _ _ _ G). apply (member_not_head ls x D). unfold members. apply in_flat_map. exists (s, l). auto. }
  constructor.
  - intros s l Hin fuel Hf. destruct (reading_ok h ls s l G Hin) as (s0 & Z & Hs & HL). unfold forward. rewrite get_next_ok by exact s0. cbn [bind].
    apply forward_ok; auto. intros a b Hab. apply HL. exact Hab.
  - intros s l Hin fuel Hf. destruct (reading_ok h ls s l G Hin) as (s0 & Z & Hs & HL). unfold backward. rewrite get_prev_ok by exact s0. cbn [bind].
    apply backward_ok; auto. intros a b Hab. apply HL. exact Hab.
  - intros s l Hin. destruct (reading_ok h ls s l G Hin) as (s0 & Z & Hs & HL). unfold list_empty, next_node. rewrite get_next_ok by exact s0. cbn [bind].
    destruct l as [|x l].
    + destruct (HL s s ltac:(left; reflexivity)) as [-> _]. rewrite get_sentinel_ok by exact s0. cbn [bind]. rewrite (Hhead s [] Hin). reflexivity.
    + destruct (HL s x ltac:(left; reflexivity)) as [-> _]. destruct (Hmem s (x :: l) x Hin ltac:(left; reflexivity)) as [Sx x0].
      rewrite get_sentinel_ok by exact x0. cbn [bind]. rewrite Sx. rewrite (proj2 (N.eqb_neq _ _) x0). reflexivity.
  - intros s x l Hin. destruct (reading_ok h ls s (x :: l) G Hin) as (s0 & Z & Hs & HL). unfold front, next_node. rewrite get_next_ok by exact s0. cbn [bind].
    destruct (HL s x ltac:(left; reflexivity)) as [-> _]. destruct (Hmem s (x :: l) x Hin ltac:(left; reflexivity)) as [Sx x0].
    rewrite get_sentinel_ok by exact x0. cbn [bind]. rewrite Sx. rewrite (proj2 (N.eqb_neq _ _) x0). reflexivity.
  - intros s l x Hin. destruct (reading_ok h ls s (l ++ [x]) G Hin) as (s0 & Z & Hs & HL). unfold back, previous_node. rewrite get_prev_ok by exact s0. cbn [bind].
    destruct (HL x s (edges_end _ _ _ _)) as [_ ->]. destruct (Hmem s (l ++ [x]) x Hin) as [Sx x0]; [apply in_or_app; right; left; reflexivity|].
    rewrite get_sentinel_ok by exact x0. cbn [bind]. rewrite Sx. rewrite (proj2 (N.eqb_neq _ _) x0). reflexivity.
  - intros x x0 Hnh. destruct (in_dec N.eq_dec x (nodes ls)) as [Hx|Hx].
    + destruct (rep_in_list _ _ _ x G) as (_ & _ & ->); [rewrite all_edges_fst; exact Hx|].
      assert (exists s l, In (s, l) ls /\ In x l).
      { apply in_nodes in Hx as [Hx|Hx].
        - exfalso. unfold heads in Hx. apply in_map_iff in Hx as ([s l] & E & Hin). apply (Hnh s l Hin). auto.
        - unfold members in Hx. apply in_flat_map in Hx as ([s l] & Hin & Hx). eauto. }
      split; split; auto; [discriminate | tauto].
    + rewrite (rep_not_in_list _ _ _ x G x0) by (rewrite all_edges_fst; exact Hx).
      assert (~ exists s l, In (s, l) ls /\ In x l).
      { intros (s & l & Hin & Hl). apply Hx. eapply in_nodes_of; eauto. right. exact Hl. }
      split; split; auto; [discriminate | tauto].
  - intros s l1 x y l2 Hin. destruct (reading_ok h ls s _ G Hin) as (s0 & Z & Hs & HL).
    destruct (HL x y (edges_at _ _ _ _ _ _)) as [Nx Py].
    destruct (Hmem s _ x Hin) as [Sx x0]; [apply in_or_app; right; left; reflexivity|].
    destruct (Hmem s _ y Hin) as [Sy y0]; [apply in_or_app; right; right; left; reflexivity|].
    unfold next_node, previous_node. rewrite get_next_ok, get_prev_ok by assumption. cbn [bind]. rewrite Nx, Py.
    rewrite !get_sentinel_ok by assumption. cbn [bind]. rewrite Sx, Sy. auto.
  - intros s x l y Hin El. destruct (reading_ok h ls s _ G Hin) as (s0 & Z & Hs & HL).
    destruct (HL s x ltac:(left; reflexivity)) as [_ Px].
    assert (Ny : next h y = s) by (apply HL; rewrite El; apply edges_end).
    destruct (Hmem s _ x Hin ltac:(left; reflexivity)) as [_ x0].
    destruct (Hmem s _ y Hin) as [_ y0]; [rewrite El; apply in_or_app; right; left; reflexivity|].
    unfold next_node, previous_node. rewrite get_next_ok, get_prev_ok by assumption. cbn [bind]. rewrite Px, Ny.
    rewrite !get_sentinel_ok by assumption. cbn [bind]. rewrite (Hhead _ _ Hin). auto.
Qed.

(** ** C38 *)
(** Whatever the history of calls, as long as each meets its documented preconditions: no call faults, and what is
    observed afterwards is what the same calls do to plain sequences. *)
Theorem intrusive_lists_are_sequences : forall calls ls, spec_calls [] calls = Some ls ->
  exists n, forall fuel, (n <= fuel)%nat -> exists h, perform_all fuel fresh_heap calls = Done h /\ observed_as h ls.
Proof.
  intros calls ls E. destruct (perform_all_ok calls fresh_heap [] ls fresh_ok E) as (n & Hn). exists n. intros fuel Hf.
  destruct (Hn fuel Hf) as (h & P & G). exists h. split; [exact P | apply rep_observed; exact G].
Qed.

(** The documentation allows inserting a node before any node that is in a list; doing so before itself
    takes it out of its list and leaves it linked to itself. *)
Theorem insert_before_itself_refuted :
  (h <- perform_all 5 fresh_heap [NewList 1; PushBack 1 2; PushBack 1 3];
   h' <- insert_before h 2 2;
   l <- forward 5 h' 1; i <- is_in_a_list h' 2; n <- next_node h' 2; Done (l, i, n)) = Done ([3], true, 2).
Proof. vm_compute. reflexivity. Qed.
(** The documentation says that a node in no list has no next and no previous node; asking for it dereferences a
    null pointer. *)
Theorem neighbours_of_unlinked_node_refuted : next_node fresh_heap 2 = Fault /\ previous_node fresh_heap 2 = Fault.
Proof. split; reflexivity. Qed.

(** The hypotheses hold of a history that uses every call. *)
Definition example_calls : list call :=
  [NewList 1; NewList 2; PushBack 1 10; PushBack 1 11; InsertBefore 12 11; InsertAfter 13 10; PushBack 2 20; PushBack 2 21;
   InsertBefore 20 2; Remove 13; ReplaceNode 12 14; Splice 1 10 2 21 2; MoveConstruct 3 1; MoveBefore 2 3; PushBack 3 13;
   MoveAssign 1 2; Clear 3; InsertAfter 13 1].
Example intrusive_lists_example : spec_calls [] example_calls = Some [(3, []); (2, []); (1, [13; 10; 21; 20; 14; 11])].
Proof. vm_compute. reflexivity. Qed.

Print Assumptions intrusive_lists_are_sequences.
Print Assumptions insert_before_itself_refuted.
Print Assumptions neighbours_of_unlinked_node_refuted.
