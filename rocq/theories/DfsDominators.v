(** The postorder of a traversal is what CalculateDominators needs. *)
From Verif Require Import Base NamedIds NamedIdsProofs Cfa GraphSpec DfsSpec CfaProofs DominatorProofs.

Definition never (_ : N) : bool := false.

Section PostOrder.
Variable succ : N -> list N.
Variable terminal : N -> bool.
Variable backedge : bool.

(** [b] occurs before [p] in the list. *)
Definition before (l : list N) (b p : N) : Prop := exists l1 l2 l3, l = l1 ++ b :: l2 ++ p :: l3.

Lemma before_app_l l r b p : before l b p -> before (l ++ r) b p.
Proof. intros [l1 [l2 [l3 ->]]]. exists l1, l2, (l3 ++ r). rewrite <- !app_assoc. simpl. rewrite <- app_assoc. auto. Qed.
Lemma before_app_r l r b p : before r b p -> before (l ++ r) b p.
Proof. intros [l1 [l2 [l3 ->]]]. exists (l ++ l1), l2, l3. rewrite <- !app_assoc. auto. Qed.
Lemma before_snoc l b p : In b l -> before (l ++ [p]) b p.
Proof. intros H. apply in_split in H. destruct H as [l1 [l2 ->]]. exists l1, l2, []. rewrite <- app_assoc. auto. Qed.

Lemma post_parent :
  (forall stk P n tr P' k, visit succ terminal backedge stk P n tr P' k ->
     exists l, post_blocks tr = l ++ [n] /\
     forall b, In b l -> exists p, In b (succ p) /\ terminal p = false /\ before (l ++ [n]) b p) /\
  (forall stk n P cs tr P' k, children succ terminal backedge stk n P cs tr P' k ->
     forall b, In b (post_blocks tr) -> In b cs \/ exists p, In b (succ p) /\ terminal p = false /\ before (post_blocks tr) b p).
Proof.
  apply visit_children_ind.
  - intros stk P n T. exists []. split; auto. intros b [].
  - intros stk P n tr P' k T C IH. exists (post_blocks tr).
    change (Pre n :: tr ++ [Post n]) with ([Pre n] ++ tr ++ [Post n]). rewrite !post_app. simpl.
    split; auto. intros b Hb. destruct (IH b Hb) as [H|[p [A [B D]]]].
    + exists n. split; auto. split; auto. apply before_snoc; auto.
    + exists p. split; auto. split; auto. apply before_app_l; auto.
  - intros stk n P b [].
  - intros stk n P c cs tr P' k Hin C IH b Hb. rewrite post_app in *. 
    assert (E : post_blocks (if backedge && mem c (n :: stk) then [Back n c] else []) = []) by (destruct (backedge && mem c (n :: stk)); auto).
    rewrite E in *. simpl in *. destruct (IH b Hb) as [|]; auto.
  - intros stk n P c cs tr1 P1 k1 tr2 P2 k2 Nin V [l [El IHv]] C IHc b Hb.
    rewrite post_app in *. apply in_app_or in Hb. destruct Hb as [Hb|Hb].
    + rewrite El in Hb. apply in_app_or in Hb. destruct Hb as [Hb|[->|[]]]; [|left; left; auto].
      right. destruct (IHv b Hb) as [p [A [B D]]]. exists p. split; auto. split; auto.
      apply before_app_l. rewrite El. auto.
    + destruct (IHc b Hb) as [|[p [A [B D]]]]; [left; right; auto|].
      right. exists p. split; auto. split; auto. apply before_app_r; auto.
Qed.
End PostOrder.

Lemma reachable_until_never succ a b : reachable_until succ never a b <-> reachable succ a b.
Proof.
  split.
  - induction 1 as [|b c R [l P] T E].
    + exists [a]. constructor.
    + exists (l ++ [c]). econstructor; eauto.
  - intros [l P]. induction P; [constructor|]. econstructor; eauto.
Qed.

Lemma visit_postorder_ok succ backedge root tr P k : visit succ never backedge [] [] root tr P k ->
  postorder_ok succ root (post_blocks tr).
Proof.
  intros V. destruct (proj1 (post_parent succ never backedge) _ _ _ _ _ _ V) as [l [E H]].
  destruct (proj1 (reported_once succ never backedge) _ _ _ _ _ _ V (fun x => x)) as [_ ND].
  destruct (proj1 (blocks_reported succ never backedge) _ _ _ _ _ _ V (fun x => x)) as [_ B].
  constructor; auto.
  - rewrite E. rewrite app_length. simpl. rewrite nth_error_app2; [|lia].
    replace (length l + 1 - 1 - length l) with 0 by lia. auto.
  - intros x. rewrite B. rewrite <- reachable_until_never. split.
    + intros [HP _]. eapply (proj1 (reported_reachable succ never backedge root)); eauto.
      * constructor.
      * intros y [].
    + intros R. split; auto. eapply reachable_reported; eauto.
  - intros i b Hi nb. rewrite E in Hi.
    assert (In b l).
    { apply nth_error_In, in_app_or in Hi. destruct Hi as [|[->|[]]]; auto. congruence. }
    destruct (H b H0) as [p [A [_ [l1 [l2 [l3 Eb]]]]]].
    exists (length l1 + 1 + length l2), p.
    rewrite <- E in Hi, Eb.
    assert (i = length l1).
    { eapply (proj1 (NoDup_nth_error (post_blocks tr)) ND).
      - apply nth_error_Some. congruence.
      - rewrite Hi, Eb. rewrite nth_error_app2; auto. rewrite Nat.sub_diag. auto. }
    subst i. split; [lia|]. split; auto.
    rewrite Eb. rewrite nth_error_app2; [|lia].
    replace (length l1 + 1 + length l2 - length l1) with (S (length l2)) by lia. simpl.
    rewrite nth_error_app2; auto. rewrite Nat.sub_diag. auto.
Qed.

(** Traversal followed by the dominator computation. *)
Theorem traversal_dominators succ pred root V backedge :
  closed_graph succ V -> In root V -> inverse_edges succ pred V ->
  exists tr edges,
    depth_first_traversal succ (fun _ => false) backedge (dfs_fuel succ V) root = Some tr /\
    calculate_dominators (post_blocks tr) pred (dom_fuel (post_blocks tr)) = Some edges /\
    map fst edges = post_blocks tr /\ NoDup (map fst edges) /\
    (forall b, In b (map fst edges) <-> reachable succ root b) /\
    (forall b a, In (b, a) edges ->
       (b = root /\ a = root) \/ (b <> root /\ immediate_dominator succ root a b)) /\
    (forall b a, reachable succ root b -> (up_chain edges b a <-> dominates succ root a b)).
Proof.
  intros Cl Hin INV.
  destruct (traversal_run succ never backedge V root Cl Hin) as [tr [P [k [R E]]]].
  assert (OK := visit_postorder_ok _ _ _ _ _ _ R).
  assert (SUB : incl (post_blocks tr) V).
  { intros x Hx. apply (proj1 (blocks_reported succ never backedge) _ _ _ _ _ _ R (fun x => x)) in Hx.
    eapply (proj1 (processed_closed succ never backedge V Cl)); eauto; [intros y []|tauto]. }
  assert (INV' : inverse_edges succ pred (post_blocks tr)).
  { intros a b Ha Hb. apply INV; auto. }
  destruct (calculate_dominators_ok succ pred root (post_blocks tr) OK INV') as [edges [E1 [E2 [E3 E4]]]].
  exists tr, edges. split; auto. split; auto. split; auto. rewrite E2.
  split; [apply (po_nodup _ _ _ OK)|]. split; [apply (po_all _ _ _ OK)|]. auto.
Qed.
