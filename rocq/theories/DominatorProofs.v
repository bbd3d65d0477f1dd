(** Proof that CalculateDominators computes the dominator tree. *)
From Verif Require Import Base NamedIds NamedIdsProofs Cfa GraphSpec.

(** What the algorithm needs to know about its postorder argument. *)
Record postorder_ok (succ : N -> list N) (root : N) (po : list N) : Prop := {
  po_nodup : NoDup po;
  po_last : nth_error po (length po - 1) = Some root;
  po_all : forall x, In x po <-> reachable succ root x;
  po_parent : forall i b, nth_error po i = Some b -> b <> root ->
      exists j p, i < j /\ nth_error po j = Some p /\ In b (succ p) }.

Lemma index_of_nth po x i : index_of po x = Some i -> nth_error po i = Some x.
Proof.
  revert i. induction po as [|y po IH]; simpl; intros i H; [discriminate|].
  destruct (N.eqb y x) eqn:Q.
  - apply N.eqb_eq in Q. injection H as <-. subst; auto.
  - destruct (index_of po x) as [j|]; simpl in H; [|discriminate]. injection H as <-. simpl. auto.
Qed.

Lemma nth_index_of po x i : NoDup po -> nth_error po i = Some x -> index_of po x = Some i.
Proof.
  revert i. induction po as [|y po IH]; simpl; intros i ND H; [destruct i; discriminate|].
  inversion ND; subst. destruct i as [|i]; simpl in H.
  - injection H as ->. rewrite N.eqb_refl. auto.
  - destruct (N.eqb y x) eqn:Q.
    + apply N.eqb_eq in Q. subst. apply nth_error_In in H. contradiction.
    + rewrite (IH i); auto.
Qed.

Lemma NoDup_app_l {A} (a b : list A) : NoDup (a ++ b) -> NoDup a.
Proof.
  induction a as [|x a IH]; simpl; intros H; constructor; inversion H; subst; auto.
  intros Hx. apply H2, in_or_app; auto.
Qed.

Lemma calculate_dominators_unfold po pred fuel l : length po = S l ->
  calculate_dominators po pred fuel =
  match dom_loop pred po fuel (repeat None l ++ [Some l]) with
  | None => None
  | Some d => Some (map (fun i => (nth i po 0%N,
                               nth (match get_dom d i with Some j => j | None => i end) po 0%N))
                    (seq 0 (length po)))
  end.
Proof. intros H. unfold calculate_dominators. rewrite H. reflexivity. Qed.

Section Dom.
Variables (succ pred : N -> list N) (root : N) (po : list N).
Hypothesis OK : postorder_ok succ root po.
Hypothesis INV : inverse_edges succ pred po.

Let n := length po.
Let last := n - 1.

Lemma n_pos : 0 < n.
Proof.
  assert (H := po_last _ _ _ OK). unfold n. destruct po; simpl in *; [discriminate|lia].
Qed.

Definition edge (p c : nat) : Prop :=
  exists a b, nth_error po p = Some a /\ nth_error po c = Some b /\ In b (succ a).

Lemma edge_lt p c : edge p c -> p < n /\ c < n.
Proof.
  intros [a [b [A [B _]]]]. split; apply nth_error_Some; congruence.
Qed.

(** Index-level paths from the root avoiding [z], counting retreating edges. *)
Inductive av (z : nat) : nat -> nat -> Prop :=
| av_root k : z <> last -> av z k last
| av_adv k p c : av z k p -> edge p c -> c < p -> c <> z -> av z k c
| av_ret k p c : av z k p -> edge p c -> p <= c -> c <> z -> av z (S k) c.

Lemma av_ne z k c : av z k c -> c <> z.
Proof. destruct 1; auto. Qed.

Lemma av_mono z k c : av z k c -> forall k', k <= k' -> av z k' c.
Proof.
  induction 1; intros k' L.
  - apply av_root; auto.
  - eapply av_adv; eauto.
  - destruct k' as [|k']; [lia|]. eapply av_ret; eauto. apply IHav; lia.
Qed.

Lemma av_step z k p c : av z k p -> edge p c -> c <> z -> av z (S k) c.
Proof.
  intros A E ne. destruct (Nat.lt_ge_cases c p).
  - eapply av_adv; eauto. eapply av_mono; eauto.
  - eapply av_ret; eauto.
Qed.

Lemma av_through z b k c : av z k c -> b <> last -> av b k c \/ exists k', k' <= k /\ av z k' b.
Proof.
  intros A nb. induction A as [k ne|k p c A IH E L ne|k p c A IH E L ne].
  - left. apply av_root; auto.
  - destruct IH as [IH|[k' [L' IH]]]; [|right; eauto].
    destruct (Nat.eq_dec c b) as [->|nc].
    + right. exists k. split; auto. eapply av_adv; eauto.
    + left. eapply av_adv; eauto.
  - destruct IH as [IH|[k' [L' IH]]]; [|right; exists k'; split; auto].
    destruct (Nat.eq_dec c b) as [->|nc].
    + right. exists (S k). split; auto. eapply av_ret; eauto.
    + left. eapply av_ret; eauto.
Qed.

(** Index-level paths all of whose blocks have index at most [j]. *)
Inductive lowpath (j : nat) : nat -> Prop :=
| lp_here : lowpath j j
| lp_step p c : lowpath j p -> edge p c -> c <= j -> lowpath j c.

Lemma lowpath_av z k j i : av z k j -> j < z -> lowpath j i -> exists k', av z k' i.
Proof.
  intros A L P. induction P as [|p c P [k' IH] E Lc]; [eauto|].
  exists (S k'). eapply av_step; eauto. lia.
Qed.

(** The tree of the dominator table. *)
Record tree_ok (d : doms) : Prop := {
  t_len : length d = n;
  t_root : get_dom d last = Some last;
  t_up : forall i j, get_dom d i = Some j -> i <> last -> i < j /\ j < n /\ get_dom d j <> None;
  t_low : forall i j, get_dom d i = Some j -> i <> last -> lowpath j i }.

Inductive anc (d : doms) : nat -> nat -> Prop :=
| anc_here i : get_dom d i <> None -> anc d i i
| anc_up i j z : get_dom d i = Some j -> i <> last -> anc d j z -> anc d i z.

Lemma get_dom_lt d i j : tree_ok d -> get_dom d i = Some j -> i < n.
Proof.
  intros T H. unfold get_dom in H. destruct (nth_error d i) eqn:E; [|discriminate].
  rewrite <- (t_len _ T). apply nth_error_Some. congruence.
Qed.

Lemma anc_defined d i z : anc d i z -> get_dom d i <> None.
Proof. destruct 1; congruence. Qed.

Lemma anc_target d i z : anc d i z -> get_dom d z <> None.
Proof. induction 1; auto. Qed.

Lemma anc_le d i z : tree_ok d -> anc d i z -> i <= z.
Proof.
  intros T A. induction A as [|i j z G ne A IH]; auto. destruct (t_up _ T _ _ G ne). lia.
Qed.

Lemma anc_trans d i j z : anc d i j -> anc d j z -> anc d i z.
Proof. intros A. revert z. induction A; intros; auto. eapply anc_up; eauto. Qed.

Lemma anc_lt_n d i z : tree_ok d -> anc d i z -> z < n.
Proof.
  intros T A. destruct (get_dom d z) eqn:E; [eapply get_dom_lt; eauto|].
  destruct (anc_target _ _ _ A E).
Qed.

Lemma anc_root d z : tree_ok d -> anc d last z -> z = last.
Proof. intros T A. inversion A; subst; auto. congruence. Qed.

Lemma anc_last d i : tree_ok d -> get_dom d i <> None -> anc d i last.
Proof.
  intros T. remember (n - i) as m. revert i Heqm. induction m as [m IH] using lt_wf_ind.
  intros i E H. destruct (Nat.eq_dec i last) as [->|ne]; [apply anc_here; auto|].
  destruct (get_dom d i) as [j|] eqn:G; [|congruence].
  destruct (t_up _ T _ _ G ne) as [L1 [L2 L3]].
  eapply anc_up; eauto. eapply (IH (n - j)); auto. lia.
Qed.

(** The ancestors of a block form a chain. *)
Lemma anc_chain d i a b : tree_ok d -> anc d i a -> anc d i b -> a <= b -> anc d a b.
Proof.
  intros T A. revert b. induction A as [i G|i j a G ne A IH]; intros b B L; auto.
  inversion B; subst.
  - assert (a = b) as ->.
    { pose proof (anc_le _ _ _ T A). destruct (t_up _ T _ _ G ne). lia. }
    apply anc_here. congruence.
  - rewrite G in H. injection H as <-. auto.
Qed.

Lemma anc_low d i z : tree_ok d -> anc d i z -> lowpath z i.
Proof.
  intros T A. induction A as [|i j z G ne A IH]; [constructor|].
  assert (P := t_low _ T _ _ G ne). pose proof (anc_le _ _ _ T A) as L.
  clear -IH P L. induction P as [|p c P IHP E Lc]; auto.
  eapply lp_step; eauto. lia.
Qed.

(** climb and intersect. *)
Lemma climb_spec d fuel f bound : tree_ok d -> get_dom d f <> None -> bound <= last -> n - f < fuel ->
  exists f', climb d fuel f bound = Some f' /\ bound <= f' /\ f <= f' /\ anc d f f' /\
    (forall z, bound <= z -> anc d f z -> anc d f' z) /\ (bound <= f -> f' = f).
Proof.
  intros T. revert f. induction fuel as [|fuel IH]; intros f D L F; [lia|]. cbn [climb].
  destruct (f <? bound) eqn:C.
  - apply Nat.ltb_lt in C. destruct (get_dom d f) as [j|] eqn:G; [|congruence].
    destruct (t_up _ T _ _ G) as [L1 [L2 L3]]; [lia|].
    destruct (IH j L3 L) as [f' [E [B1 [B2 [B3 [B4 B5]]]]]]; [lia|].
    exists f'. split; auto. split; auto. split; [lia|]. split; [eapply anc_up; eauto; lia|]. split; [|lia].
    intros z Lz A. inversion A; subst; [lia|]. rewrite G in H. injection H as <-. auto.
  - apply Nat.ltb_ge in C. exists f. split; auto. split; auto. split; auto. 
    split; [apply anc_here; auto|]. split; auto.
Qed.

Lemma intersect_spec d fuel f1 f2 : tree_ok d -> get_dom d f1 <> None -> get_dom d f2 <> None ->
  n - Nat.min f1 f2 < fuel ->
  exists m, intersect d fuel f1 f2 = Some m /\ anc d f1 m /\ anc d f2 m /\
    (forall z, anc d f1 z -> anc d f2 z -> anc d m z).
Proof.
  intros T. revert f1 f2. induction fuel as [|fuel IH]; intros f1 f2 D1 D2 F; [lia|]. cbn [intersect].
  destruct (f1 =? f2) eqn:C.
  - apply Nat.eqb_eq in C. subst f2. exists f1. split; auto.
    split; [apply anc_here; auto|]. split; [apply anc_here; auto|]. auto.
  - apply Nat.eqb_neq in C.
    assert (L1 : f1 < n) by (destruct (get_dom d f1) eqn:?; [eapply get_dom_lt; eauto|congruence]).
    assert (L2 : f2 < n) by (destruct (get_dom d f2) eqn:?; [eapply get_dom_lt; eauto|congruence]).
    assert (Ln : last = n - 1) by reflexivity.
    destruct (climb_spec d (S (length d)) f1 f2 T D1) as [g1 [E1 [B1 [B2 [B3 [B4 B5]]]]]];
      [lia|rewrite (t_len _ T); lia|]. rewrite E1.
    assert (Lg : g1 < n) by (eapply anc_lt_n; eauto).
    destruct (climb_spec d (S (length d)) f2 g1 T D2) as [g2 [E2 [C1 [C2 [C3 [C4 C5]]]]]];
      [lia|rewrite (t_len _ T); lia|]. rewrite E2.
    destruct (IH g1 g2) as [m [E [M1 [M2 M3]]]].
    + eapply anc_target; eauto.
    + eapply anc_target; eauto.
    + lia.
    + exists m. split; auto. split; [eapply anc_trans; eauto|]. split; [eapply anc_trans; eauto|].
      intros z A1 A2. 
      assert (Z2 : anc d g1 z) by (apply B4; auto; eapply anc_le; eauto).
      apply M3; auto. apply C4; auto. eapply anc_le; eauto.
Qed.

(** Processed predecessors of a block. *)
Definition processed_pred (d : doms) (preds : list N) (ip : nat) : Prop :=
  exists p, In p preds /\ nth_error po ip = Some p /\ get_dom d ip <> None.

Lemma meet_preds_spec d idom i0 preds idx : tree_ok d ->
  index_of po idom = Some i0 -> anc d i0 idx ->
  exists m, meet_preds po d idom preds idx = Some m /\ anc d idx m /\
    (forall ip, processed_pred d preds ip -> ip <> i0 -> anc d ip m) /\
    (forall z, anc d idx z -> (forall ip, processed_pred d preds ip -> anc d ip z) -> anc d m z).
Proof.
  intros T I0. revert idx. induction preds as [|p rest IH]; intros idx A0.
  - exists idx. cbn [meet_preds]. split; auto. split; [apply anc_here; eapply anc_target; eauto|].
    split; [intros ip [? [[] _]]|auto].
  - cbn [meet_preds]. 
    assert (SUB : forall ip, processed_pred d rest ip -> processed_pred d (p :: rest) ip).
    { intros ip [q [Q1 Q2]]. exists q. split; auto. right; auto. }
    destruct (N.eqb idom p) eqn:Q.
    { apply N.eqb_eq in Q. subst p. destruct (IH idx A0) as [m [E [M1 [M2 M3]]]].
      exists m. split; auto. split; auto. split.
      - intros ip [q [[<-|Q1] [Q2 Q3]]] ne.
        + exfalso. apply ne. apply nth_index_of in Q2; [congruence|apply (po_nodup _ _ _ OK)].
        + apply M2; auto. exists q; auto.
      - intros z Z1 Z2. apply M3; auto. }
    assert (SKIP : forall ip, (index_of po p = None \/ exists k, index_of po p = Some k /\ get_dom d k = None) ->
       processed_pred d (p :: rest) ip -> processed_pred d rest ip).
    { intros ip H [q [[<-|Q1] [Q2 Q3]]]; [|exists q; auto].
      apply nth_index_of in Q2; [|apply (po_nodup _ _ _ OK)]. destruct H as [H|[k [H1 H2]]]; try congruence. }
    destruct (index_of po p) as [ip|] eqn:Ip.
    2:{ destruct (IH idx A0) as [m [E [M1 [M2 M3]]]]. exists m. split; [auto|]. split; [auto|]. split.
        - intros iq H ne. apply M2; auto.
        - intros z Z1 Z2. apply M3; auto. }
    destruct (get_dom d ip) as [x|] eqn:Gp.
    2:{ destruct (IH idx A0) as [m [E [M1 [M2 M3]]]]. exists m. split; auto. split; auto. split.
        - intros iq H ne. apply M2; auto. apply SKIP; eauto.
        - intros z Z1 Z2. apply M3; auto. }
    assert (Dp : get_dom d ip <> None) by congruence.
    assert (Lp : ip < n) by (eapply get_dom_lt; eauto).
    assert (Lx : idx < n) by (eapply anc_lt_n; eauto).
    destruct (intersect_spec d (S (length d)) ip idx T Dp) as [m0 [E0 [M01 [M02 M03]]]].
    { eapply anc_target; eauto. } { rewrite (t_len _ T). lia. }
    rewrite E0. destruct (IH m0) as [m [E [M1 [M2 M3]]]]; [eapply anc_trans; eauto|].
    exists m. split; auto. split; [eapply anc_trans; eauto|]. split.
    + intros iq [q [[<-|Q1] [Q2 Q3]]] ne.
      * apply nth_index_of in Q2; [|apply (po_nodup _ _ _ OK)].
        assert (iq = ip) as -> by congruence. eapply anc_trans; eauto.
      * apply M2; auto. exists q; auto.
    + intros z Z1 Z2. apply M3; auto. apply M03; auto. apply Z2. exists p. split; [left; auto|].
      split; auto. apply index_of_nth; auto.
Qed.

Lemma first_processed_spec d preds :
  match first_processed po d preds with
  | Some (p, ip) => In p preds /\ index_of po p = Some ip /\ get_dom d ip <> None
  | None => forall ip, ~ processed_pred d preds ip
  end.
Proof.
  induction preds as [|p rest IH]; cbn [first_processed].
  - intros ip [q [[] _]].
  - assert (SKIP : forall ip, (index_of po p = None \/ exists k, index_of po p = Some k /\ get_dom d k = None) ->
       processed_pred d (p :: rest) ip -> processed_pred d rest ip).
    { intros ip H [q [[<-|Q1] [Q2 Q3]]]; [|exists q; auto].
      apply nth_index_of in Q2; [|apply (po_nodup _ _ _ OK)]. destruct H as [H|[k [H1 H2]]]; try congruence. }
    destruct (index_of po p) as [ip|] eqn:Ip.
    + destruct (get_dom d ip) eqn:G.
      * split; [left; auto|]. split; auto. congruence.
      * destruct (first_processed po d rest) as [[q iq]|]; [|intros iq H; eapply IH, SKIP; eauto].
        destruct IH as [A [B C]]. split; [right; auto|auto].
    + destruct (first_processed po d rest) as [[q iq]|]; [|intros iq H; eapply IH, SKIP; eauto].
      destruct IH as [A [B C]]. split; [right; auto|auto].
Qed.

(** Processed predecessors are exactly the processed sources of edges. *)
Lemma processed_pred_edge d c b ip : nth_error po c = Some b ->
  (processed_pred d (pred b) ip <-> edge ip c /\ get_dom d ip <> None).
Proof.
  intros Hb. assert (Ib := nth_error_In _ _ Hb). split.
  - intros [p [P1 [P2 P3]]]. split; auto. exists p, b. split; auto. split; auto.
    apply INV; auto. eapply nth_error_In; eauto.
  - intros [[a [b' [A [B C]]]] D]. exists a. split; auto. 
    rewrite Hb in B. injection B as <-. apply INV; auto. eapply nth_error_In; eauto.
Qed.

(** The meet of the processed predecessors of block [c]. *)
Definition meet_of (d : doms) (c m : nat) : Prop :=
  (forall p, edge p c -> get_dom d p <> None -> anc d p m) /\
  (forall z, (forall p, edge p c -> get_dom d p <> None -> anc d p z) -> anc d m z).

Lemma update_block_spec d c q : tree_ok d -> c < n -> edge q c -> get_dom d q <> None ->
  exists m, meet_of d c m /\
    update_block pred po d c =
      match get_dom d c with
      | Some old => if old =? m then Some (d, false) else Some (update_nth d c (Some m), true)
      | None => Some (update_nth d c (Some m), true)
      end.
Proof.
  intros T L Eq Dq. unfold update_block.
  destruct (nth_error po c) as [b|] eqn:Hb; [|apply nth_error_None in Hb; unfold n in *; lia].
  pose proof (first_processed_spec d (pred b)) as F.
  destruct (first_processed po d (pred b)) as [[p ip]|].
  2:{ exfalso. eapply F. apply (processed_pred_edge d c b q Hb). split; eauto. }
  destruct F as [F1 [F2 F3]].
  destruct (meet_preds_spec d p ip (pred b) ip T F2) as [m [E [M1 [M2 M3]]]]; [apply anc_here; auto|].
  rewrite E. exists m. split; auto. 
  assert (Pp : processed_pred d (pred b) ip).
  { exists p. split; auto. split; auto. apply index_of_nth; auto. }
  split.
  - intros p' E' D'. destruct (Nat.eq_dec p' ip) as [->|ne]; auto.
    apply M2; auto. apply (processed_pred_edge d c b p' Hb). auto.
  - intros z H. 
    assert (H' : forall iq, processed_pred d (pred b) iq -> anc d iq z).
    { intros iq Hq. apply (processed_pred_edge d c b iq Hb) in Hq. apply H; tauto. }
    apply M3; auto.
Qed.

(** Effect of an update on the tree. *)
Lemma get_update d c m i : c < length d ->
  get_dom (update_nth d c (Some m)) i = if i =? c then Some m else get_dom d i.
Proof.
  intros L. unfold get_dom. destruct (i =? c) eqn:Q.
  - apply Nat.eqb_eq in Q. subst. rewrite nth_error_update_nth_eq; auto.
  - apply Nat.eqb_neq in Q. rewrite nth_error_update_nth_ne; auto.
Qed.

Section Update.
Variables (d : doms) (c m : nat).
Hypothesis T : tree_ok d.
Hypothesis Lc : c < last.
Let d' := update_nth d c (Some m).

Lemma Lcd : c < length d.
Proof. rewrite (t_len _ T). unfold last in *. lia. Qed.


Lemma upd_other i : i <> c -> get_dom d' i = get_dom d i.
Proof.
  intros ne. unfold d'. rewrite get_update; [|apply Lcd]. 
  replace (i =? c) with false; auto. symmetry. apply Nat.eqb_neq; auto.
Qed.
Lemma upd_same : get_dom d' c = Some m.
Proof. unfold d'. rewrite get_update; [|apply Lcd]. rewrite Nat.eqb_refl. auto. Qed.


(** Chains above [c] are untouched. *)
Lemma upd_above i z : c < i -> (anc d' i z <-> anc d i z).
Proof.
  intros L. split; intros A.
  - induction A as [i G|i j z G ne A IH].
    + apply anc_here. rewrite upd_other in G; auto; lia.
    + rewrite upd_other in G; [|lia]. eapply anc_up; eauto. apply IH.
      destruct (t_up _ T _ _ G ne). lia.
  - induction A as [i G|i j z G ne A IH].
    + apply anc_here. rewrite upd_other; auto; lia.
    + eapply anc_up; eauto. rewrite upd_other; eauto; lia. apply IH.
      destruct (t_up _ T _ _ G ne). lia.
Qed.

Lemma upd_old i z : anc d i z -> i <> c -> anc d' i z \/ (anc d i c /\ c < z).
Proof.
  intros A. induction A as [i G|i j z G ne A IH]; intros nc.
  - left. apply anc_here. rewrite upd_other; auto.
  - destruct (t_up _ T _ _ G ne) as [L1 [L2 L3]].
    destruct (Nat.eq_dec j c) as [->|nj].
    + destruct (Nat.eq_dec c z) as [<-|nz].
      * left. eapply anc_up; [rewrite upd_other; eauto|auto|]. apply anc_here. rewrite upd_same; congruence.
      * right. split; [eapply anc_up; eauto; apply anc_here; auto|]. pose proof (anc_le _ _ _ T A). lia.
    + destruct (IH nj) as [H|[H1 H2]].
      * left. eapply anc_up; [rewrite upd_other; eauto|auto|auto].
      * right. split; auto. eapply anc_up; eauto.
Qed.

Hypothesis M : meet_of d c m.
Variable q : nat.
Hypothesis Eq : edge q c.
Hypothesis Lq : c < q.
Hypothesis Dq : get_dom d q <> None.

Lemma m_above : anc d q m /\ c < m.
Proof.
  assert (A : anc d q m) by (apply (proj1 M); auto). split; auto.
  pose proof (anc_le _ _ _ T A). lia.
Qed.

Lemma upd_tree : tree_ok d'.
Proof.
  destruct m_above as [A L]. 
  assert (Dm : forall i, get_dom d i <> None -> get_dom d' i <> None).
  { intros i H. destruct (Nat.eq_dec i c) as [->|ne]; [rewrite upd_same; congruence|rewrite upd_other; auto]. }
  constructor.
  - unfold d'. rewrite update_nth_length. apply (t_len _ T).
  - rewrite upd_other; [apply (t_root _ T)|lia].
  - intros i j G ne. destruct (Nat.eq_dec i c) as [->|nc].
    + rewrite upd_same in G. injection G as <-. split; auto. split; [eapply anc_lt_n; eauto|].
      apply Dm. eapply anc_target; eauto.
    + rewrite upd_other in G; auto. destruct (t_up _ T _ _ G ne) as [L1 [L2 L3]]. auto.
  - intros i j G ne. destruct (Nat.eq_dec i c) as [->|nc].
    + rewrite upd_same in G. injection G as <-. eapply lp_step; eauto; [|lia].
      eapply anc_low; eauto.
    + rewrite upd_other in G; auto. apply (t_low _ T); auto.
Qed.

Lemma upd_self z : anc d' c z <-> z = c \/ anc d m z.
Proof.
  destruct m_above as [A L]. split.
  - intros H. inversion H; subst; auto. rewrite upd_same in H0. injection H0 as <-.
    right. apply upd_above; auto.
  - intros [->|H].
    + apply anc_here. rewrite upd_same. congruence.
    + eapply anc_up; [apply upd_same|lia|]. apply upd_above; auto.
Qed.

(** Other chains change only above [c]. *)
Lemma upd_new i z : i <> c -> anc d' i z -> anc d i z \/ (anc d i c /\ anc d m z).
Proof.
  intros ne0 A. induction A as [i G|i j z G ne A IH].
  - left. apply anc_here. rewrite upd_other in G; auto.
  - rewrite upd_other in G; auto. destruct (t_up _ T _ _ G ne) as [L1 [L2 L3]].
    destruct (Nat.eq_dec j c) as [->|nj].
    + apply upd_self in A. destruct A as [->|A].
      * left. eapply anc_up; eauto. apply anc_here; auto.
      * right. split; auto. eapply anc_up; eauto. apply anc_here; auto.
    + destruct (IH nj) as [H|[H1 H2]]; [left|right; split; auto]; eapply anc_up; eauto.
Qed.

End Update.

(** True dominators are never lost. *)
Definition keeps (d : doms) : Prop :=
  forall i z, get_dom d i <> None -> (forall k, ~ av z k i) -> anc d i z.

Lemma keeps_update d c m q : tree_ok d -> c < last -> meet_of d c m ->
  edge q c -> c < q -> get_dom d q <> None -> keeps d -> keeps (update_nth d c (Some m)).
Proof.
  intros T Lc M Eq Lq Dq K i z Di Dz.
  assert (HC : forall z, (forall k, ~ av z k c) -> z = c \/ anc d m z).
  { intros y Hy. destruct (Nat.eq_dec y c) as [|ne]; auto. right.
    apply (proj2 M). intros p E D. apply K; auto. intros k A.
    apply (Hy (S k)). eapply av_step; eauto. }
  destruct (Nat.eq_dec i c) as [->|ne].
  - apply (upd_self d c m T Lc M q Eq Lq Dq). auto.
  - assert (Di' : get_dom d i <> None) by (rewrite upd_other in Di; auto).
    assert (A := K i z Di' Dz).
    destruct (upd_old d c m T Lc i z A ne) as [|[H1 H2]]; auto.
    (* z lies above c on the chain of i: then z dominates c too *)
    assert (Hc : forall k, ~ av z k c).
    { intros k Ha. destruct (lowpath_av z k c i Ha H2 (anc_low _ _ _ T H1)) as [k' Ha'].
      apply (Dz k'); auto. }
    destruct (HC z Hc) as [->|Hm]; [lia|].
    assert (Ac : anc (update_nth d c (Some m)) i c).
    { destruct (upd_old d c m T Lc i c H1 ne) as [|[_ ?]]; auto; lia. }
    eapply anc_trans; [exact Ac|]. apply (upd_self d c m T Lc M q Eq Lq Dq). auto.
Qed.

(** Progress of pass number [K] after the blocks of index [i] and above. *)
Record pass_inv (K i : nat) (d : doms) : Prop := {
  pi_tree : tree_ok d;
  pi_keeps : keeps d;
  pi_defined : forall j, i <= j -> j < n -> get_dom d j <> None;
  pi_later : K <> 0 -> forall j, j < n -> get_dom d j <> None;
  pi_visited : forall j z, i <= j -> anc d j z -> ~ av z K j;
  pi_unvisited : forall j z k, k < K -> anc d j z -> ~ av z k j }.

Lemma parent_of c : c < last -> exists q, edge q c /\ c < q /\ q < n.
Proof.
  intros L. destruct (nth_error po c) as [b|] eqn:Hb; [|apply nth_error_None in Hb; unfold last, n in *; lia].
  destruct (po_parent _ _ _ OK c b Hb) as [j [p [L1 [L2 L3]]]].
  - intros ->. assert (R := po_last _ _ _ OK).
    assert (c = length po - 1); [|unfold last, n in *; lia].
    eapply (proj1 (NoDup_nth_error po) (po_nodup _ _ _ OK)).
    + apply nth_error_Some. congruence.
    + congruence.
  - exists j. split; [exists p, b; auto|]. split; auto. apply nth_error_Some. congruence.
Qed.

Lemma update_inv K c d : pass_inv K (S c) d -> c < last ->
  exists d' ch, update_block pred po d c = Some (d', ch) /\ pass_inv K c d' /\ (ch = false -> d' = d).
Proof.
  intros P Lc. destruct (parent_of c Lc) as [q [Eq [Lq Ln]]].
  assert (T := pi_tree _ _ _ P).
  assert (Dq : get_dom d q <> None) by (apply (pi_defined _ _ _ P); lia).
  destruct (update_block_spec d c q T ltac:(unfold last in *; lia) Eq Dq) as [m [M E]].
  assert (VIS : forall z, anc d m z -> ~ av z K c).
  { intros z Az A. inversion A; subst.
    - lia.
    - destruct (edge_lt _ _ H0). 
      apply (pi_visited _ _ _ P p z ltac:(lia)); auto. eapply anc_trans; eauto.
      apply (proj1 M); auto. apply (pi_defined _ _ _ P); lia.
    - destruct (edge_lt _ _ H0).
      apply (pi_unvisited _ _ _ P p z k ltac:(lia)); auto. eapply anc_trans; eauto.
      apply (proj1 M); auto. apply (pi_later _ _ _ P); lia. }
  assert (UPD : pass_inv K c (update_nth d c (Some m))).
  { constructor.
    - eapply upd_tree; eauto.
    - eapply keeps_update; eauto. apply (pi_keeps _ _ _ P).
    - intros j L1 L2. destruct (Nat.eq_dec j c) as [->|nj].
      + rewrite upd_same; auto. congruence.
      + rewrite upd_other; auto. apply (pi_defined _ _ _ P); lia.
    - intros NZ j L2. destruct (Nat.eq_dec j c) as [->|nj].
      + rewrite upd_same; auto. congruence.
      + rewrite upd_other; auto. apply (pi_later _ _ _ P); lia.
    - intros j z L A. destruct (Nat.eq_dec j c) as [->|nj].
      + apply (upd_self d c m T Lc M q Eq Lq Dq) in A. destruct A as [->|A]; auto.
        intros H. apply av_ne in H. congruence.
      + apply (upd_above d c m T Lc) in A; [|lia]. apply (pi_visited _ _ _ P); auto; lia.
    - intros j z k Lk A. destruct (Nat.eq_dec j c) as [->|nj].
      + apply (upd_self d c m T Lc M q Eq Lq Dq) in A. destruct A as [->|A].
        * intros H. apply av_ne in H. congruence.
        * intros H. apply (VIS z A). eapply av_mono; eauto. lia.
      + destruct (upd_new d c m T Lc M q Eq Lq Dq j z nj A) as [H|[H1 H2]].
        * apply (pi_unvisited _ _ _ P); auto.
        * intros Ha. destruct (av_through z c k j Ha ltac:(lia)) as [Hb|[k' [Lk' Hb]]].
          -- apply (pi_unvisited _ _ _ P j c k Lk H1); auto.
          -- apply (VIS z H2). eapply av_mono; eauto. lia. }
  destruct (get_dom d c) as [old|] eqn:G.
  - destruct (old =? m) eqn:Q.
    + apply Nat.eqb_eq in Q. subst old. exists d, false. split; auto. split; auto.
      replace d with (update_nth d c (Some m)); auto.
      { clear -G. revert c G. unfold get_dom. induction d as [|x d IH]; intros c G; destruct c; simpl in *; auto.
        - destruct x; congruence.
        - f_equal. auto. }
    + exists (update_nth d c (Some m)), true. split; auto. split; auto. discriminate.
  - exists (update_nth d c (Some m)), true. split; auto. split; auto. discriminate.
Qed.

Lemma dom_pass_inv K : forall i d ch, i <= last -> pass_inv K i d ->
  exists d' ch', dom_pass pred po i d ch = Some (d', ch') /\ pass_inv K 0 d' /\
    (ch' = false -> d' = d /\ ch = false).
Proof.
  induction i as [|c IH]; intros d ch L P; cbn [dom_pass].
  - exists d, ch. auto.
  - destruct (update_inv K c d P ltac:(lia)) as [d1 [ch1 [E [P1 C1]]]]. rewrite E.
    destruct (IH d1 (ch || ch1) ltac:(lia) P1) as [d2 [ch2 [E2 [P2 C2]]]].
    exists d2, ch2. split; auto. split; auto. intros ->. destruct (C2 eq_refl) as [-> O].
    apply orb_false_iff in O. destruct O as [-> ->]. split; auto.
Qed.

(** Start of the next pass. *)
Lemma next_pass K d : pass_inv K 0 d -> pass_inv (S K) last d.
Proof.
  intros P. assert (T := pi_tree _ _ _ P). constructor; auto.
  - apply (pi_keeps _ _ _ P).
  - intros j L1 L2. apply (pi_defined _ _ _ P); lia.
  - intros _ j L. apply (pi_defined _ _ _ P); lia.
  - intros j z L A H. assert (j = last) as ->.
    { pose proof (anc_lt_n _ _ _ T A). pose proof (anc_le _ _ _ T A). unfold last in *. lia. }
    apply anc_root in A; auto. subst z. apply av_ne in H. congruence.
  - intros j z k Lk A H. apply (pi_visited _ _ _ P j z ltac:(lia) A). eapply av_mono; eauto. lia.
Qed.

Definition init_doms : doms := repeat None last ++ [Some last].

Lemma init_get i : get_dom init_doms i = if i =? last then Some last else None.
Proof.
  unfold get_dom, init_doms. destruct (i =? last) eqn:Q.
  - apply Nat.eqb_eq in Q. subst i. rewrite nth_error_app2; rewrite repeat_length; auto.
    rewrite Nat.sub_diag. auto.
  - apply Nat.eqb_neq in Q. destruct (Nat.lt_ge_cases i last).
    + rewrite nth_error_app1; [|rewrite repeat_length; auto].
      destruct (nth_error (repeat None last) i) as [o|] eqn:E; auto.
      apply nth_error_In, repeat_spec in E. subst o. auto.
    + rewrite nth_error_app2; rewrite repeat_length; auto.
      destruct (i - last) eqn:E; [lia|]. simpl. destruct n0; auto.
Qed.

Lemma init_inv : pass_inv 0 last init_doms.
Proof.
  assert (NP := n_pos). assert (NL : last = n - 1) by reflexivity.
  assert (D : forall i, get_dom init_doms i <> None -> i = last).
  { intros i H. rewrite init_get in H. destruct (i =? last) eqn:Q; [apply Nat.eqb_eq in Q; auto|congruence]. }
  assert (TR : tree_ok init_doms).
  { constructor.
    - unfold init_doms. rewrite app_length, repeat_length. simpl. lia.
    - rewrite init_get, Nat.eqb_refl. auto.
    - intros i j G ne. destruct ne. apply D. congruence.
    - intros i j G ne. destruct ne. apply D. congruence. }
  constructor; auto.
  - intros i z H Hz. apply D in H. subst i. destruct (Nat.eq_dec z last) as [->|ne].
    + apply anc_here. rewrite init_get, Nat.eqb_refl. congruence.
    + destruct (Hz 0). apply av_root; auto.
  - intros j L1 L2. assert (j = last) as -> by lia. rewrite init_get, Nat.eqb_refl. congruence.
  - intros j z L A H. assert (j = last) as -> by (apply D; eapply anc_defined; eauto).
    apply anc_root in A; auto. subst z. apply av_ne in H. congruence.
  - intros j z k L; lia.
Qed.

(** Exactness. *)
Definition exact_doms (d : doms) : Prop :=
  tree_ok d /\ (forall i, i < n -> get_dom d i <> None) /\
  forall i z, i < n -> (anc d i z <-> forall k, ~ av z k i).

Lemma stable_exact K d : pass_inv K last d -> dom_pass pred po last d false = Some (d, false) -> exact_doms d.
Proof.
  intros P E.
  assert (ALL : forall j, pass_inv (K + j) 0 d).
  { induction j as [|j IH].
    - destruct (dom_pass_inv K last d false (le_n _) P) as [d1 [c1 [E1 [P1 _]]]].
      rewrite E in E1. injection E1 as <- <-. rewrite Nat.add_0_r. auto.
    - destruct (dom_pass_inv (S (K + j)) last d false (le_n _) (next_pass _ _ IH)) as [d1 [c1 [E1 [P1 _]]]].
      rewrite E in E1. injection E1 as <- <-. rewrite Nat.add_succ_r. auto. }
  assert (P0 := ALL 0). split; [apply (pi_tree _ _ _ P0)|]. split.
  - intros i L. apply (pi_defined _ _ _ P0); lia.
  - intros i z L. split.
    + intros A k H. apply (pi_visited _ _ _ (ALL k) i z ltac:(lia) A). eapply av_mono; eauto. lia.
    + apply (pi_keeps _ _ _ P0). apply (pi_defined _ _ _ P0); lia.
Qed.

(** The number of retreating edges that matters is bounded. *)
Lemma path_end a b l : path succ a b l -> exists l', l = l' ++ [b].
Proof. destruct 1; [exists []; auto|eauto]. Qed.

Lemma path_prefix a b l c : path succ a b l -> In c l -> exists l1 l2, l = l1 ++ l2 /\ path succ a c l1.
Proof.
  induction 1 as [|b' c' l P IH E]; intros H.
  - destruct H as [<-|[]]. exists [a], []. split; auto. constructor.
  - apply in_app_or in H. destruct H as [H|[<-|[]]].
    + destruct (IH H) as [l1 [l2 [-> P1]]]. exists l1, (l2 ++ [c']). rewrite app_assoc. auto.
    + exists (l ++ [c']), []. rewrite app_nil_r. split; auto. econstructor; eauto.
Qed.

Lemma path_simple a b l : path succ a b l -> exists l', path succ a b l' /\ NoDup l' /\ incl l' l.
Proof.
  induction 1 as [|b c l P [l' [P' [ND I]]] E].
  - exists [a]. split; [constructor|]. split; [repeat constructor; auto|apply incl_refl].
  - destruct (in_dec N.eq_dec c l') as [H|H].
    + destruct (path_prefix _ _ _ _ P' H) as [l1 [l2 [-> P1]]].
      exists l1. split; auto. split; [eapply NoDup_app_l; eauto|].
      intros x Hx. apply in_or_app. left. apply I. apply in_or_app; auto.
    + exists (l' ++ [c]). split; [econstructor; eauto|]. split.
      * apply NoDup_snoc; auto.
      * intros x Hx. apply in_app_or in Hx. apply in_or_app. destruct Hx; auto.
Qed.

Lemma path_reach a b l x : path succ a b l -> In x l -> reachable succ a x.
Proof. intros P H. destruct (path_prefix _ _ _ _ P H) as [l1 [l2 [_ P1]]]. exists l1; auto. Qed.

Lemma root_index i : nth_error po i = Some root -> i = last.
Proof.
  intros H. assert (R := po_last _ _ _ OK).
  eapply (proj1 (NoDup_nth_error po) (po_nodup _ _ _ OK)).
  - apply nth_error_Some. congruence.
  - fold n in R. unfold last. congruence.
Qed.

Lemma path_av b l i z zb : path succ root b l -> nth_error po i = Some b -> nth_error po z = Some zb ->
  ~ In zb l -> av z (length l) i.
Proof.
  intros P. revert i. induction P as [|b c l P IH E]; intros i Hi Hz Nz.
  - rewrite (root_index _ Hi). apply av_root. intros ->. apply Nz. left.
    assert (R := po_last _ _ _ OK). fold n in R. fold last in R. congruence.
  - assert (R : reachable succ root b) by (exists l; auto).
    apply (po_all _ _ _ OK) in R. apply In_nth_error in R. destruct R as [j Hj].
    rewrite app_length. simpl. rewrite Nat.add_1_r. eapply av_step.
    + apply IH; eauto. intro; apply Nz, in_or_app; auto.
    + exists b, c. auto.
    + intros ->. apply Nz, in_or_app. right. left. congruence.
Qed.

Lemma av_path z k i zb : av z k i -> nth_error po z = Some zb ->
  exists b l, nth_error po i = Some b /\ path succ root b l /\ ~ In zb l.
Proof.
  intros A Hz.
  assert (STEP : forall p c, edge p c -> c <> z ->
    (exists b l, nth_error po p = Some b /\ path succ root b l /\ ~ In zb l) ->
    exists b l, nth_error po c = Some b /\ path succ root b l /\ ~ In zb l).
  { intros p c [a [b [Ha [Hb E]]]] ne [a' [l [Ha' [P Nz]]]].
    rewrite Ha in Ha'. injection Ha' as <-.
    exists b, (l ++ [b]). split; auto. split; [econstructor; eauto|].
    intros H. apply in_app_or in H. destruct H as [|[<-|[]]]; auto.
    apply ne. eapply (proj1 (NoDup_nth_error po) (po_nodup _ _ _ OK)).
    - apply nth_error_Some. congruence.
    - congruence. }
  induction A as [k ne|k p c A IH E L ne|k p c A IH E L ne]; eauto.
  exists root, [root]. split; [apply (po_last _ _ _ OK)|]. split; [constructor|].
  intros [<-|[]]. apply ne. apply root_index; auto.
Qed.

Lemma av_bounded z k i : z < n -> av z k i -> av z n i.
Proof.
  intros L A. destruct (nth_error po z) as [zb|] eqn:Hz; [|apply nth_error_None in Hz; unfold n in *; lia].
  destruct (av_path _ _ _ _ A Hz) as [b [l [Hb [P Nz]]]].
  destruct (path_simple _ _ _ P) as [l' [P' [ND I]]].
  eapply av_mono.
  - eapply path_av; eauto.
  - unfold n. apply NoDup_incl_length; auto. intros x Hx. apply (po_all _ _ _ OK). eapply path_reach; eauto.
Qed.

Lemma pass_exact K d : n <= K -> pass_inv K 0 d -> exact_doms d.
Proof.
  intros L P. assert (T := pi_tree _ _ _ P). split; auto. split.
  - intros i Li. apply (pi_defined _ _ _ P); lia.
  - intros i z Li. split.
    + intros A k H. apply (pi_visited _ _ _ P i z ltac:(lia) A).
      eapply av_mono; [eapply av_bounded|]; eauto. eapply anc_lt_n; eauto.
    + apply (pi_keeps _ _ _ P). apply (pi_defined _ _ _ P); lia.
Qed.

(** Nothing changes once the table is exact. *)
Lemma exact_update d c : exact_doms d -> c < last -> update_block pred po d c = Some (d, false).
Proof.
  intros [T [D X]] Lc. destruct (parent_of c Lc) as [q [Eq [Lq Ln]]].
  destruct (update_block_spec d c q T ltac:(unfold last in *; lia) Eq (D q Ln)) as [m [M E]].
  rewrite E. assert (Lcn : c < n) by (unfold last in *; lia).
  destruct (get_dom d c) as [old|] eqn:G; [|destruct (D c Lcn G)].
  destruct (t_up _ T _ _ G ltac:(lia)) as [L1 [L2 L3]].
  assert (A1 : anc d m old).
  { apply (proj2 M). intros p Ep Dp. destruct (edge_lt _ _ Ep) as [Lp _]. apply X; auto.
    intros k H. assert (Ao : anc d c old) by (eapply anc_up; eauto; [lia|apply anc_here; auto]).
    apply (proj1 (X c old Lcn) Ao (S k)). eapply av_step; eauto. lia. }
  assert (A2 : anc d old m).
  { assert (Am : anc d q m) by (apply (proj1 M); auto).
    assert (Ac : anc d c m).
    { apply X; auto. intros k H. 
      assert (Hm : forall p, edge p c -> anc d p m).
      { intros p Ep. destruct (edge_lt _ _ Ep). apply (proj1 M); auto. }
      inversion H; subst; [lia| |].
      - destruct (edge_lt _ _ H1). apply (proj1 (X p m ltac:(auto)) (Hm p H1) k); auto.
      - destruct (edge_lt _ _ H1). apply (proj1 (X p m ltac:(auto)) (Hm p H1) k0); auto. }
    inversion Ac; subst.
    - pose proof (anc_le _ _ _ T Am). lia.
    - congruence. }
  assert (old = m) as ->.
  { pose proof (anc_le _ _ _ T A1). pose proof (anc_le _ _ _ T A2). lia. }
  rewrite Nat.eqb_refl. auto.
Qed.

Lemma exact_pass d : exact_doms d -> forall i, i <= last -> dom_pass pred po i d false = Some (d, false).
Proof.
  intros X. induction i as [|c IH]; intros L; cbn [dom_pass]; auto.
  rewrite exact_update; auto. apply IH. lia.
Qed.

Lemma dom_loop_exact : forall fuel K d, pass_inv K last d -> n + 2 <= K + fuel -> fuel <> 0 ->
  (n < K -> exact_doms d) ->
  exists d', dom_loop pred po fuel d = Some d' /\ exact_doms d'.
Proof.
  induction fuel as [|fuel IH]; intros K d P L NZ X; [congruence|]. cbn [dom_loop].
  fold n. fold last.
  destruct (dom_pass_inv K last d false (le_n _) P) as [d1 [c1 [E1 [P1 C1]]]]. rewrite E1.
  destruct c1.
  - assert (LK : K <= n).
    { destruct (Nat.le_gt_cases K n); auto. rewrite (exact_pass d (X H) last (le_n _)) in E1. discriminate. }
    apply (IH (S K)).
    + apply next_pass; auto.
    + lia.
    + lia.
    + intros G. apply (pass_exact K); auto. lia.
  - destruct (C1 eq_refl) as [-> _]. exists d. split; auto. eapply stable_exact; eauto.
Qed.

Lemma dominators_exact : exists d, dom_loop pred po (dom_fuel po) init_doms = Some d /\ exact_doms d.
Proof.
  apply (dom_loop_exact _ 0).
  - apply init_inv.
  - unfold dom_fuel. fold n. lia.
  - unfold dom_fuel. lia.
  - lia.
Qed.

(** Back to blocks. *)
Lemma exact_dominates d i z b zb : exact_doms d -> nth_error po i = Some b -> nth_error po z = Some zb ->
  (anc d i z <-> dominates succ root zb b).
Proof.
  intros [T [D X]] Hb Hz.
  assert (Li : i < n) by (apply nth_error_Some; congruence).
  rewrite X; auto. split.
  - intros H l P. destruct (in_dec N.eq_dec zb l); auto. exfalso.
    apply (H (length l)). eapply path_av; eauto.
  - intros H k A. destruct (av_path _ _ _ _ A Hz) as [b' [l [Hb' [P Nz]]]].
    rewrite Hb in Hb'. injection Hb' as <-. apply Nz, H; auto.
Qed.

Lemma nth_nth_error i d0 : i < n -> nth_error po i = Some (nth i po d0).
Proof. intros. apply nth_error_nth'. auto. Qed.

Theorem calculate_dominators_ok :
  exists edges, calculate_dominators po pred (dom_fuel po) = Some edges /\
    map fst edges = po /\
    (forall b a, In (b, a) edges ->
      (b = root /\ a = root) \/ (b <> root /\ immediate_dominator succ root a b)) /\
    (forall b a, reachable succ root b -> (up_chain edges b a <-> dominates succ root a b)).
Proof.
  assert (NP := n_pos). assert (NL : last = n - 1) by reflexivity.
  rewrite (calculate_dominators_unfold po pred (dom_fuel po) last ltac:(unfold last, n in *; lia)).
  fold init_doms.
  destruct dominators_exact as [d [E X]]. rewrite E.
  assert (NEQ : forall x y cx, nth_error po x = Some cx -> nth_error po y = Some cx -> x = y).
  { intros x y cx Hx Hy. eapply (proj1 (NoDup_nth_error po) (po_nodup _ _ _ OK)).
    - apply nth_error_Some. congruence.
    - congruence. }
  eexists. split; [reflexivity|]. split; [|split].
  - rewrite map_map. cbn [fst]. apply nth_ext with (d := 0%N) (d' := 0%N).
    + rewrite map_length, seq_length. auto.
    + intros k Hk. rewrite map_length, seq_length in Hk.
      rewrite (nth_indep _ 0%N (nth 0 po 0%N)); [|rewrite map_length, seq_length; auto].
      rewrite (map_nth (fun i => nth i po 0%N)). rewrite seq_nth; auto.
  - intros b a H. apply in_map_iff in H. destruct H as [i [H Hi]]. apply in_seq in Hi.
    injection H as Hb Ha. assert (Li : i < n) by lia.
    assert (Nb := nth_nth_error i 0%N Li). rewrite Hb in Nb.
    assert (XX := X). destruct XX as [T [D _]].
    destruct (get_dom d i) as [j|] eqn:G; [|destruct (D i Li G)].
    destruct (Nat.eq_dec i last) as [->|ne].
    + left. rewrite (t_root _ T) in G. injection G as <-.
      assert (R := po_last _ _ _ OK). fold n in R. rewrite <- NL in R || idtac.
      split; [|rewrite <- Ha, Hb]; congruence.
    + right. destruct (t_up _ T _ _ G ne) as [L1 [L2 L3]].
      assert (Na := nth_nth_error j 0%N L2). rewrite Ha in Na.
      split; [intros ->; apply ne, root_index; auto|].
      split; [intros ->; assert (i = j) by eauto; lia|].
      assert (A : anc d i j) by (eapply anc_up; eauto; apply anc_here; auto).
      split; [apply (exact_dominates d i j b a); auto|].
      intros c nc Dc. 
      assert (Rc : In c po).
      { assert (Rb : In b po) by (eapply nth_error_In; eauto).
        apply (po_all _ _ _ OK) in Rb. destruct Rb as [l P].
        apply (po_all _ _ _ OK). eapply path_reach; eauto. }
      apply In_nth_error in Rc. destruct Rc as [z Hz].
      apply (exact_dominates d j z a c); auto.
      assert (Az : anc d i z) by (apply (exact_dominates d i z b c); auto).
      inversion Az; subst.
      * exfalso. apply nc. congruence.
      * rewrite G in H. injection H as <-. auto.
  - intros b a Rb. apply (po_all _ _ _ OK) in Rb. apply In_nth_error in Rb. destruct Rb as [i Hi].
    assert (XX := X). destruct XX as [T [D _]].
    match goal with |- up_chain ?e _ _ <-> _ => set (edges := e) end.
    assert (EDGE : forall i j bi bj, nth_error po i = Some bi -> nth_error po j = Some bj -> get_dom d i = Some j ->
              In (bi, bj) edges).
    { intros i0 j0 bi bj Hi0 Hj0 G. unfold edges. apply in_map_iff. exists i0. rewrite G.
      split; [f_equal; apply nth_error_nth; auto|]. apply in_seq. split; [lia|].
      apply nth_error_Some. simpl. congruence. }
    split.
    + intros C. revert i Hi. induction C as [b|b p a C NE C' IH]; intros i Hi.
      * intros l P. destruct (path_end _ _ _ P) as [l' ->]. apply in_or_app; right; left; auto.
      * apply in_map_iff in C. destruct C as [i' [C Ii]]. injection C as Cb Cp. apply in_seq in Ii.
        assert (Li : i' < n) by (unfold n; lia).
        assert (Nb := nth_nth_error i' 0%N Li). rewrite Cb in Nb.
        assert (i' = i) as -> by eauto.
        destruct (get_dom d i) as [j|] eqn:G; [|destruct (D i Li G)].
        destruct (Nat.eq_dec i last) as [->|ne].
        { exfalso. apply NE. rewrite (t_root _ T) in G. injection G as <-. congruence. }
        destruct (t_up _ T _ _ G ne) as [L1 [L2 L3]].
        assert (Na := nth_nth_error j 0%N L2). rewrite Cp in Na.
        specialize (IH j Na).
        assert (Ra : In a po).
        { assert (Rp : In p po) by (eapply nth_error_In; eauto).
          apply (po_all _ _ _ OK) in Rp. destruct Rp as [l P].
          apply (po_all _ _ _ OK). eapply path_reach; eauto. }
        apply In_nth_error in Ra. destruct Ra as [z Hz].
        apply (exact_dominates d i z b a); auto. eapply anc_up; eauto.
        apply (exact_dominates d j z p a); auto.
    + intros H.
      assert (Ra : In a po).
      { assert (Rb : In b po) by (eapply nth_error_In; eauto).
        apply (po_all _ _ _ OK) in Rb. destruct Rb as [l P].
        apply (po_all _ _ _ OK). eapply path_reach; eauto. }
      apply In_nth_error in Ra. destruct Ra as [z Hz].
      apply (exact_dominates d i z b a X Hi Hz) in H. clear Ha0 || idtac.
      revert b Hi. induction H as [i G|i j z G ne A IH]; intros b Hi.
      * rewrite Hi in Hz. injection Hz as <-. constructor.
      * destruct (t_up _ T _ _ G ne) as [L1 [L2 L3]].
        assert (Na := nth_nth_error j 0%N L2).
        apply uc_up with (p := nth j po 0%N); eauto.
        intros E2. rewrite E2 in Na. assert (i = j) by eauto. lia.
Qed.
End Dom.
