(** One move of an instruction from a block to the start of a block below it: the function stays well-formed. *)
From Verif Require Import Base GraphSpec NamedIds NamedIdsProofs DominatorProofs DominatorTreeProofs LocalElimProofs Redundancy RedundancySpec RedundancyProofs RedundancyProofs2 Licm LicmSpec LicmProofs CodeSink CodeSinkSpec.
Local Open Scope N_scope.

Lemma uses_body f r c j y : In c (blocks f) -> nth_error (body c) j = Some y -> In r (reads y) -> In (label c) (uses f r).
Proof.
  intros Hc Hj Hr. unfold uses. apply in_flat_map. exists c. split; [exact Hc|]. apply in_or_app. right.
  replace (existsb _ (body c)) with true; [left; reflexivity|]. symmetry. apply existsb_exists. exists y. split; [eapply nth_error_In; eauto|apply mem_In, Hr].
Qed.
Lemma uses_term f r c : In c (blocks f) -> In r (t_args c) -> In (label c) (uses f r).
Proof.
  intros Hc Hr. unfold uses. apply in_flat_map. exists c. split; [exact Hc|]. apply in_or_app. right. rewrite (proj2 (mem_In _ _) Hr), orb_true_r. left. reflexivity.
Qed.
Lemma uses_phi f r c p l : In c (blocks f) -> In p (phis c) -> In (r, l) (p_args p) -> In l (uses f r).
Proof.
  intros Hc Hp Ha. unfold uses. apply in_flat_map. exists c. split; [exact Hc|]. apply in_or_app. left. apply in_flat_map. exists p. split; [exact Hp|].
  apply in_map_iff. exists (r, l). split; [reflexivity|]. apply filter_In. cbn. rewrite N.eqb_refl. auto.
Qed.
(** the end of a path from a block on it *)
Lemma path_suffix (s : N -> list N) a z l y : path s a z l -> In y l -> exists l1 l2, l = l1 ++ l2 /\ path s y z l2.
Proof.
  intros P. induction P as [|u c l P IH E]; intros H.
  - destruct H as [<-|[]]. exists [], [a]. split; [reflexivity|constructor].
  - apply in_app_or in H. destruct H as [H|[<-|[]]].
    + destruct (IH H) as (l1 & l2 & -> & P2). exists l1, (l2 ++ [c]). rewrite app_assoc. split; [reflexivity|]. econstructor; eauto.
    + exists l, [c]. split; [reflexivity|constructor].
Qed.

Section Move.
Variable f : func.
Variable t : N.
Hypothesis WF : well_formed f.
Variables (b : block) (kept rest : list inst) (i : inst) (r : N).
Hypothesis Hb : In b (blocks f).
Hypothesis Rb : reach f b.
Hypothesis Bd : body b = kept ++ i :: rest.
Hypothesis Ri : result i = Some r.
Hypothesis Ht : In t (map label (blocks f)).
Hypothesis Ne : t <> label b.
Hypothesis Dt : dominates (succs f) (entry f) (label b) t.
Hypothesis Cut : forall u l, In u (uses f r) -> path (succs f) (label b) u l -> In t l.

Definition sunk : func := edit t (cons i) (edit (label b) (fun _ => kept ++ rest) f).
Definition mv (c : block) : block := with_body t (cons i) (with_body (label b) (fun _ => kept ++ rest) c).
Definition n : nat := length kept.
(** where a place of block [c] is afterwards *)
Definition pl (c : block) (k : nat) : nat :=
  if label c =? label b then (if Nat.leb k (S n) then k else pred k) else if label c =? t then match k with O => O | S j => S (S j) end else k.

Lemma blocks_sunk : blocks sunk = map mv (blocks f).
Proof using. unfold sunk, edit. cbn [blocks]. rewrite map_map. reflexivity. Qed.
Lemma mv_label c : label (mv c) = label c.
Proof using. unfold mv, with_body. destruct (label c =? label b); cbn [label]; destruct (label c =? t); reflexivity. Qed.
Lemma mv_phis c : phis (mv c) = phis c.
Proof using. unfold mv, with_body. destruct (label c =? label b); cbn [label]; destruct (label c =? t); reflexivity. Qed.
Lemma mv_succ c : t_succ (mv c) = t_succ c.
Proof using. unfold mv, with_body. destruct (label c =? label b); cbn [label]; destruct (label c =? t); reflexivity. Qed.
Lemma mv_args c : t_args (mv c) = t_args c.
Proof using. unfold mv, with_body. destruct (label c =? label b); cbn [label]; destruct (label c =? t); reflexivity. Qed.
Lemma mv_op c : t_op (mv c) = t_op c.
Proof using. unfold mv, with_body. destruct (label c =? label b); cbn [label]; destruct (label c =? t); reflexivity. Qed.
Lemma body_b : body (mv b) = kept ++ rest.
Proof using Ne. unfold mv, with_body. rewrite N.eqb_refl. cbn [label]. destruct (N.eqb_spec (label b) t) as [E|_]; [destruct (Ne (eq_sym E))|reflexivity]. Qed.
Lemma body_t c : label c = t -> body (mv c) = i :: body c.
Proof using Ne. intros E. unfold mv, with_body. destruct (N.eqb_spec (label c) (label b)) as [E'|_]; [congruence|]. rewrite E, N.eqb_refl. reflexivity. Qed.
Lemma body_other c : label c <> t -> label c <> label b -> body (mv c) = body c.
Proof using.
  intros A B. unfold mv, with_body. destruct (N.eqb_spec (label c) (label b)) as [E|_]; [congruence|]. destruct (N.eqb_spec (label c) t) as [E|_]; [congruence|reflexivity].
Qed.
Lemma find_mv l bs : find (fun c => label c =? l) (map mv bs) = match find (fun c => label c =? l) bs with Some c => Some (mv c) | None => None end.
Proof using. induction bs as [|c bs IH]; simpl; [reflexivity|]. rewrite mv_label. destruct (label c =? l); [reflexivity|exact IH]. Qed.
Lemma succs_sunk l : succs sunk l = succs f l.
Proof using. unfold succs. rewrite blocks_sunk, find_mv. destruct (find _ _) as [c|]; [apply mv_succ|reflexivity]. Qed.
Lemma entry_sunk : entry sunk = entry f.
Proof using. unfold entry. rewrite blocks_sunk. clear - b. destruct (blocks f) as [|c bs]; [reflexivity|apply mv_label]. Qed.
Lemma path_sunk a y l : path (succs sunk) a y l <-> path (succs f) a y l.
Proof using. split; apply path_ext; intros z; rewrite succs_sunk; reflexivity. Qed.
Lemma dom_sunk y z : dominates (succs sunk) (entry sunk) y z <-> dominates (succs f) (entry f) y z.
Proof using. rewrite entry_sunk. split; intros H l P; apply H, path_sunk, P. Qed.
Lemma reach_sunk c : reach sunk (mv c) <-> reach f c.
Proof using. unfold reach, reachable. rewrite entry_sunk, mv_label. split; intros [l P]; exists l; apply path_sunk, P. Qed.

Lemma nth_kept j : (j < n)%nat -> nth_error (kept ++ rest) j = nth_error (kept ++ i :: rest) j.
Proof using WF Hb Rb Bd Ri Ht Ne Dt Cut. intros L. rewrite !nth_error_app1 by exact L. reflexivity. Qed.
Lemma nth_rest j : (n <= j)%nat -> nth_error (kept ++ rest) j = nth_error (kept ++ i :: rest) (S j).
Proof using WF Hb Rb Bd Ri Ht Ne Dt Cut.
  intros L. rewrite (nth_error_app2 kept rest) by exact L. rewrite (nth_error_app2 kept (i :: rest)) by (unfold n in L; lia).
  unfold n in L. replace (S j - length kept)%nat with (S (j - length kept)) by lia. reflexivity.
Qed.
Lemma nth_i : nth_error (body b) n = Some i.
Proof using WF Hb Rb Bd Ri Ht Ne Dt Cut. rewrite Bd, nth_error_app2 by (unfold n; lia). unfold n. rewrite Nat.sub_diag. reflexivity. Qed.
Lemma def_r : defined_at f r b (S n).
Proof using WF Hb Rb Bd Ri Ht Ne Dt Cut. split; [exact Hb|]. exists i. split; [exact nth_i|exact Ri]. Qed.
Lemma pl_zero c : pl c 0 = 0%nat.
Proof using WF Hb Rb Bd Ri Ht Ne Dt Cut. unfold pl. destruct (label c =? label b); [reflexivity|]. destruct (label c =? t); reflexivity. Qed.
Lemma pl_le k : (k <= S n)%nat -> pl b k = k.
Proof using WF Hb Rb Bd Ri Ht Ne Dt Cut. intros L. unfold pl. rewrite N.eqb_refl. destruct (Nat.leb_spec k (S n)); [reflexivity|lia]. Qed.
Lemma pl_b k : (S n < k)%nat -> pl b k = pred k.
Proof using WF Hb Rb Bd Ri Ht Ne Dt Cut. intros L. unfold pl. rewrite N.eqb_refl. destruct (Nat.leb_spec k (S n)); [lia|reflexivity]. Qed.
Lemma pl_t c k : label c = t -> pl c (S k) = S (S k).
Proof using WF Hb Rb Bd Ri Ht Ne Dt Cut. intros E. unfold pl. destruct (N.eqb_spec (label c) (label b)) as [E'|_]; [congruence|]. rewrite E, N.eqb_refl. reflexivity. Qed.
Lemma pl_other c k : label c <> label b -> label c <> t -> pl c k = k.
Proof using WF Hb Rb Bd Ri Ht Ne Dt Cut. intros E E'. unfold pl. destruct (N.eqb_spec (label c) (label b)); [congruence|]. destruct (N.eqb_spec (label c) t); [congruence|reflexivity]. Qed.
Lemma is_b c : In c (blocks f) -> label c = label b -> c = b.
Proof using WF Hb Rb Bd Ri Ht Ne Dt Cut. intros Hc E. apply (same_label f WF); auto. Qed.
Lemma stay c j x : In c (blocks f) -> nth_error (body c) j = Some x -> (c = b -> j <> n) -> exists j', pl c (S j) = S j' /\ nth_error (body (mv c)) j' = Some x.
Proof using WF Hb Rb Bd Ri Ht Ne Dt Cut.
  intros Hc Hj Nj. destruct (N.eq_dec (label c) (label b)) as [E|E].
  - rewrite (is_b c Hc E) in *. specialize (Nj eq_refl). rewrite body_b. rewrite Bd in Hj. destruct (Nat.lt_ge_cases j n) as [L|L].
    + exists j. rewrite !pl_le by lia. split; [reflexivity|]. rewrite nth_kept; auto.
    + exists (pred j). rewrite !pl_b by lia. cbn [Nat.pred]. split; [lia|]. rewrite nth_rest by lia. replace (S (pred j)) with j by lia. exact Hj.
  - destruct (N.eq_dec (label c) t) as [Et|Et].
    + exists (S j). rewrite (pl_t c j Et), (body_t c Et). auto.
    + exists j. rewrite (pl_other c _ E Et), (body_other c Et E). auto.
Qed.
Lemma unstay c j' x : In c (blocks f) -> nth_error (body (mv c)) j' = Some x ->
  (x = i /\ label c = t /\ j' = 0%nat) \/ exists j, nth_error (body c) j = Some x /\ (c = b -> j <> n) /\ pl c (S j) = S j'.
Proof using WF Hb Rb Bd Ri Ht Ne Dt Cut.
  intros Hc Hj. destruct (N.eq_dec (label c) (label b)) as [E|E].
  - right. rewrite (is_b c Hc E) in *. rewrite body_b in Hj. destruct (Nat.lt_ge_cases j' n) as [L|L].
    + exists j'. rewrite Bd, <- nth_kept by exact L. split; [exact Hj|]. split; [lia|]. apply pl_le. lia.
    + exists (S j'). rewrite Bd, <- nth_rest by exact L. split; [exact Hj|]. split; [lia|]. rewrite pl_b by lia. reflexivity.
  - destruct (N.eq_dec (label c) t) as [Et|Et].
    + rewrite (body_t c Et) in Hj. destruct j' as [|j]; [left; cbn in Hj; injection Hj as <-; auto|]. right. exists j. split; [exact Hj|]. split; [intros ->; congruence|]. apply pl_t, Et.
    + right. rewrite (body_other c Et E) in Hj. exists j'. split; [exact Hj|]. split; [intros ->; congruence|]. apply pl_other; auto.
Qed.
Lemma def_sunk y c j : defined_at f y c j -> y <> r -> defined_at sunk y (mv c) (pl c j).
Proof using WF Hb Rb Bd Ri Ht Ne Dt Cut.
  intros [Hc H] Ny. destruct j as [|j].
  - rewrite pl_zero. split; [rewrite blocks_sunk; apply in_map, Hc|]. rewrite mv_phis. exact H.
  - destruct H as (x & Hx & Rx). destruct (stay c j x Hc Hx) as (j' & E1 & E2).
    { intros -> ->. rewrite nth_i in Hx. injection Hx as <-. congruence. }
    rewrite E1. split; [rewrite blocks_sunk; apply in_map, Hc|]. eauto.
Qed.
Lemma def_sunk_r c : In c (blocks f) -> label c = t -> defined_at sunk r (mv c) 1.
Proof using WF Hb Rb Bd Ri Ht Ne Dt Cut. intros Hc E. split; [rewrite blocks_sunk; apply in_map, Hc|]. exists i. rewrite (body_t c E). split; [reflexivity|exact Ri]. Qed.
Lemma def_unsunk y c' j' : defined_at sunk y c' j' ->
  (y = r /\ exists c, In c (blocks f) /\ label c = t /\ c' = mv c /\ j' = 1%nat) \/
  (y <> r /\ exists c j, c' = mv c /\ j' = pl c j /\ defined_at f y c j).
Proof using WF Hb Rb Bd Ri Ht Ne Dt Cut.
  intros [Hc' H]. rewrite blocks_sunk in Hc'. apply in_map_iff in Hc'. destruct Hc' as (c & <- & Hc).
  assert (K : forall j, defined_at f y c j -> (c = b -> j <> S n) -> y <> r).
  { intros j D Nj ->. destruct (wf_once f WF _ _ _ _ _ D def_r) as [-> ->]. exact (Nj eq_refl eq_refl). }
  destruct j' as [|j'].
  - right. rewrite mv_phis in H. assert (D : defined_at f y c 0) by (split; assumption). split; [apply (K 0%nat D); lia|]. exists c, 0%nat. rewrite pl_zero. auto.
  - destruct H as (x & Hx & Rx). destruct (unstay c j' x Hc Hx) as [(-> & E & ->)|(j & Hj & Nj & E)].
    + left. split; [congruence|]. exists c. auto.
    + right. assert (D : defined_at f y c (S j)) by (split; eauto). split; [apply (K _ D); intros e; specialize (Nj e); lia|]. exists c, (S j). auto.
Qed.
Lemma block_t : exists c, In c (blocks f) /\ label c = t.
Proof using WF Hb Rb Bd Ri Ht Ne Dt Cut. apply in_map_iff in Ht. destruct Ht as (c & E & H). eauto. Qed.
Lemma sunk_in c' : In c' (blocks sunk) -> exists c, In c (blocks f) /\ c' = mv c.
Proof using WF Hb Rb Bd Ri Ht Ne Dt Cut. rewrite blocks_sunk, in_map_iff. intros (c & <- & H). eauto. Qed.

Lemma avail_other c k y : In c (blocks f) -> y <> r -> available f c k y -> available sunk (mv c) (pl c k) y.
Proof using WF Hb Rb Bd Ri Ht Ne Dt Cut.
  intros Hc Ny [Nd|(c0 & j & D & C)].
  - left. intros c' j' D'. destruct (def_unsunk _ _ _ D') as [[-> _]|(_ & c1 & j1 & _ & _ & D1)]; [congruence|exact (Nd _ _ D1)].
  - right. exists (mv c0), (pl c0 j). split; [apply def_sunk; auto|]. destruct C as [[-> L]|[Nl C]].
    + left. split; [reflexivity|]. destruct (N.eq_dec (label c) (label b)) as [E|E].
      * rewrite (is_b c Hc E) in *. assert (j <> S n).
        { intros ->. destruct D as [_ (x & Hx & Rx)]. rewrite nth_i in Hx. injection Hx as <-. congruence. }
        unfold pl. rewrite N.eqb_refl. destruct (Nat.leb_spec j (S n)), (Nat.leb_spec k (S n)); lia.
      * destruct (N.eq_dec (label c) t) as [Et|Et].
        -- destruct k as [|k]; [lia|]. rewrite (pl_t c k Et). destruct j as [|j]; [rewrite pl_zero; lia|]. rewrite (pl_t c j Et). lia.
        -- rewrite !pl_other by auto. exact L.
    + right. rewrite !mv_label. split; [exact Nl|]. apply dom_sunk, C.
Qed.
(** at a use of [r] *)
Lemma avail_use c k : In c (blocks f) -> reach f c -> In (label c) (uses f r) -> available f c k r -> (1 <= k)%nat -> available sunk (mv c) (pl c k) r.
Proof using WF Hb Rb Bd Ri Ht Ne Dt Cut.
  intros Hc R U A Lk. assert (Nb : label c <> label b).
  { intros E. rewrite E in U. destruct (Cut _ _ U (path_here _ _)) as [E'|[]]. congruence. }
  assert (Db : dominates (succs f) (entry f) (label b) (label c)).
  { destruct A as [Nd|(c0 & j & D & C)]; [destruct (Nd _ _ def_r)|]. destruct (wf_once f WF _ _ _ _ _ D def_r) as [-> ->]. destruct C as [[E _]|[_ C]]; [congruence|exact C]. }
  destruct block_t as (ct & Hct & Et). right. exists (mv ct), 1%nat. split; [apply def_sunk_r; auto|]. rewrite !mv_label. destruct (N.eq_dec (label c) t) as [E|E].
  - left. assert (c = ct) by (apply (same_label f WF); congruence). subst ct. split; [reflexivity|]. destruct k as [|k]; [lia|]. rewrite (pl_t c k E). lia.
  - right. split; [congruence|]. apply dom_sunk. intros l P. destruct (path_suffix _ _ _ _ _ P (Db _ P)) as (l1 & l2 & -> & P2). rewrite Et. apply in_or_app. right. exact (Cut _ _ U P2).
Qed.
Lemma avail_sunk c k y : In c (blocks f) -> reach f c -> (y = r -> In (label c) (uses f r)) -> available f c k y -> (1 <= k)%nat -> available sunk (mv c) (pl c k) y.
Proof using WF Hb Rb Bd Ri Ht Ne Dt Cut.
  intros Hc R U A L. destruct (N.eq_dec y r) as [->|Ny]; [apply avail_use; auto|apply avail_other; auto].
Qed.
Lemma len_sunk c : In c (blocks f) -> (pl c (S (length (body c))) <= S (length (body (mv c))))%nat.
Proof using WF Hb Rb Bd Ri Ht Ne Dt Cut.
  intros Hc. destruct (N.eq_dec (label c) (label b)) as [E|E].
  - rewrite (is_b c Hc E). rewrite body_b. rewrite Bd, !app_length. cbn [length]. rewrite pl_b by (unfold n; lia). cbn [Nat.pred]. lia.
  - destruct (N.eq_dec (label c) t) as [Et|Et]; [rewrite (body_t c Et), (pl_t c _ Et); cbn [length]; lia|rewrite (body_other c Et E), pl_other; auto].
Qed.
Lemma reads_ne a : In a (reads i) -> a <> r.
Proof using WF Hb Rb Bd Ri Ht Ne Dt Cut. intros Ha ->. apply (avail_ne f b (S n) r r WF def_r); [|reflexivity]. exact (wf_uses f WF b n i r Hb Rb nth_i Ha). Qed.
Lemma reads_at_t a c : In a (reads i) -> In c (blocks f) -> label c = t -> reach f c -> available f c 0 a.
Proof using WF Hb Rb Bd Ri Ht Ne Dt Cut.
  intros Ha Hc E R. destruct (wf_uses f WF b n i a Hb Rb nth_i Ha) as [Nd|(c0 & j & D & C)]; [left; exact Nd|]. right. exists c0, j. split; [exact D|]. right.
  destruct C as [[-> _]|[Nl C]].
  - rewrite E. auto.
  - split.
    + intros E'. apply Nl. apply (dom_antisym (succs f) (entry f)); [exact C| |exact Rb]. rewrite E', E. exact Dt.
    + rewrite E. exact (dom_trans _ _ _ _ _ C Dt).
Qed.

Theorem sunk_wf : well_formed sunk.
Proof using WF Hb Rb Bd Ri Ht Ne Dt Cut.
  constructor.
  - rewrite blocks_sunk, map_map. rewrite (map_ext _ _ mv_label). apply WF.
  - intros id c1 k1 c2 k2 D1 D2. destruct (def_unsunk _ _ _ D1) as [(E1 & x1 & H1 & L1 & -> & ->)|(N1 & x1 & j1 & -> & -> & F1)],
      (def_unsunk _ _ _ D2) as [(E2 & x2 & H2 & L2 & -> & ->)|(N2 & x2 & j2 & -> & -> & F2)]; try congruence.
    + assert (x1 = x2) by (apply (same_label f WF); congruence). subst. auto.
    + destruct (wf_once f WF _ _ _ _ _ F1 F2) as [-> ->]. auto.
  - intros c Hc. destruct (sunk_in c Hc) as (c0 & H0 & ->). rewrite mv_phis. apply WF, H0.
  - rewrite blocks_sunk. pose proof (wf_entry f WF) as W. destruct (blocks f) as [|c bs] eqn:Eb; [exact I|]. cbn [map]. destruct W as [W1 W2]. rewrite mv_phis, mv_label. split; [exact W1|].
    intros c' Hc'. change (mv c :: map mv bs) with (map mv (c :: bs)) in Hc'. apply in_map_iff in Hc'. destruct Hc' as (c0 & <- & H0). rewrite mv_succ. apply W2, H0.
  - intros l1 x l2 rr E Rx. destruct (wf_prelude f WF l1 x l2 rr E Rx) as (A & B & C). split; [|auto]. intros c k D. destruct (def_unsunk _ _ _ D) as [[-> _]|(_ & c1 & j1 & _ & _ & D1)].
    + exact (A _ _ def_r).
    + exact (A _ _ D1).
  - intros x a c k Hx Ha D. destruct (def_unsunk _ _ _ D) as [[-> _]|(_ & c1 & j1 & _ & _ & D1)].
    + exact (wf_constants f WF x r _ _ Hx Ha def_r).
    + exact (wf_constants f WF x a _ _ Hx Ha D1).
  - intros c' j' x a Hc' R Hj Ha. destruct (sunk_in c' Hc') as (c & Hc & ->). apply reach_sunk in R. destruct (unstay c j' x Hc Hj) as [(-> & E & ->)|(j & Hx & _ & E)].
    + apply (avail_later sunk (mv c) (pl c 0)); [|rewrite pl_zero; lia]. apply avail_other; [exact Hc|exact (reads_ne a Ha)|exact (reads_at_t a c Ha Hc E R)].
    + rewrite <- E. apply avail_sunk; auto; [intros ->; eapply uses_body; eauto| |lia]. eapply (wf_uses f WF); eauto.
  - intros c' a Hc' R Ha. destruct (sunk_in c' Hc') as (c & Hc & ->). apply reach_sunk in R. rewrite mv_args in Ha.
    apply (avail_later sunk (mv c) (pl c (S (length (body c))))); [|apply len_sunk, Hc]. apply avail_sunk; auto; [intros ->; apply uses_term; auto| |lia]. apply (wf_term f WF c a Hc R Ha).
  - intros c' q a l c1 Hc' Hq Ha Hc1 El R. destruct (sunk_in c' Hc') as (c & Hc & ->). destruct (sunk_in c1 Hc1) as (c2 & Hc2 & ->). apply reach_sunk in R. rewrite mv_phis in Hq. rewrite mv_label in El.
    apply (avail_later sunk (mv c2) (pl c2 (S (length (body c2))))); [|apply len_sunk, Hc2]. apply avail_sunk; auto; [| |lia].
    + intros ->. rewrite El. exact (uses_phi f r c q l Hc Hq Ha).
    + apply (wf_phis f WF c q a l c2 Hc Hq Ha Hc2 El R).
  - intros c' q l Hc' Hq. destruct (sunk_in c' Hc') as (c & Hc & ->). rewrite mv_phis in Hq. rewrite mv_label, (wf_preds f WF c q l Hc Hq). split.
    + intros (c1 & H1 & E1 & S1). exists (mv c1). rewrite mv_label, mv_succ, blocks_sunk. split; [apply in_map, H1|auto].
    + intros (c1 & H1 & E1 & S1). destruct (sunk_in c1 H1) as (c2 & Hc2 & ->). rewrite mv_label in E1. rewrite mv_succ in S1. eauto.
Qed.
End Move.
