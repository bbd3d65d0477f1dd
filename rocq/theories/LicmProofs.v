(** Proofs about moving instructions out of loops: one instruction is moved to the preheader. *)
From Verif Require Import Base GraphSpec NamedIds NamedIdsProofs Redundancy RedundancySpec RedundancyProofs RedundancyProofs2 Licm LicmSpec.
Local Open Scope N_scope.

(** ** Paths through loops *)
Lemma succs_in f l x : well_formed f -> In x (succs f l) <-> exists c, In c (blocks f) /\ label c = l /\ In x (t_succ c).
Proof.
  intros WF. split; [apply succ_block|]. intros (c & Hc & <- & H). unfold succs. rewrite (find_block f c WF Hc). exact H.
Qed.
Section Paths.
Variable f : func.
Variables (h p : N) (ins : list N).
Hypothesis WF : well_formed f.
Hypothesis PH : has_preheader f h p ins.

Lemma loop_path x l : path (succs f) (entry f) x l -> In x ins -> In p l /\ exists l', path (succs f) h x l' /\ forall y, In y l' -> In y ins.
Proof using WF PH.
  induction 1 as [|x y l P IH Hy]; intros Hx; [destruct (ph_entry _ _ _ _ PH Hx)|].
  apply (succs_in f x y WF) in Hy. destruct Hy as (c & Hc & <- & Hs).
  destruct (ph_edges _ _ _ _ PH c y Hc Hs Hx) as [Hi|[<- ->]].
  - destruct (IH Hi) as (I & l' & P' & A). split; [apply in_or_app; auto|]. exists (l' ++ [y]). split.
    + econstructor; [exact P'|]. apply (succs_in f _ _ WF). eauto.
    + intros z Hz. apply in_app_or in Hz. destruct Hz as [Hz|[<-|[]]]; auto.
  - split.
    + destruct (path_end _ _ _ _ P) as [l' ->]. apply in_or_app. left. apply in_or_app. right. left. reflexivity.
    + exists [h]. split; [constructor|]. intros z [<-|[]]. exact Hx.
Qed.
Lemma path_join (s : N -> list N) a x y l l' : path s a x l -> In y (s x) -> forall z, path s y z l' -> path s a z (l ++ l').
Proof.
  intros P E z P'. induction P' as [|z w l' P' IH Hw].
  - econstructor; eauto.
  - rewrite app_assoc. econstructor; eauto.
Qed.
Lemma pre_dominates x : In x ins -> dominates (succs f) (entry f) p x.
Proof using WF PH. intros Hx l P. apply (loop_path x l P Hx). Qed.
(** a block outside the loop that dominates one inside dominates the preheader *)
Lemma outside_dominates x y : In x ins -> reachable (succs f) (entry f) x -> ~ In y ins -> dominates (succs f) (entry f) y x -> dominates (succs f) (entry f) y p.
Proof using WF PH.
  intros Hx [l0 P0] Hy D l P. destruct (loop_path x l0 P0 Hx) as (_ & l' & P' & A). destruct (ph_block _ _ _ _ PH) as (c & Hc & <- & Hs).
  assert (E : In h (succs f (label c))) by (apply (succs_in f _ _ WF); eauto).
  pose proof (D _ (path_join _ _ _ _ _ _ P E _ P')) as I. apply in_app_or in I. destruct I as [I|I]; [exact I|]. destruct (Hy (A _ I)).
Qed.
End Paths.

(** ** One move *)
Definition pure_inst (i : inst) (r : N) : Prop := result i = Some r /\ match i with IOwn _ _ _ => False | _ => True end.
Section Move.
Variable f : func.
Variables (h p : N) (ins : list N).
Hypothesis WF : well_formed f.
Hypothesis PH : has_preheader f h p ins.
Variables (b : block) (kept rest : list inst) (i : inst) (r : N).
Hypothesis Hb : In b (blocks f).
Hypothesis Hin : In (label b) ins.
Hypothesis Rb : reach f b.
Hypothesis Bd : body b = kept ++ i :: rest.
Hypothesis Pi : pure_inst i r.
Hypothesis Out : forall a, In a (reads i) -> is_inside f ins a = false.

Definition moved : func := edit p (fun is => is ++ [i]) (edit (label b) (fun _ => kept ++ rest) f).
Definition mv (c : block) : block := with_body p (fun is => is ++ [i]) (with_body (label b) (fun _ => kept ++ rest) c).
Definition n : nat := length kept.
(** where a place of block [c] is afterwards *)
Definition pl (c : block) (k : nat) : nat := if label c =? label b then (if Nat.leb k (S n) then k else pred k) else k.

Lemma blocks_moved : blocks moved = map mv (blocks f).
Proof using. unfold moved, edit. cbn [blocks]. rewrite map_map. reflexivity. Qed.
Lemma mv_label c : label (mv c) = label c.
Proof using. unfold mv, with_body. destruct (label c =? label b); cbn [label]; destruct (label c =? p); reflexivity. Qed.
Lemma mv_phis c : phis (mv c) = phis c.
Proof using. unfold mv, with_body. destruct (label c =? label b); cbn [label]; destruct (label c =? p); reflexivity. Qed.
Lemma mv_succ c : t_succ (mv c) = t_succ c.
Proof using. unfold mv, with_body. destruct (label c =? label b); cbn [label]; destruct (label c =? p); reflexivity. Qed.
Lemma mv_args c : t_args (mv c) = t_args c.
Proof using. unfold mv, with_body. destruct (label c =? label b); cbn [label]; destruct (label c =? p); reflexivity. Qed.
Lemma mv_op c : t_op (mv c) = t_op c.
Proof using. unfold mv, with_body. destruct (label c =? label b); cbn [label]; destruct (label c =? p); reflexivity. Qed.
Lemma p_ne_b : p <> label b.
Proof using PH Hin. intros E. apply (ph_outside _ _ _ _ PH). rewrite E. exact Hin. Qed.
Lemma body_b : body (mv b) = kept ++ rest.
Proof using PH Hin.
  unfold mv, with_body. rewrite N.eqb_refl. cbn [label]. destruct (N.eqb_spec (label b) p) as [E|_]; [destruct (p_ne_b (eq_sym E))|reflexivity].
Qed.
Lemma body_p c : label c = p -> body (mv c) = body c ++ [i].
Proof using PH Hin.
  intros E. unfold mv, with_body. destruct (N.eqb_spec (label c) (label b)) as [E'|_]; [destruct p_ne_b; congruence|]. rewrite E, N.eqb_refl. reflexivity.
Qed.
Lemma body_other c : label c <> p -> label c <> label b -> body (mv c) = body c.
Proof using.
  intros A B. unfold mv, with_body. destruct (N.eqb_spec (label c) (label b)) as [E|_]; [congruence|]. destruct (N.eqb_spec (label c) p) as [E|_]; [congruence|reflexivity].
Qed.
Lemma find_mv l bs : find (fun c => label c =? l) (map mv bs) = match find (fun c => label c =? l) bs with Some c => Some (mv c) | None => None end.
Proof using. induction bs as [|c bs IH]; simpl; [reflexivity|]. rewrite mv_label. destruct (label c =? l); [reflexivity|exact IH]. Qed.
Lemma succs_moved l : succs moved l = succs f l.
Proof using. unfold succs. rewrite blocks_moved, find_mv. destruct (find _ _) as [c|]; [apply mv_succ|reflexivity]. Qed.
Lemma entry_moved : entry moved = entry f.
Proof using. unfold entry. rewrite blocks_moved. clear - b. destruct (blocks f) as [|c bs]; [reflexivity|apply mv_label]. Qed.
Lemma path_ext (s s' : N -> list N) a x l : (forall y, s y = s' y) -> path s a x l -> path s' a x l.
Proof. intros E P. induction P; econstructor; eauto. rewrite <- E; assumption. Qed.
Lemma path_moved a x l : path (succs moved) a x l <-> path (succs f) a x l.
Proof using. split; apply path_ext; intros y; rewrite succs_moved; reflexivity. Qed.
Lemma dom_moved x y : dominates (succs moved) (entry moved) x y <-> dominates (succs f) (entry f) x y.
Proof using. rewrite entry_moved. split; intros H l P; apply H, path_moved, P. Qed.
Lemma reach_moved c : reach moved (mv c) <-> reach f c.
Proof using. unfold reach, reachable. rewrite entry_moved, mv_label. split; intros [l P]; exists l; apply path_moved, P. Qed.

Lemma nth_kept j : (j < n)%nat -> nth_error (kept ++ rest) j = nth_error (kept ++ i :: rest) j.
Proof using WF PH Hb Hin Rb Bd Pi Out. intros L. rewrite !nth_error_app1 by exact L. reflexivity. Qed.
Lemma nth_rest j : (n <= j)%nat -> nth_error (kept ++ rest) j = nth_error (kept ++ i :: rest) (S j).
Proof using WF PH Hb Hin Rb Bd Pi Out.
  intros L. rewrite (nth_error_app2 kept rest) by exact L. rewrite (nth_error_app2 kept (i :: rest)) by (unfold n in L; lia).
  unfold n in L. replace (S j - length kept)%nat with (S (j - length kept)) by lia. reflexivity.
Qed.
Lemma nth_i : nth_error (body b) n = Some i.
Proof using WF PH Hb Hin Rb Bd Pi Out. rewrite Bd, nth_error_app2 by (unfold n; lia). unfold n. rewrite Nat.sub_diag. reflexivity. Qed.
Lemma def_r : defined_at f r b (S n).
Proof using WF PH Hb Hin Rb Bd Pi Out. split; [exact Hb|]. exists i. split; [exact nth_i|apply Pi]. Qed.
Lemma pl_le c k : (k <= S n)%nat -> pl c k = k.
Proof using WF PH Hb Hin Rb Bd Pi Out. intros L. unfold pl. destruct (label c =? label b); [|reflexivity]. destruct (Nat.leb_spec k (S n)); [reflexivity|lia]. Qed.
Lemma pl_b k : (S n < k)%nat -> pl b k = pred k.
Proof using WF PH Hb Hin Rb Bd Pi Out. intros L. unfold pl. rewrite N.eqb_refl. destruct (Nat.leb_spec k (S n)); [lia|reflexivity]. Qed.
Lemma pl_other c k : label c <> label b -> pl c k = k.
Proof using WF PH Hb Hin Rb Bd Pi Out. intros E. unfold pl. destruct (N.eqb_spec (label c) (label b)) as [E'|_]; [congruence|reflexivity]. Qed.
Lemma is_b c : In c (blocks f) -> label c = label b -> c = b.
Proof using WF PH Hb Hin Rb Bd Pi Out. intros Hc E. apply (same_label f WF); auto. Qed.
(** an instruction that stays *)
Lemma stay c j x : In c (blocks f) -> nth_error (body c) j = Some x -> (c = b -> j <> n) -> exists j', pl c (S j) = S j' /\ nth_error (body (mv c)) j' = Some x /\ pl c (S (S j)) = S (S j').
Proof using WF PH Hb Hin Rb Bd Pi Out.
  intros Hc Hj Ne. destruct (N.eq_dec (label c) (label b)) as [E|E].
  - rewrite (is_b c Hc E) in *. specialize (Ne eq_refl). rewrite body_b. rewrite Bd in Hj. destruct (Nat.lt_ge_cases j n) as [L|L].
    + exists j. rewrite !pl_le by lia. split; [reflexivity|]. split; [|reflexivity]. rewrite nth_kept; auto.
    + exists (pred j). rewrite !pl_b by lia. cbn [Nat.pred]. split; [lia|]. split; [|lia]. rewrite nth_rest by lia. replace (S (pred j)) with j by lia. exact Hj.
  - exists j. rewrite !pl_other by exact E. split; [reflexivity|]. split; [|reflexivity]. destruct (N.eq_dec (label c) p) as [Ep|Ep].
    + rewrite (body_p c Ep), nth_error_app1; [exact Hj|]. apply nth_error_Some. congruence.
    + rewrite (body_other c Ep E). exact Hj.
Qed.
Lemma unstay c j' x : In c (blocks f) -> nth_error (body (mv c)) j' = Some x ->
  (x = i /\ label c = p /\ j' = length (body c)) \/ exists j, nth_error (body c) j = Some x /\ (c = b -> j <> n) /\ pl c (S j) = S j'.
Proof using WF PH Hb Hin Rb Bd Pi Out.
  intros Hc Hj. destruct (N.eq_dec (label c) (label b)) as [E|E].
  - right. rewrite (is_b c Hc E) in *. rewrite body_b in Hj. destruct (Nat.lt_ge_cases j' n) as [L|L].
    + exists j'. rewrite Bd, <- nth_kept by exact L. split; [exact Hj|]. split; [lia|]. apply pl_le. lia.
    + exists (S j'). rewrite Bd, <- nth_rest by exact L. split; [exact Hj|]. split; [lia|]. rewrite pl_b by lia. reflexivity.
  - destruct (N.eq_dec (label c) p) as [Ep|Ep].
    + rewrite (body_p c Ep) in Hj. destruct (Nat.lt_ge_cases j' (length (body c))) as [L|L].
      * right. exists j'. rewrite nth_error_app1 in Hj by exact L. split; [exact Hj|]. split; [intros ->; congruence|]. apply pl_other, E.
      * left. assert (j' < length (body c ++ [i]))%nat by (apply nth_error_Some; congruence). rewrite app_length in H. cbn [length] in H.
        assert (j' = length (body c)) by lia. subst j'. rewrite nth_error_app2, Nat.sub_diag in Hj by lia. cbn in Hj. injection Hj as <-. auto.
    + right. rewrite (body_other c Ep E) in Hj. exists j'. split; [exact Hj|]. split; [intros ->; congruence|]. apply pl_other, E.
Qed.

(** definitions *)
Lemma def_moved y c j : defined_at f y c j -> y <> r -> defined_at moved y (mv c) (pl c j).
Proof using WF PH Hb Hin Rb Bd Pi Out.
  intros [Hc H] Ne. destruct j as [|j].
  - rewrite pl_le by lia. split; [rewrite blocks_moved; apply in_map, Hc|]. rewrite mv_phis. exact H.
  - destruct H as (x & Hx & Rx). destruct (stay c j x Hc Hx) as (j' & E1 & E2 & _).
    { intros -> ->. rewrite nth_i in Hx. injection Hx as <-. destruct Pi as [Ri _]. congruence. }
    rewrite E1. split; [rewrite blocks_moved; apply in_map, Hc|]. eauto.
Qed.
Lemma block_p : exists c, In c (blocks f) /\ label c = p.
Proof using WF PH Hb Hin Rb Bd Pi Out. destruct (ph_block _ _ _ _ PH) as (c & Hc & E & _). eauto. Qed.
Lemma def_moved_r c : In c (blocks f) -> label c = p -> defined_at moved r (mv c) (S (length (body c))).
Proof using WF PH Hb Hin Rb Bd Pi Out.
  intros Hc E. split; [rewrite blocks_moved; apply in_map, Hc|]. exists i. rewrite (body_p c E), nth_error_app2, Nat.sub_diag by lia. split; [reflexivity|apply Pi].
Qed.
Lemma def_unmoved y c' j' : defined_at moved y c' j' ->
  (y = r /\ exists c, In c (blocks f) /\ label c = p /\ c' = mv c /\ j' = S (length (body c))) \/
  (y <> r /\ exists c j, c' = mv c /\ j' = pl c j /\ defined_at f y c j).
Proof using WF PH Hb Hin Rb Bd Pi Out.
  intros [Hc' H]. rewrite blocks_moved in Hc'. apply in_map_iff in Hc'. destruct Hc' as (c & <- & Hc).
  assert (K : forall j, defined_at f y c j -> (c = b -> j <> S n) -> y <> r).
  { intros j D Ne ->. destruct (wf_once f WF _ _ _ _ _ D def_r) as [-> ->]. exact (Ne eq_refl eq_refl). }
  destruct j' as [|j'].
  - right. rewrite mv_phis in H. assert (D : defined_at f y c 0) by (split; assumption). split; [apply (K 0%nat D); lia|]. exists c, 0%nat. rewrite pl_le by lia. auto.
  - destruct H as (x & Hx & Rx). destruct (unstay c j' x Hc Hx) as [(-> & E & ->)|(j & Hj & Ne & E)].
    + left. destruct Pi as [Ri _]. split; [congruence|]. exists c. auto.
    + right. assert (D : defined_at f y c (S j)) by (split; eauto). split; [apply (K _ D); intros e; specialize (Ne e); lia|]. exists c, (S j). auto.
Qed.
Lemma mv_inj c c' : In c (blocks f) -> In c' (blocks f) -> mv c = mv c' -> c = c'.
Proof using WF PH Hb Hin Rb Bd Pi Out. intros Hc Hc' E. apply (same_label f WF); auto. rewrite <- (mv_label c), E. apply mv_label. Qed.

(** what is available stays so *)
Lemma avail_moved c k y : In c (blocks f) -> reach f c -> available f c k y -> available moved (mv c) (pl c k) y.
Proof using WF PH Hb Hin Rb Bd Pi Out.
  intros Hc R [Nd|(c0 & j & D & C)].
  - left. intros c' j' D'. destruct (def_unmoved _ _ _ D') as [[-> _]|(_ & c1 & j1 & _ & _ & D1)]; [exact (Nd _ _ def_r)|exact (Nd _ _ D1)].
  - right. destruct (N.eq_dec y r) as [->|Ne].
    + destruct (wf_once f WF _ _ _ _ _ D def_r) as [-> ->]. destruct block_p as (cp & Hp & Ep).
      exists (mv cp), (S (length (body cp))). split; [apply def_moved_r; auto|]. right. rewrite !mv_label, Ep.
      assert (Dc : dominates (succs f) (entry f) (label b) (label c)).
      { destruct C as [[<- _]|[_ C]]; [|exact C]. intros l P. destruct (path_end _ _ _ _ P) as [l' ->]. apply in_or_app. right. left. reflexivity. }
      pose proof (pre_dominates f h p ins WF PH (label b) Hin) as Dp. split.
      * intros E. apply p_ne_b. rewrite <- E in Dc. apply (dom_antisym _ _ _ _ Dp Dc). exact Rb.
      * apply dom_moved. eapply dom_trans; eauto.
    + exists (mv c0), (pl c0 j). split; [apply def_moved; auto|]. destruct C as [[-> L]|[Nl C]].
      * left. split; [reflexivity|]. destruct (N.eq_dec (label c) (label b)) as [E|E].
        -- rewrite (is_b c Hc E) in *. assert (j <> S n).
           { intros ->. destruct D as [_ (x & Hx & Rx)]. rewrite nth_i in Hx. injection Hx as <-. destruct Pi as [Ri _]. congruence. }
           unfold pl. rewrite N.eqb_refl. destruct (Nat.leb_spec j (S n)), (Nat.leb_spec k (S n)); lia.
        -- rewrite !pl_other by exact E. exact L.
      * right. rewrite !mv_label. split; [exact Nl|]. apply dom_moved, C.
Qed.
Lemma len_moved c : In c (blocks f) -> (pl c (S (length (body c))) <= S (length (body (mv c))))%nat.
Proof using WF PH Hb Hin Rb Bd Pi Out.
  intros Hc. destruct (N.eq_dec (label c) (label b)) as [E|E].
  - rewrite (is_b c Hc E). rewrite body_b. rewrite Bd, !app_length. cbn [length]. rewrite pl_b by (unfold n; lia). cbn [Nat.pred]. lia.
  - rewrite pl_other by exact E. destruct (N.eq_dec (label c) p) as [Ep|Ep]; [rewrite (body_p c Ep), app_length; cbn [length]; lia|rewrite (body_other c Ep E); lia].
Qed.
(** the operands at the end of the preheader *)
Lemma inside_def a c j : defined_at f a c j -> is_inside f ins a = false -> ~ In (label c) ins.
Proof using WF PH Hb Hin Rb Bd Pi Out.
  intros [Hc H] F I. enough (is_inside f ins a = true) by congruence. unfold is_inside. apply existsb_exists. exists c. split; [exact Hc|].
  rewrite (proj2 (mem_In _ _) I). cbn [andb]. unfold sets. destruct j as [|j].
  - destruct H as (q & Hq & E). apply orb_true_iff. left. apply existsb_exists. exists q. rewrite E, N.eqb_refl. auto.
  - destruct H as (x & Hx & E). apply orb_true_iff. right. apply existsb_exists. exists x. rewrite E, N.eqb_refl. split; [|reflexivity]. eapply nth_error_In; eauto.
Qed.
Lemma reads_ne a : In a (reads i) -> a <> r.
Proof using WF PH Hb Hin Rb Bd Pi Out. intros Ha ->. exact (inside_def r b (S n) def_r (Out r Ha) Hin). Qed.
Lemma reads_at_p a c : In a (reads i) -> In c (blocks f) -> label c = p -> available f c (S (length (body c))) a.
Proof using WF PH Hb Hin Rb Bd Pi Out.
  intros Ha Hc E. destruct (wf_uses f WF b n i a Hb Rb nth_i Ha) as [Nd|(c0 & j & D & C)]; [left; exact Nd|]. right. exists c0, j. split; [exact D|].
  pose proof (inside_def a c0 j D (Out a Ha)) as No. destruct C as [[-> _]|[_ C]]; [destruct (No Hin)|].
  pose proof (outside_dominates f h p ins WF PH (label b) (label c0) Hin Rb No C) as Dp. destruct (N.eq_dec (label c0) p) as [Ep|Ep].
  - left. assert (c0 = c) by (apply (same_label f WF); [apply D|exact Hc|congruence]). subst c0. split; [reflexivity|]. eapply defined_bound; eauto.
  - right. rewrite E. auto.
Qed.

Lemma moved_in c' : In c' (blocks moved) -> exists c, In c (blocks f) /\ c' = mv c.
Proof using WF PH Hb Hin Rb Bd Pi Out. rewrite blocks_moved, in_map_iff. intros (c & <- & H). eauto. Qed.
Theorem moved_wf : well_formed moved.
Proof using WF PH Hb Hin Rb Bd Pi Out.
  constructor.
  - rewrite blocks_moved, map_map. rewrite (map_ext _ _ mv_label). apply WF.
  - intros id c1 k1 c2 k2 D1 D2. destruct (def_unmoved _ _ _ D1) as [(E1 & x1 & H1 & L1 & -> & ->)|(N1 & x1 & j1 & -> & -> & F1)],
      (def_unmoved _ _ _ D2) as [(E2 & x2 & H2 & L2 & -> & ->)|(N2 & x2 & j2 & -> & -> & F2)]; try congruence.
    + assert (x1 = x2) by (apply (same_label f WF); congruence). subst. auto.
    + destruct (wf_once f WF _ _ _ _ _ F1 F2) as [-> ->]. auto.
  - intros c Hc. destruct (moved_in c Hc) as (c0 & H0 & ->). rewrite mv_phis. apply WF, H0.
  - rewrite blocks_moved. pose proof (wf_entry f WF) as W. destruct (blocks f) as [|c bs] eqn:Eb; [exact I|]. cbn [map]. destruct W as [W1 W2]. rewrite mv_phis, mv_label. split; [exact W1|].
    intros c' Hc'. change (mv c :: map mv bs) with (map mv (c :: bs)) in Hc'. apply in_map_iff in Hc'. destruct Hc' as (c0 & <- & H0). rewrite mv_succ. apply W2, H0.
  - intros l1 x l2 rr E Rx. destruct (wf_prelude f WF l1 x l2 rr E Rx) as (A & B & C). split; [|auto]. intros c k D. destruct (def_unmoved _ _ _ D) as [[-> _]|(_ & c1 & j1 & _ & _ & D1)].
    + exact (A _ _ def_r).
    + exact (A _ _ D1).
  - intros x a c k Hx Ha D. destruct (def_unmoved _ _ _ D) as [[-> _]|(_ & c1 & j1 & _ & _ & D1)].
    + exact (wf_constants f WF x r _ _ Hx Ha def_r).
    + exact (wf_constants f WF x a _ _ Hx Ha D1).
  - intros c' j' x a Hc' R Hj Ha. destruct (moved_in c' Hc') as (c & Hc & ->). apply reach_moved in R. destruct (unstay c j' x Hc Hj) as [(-> & E & ->)|(j & Hx & _ & E)].
    + pose proof (avail_moved c _ a Hc R (reads_at_p a c Ha Hc E)) as A. rewrite pl_other in A by (rewrite E; apply p_ne_b). exact A.
    + rewrite <- E. apply avail_moved; auto. eapply (wf_uses f WF); eauto.
  - intros c' a Hc' R Ha. destruct (moved_in c' Hc') as (c & Hc & ->). apply reach_moved in R. rewrite mv_args in Ha.
    apply (avail_later moved (mv c) (pl c (S (length (body c))))); [|apply len_moved, Hc]. apply avail_moved; auto. apply (wf_term f WF c a Hc R Ha).
  - intros c' q a l c1 Hc' Hq Ha Hc1 El R. destruct (moved_in c' Hc') as (c & Hc & ->). destruct (moved_in c1 Hc1) as (c2 & Hc2 & ->). apply reach_moved in R. rewrite mv_phis in Hq. rewrite mv_label in El.
    apply (avail_later moved (mv c2) (pl c2 (S (length (body c2))))); [|apply len_moved, Hc2]. apply avail_moved; auto. apply (wf_phis f WF c q a l c2 Hc Hq Ha Hc2 El R).
  - intros c' q l Hc' Hq. destruct (moved_in c' Hc') as (c & Hc & ->). rewrite mv_phis in Hq. rewrite mv_label, (wf_preds f WF c q l Hc Hq). split.
    + intros (c1 & H1 & E1 & S1). exists (mv c1). rewrite mv_label, mv_succ, blocks_moved. split; [apply in_map, H1|auto].
    + intros (c1 & H1 & E1 & S1). destruct (moved_in c1 H1) as (c2 & Hc2 & ->). rewrite mv_label in E1. rewrite mv_succ in S1. eauto.
Qed.
End Move.
