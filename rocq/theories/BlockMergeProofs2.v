(** Merging blocks: proofs about the whole pass. *)
From Coq Require Import Permutation.
From Verif Require Import Base Redundancy RedundancySpec LicmSpec CodeSink BlockMerge BlockMergeSpec BlockMergeProofs.
Local Open Scope N_scope.

Lemma same_refl {D W} (m : machine D W) globals w0 f : same_behaviour m globals w0 f f.
Proof. constructor; [intros n op ds w H; exists n; auto|intros n s H; exists n; auto|auto]. Qed.
Lemma same_trans {D W} (m : machine D W) globals w0 f g h : same_behaviour m globals w0 f g -> same_behaviour m globals w0 g h -> same_behaviour m globals w0 f h.
Proof.
  intros [A1 A2 A3] [B1 B2 B3]. constructor.
  - intros n op ds w H. destruct (A1 _ _ _ _ H) as (k & Lk & Hk). destruct (B1 _ _ _ _ Hk) as (j & Lj & Hj). exists j. split; [lia|exact Hj].
  - intros n s H. destruct (B2 _ _ H) as (k & Lk & Hk). destruct (A2 _ _ Hk) as (j & Lj & Hj). exists j. split; [lia|exact Hj].
  - auto.
Qed.
Lemma is_merge_of ms ms' l : merge_blocks_of ms = merge_blocks_of ms' -> is_merge ms l = is_merge ms' l.
Proof.
  assert (K : forall z, is_merge z l = existsb (fun t => t =? l) (merge_blocks_of z)) by (unfold is_merge, merge_blocks_of; induction z as [|h z IH]; cbn [existsb map]; [reflexivity|rewrite IH; reflexivity]).
  intros E. rewrite !K, E. reflexivity.
Qed.
Section Whole.
Variables (branch conditional : N -> bool) (maximal : bool) (reached : N -> bool) (in_case : list block -> headers -> N -> bool).
Lemma can_merge_ok bs ms b s : can_merge branch conditional maximal in_case bs ms b = Some s ->
  branch (t_op b) = true /\ t_succ b = [s] /\ count s (flat_map t_succ bs) = 1%nat /\ is_merge ms (label b) && is_merge ms s = false /\
  is_merge ms s && maximal = false /\ is_merge ms (label b) && is_continue ms s = false /\ (is_merge ms s || is_continue ms s) && in_case bs ms (label b) = false /\
  forall mg, header ms (label b) = Some mg -> m_target mg = s \/ (header ms s = None /\ exists c, find (fun c => label c =? s) bs = Some c /\ (branch (t_op c) = true \/ conditional (t_op c) = true)).
Proof using.
  unfold can_merge. destruct (branch (t_op b)); [|discriminate]. destruct (t_succ b) as [|s0 [|? ?]]; try discriminate.
  destruct (Nat.eqb_spec (preds (mkfunc [] bs) s0) 1) as [C|_]; cbn [negb]; [|discriminate]. cbv zeta. destruct (is_merge ms (label b) && is_merge ms s0) eqn:E1; [discriminate|]. destruct (is_merge ms s0 && maximal) eqn:E2; [discriminate|].
  destruct (is_merge ms (label b) && is_continue ms s0) eqn:E3; [discriminate|].
  destruct (header ms (label b)) as [mg|].
  - destruct (N.eqb_spec s0 (m_target mg)) as [E|_]; cbn [negb andb].
    + destruct ((is_merge ms s0 || is_continue ms s0) && in_case bs ms (label b)) eqn:E4; [discriminate|]. intros K. injection K as <-. repeat split; auto. intros mg' K. injection K as <-. left. auto.
    + destruct (header ms s0) eqn:Hs0; cbn [orb]; [discriminate|]. destruct (find (fun c => label c =? s0) bs) as [c|] eqn:F; [|discriminate]. destruct (branch (t_op c) || conditional (t_op c)) eqn:O; cbn [negb]; [|discriminate].
      destruct ((is_merge ms s0 || is_continue ms s0) && in_case bs ms (label b)) eqn:E4; [discriminate|]. intros K. injection K as <-. repeat split; auto. intros mg' _. right. split; [exact Hs0|]. exists c. split; [exact F|]. apply orb_prop, O.
  - destruct ((is_merge ms s0 || is_continue ms s0) && in_case bs ms (label b)) eqn:E4; [discriminate|]. intros K. injection K as <-. repeat split; auto. discriminate.
Qed.
Notation go := (merge_from branch conditional maximal reached in_case).
(** one turn of the loop *)
Lemma one pre before b rest ms s x c y : mergeable branch (mkfunc pre (before ++ b :: rest)) -> can_merge branch conditional maximal in_case (before ++ b :: rest) ms b = Some s -> take s (b :: rest) = Some (b :: x, c, y) ->
  rest = x ++ c :: y /\ label c = s /\ phis c = [].
Proof using.
  intros MB C T. apply take_ok in T. destruct T as [E El]. cbn [app] in E. injection E as ->. apply can_merge_ok in C. destruct C as (_ & _ & C & _). repeat split; auto. apply (mb_no_phis _ _ MB); [|rewrite El; exact C].
  cbn [blocks]. apply in_or_app. right. right. apply in_or_app. right. left. reflexivity.
Qed.
Lemma take_first s b rest x c y : take s (b :: rest) = Some (x, c, y) -> x = [] \/ exists x', x = b :: x'.
Proof using. cbn [take]. destruct (label b =? s); [intros E; injection E as <- _ _; auto|]. destruct (take s rest) as [[[x' c'] y']|]; [|discriminate]. intros E. injection E as <- _ _. right. eauto. Qed.
Record kept (f : func) (ms : headers) (g : func) (ms' : headers) : Prop := {
  k_same : forall (D W : Type) (m : machine D W) globals w0, branches_go m branch -> same_behaviour m globals w0 f g;
  k_mergeable : mergeable branch g;
  k_insts : Permutation (flat_map body (blocks f)) (flat_map body (blocks g));
  k_labels : incl (map label (blocks g)) (map label (blocks f));
  k_structure : well_structured branch conditional f ms -> well_structured branch conditional g ms';
  k_apart : apart branch f ms -> apart branch g ms';
  k_cases : forall case, (forall bs ms l, case l = true -> in_case bs ms l = true) -> cases_apart case ms -> cases_apart case ms';
  k_leads : forall p z, leads branch g p z -> leads branch f p z;
  k_constructs : constructs_kept branch f ms ms';
  k_maximal : maximal = true -> merge_blocks_of ms' = merge_blocks_of ms /\ forall l, In l (map label (blocks f)) -> is_merge ms l = true -> In l (map label (blocks g)) }.
Lemma kept_one pre before b x c y ms : mergeable branch (mkfunc pre (before ++ b :: x ++ c :: y)) -> can_merge branch conditional maximal in_case (before ++ b :: x ++ c :: y) ms b = Some (label c) ->
  kept (mkfunc pre (before ++ b :: x ++ c :: y)) ms
    (mkfunc pre (map (redirect (label b) (label c) (fun z => z)) before ++ redirect (label b) (label c) (fun z => z) (join b c) :: map (redirect (label b) (label c) (fun z => z)) (x ++ y))) (join_headers (label b) (label c) ms).
Proof using.
  intros MB C. destruct (can_merge_ok _ _ _ _ C) as (Br & Su & One & Pm & Px & Pc & Pi & Ph). constructor.
  - intros D W m globals w0 Go. apply (merged_same pre before x y b c branch); auto.
  - apply (merged_mergeable pre before x y b c branch); auto.
  - apply (merged_instructions pre before x y b c branch); auto.
  - cbn [blocks]. rewrite (labels' pre before x y b c branch) by auto. intros l H. apply in_map_iff in H. destruct H as (d & <- & Hd). apply in_map. apply (bs_in pre before x y b c branch); auto.
  - apply (merged_structure pre before x y b c branch); auto. intros mg Hm. destruct (Ph mg Hm) as [E|(E & c' & F & O)]; [auto|]. right. split; [exact E|]. rewrite (find_c pre before x y b c branch) in F by auto. injection F as <-. exact O.
  - apply (merged_apart pre before x y b c branch); auto.
  - intros case Hc. apply (merged_cases pre before x y b c branch); auto. intros S. rewrite S in Pi. cbn [andb] in Pi. destruct (case (label b)) eqn:E; [|reflexivity]. rewrite (Hc _ _ _ E) in Pi. discriminate.
  - apply (leads_back pre before x y b c branch); auto.
  - apply (merged_constructs pre before x y b c branch); auto.
  - intros Mx. rewrite Mx, andb_true_r in Px. split; [exact (merged_targets b c ms Px)|]. cbn [blocks]. intros l Hl Hm. apply (label' pre before x y b c branch) in Hl; auto. rewrite sub_ne in Hl by (intros ->; congruence). exact Hl.
Qed.
Lemma kept_refl f ms : mergeable branch f -> kept f ms f ms.
Proof using. intros MB. constructor; auto; [intros; apply same_refl|apply incl_refl|]. intros h m H. right. exists h, m. repeat split; auto; constructor. Qed.
Lemma kept_trans f ms g ms' h ms'' : kept f ms g ms' -> kept g ms' h ms'' -> kept f ms h ms''.
Proof using.
  intros [A1 A2 A3 A4 A5 A6 A7 A9 A10 A8] [B1 B2 B3 B4 B5 B6 B7 B9 B10 B8]. constructor; auto.
  - intros D W m globals w0 Go. eapply same_trans; [apply A1|apply B1]; assumption.
  - exact (Permutation_trans A3 B3).
  - exact (incl_tran B4 A4).
  - intros l m H. destruct (A10 l m H) as [K|(l' & m' & H' & El & L1 & L2 & L3)]; [left; exact K|]. destruct (B10 l' m' H') as [(k & K1 & K2)|(l2 & m2 & H2 & El2 & K1 & K2 & K3)].
    + left. exists k. split; [exact (leads_app branch _ _ _ _ (A9 _ _ K1) L1)|exact (leads_app branch _ _ _ _ (A9 _ _ K2) L2)].
    + right. exists l2, m2. split; [exact H2|]. split; [congruence|]. split; [exact (leads_app branch _ _ _ _ (A9 _ _ K1) L1)|]. split; [exact (leads_app branch _ _ _ _ (A9 _ _ K2) L2)|].
      intros Lo. exact (leads_app branch _ _ _ _ (A9 _ _ (K3 ltac:(congruence))) (L3 Lo)).
  - intros Mx. destruct (A8 Mx) as [T1 L1], (B8 Mx) as [T2 L2]. split; [congruence|]. intros l Hl Hm. apply L2; [apply L1; assumption|]. rewrite (is_merge_of ms' ms l T1). exact Hm.
Qed.
Lemma merge_from_kept pre : forall fuel before rest ms bs ms', mergeable branch (mkfunc pre (before ++ rest)) -> go fuel before rest ms = Some (bs, ms') -> kept (mkfunc pre (before ++ rest)) ms (mkfunc pre bs) ms'.
Proof using.
  induction fuel as [|n IH]; intros before rest ms bs ms' MB H; destruct rest as [|b rest]; cbn [merge_from] in H; try discriminate; try (injection H as <- <-; rewrite app_nil_r in MB |- *; apply kept_refl, MB).
  assert (Skip : go n (before ++ [b]) rest ms = Some (bs, ms') -> kept (mkfunc pre (before ++ b :: rest)) ms (mkfunc pre bs) ms').
  { intros K. apply IH in K; rewrite <- app_assoc in *; [exact K|exact MB]. }
  destruct (reached (label b)); [|exact (Skip H)].
  destruct (can_merge branch conditional maximal in_case (before ++ b :: rest) ms b) as [s|] eqn:C; [|exact (Skip H)]. destruct (take s (b :: rest)) as [[[x0 c] y]|] eqn:T; [|discriminate].
  destruct (take_first _ _ _ _ _ _ T) as [->|[x ->]]; [discriminate|]. destruct (one pre _ _ _ _ _ _ _ _ MB C T) as (-> & <- & Np). rewrite Np in H. cbn [phi_values] in H. cbv zeta in H.
  pose proof (kept_one pre _ _ _ _ _ _ MB C) as K. apply IH in H; [exact (kept_trans _ _ _ _ _ _ K H)|exact (k_mergeable _ _ _ _ K)].
Qed.
Lemma merge_from_returns pre : forall fuel before rest ms, mergeable branch (mkfunc pre (before ++ rest)) -> text_order reached (mkfunc pre (before ++ rest)) -> (length rest <= fuel)%nat -> exists r, go fuel before rest ms = Some r.
Proof using.
  induction fuel as [|n IH]; intros before rest ms MB TO L; destruct rest as [|b rest]; cbn [merge_from]; try (eexists; reflexivity); cbn [length] in L; [lia|].
  assert (Skip : exists r, go n (before ++ [b]) rest ms = Some r) by (apply IH; rewrite <- ?app_assoc; [exact MB|exact TO|lia]).
  destruct (reached (label b)) eqn:R; [|exact Skip]. destruct (can_merge branch conditional maximal in_case (before ++ b :: rest) ms b) as [s|] eqn:C; [|exact Skip].
  destruct (can_merge_ok _ _ _ _ C) as (Br & Su & One & _). pose proof (to_after _ _ TO before b rest s eq_refl R Su One) as Hs.
  assert (Ne : label b <> s). { intros E. pose proof (mb_labels _ _ MB) as Nd. cbn [blocks] in Nd. rewrite map_app in Nd. cbn [map] in Nd. apply NoDup_remove_2 in Nd. apply Nd, in_or_app. right. rewrite E. exact Hs. }
  destruct (take_some s rest Hs) as (x & c & y & T). assert (T' : take s (b :: rest) = Some (b :: x, c, y)) by (cbn [take]; destruct (N.eqb_spec (label b) s) as [E|_]; [contradiction|]; rewrite T; reflexivity).
  rewrite T'. destruct (one pre _ _ _ _ _ _ _ _ MB C T') as (-> & <- & Np). rewrite Np. cbn [phi_values]. cbv zeta. apply IH.
  - apply (merged_mergeable pre before x y b c branch); auto.
  - apply (merged_order pre before x y b c branch); auto.
  - cbn [length]. rewrite map_length, app_length. rewrite app_length in L. cbn [length] in L. lia.
Qed.
End Whole.
