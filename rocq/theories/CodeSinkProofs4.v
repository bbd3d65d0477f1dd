(** Moving loads and access chains down: the pass comes to an end. *)
From Coq Require Import Permutation.
From Verif Require Import Base GraphSpec NamedIds NamedIdsProofs DominatorProofs DominatorTreeProofs LocalElimProofs Redundancy RedundancySpec RedundancyProofs RedundancyProofs2 Licm LicmSpec
  LicmProofs LicmProofs2 LicmProofs3 CodeSink CodeSinkSpec CodeSinkProofs CodeSinkProofs2 CodeSinkProofs3.
Local Open Scope N_scope.

Lemma block_of_some f l : In l (map label (blocks f)) -> exists b, block_of f l = Some b.
Proof.
  intros H. apply in_map_iff in H. destruct H as (b & E & Hb). unfold block_of. destruct (find (fun c => label c =? l) (blocks f)) as [c|] eqn:F; [eauto|].
  pose proof (find_none _ _ F b Hb) as K. cbn in K. apply N.eqb_neq in K. contradiction.
Qed.
Lemma nodup_length (l s : list N) : NoDup l -> incl l s -> (length l <= length s)%nat.
Proof. apply NoDup_incl_length. Qed.
Lemma push_counts (L ls : list N) : forall work seen w s, push ls work seen = (w, s) -> NoDup seen -> incl seen L -> incl work L -> incl ls L ->
  NoDup s /\ incl s L /\ incl w L /\ (length w + length seen = length work + length s)%nat.
Proof.
  induction ls as [|l ls IH]; intros work seen w s H Nd Is Iw Il; cbn [push] in H; [injection H as <- <-; auto with arith|].
  destruct (mem l seen) eqn:M; [apply (IH _ _ _ _ H); auto; intros y Hy; apply Il; right; exact Hy|].
  destruct (IH _ _ _ _ H) as (A & B & C & E).
  - constructor; [|exact Nd]. intros K. apply mem_In in K. congruence.
  - intros y [<-|Hy]; [apply Il; left; reflexivity|apply Is, Hy].
  - intros y [<-|Hy]; [apply Il; left; reflexivity|apply Iw, Hy].
  - intros y Hy. apply Il. right. exact Hy.
  - split; [exact A|]. split; [exact B|]. split; [exact C|]. cbn [length] in E. lia.
Qed.
Lemma intersects_ends f stop us : closed f -> forall fuel work seen, NoDup seen -> incl seen (map label (blocks f)) -> incl work (map label (blocks f)) ->
  (length (blocks f) + length work <= fuel + length seen)%nat -> intersects fuel f stop us work seen <> None.
Proof.
  intros Cl. assert (LB : length (map label (blocks f)) = length (blocks f)) by apply map_length.
  induction fuel as [|n IH]; intros work seen Nd Is Iw Le; destruct work as [|l work]; cbn [intersects]; try discriminate.
  - pose proof (nodup_length _ _ Nd Is). cbn [length] in Le. lia.
  - destruct (block_of_some f l (Iw l (or_introl eq_refl))) as [b B]. rewrite B. assert (Iw' : incl work (map label (blocks f))) by (intros y Hy; apply Iw; right; exact Hy). cbn [length] in Le.
    destruct (l =? stop); [apply IH; auto; lia|]. destruct (mem l us); [discriminate|]. destruct (push (t_succ b) work seen) as [w s] eqn:P.
    destruct (push_counts (map label (blocks f)) _ _ _ _ _ P Nd Is Iw') as (A & B' & C & E); [|apply IH; auto; lia].
    intros y Hy. apply (Cl b y); [apply (block_of_in f l b B)|exact Hy].
Qed.
Lemma intersects_path_ends f from stop us : closed f -> In from (map label (blocks f)) -> exists r, intersects_path f from stop us = Some r.
Proof.
  intros Cl Hf. unfold intersects_path. destruct (intersects (S (length (blocks f))) f stop us [from] [from]) as [r|] eqn:E; [eauto|]. exfalso. revert E. apply intersects_ends; auto.
  - constructor; [intros []|constructor].
  - intros y [<-|[]]. exact Hf.
  - intros y [<-|[]]. exact Hf.
  - cbn [length]. lia.
Qed.
Lemma leading_ends f us mg ls : closed f -> incl ls (map label (blocks f)) -> exists r, leading f us mg ls = Some r /\ incl r ls.
Proof.
  intros Cl. induction ls as [|l ls IH]; intros I; cbn [leading]; [exists []; split; [reflexivity|apply incl_refl]|]. destruct (intersects_path_ends f l mg us Cl (I l (or_introl eq_refl))) as [r0 E]. rewrite E.
  destruct IH as (r & Er & Ir); [intros y Hy; apply I; right; exact Hy|]. rewrite Er. destruct r0.
  - exists (l :: r). split; [reflexivity|]. intros y [<-|Hy]; [left; reflexivity|right; apply Ir, Hy].
  - exists r. split; [reflexivity|]. intros y Hy. right. apply Ir, Hy.
Qed.
Section Ends.
Variable x : info.
Lemma walk_ends f us orig : well_formed f -> structured x f -> closed f -> merges_reached x f -> In orig (map label (blocks f)) -> forall fuel l visited, reachable (succs f) (entry f) l -> In l (map label (blocks f)) ->
  NoDup visited -> incl visited (map label (blocks f)) -> (forall v, In v visited -> v <> l /\ dominates (succs f) (entry f) v l) -> (length (blocks f) < fuel + length visited)%nat ->
  exists t, walk x fuel f us orig l = Some t.
Proof.
  intros WF St Cl Mr Ho. induction fuel as [|n IH]; intros l visited R Hl Nd Iv Dm Le.
  - exfalso. pose proof (nodup_length _ _ Nd Iv) as K. rewrite map_length in K. lia.
  - cbn [walk]. destruct (block_of_some f l Hl) as [b B]. rewrite B. destruct (block_of_in f l b B) as [Hb El]. destruct (mem l us); [eauto|].
    assert (Step : forall l', reachable (succs f) (entry f) l' -> In l' (map label (blocks f)) -> l <> l' -> dominates (succs f) (entry f) l l' -> exists t, walk x n f us orig l' = Some t).
    { intros l' R' Hl' Ne D. apply (IH l' (l :: visited)); auto.
      - constructor; [|exact Nd]. intros K. destruct (Dm l K) as [E _]. exact (E eq_refl).
      - intros y [<-|Hy]; [exact Hl|apply Iv, Hy].
      - intros v [<-|Hv]; [auto|]. destruct (Dm v Hv) as [N0 D0]. split; [|exact (dom_trans _ _ _ _ _ D0 D)]. intros E. apply N0. rewrite <- E in D, R'. exact (dom_antisym _ _ _ _ D0 D R).
      - cbn [length]. lia. }
    assert (Br : forall s, In s (t_succ b) -> preds f s = 1%nat -> exists t, walk x n f us orig s = Some t).
    { intros s Hs P. pose proof (only_pred_dom f b s WF Hb Hs P) as D. rewrite El in D.
      assert (Rs : reachable (succs f) (entry f) s) by (destruct R as [p Pp]; exists (p ++ [s]); econstructor; [exact Pp|]; rewrite (block_of_succs f l b B); exact Hs).
      apply Step; auto; [exact (Cl b s Hb Hs)|]. intros ->. destruct Rs as [p Pp].
      assert (E : entry f = s).
      { destruct (DominatorProofs.path_simple _ _ _ _ Pp) as (q & Q & Nq & _). inversion Q as [|y z p' Q' Hz]; subst; [reflexivity|]. exfalso. destruct (succ_block f y (label b) Hz) as (c & Hc & Ec & Hs').
        rewrite <- (only_pred f (label b) b c P Hb Hc Hs Hs') in Ec. subst y. destruct (path_end _ _ _ _ Q') as [p2 ->]. rewrite <- app_assoc in Nq. apply NoDup_remove_2 in Nq. apply Nq. apply in_or_app. right. left. reflexivity. }
      pose proof (wf_entry f WF) as W. unfold entry in E. destruct (blocks f) as [|c bs] eqn:Eb; [destruct Hb|]. rewrite <- Eb in *. destruct W as [_ W]. rewrite E in W. exact (W b Hb Hs). }
    assert (Mg : exists t, match i_merge x l with
               | None => Some l
               | Some mg =>
                   match leading f us mg (t_succ b) with
                   | None => None
                   | Some [] => walk x n f us orig mg
                   | Some [s] => if negb (Nat.eqb (preds f s) 1) then Some l
                       else match intersects_path f mg orig us with None => None | Some true => Some l | Some false => walk x n f us orig s end
                   | Some _ => Some l
                   end
               end = Some t).
    { destruct (i_merge x l) as [mg|] eqn:Em; [|eauto]. destruct (St l mg Em Hl) as (Hm & Ne & Dmg).
      destruct (leading_ends f us mg (t_succ b) Cl) as (ld & Ld & Il); [intros y Hy; exact (Cl b y Hb Hy)|]. rewrite Ld. destruct ld as [|s [|s2 ld]]; [| |eauto].
      - apply Step; auto. exact (Mr l mg Em R).
      - destruct (Nat.eqb_spec (preds f s) 1) as [Ep|Ep]; cbn [negb]; [|eauto]. destruct (intersects_path_ends f mg orig us Cl Hm) as [[|] E]; rewrite E; [eauto|]. apply Br; [apply Il; left; reflexivity|exact Ep]. }
    destruct (i_branch x (t_op b)); [|exact Mg]. destruct (t_succ b) as [|s [|s2 ss]] eqn:Es; [exact Mg| |exact Mg]. destruct (Nat.eqb_spec (preds f s) 1) as [Ep|Ep]; [|eauto]. apply Br; [left; reflexivity|exact Ep].
Qed.
(** ** Pointers *)
Definition results (f : func) : list N := flat_map (fun i => match result i with Some r => [r] | None => [] end) (all_insts f).
Lemma results_length f : (length (results f) <= length (all_insts f))%nat.
Proof. unfold results. induction (all_insts f) as [|i l IH]; [auto|]. cbn [flat_map length]. rewrite app_length. destruct (result i); cbn [length]; lia. Qed.
Lemma in_results f i r : In i (all_insts f) -> result i = Some r -> In r (results f).
Proof. intros H E. apply in_flat_map. exists i. split; [exact H|]. rewrite E. left. reflexivity. Qed.
Lemma base_ends f rank : (forall i r a, In i (all_insts f) -> (match i with IOwn _ _ _ => False | _ => True end) -> result i = Some r -> In a (reads i) -> (rank a < rank r)%nat) ->
  forall fuel a visited, NoDup visited -> incl visited (results f) -> (forall v, In v visited -> (rank a < rank v)%nat) -> (length (all_insts f) < fuel + length visited)%nat -> exists v, base x fuel f a = Some v.
Proof.
  intros Rk. induction fuel as [|n IH]; intros a visited Nd Iv Lt Le.
  - exfalso. pose proof (nodup_length _ _ Nd Iv). pose proof (results_length f). lia.
  - cbn [base]. destruct (def_of f a) as [i|] eqn:Df; [|eauto]. apply find_some in Df. destruct Df as [Hi Hr]. unfold has_result in Hr.
    assert (Step : forall b, match i with IOwn _ _ _ => False | _ => True end -> result i = Some a -> In b (reads i) -> exists v, base x n f b = Some v).
    { intros b Pu Ra Hb. pose proof (Rk i a b Hi Pu Ra Hb) as L. apply (IH b (a :: visited)).
      - constructor; [|exact Nd]. intros K. specialize (Lt a K). lia.
      - intros y [<-|Hy]; [exact (in_results f i a Hi Ra)|apply Iv, Hy].
      - intros v [<-|Hv]; [exact L|]. specialize (Lt v Hv). lia.
      - cbn [length]. lia. }
    destruct i as [r op [|b l]|r b|r op l]; cbn [result] in Hr; eauto; apply N.eqb_eq in Hr; subst r.
    + destruct (i_kind x op); eauto; (apply Step; [exact I|reflexivity|left; reflexivity]).
    + apply Step; [exact I|reflexivity|left; reflexivity].
Qed.
Lemma store_ends f rank : (forall i r a, In i (all_insts f) -> (match i with IOwn _ _ _ => False | _ => True end) -> result i = Some r -> In a (reads i) -> (rank a < rank r)%nat) ->
  forall fuel v visited, NoDup visited -> incl visited (results f) -> (forall y, In y visited -> (rank y <= rank v)%nat) -> (length (all_insts f) < fuel + length visited)%nat -> exists s, possible_store x fuel f v = Some s.
Proof.
  intros Rk. induction fuel as [|n IH]; intros v visited Nd Iv Lt Le.
  - exfalso. pose proof (nodup_length _ _ Nd Iv). pose proof (results_length f). lia.
  - cbn [possible_store]. destruct (other_user x f v); [eauto|].
    assert (Step : forall r op l, In (IPure r op l) (all_insts f) -> mem v l = true -> exists s, possible_store x n f r = Some s).
    { intros r op l Hi Hv. pose proof (Rk _ r v Hi I eq_refl (proj1 (mem_In _ _) Hv)) as L. apply (IH r (r :: visited)).
      - constructor; [|exact Nd]. intros K. specialize (Lt r K). lia.
      - intros y [<-|Hy]; [exact (in_results f _ r Hi eq_refl)|apply Iv, Hy].
      - intros y [<-|Hy]; [lia|]. specialize (Lt y Hy). lia.
      - cbn [length]. lia. }
    assert (Iu : forall i, In i (filter (fun i => mem v (reads i)) (all_insts f)) -> In i (all_insts f) /\ mem v (reads i) = true) by (intros i Hi; apply filter_In in Hi; exact Hi).
    revert Iu. generalize (filter (fun i => mem v (reads i)) (all_insts f)). induction l as [|i us IHus]; intros Iu; [eauto|].
    destruct (Iu i (or_introl eq_refl)) as [Hi Hv]. assert (Tl : forall j, In j us -> In j (all_insts f) /\ mem v (reads j) = true) by (intros j Hj; apply Iu; right; exact Hj).
    destruct i as [r op l|r b|r op l]; [| |destruct (i_kind x op); eauto].
    + cbn [reads] in Hv. destruct (i_kind x op); eauto; destruct (Step r op l Hi Hv) as [[|] E]; rewrite E; eauto.
    + eauto.
Qed.
Lemma target_ends f l i : well_formed f -> structured x f -> closed f -> merges_reached x f -> ordered f -> reachable (succs f) (entry f) l -> In l (map label (blocks f)) -> exists t, target x f l i = Some t.
Proof.
  intros WF St Cl Mr [rank Rk] R Hl.
  assert (W : forall r, exists t, walk x (S (length (blocks f))) f (uses f r) l l = Some t).
  { intros r. apply (walk_ends f (uses f r) l WF St Cl Mr Hl (S (length (blocks f))) l []); auto; [constructor|intros y []|intros y []|cbn [length]; lia]. }
  assert (C : exists c, candidate x f i = Some c).
  { destruct i as [r op l0|r b|[r|] op l0]; cbn [candidate]; eauto. destruct l0 as [|p [|q l0]]; eauto. destruct (i_kind x op); eauto. unfold mutable.
    destruct (base_ends f rank Rk (enough f) p []) as [v E]; [constructor|intros y []|intros y []|unfold enough; cbn [length]; lia|]. rewrite E. destruct (i_var x v) as [q|]; [|eauto].
    destruct (v_read_only q); [eauto|]. destruct (has_sync x); [eauto|]. destruct (v_uniform q); cbn [negb]; [|eauto].
    destruct (store_ends f rank Rk (enough f) v []) as [[|] E2]; [constructor|intros y []|intros y []|unfold enough; cbn [length]; lia| |]; rewrite E2; eauto. }
  unfold target. destruct C as [[r|] E]; rewrite E; [|eauto]. destruct (W r) as [t Et]. rewrite Et. eauto.
Qed.
Lemma pick_ends f l : (forall i, exists t, target x f l i = Some t) -> forall rb after, exists p, pick x f l rb after = Some p.
Proof. intros T. induction rb as [|i rb IH]; intros after; cbn [pick]; [eauto|]. destruct (T i) as [[t|] E]; rewrite E; eauto. Qed.
Lemma closed_frame f g : frame f = frame g -> closed f -> closed g.
Proof.
  intros E C b l Hb Hl. rewrite <- (frame_labels f g E). destruct (frame_block g f b (eq_sym E) Hb) as (b' & Hb' & _ & _ & Es & _). apply (C b' l Hb'). rewrite Es. exact Hl.
Qed.
Lemma ordered_frame f g : frame f = frame g -> Permutation (insts f) (insts g) -> ordered f -> ordered g.
Proof. intros E P [rank R]. exists rank. intros i r a Hi. apply R. apply (all_incl f g E P), Hi. Qed.
Lemma merges_frame f g : well_formed f -> well_formed g -> frame f = frame g -> merges_reached x f -> merges_reached x g.
Proof. intros Wf Wg E M h mg Em R. apply (frame_reach f g _ Wf Wg E). apply (M h mg Em). exact (frame_reach g f _ Wg Wf (eq_sym E) R). Qed.
Lemma sink_block_ends : forall fuel f l b, well_formed f -> structured x f -> closed f -> merges_reached x f -> ordered f -> reachable (succs f) (entry f) l -> block_of f l = Some b -> (length (body b) <= fuel)%nat ->
  exists f', sink_block x fuel f l = Some f'.
Proof.
  induction fuel as [|n IH]; intros f l b WF St Cl Mr Or R B Le; destruct (block_of_in f l b B) as [Hb El]; assert (Hl : In l (map label (blocks f))) by (rewrite <- El; apply in_map, Hb);
    destruct (pick_ends f l (fun i => target_ends f l i WF St Cl Mr Or R Hl) (rev (body b)) []) as [p Pk]; cbn [sink_block]; rewrite B, Pk; destruct p as [[[[k i] a] t]|]; eauto.
  - apply pick_ok in Pk. destruct Pk as [Bd _]. rewrite rev_involutive, app_nil_r in Bd. rewrite Bd, app_length in Le. cbn [length] in Le. lia.
  - apply pick_ok in Pk. destruct Pk as [Bd T]. rewrite rev_involutive, app_nil_r in Bd. subst l. pose proof (move_lowers x f b k i a t WF St Hb R Bd T) as M.
    change (edit t (cons i) (edit (label b) (fun _ => k ++ a) f)) with (sunk f t b k a i). pose proof (lo_frame _ _ _ M) as Fr.
    assert (Ne : t <> label b) by (unfold target in T; destruct (candidate x f i) as [[r|]|]; try discriminate; destruct (walk x (S (length (blocks f))) f (uses f r) (label b) (label b)) as [t'|]; try discriminate;
      destruct (N.eqb_spec t' (label b)) as [E|E]; [discriminate|injection T as <-; exact E]).
    assert (Hm : In (CodeSinkProofs.mv t b k a i b) (blocks (sunk f t b k a i))) by (rewrite blocks_sunk; apply in_map, Hb).
    destruct (block_of_some (sunk f t b k a i) (label b)) as [c Bc]; [rewrite <- (frame_labels f _ Fr); exact Hl|].
    apply (IH _ (label b) c); auto.
    + apply M.
    + exact (structured_frame x f _ WF (lo_wf _ _ _ M) Fr St).
    + exact (closed_frame f _ Fr Cl).
    + exact (merges_frame f _ WF (lo_wf _ _ _ M) Fr Mr).
    + exact (ordered_frame f _ Fr (lo_perm _ _ _ M) Or).
    + exact (frame_reach f _ _ WF (lo_wf _ _ _ M) Fr R).
    + destruct (block_of_in _ _ _ Bc) as [Hc Ec].
      assert (c = CodeSinkProofs.mv t b k a i b) as ->.
      { apply (same_label _ (lo_wf _ _ _ M) c _ Hc Hm). rewrite CodeSinkProofs.mv_label. exact Ec. }
      rewrite Bd, app_length in Le. cbn [length] in Le. unfold CodeSinkProofs.mv, with_body. rewrite N.eqb_refl. cbn [label]. destruct (N.eqb_spec (label b) t) as [E|E]; [congruence|]. cbn [body]. rewrite app_length. lia.
Qed.
Theorem sink_ends : forall order f, well_formed f -> structured x f -> closed f -> merges_reached x f -> ordered f -> (forall l, In l order -> reachable (succs f) (entry f) l /\ In l (map label (blocks f))) -> exists f', sink x order f = Some f'.
Proof.
  induction order as [|l order IH]; intros f WF St Cl Mr Or R; cbn [sink]; [eauto|]. pose proof (proj1 (R l (or_introl eq_refl))) as Rl.
  pose proof (proj2 (R l (or_introl eq_refl))) as Hl.
  destruct (block_of_some f l Hl) as [b B]. rewrite B. destruct (sink_block_ends (length (body b)) f l b WF St Cl Mr Or Rl B (Nat.le_refl _)) as [g E]. rewrite E.
  pose proof (sink_block_ok x _ f l g WF St Rl E) as M. pose proof (lo_frame _ _ _ M) as Fr. apply IH.
  - apply M.
  - exact (structured_frame x f g WF (lo_wf _ _ _ M) Fr St).
  - exact (closed_frame f g Fr Cl).
  - exact (merges_frame f g WF (lo_wf _ _ _ M) Fr Mr).
  - exact (ordered_frame f g Fr (lo_perm _ _ _ M) Or).
  - intros z Hz. destruct (R z (or_intror Hz)) as [Rz Lz]. rewrite <- (frame_labels f g Fr). split; [exact (frame_reach f g _ WF (lo_wf _ _ _ M) Fr Rz)|exact Lz].
Qed.
End Ends.
