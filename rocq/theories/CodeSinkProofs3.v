(** Moving loads and access chains down: where they go, and the whole pass. *)
From Coq Require Import Permutation.
From Verif Require Import Base GraphSpec NamedIds NamedIdsProofs DominatorProofs DominatorTreeProofs LocalElimProofs Redundancy RedundancySpec RedundancyProofs RedundancyProofs2 Licm LicmSpec
  LicmProofs LicmProofs2 LicmProofs3 CodeSink CodeSinkSpec CodeSinkProofs CodeSinkProofs2.
Local Open Scope N_scope.

Lemma block_of_succs f l b : block_of f l = Some b -> succs f l = t_succ b.
Proof. unfold block_of, succs. intros ->. reflexivity. Qed.
Lemma block_of_in f l b : block_of f l = Some b -> In b (blocks f) /\ label b = l.
Proof. apply find_block_inv. Qed.
(** ** The search for uses *)
Lemma push_spec ls : forall work seen w s, push ls work seen = (w, s) -> incl seen s /\ incl work w /\ incl ls s /\ (forall y, In y s -> In y seen \/ In y w) /\ (incl work seen -> incl w s).
Proof.
  induction ls as [|l ls IH]; intros work seen w s H; cbn [push] in H.
  - injection H as <- <-. repeat split; auto using incl_refl. intros y [].
  - destruct (mem l seen) eqn:M.
    + destruct (IH _ _ _ _ H) as (A & B & C & E & F). repeat split; auto. intros y [<-|Hy]; [apply A, mem_In, M|apply C, Hy].
    + destruct (IH _ _ _ _ H) as (A & B & C & E & F). split; [intros y Hy; apply A; right; exact Hy|]. split; [intros y Hy; apply B; right; exact Hy|].
      split; [intros y [<-|Hy]; [apply A; left; reflexivity|apply C, Hy]|]. split.
      * intros y Hy. destruct (E y Hy) as [[<-|G]|G]; [right; apply B; left; reflexivity|left; exact G|right; exact G].
      * intros I. apply F. intros y [<-|Hy]; [left; reflexivity|right; apply I, Hy].
Qed.
Definition settled (f : func) (stop : N) (us seen : list N) (y : N) : Prop := y = stop \/ (~ In y us /\ forall z, In z (succs f y) -> In z seen).
Lemma settled_incl f stop us s s' y : incl s s' -> settled f stop us s y -> settled f stop us s' y.
Proof. intros I [E|[A B]]; [left; exact E|right; split; [exact A|]]. intros z Hz. apply I, B, Hz. Qed.
Lemma intersects_false f stop us : forall fuel work seen, incl work seen -> (forall y, In y seen -> In y work \/ settled f stop us seen y) -> intersects fuel f stop us work seen = Some false ->
  exists s, incl seen s /\ forall y, In y s -> settled f stop us s y.
Proof.
  induction fuel as [|n IH]; intros work seen I Inv H; destruct work as [|l work]; cbn [intersects] in H; try discriminate.
  - exists seen. split; [apply incl_refl|]. intros y Hy. destruct (Inv y Hy) as [[]|S]; exact S.
  - exists seen. split; [apply incl_refl|]. intros y Hy. destruct (Inv y Hy) as [[]|S]; exact S.
  - destruct (block_of f l) as [b|] eqn:B; [|discriminate]. destruct (N.eqb_spec l stop) as [E|E].
    + apply (IH work seen); [intros y Hy; apply I; right; exact Hy| |exact H]. intros y Hy. destruct (Inv y Hy) as [[<-|G]|G]; [right; left; exact E|left; exact G|right; exact G].
    + destruct (mem l us) eqn:M; [discriminate|]. destruct (push (t_succ b) work seen) as [w s] eqn:P. destruct (push_spec _ _ _ _ _ P) as (A1 & A2 & A3 & A4 & A5).
      assert (I' : incl work seen) by (intros y Hy; apply I; right; exact Hy).
      destruct (IH w s (A5 I')) as (s' & S1 & S2).
      * intros y Hy. destruct (A4 y Hy) as [G|G]; [|left; exact G]. destruct (Inv y G) as [[<-|K]|K]; [right|left; apply A2, K|right; exact (settled_incl f stop us seen s y A1 K)].
        right. split; [intros U; apply mem_In in U; congruence|]. intros z Hz. rewrite (block_of_succs f l b B) in Hz. apply A3, Hz.
      * exact H.
      * exists s'. split; [intros y Hy; apply S1, A1, Hy|exact S2].
Qed.
Lemma intersects_path_false f from stop us : intersects_path f from stop us = Some false -> forall u l, In u us -> path (succs f) from u l -> In stop l.
Proof.
  unfold intersects_path. intros H u l U P. destruct (intersects_false f stop us _ _ _ (incl_refl [from]) (fun y Hy => or_introl Hy) H) as (s & I & S).
  assert (K : In stop l \/ In u s).
  { clear U. induction P as [|y z l P IH Hz]; [right; apply I; left; reflexivity|]. destruct IH as [IH|IH]; [left; apply in_or_app; left; exact IH|].
    destruct (S y IH) as [->|[_ E]]; [left|right; apply E, Hz]. apply in_or_app. left. destruct (path_end _ _ _ _ P) as [l' ->]. apply in_or_app. right. left. reflexivity. }
  destruct K as [K|K]; [exact K|]. destruct (S u K) as [->|[E _]]; [|destruct (E U)]. destruct (path_end _ _ _ _ P) as [l' ->]. apply in_or_app. right. left. reflexivity.
Qed.
Lemma leading_spec f us mg : forall ls r, leading f us mg ls = Some r -> forall d, In d ls -> In d r \/ intersects_path f d mg us = Some false.
Proof.
  induction ls as [|l ls IH]; intros r H d Hd; [destruct Hd|]. cbn [leading] in H. destruct (intersects_path f l mg us) as [[|]|] eqn:E; try discriminate; destruct (leading f us mg ls) as [r'|]; try discriminate; injection H as <-.
  - destruct Hd as [<-|Hd]; [left; left; reflexivity|]. destruct (IH r' eq_refl d Hd) as [G|G]; [left; right; exact G|right; exact G].
  - destruct Hd as [<-|Hd]; [right; exact E|]. exact (IH r' eq_refl d Hd).
Qed.
(** ** One predecessor *)
Lemma filter_in1 (s : N) l : In s l -> (1 <= length (filter (fun y => N.eqb y s) l))%nat.
Proof. intros H. assert (I : In s (filter (fun y => N.eqb y s) l)) by (apply filter_In; rewrite N.eqb_refl; auto). destruct (filter (fun y => N.eqb y s) l); [destruct I|cbn [length]; lia]. Qed.
Lemma only_pred f s b b' : preds f s = 1%nat -> In b (blocks f) -> In b' (blocks f) -> In s (t_succ b) -> In s (t_succ b') -> b = b'.
Proof.
  unfold preds. intros P Hb Hb' Hs Hs'. apply in_split in Hb. destruct Hb as (l1 & l2 & E). rewrite E in *. rewrite flat_map_app, filter_app, app_length in P. cbn [flat_map] in P. rewrite filter_app, app_length in P.
  pose proof (filter_in1 s _ Hs) as L0.
  assert (K : forall l, In b' l -> (1 <= length (filter (fun y => N.eqb y s) (flat_map t_succ l)))%nat) by (intros l Hl; apply filter_in1, in_flat_map; eauto).
  apply in_app_or in Hb'. destruct Hb' as [H|[H|H]]; [|exact H|]; apply K in H; lia.
Qed.
Lemma only_pred_dom f b s : well_formed f -> In b (blocks f) -> In s (t_succ b) -> preds f s = 1%nat -> dominates (succs f) (entry f) (label b) s.
Proof.
  intros WF Hb Hs P l Pa. destruct Pa as [|y z l Pa Hz].
  - exfalso. pose proof (wf_entry f WF) as W. unfold entry in Hs. destruct (blocks f) as [|c bs] eqn:E; [destruct Hb|]. rewrite <- E in *. destruct W as [_ W]. exact (W b Hb Hs).
  - destruct (succ_block f y z Hz) as (q & Hq & Eq & Hs'). rewrite (only_pred f z b q P Hb Hq Hs Hs'), Eq. apply in_or_app. left. destruct (path_end _ _ _ _ Pa) as [l' ->]. apply in_or_app. right. left. reflexivity.
Qed.
(** the part of a path after the last time at its start *)
Lemma last_visit (s : N -> list N) a z l : path s a z l -> exists l1 l2, l = l1 ++ a :: l2 /\ path s a z (a :: l2) /\ ~ In a l2.
Proof.
  intros P. induction P as [|y c l P IH Hc].
  - exists [], []. split; [reflexivity|]. split; [constructor|intros []].
  - destruct IH as (l1 & l2 & -> & P2 & N2). destruct (N.eq_dec c a) as [->|Nc].
    + exists (l1 ++ a :: l2), []. split; [reflexivity|]. split; [constructor|intros []].
    + exists l1, (l2 ++ [c]). split; [rewrite <- app_assoc; reflexivity|]. split; [change (a :: l2 ++ [c]) with ((a :: l2) ++ [c]); econstructor; eauto|].
      intros I. apply in_app_or in I. destruct I as [I|[I|[]]]; [exact (N2 I)|exact (Nc I)].
Qed.

(** ** Where an instruction goes *)
Section Walk.
Variable x : info.
Variable f : func.
Hypothesis WF : well_formed f.
Hypothesis St : structured x f.
Variables (orig : N) (us : list N).
Definition cuts (t : N) : Prop := forall u l, In u us -> path (succs f) orig u l -> In t l.
Lemma cut_next l b : block_of f l = Some b -> cuts l -> ~ In l us ->
  forall u p, In u us -> path (succs f) orig u p -> exists d p3, In d (t_succ b) /\ path (succs f) d u p3 /\ incl p3 p /\ ~ In orig p3.
Proof using.
  intros B C Nu u p U P. destruct (last_visit _ _ _ _ P) as (p1 & q & -> & Pq & Nq). destruct (path_suffix _ _ _ _ _ Pq (C u _ U Pq)) as (r1 & r2 & E & P2).
  destruct (path_uncons _ _ _ _ P2) as [[-> El]|(d & p3 & -> & Hd & P3)]; [rewrite El in U; destruct (Nu U)|]. exists d, p3. rewrite <- (block_of_succs f l b B). split; [exact Hd|]. split; [exact P3|].
  assert (I : incl p3 q).
  { destruct r1 as [|z r1]; cbn [app] in E; injection E as _ E; rewrite E; [apply incl_refl|]. intros y Hy. apply in_or_app. right. right. exact Hy. }
  split; [intros y Hy; apply in_or_app; right; right; apply I, Hy|]. intros Ho. exact (Nq (I _ Ho)).
Qed.
Lemma walk_ok : forall fuel l t, dominates (succs f) (entry f) orig l -> cuts l -> walk x fuel f us orig l = Some t ->
  dominates (succs f) (entry f) orig t /\ cuts t /\ In t (map label (blocks f)).
Proof using WF St.
  induction fuel as [|n IH]; intros l t Dl Cl H; cbn [walk] in H; [discriminate|]. destruct (block_of f l) as [b|] eqn:B; [|discriminate]. destruct (block_of_in f l b B) as [Hb El].
  assert (Il : In l (map label (blocks f))) by (rewrite <- El; apply in_map, Hb).
  assert (Done : Some l = Some t -> dominates (succs f) (entry f) orig t /\ cuts t /\ In t (map label (blocks f))) by (intros E; injection E as <-; auto).
  destruct (mem l us) eqn:M; [exact (Done H)|]. assert (Nu : ~ In l us) by (intros U; apply mem_In in U; congruence). pose proof (cut_next l b B Cl Nu) as Nx.
  assert (Br : forall s, In s (t_succ b) -> preds f s = 1%nat -> dominates (succs f) (entry f) orig s).
  { intros s Hs P. pose proof (only_pred_dom f b s WF Hb Hs P) as Ds. rewrite El in Ds. exact (dom_trans _ _ _ _ _ Dl Ds). }
  assert (Mg : match i_merge x l with
               | None => Some l
               | Some mg =>
                   match leading f us mg (t_succ b) with
                   | None => None
                   | Some [] => walk x n f us orig mg
                   | Some [s] => if negb (Nat.eqb (preds f s) 1) then Some l
                       else match intersects_path f mg orig us with None => None | Some true => Some l | Some false => walk x n f us orig s end
                   | Some _ => Some l
                   end
               end = Some t -> dominates (succs f) (entry f) orig t /\ cuts t /\ In t (map label (blocks f))).
  { clear H. intros H. destruct (i_merge x l) as [mg|] eqn:Em; [|exact (Done H)]. destruct (leading f us mg (t_succ b)) as [ld|] eqn:Ld; [|discriminate]. pose proof (leading_spec f us mg _ _ Ld) as Sp.
    destruct ld as [|s [|s2 ld]]; [| |exact (Done H)].
    - apply (IH mg t); [|intros u p U P|exact H].
      + exact (dom_trans _ _ _ _ _ Dl (proj2 (proj2 (St l mg Em Il)))).
      + destruct (Nx u p U P) as (d & p3 & Hd & P3 & I & _). destruct (Sp d Hd) as [[]|E]. apply I. exact (intersects_path_false f d mg us E u p3 U P3).
    - destruct (Nat.eqb_spec (preds f s) 1) as [Ep|Ep]; cbn [negb] in H; [|exact (Done H)]. destruct (intersects_path f mg orig us) as [[|]|] eqn:Ei; [exact (Done H)| |discriminate].
      assert (Hs : In s (t_succ b)).
      { clear - Ld. revert Ld. generalize [s] (in_eq s []). generalize (t_succ b). induction l as [|y l IHl]; intros ld Hs E; cbn [leading] in E; [injection E as <-; destruct Hs|].
        destruct (intersects_path f y mg us) as [[|]|]; try discriminate; destruct (leading f us mg l) as [r'|] eqn:E'; try discriminate; injection E as <-.
        - destruct Hs as [<-|Hs]; [left; reflexivity|right; exact (IHl r' Hs eq_refl)].
        - right. exact (IHl r' Hs eq_refl). }
      apply (IH s t); [exact (Br s Hs Ep)|intros u p U P|exact H]. destruct (Nx u p U P) as (d & p3 & Hd & P3 & I & No).
      destruct (Sp d Hd) as [[<-|[]]|E].
      + apply I. destruct (path_first _ _ _ _ P3) as [p4 ->]. left. reflexivity.
      + exfalso. pose proof (intersects_path_false f d mg us E u p3 U P3) as Im. destruct (path_suffix _ _ _ _ _ P3 Im) as (p4 & p5 & -> & P5). apply No. apply in_or_app. right. exact (intersects_path_false f mg orig us Ei u p5 U P5). }
  destruct (i_branch x (t_op b)) eqn:Eb; [|exact (Mg H)]. destruct (t_succ b) as [|s [|s2 ss]] eqn:Es; [exact (Mg H)| |exact (Mg H)]. clear Mg.
  destruct (Nat.eqb_spec (preds f s) 1) as [Ep|Ep]; [|exact (Done H)].
  apply (IH s t); [apply Br; [left; reflexivity|exact Ep]|intros u p U P|exact H]. destruct (Nx u p U P) as (d & p3 & [<-|[]] & P3 & I & _). apply I. destruct (path_first _ _ _ _ P3) as [p4 ->]. left. reflexivity.
Qed.
End Walk.

Lemma base_ok x f : forall fuel a v, base x fuel f a = Some v -> i_var x v <> None -> rests_on x f a v.
Proof.
  induction fuel as [|n IH]; intros a v H Nv; cbn [base] in H; [discriminate|]. assert (Done : Some a = Some v -> rests_on x f a v) by (intros E; injection E as ->; constructor; exact Nv).
  destruct (def_of f a) as [i|] eqn:Df; [|exact (Done H)]. apply find_some in Df. destruct Df as [Hi Hr]. unfold has_result in Hr.
  destruct i as [r op [|b l]|r b|r op l]; cbn [result] in Hr; try exact (Done H).
  - apply N.eqb_eq in Hr. subst r. destruct (i_kind x op) eqn:K; try exact (Done H); (eapply RO_path; [exact Hi| |apply IH; eauto]; unfold path_op; auto).
  - apply N.eqb_eq in Hr. subst r. eapply RO_copy; [exact Hi|apply IH; eauto].
Qed.
Lemma candidate_result x f i r : candidate x f i = Some (Some r) -> result i = Some r.
Proof.
  destruct i as [r0 op l|r0 b|[r0|] op l]; cbn [candidate result]; try discriminate.
  - destruct (i_kind x op); try discriminate. congruence.
  - destruct l as [|p [|q l]]; try discriminate. destruct (i_kind x op); try discriminate. destruct (mutable x f p) as [[|]|]; congruence.
Qed.
Lemma land_bit s k : N.land s (2 ^ k) = 0 <-> N.testbit s k = false.
Proof.
  split; intros H.
  - assert (E : N.testbit (N.land s (2 ^ k)) k = false) by (rewrite H; apply N.bits_0). rewrite N.land_spec, N.pow2_bits_true, andb_true_r in E. exact E.
  - apply N.bits_inj. intros n. rewrite N.land_spec, N.bits_0, N.pow2_bits_eqb. destruct (N.eqb_spec k n) as [<-|_]; [rewrite H; reflexivity|apply andb_false_r].
Qed.
Lemma sync_ok s : sync_on_uniform s = true <-> synchronises s.
Proof.
  unfold sync_on_uniform, synchronises. rewrite andb_true_iff, !negb_true_iff, !N.eqb_neq. change 64 with (2 ^ 6). rewrite land_bit.
  assert (E : N.land s 14 = 0 <-> N.testbit s 1 = false /\ N.testbit s 2 = false /\ N.testbit s 3 = false).
  { change 14 with (N.lor (2 ^ 1) (N.lor (2 ^ 2) (2 ^ 3))). rewrite !N.land_lor_distr_r, !N.lor_eq_0_iff, !land_bit. tauto. }
  rewrite E. destruct (N.testbit s 6), (N.testbit s 1), (N.testbit s 2), (N.testbit s 3); intuition congruence.
Qed.
Lemma candidate_movable {D W} (m : machine D W) x points f i r : loads_are_constant m x points f -> In i (insts f) -> candidate x f i = Some (Some r) -> movable m x points f i r.
Proof.
  intros Lc Hi H. destruct i as [r0 op l|r0 b|[r0|] op l]; cbn [candidate] in H; try discriminate.
  - left. destruct (i_kind x op); try discriminate. injection H as ->. eauto.
  - right. destruct l as [|p [|q l]]; try discriminate. destruct (i_kind x op) eqn:K; try discriminate. destruct (mutable x f p) as [[|]|] eqn:M; try discriminate. injection H as ->.
    unfold mutable in M. destruct (base x (enough f) f p) as [v|] eqn:B; [|discriminate]. destruct (i_var x v) as [q|] eqn:V; [|discriminate].
    assert (Ro : rests_on x f p v) by (apply (base_ok x f _ p v B); congruence). exists op, p, v. split; [reflexivity|]. split; [exact K|]. split; [exact Ro|]. apply Lc.
    + exists r, op, p. auto.
    + exists q. split; [exact V|]. destruct (v_read_only q); [left; reflexivity|right]. destruct (has_sync x) eqn:S; [discriminate|]. destruct (v_uniform q); [|discriminate]. split; [reflexivity|].
      intros s Hs E. apply sync_ok in E. enough (has_sync x = true) by congruence. apply existsb_exists. eauto.
Qed.
Lemma pick_ok x f l : forall rb after k i a t, pick x f l rb after = Some (Some (k, i, a, t)) -> rev rb ++ after = k ++ i :: a /\ target x f l i = Some (Some t).
Proof.
  induction rb as [|y rb IH]; intros after k i a t H; cbn [pick] in H; [discriminate|]. destruct (target x f l y) as [[t0|]|] eqn:T; [|apply IH in H|discriminate].
  - injection H as <- <- <- <-. cbn [rev]. rewrite <- app_assoc. auto.
  - destruct H as [E Ht]. split; [|exact Ht]. cbn [rev]. rewrite <- app_assoc. exact E.
Qed.
Lemma sunk_perm f t b kept rest i : well_formed f -> In b (blocks f) -> body b = kept ++ i :: rest -> In t (map label (blocks f)) -> t <> label b ->
  Permutation (insts f) (insts (sunk f t b kept rest i)).
Proof.
  intros WF Hb Bd Ht Ne. unfold insts, sunk, edit. cbn [blocks].
  destruct (edit_perm (fun _ => kept ++ rest) (blocks f) b (wf_labels f WF) Hb) as (X & A & B). set (bs := map (with_body (label b) (fun _ => kept ++ rest)) (blocks f)) in *.
  apply in_map_iff in Ht. destruct Ht as (c & Lc & Hc). assert (Nc : label c <> label b) by congruence.
  assert (Hc' : In c bs) by (unfold bs; apply in_map_iff; exists c; split; [unfold with_body; destruct (N.eqb_spec (label c) (label b)) as [E|_]; [congruence|reflexivity]|exact Hc]).
  assert (Nd : NoDup (map label bs)).
  { unfold bs. rewrite map_map. erewrite map_ext; [exact (wf_labels f WF)|]. intros y. unfold with_body. destruct (label y =? label b); reflexivity. }
  destruct (edit_perm (cons i) bs c Nd Hc') as (Y & C & E). rewrite Lc in E. rewrite E, A, Bd.
  transitivity (i :: (kept ++ rest) ++ X); [rewrite <- !app_assoc; cbn [app]; symmetry; apply Permutation_middle|]. cbn [app]. apply perm_skip. rewrite <- C, B. reflexivity.
Qed.

(** ** What stays true *)
Lemma rests_incl x f g y v : incl (all_insts f) (all_insts g) -> rests_on x f y v -> rests_on x g y v.
Proof. intros I H. induction H as [v Nv|r a v Hi Ha IH|r op a l v Hi Po Ha IH]; [constructor; exact Nv|eapply RO_copy; eauto|eapply RO_path; eauto]. Qed.
Section Pass.
Variable x : info.
Record lowered (f f' : func) : Prop := {
  lo_wf : well_formed f';
  lo_frame : frame f = frame f';
  lo_perm : Permutation (insts f) (insts f');
  lo_down : forall r b k, defined_at f r b k -> exists b' k', defined_at f' r b' k' /\ dominates (succs f) (entry f) (label b) (label b');
  lo_runs : forall D W (m : machine D W) points n g w s, memory_rules m x points -> variables_outside x f -> loads_are_constant m x points f -> variables_point x points g -> starts_clean f g ->
    run m f n g w = Some s -> run m f' n g w = Some s }.
Lemma all_perm f g : frame f = frame g -> Permutation (insts f) (insts g) -> Permutation (all_insts f) (all_insts g).
Proof. intros E P. unfold all_insts. unfold frame in E. injection E as E _. rewrite E. apply Permutation_app_head. exact P. Qed.
Lemma all_incl f g : frame f = frame g -> Permutation (insts f) (insts g) -> incl (all_insts f) (all_insts g) /\ incl (all_insts g) (all_insts f).
Proof. intros E P. pose proof (all_perm f g E P) as A. split; intros y; apply Permutation_in; [exact A|symmetry; exact A]. Qed.
Lemma outside_perm f g : frame f = frame g -> Permutation (insts f) (insts g) -> variables_outside x f -> variables_outside x g.
Proof.
  intros E P V v Nv. destruct (V v Nv) as [A B]. destruct (all_incl f g E P) as [_ I]. split; [intros i Hi; apply A, I, Hi|]. intros b p Hb Hp.
  destruct (frame_block g f b (eq_sym E) Hb) as (b' & Hb' & _ & Ep & _). apply (B b' p Hb'). rewrite Ep. exact Hp.
Qed.
Lemma constant_perm {D W} (m : machine D W) points f g : frame f = frame g -> Permutation (insts f) (insts g) -> loads_are_constant m x points f -> loads_are_constant m x points g.
Proof.
  intros E P L v (r & op & p & Hi & K & Ro) S r0 op0 args ds H0 Ft. destruct (all_incl f g E P) as [I1 I2].
  apply (L v) with (r := r0) (args := args); [|exact S|apply I2, H0|].
  - exists r, op, p. split; [apply (Permutation_in _ (Permutation_sym P)), Hi|]. split; [exact K|]. exact (rests_incl x g f p v I2 Ro).
  - intros k a d v' A B Ro'. apply (Ft k a d v' A B). exact (rests_incl x f g a v' I1 Ro').
Qed.
Lemma clean_perm {D} f g (e : N -> option D) : frame f = frame g -> Permutation (insts f) (insts g) -> starts_clean f e -> starts_clean g e.
Proof. intros E P C i r Hi. apply C. apply (all_incl f g E P), Hi. Qed.
Lemma lowered_refl f : well_formed f -> lowered f f.
Proof.
  intros W. constructor; auto. intros r b k D. exists b, k. split; [exact D|]. intros l P. destruct (path_end _ _ _ _ P) as [l' ->]. apply in_or_app. right. left. reflexivity.
Qed.
Lemma lowered_trans f g h : well_formed f -> lowered f g -> lowered g h -> lowered f h.
Proof.
  intros Wf A B. pose proof (lo_frame _ _ A) as E. pose proof (lo_perm _ _ A) as P. constructor.
  - apply B.
  - rewrite E. apply B.
  - rewrite P. apply B.
  - intros r b k D. destruct (lo_down _ _ A r b k D) as (b1 & k1 & D1 & M1). destruct (lo_down _ _ B r b1 k1 D1) as (b2 & k2 & D2 & M2). exists b2, k2. split; [exact D2|].
    apply (dom_trans _ _ _ _ _ M1). exact (frame_dom g f _ _ (lo_wf _ _ A) Wf (eq_sym E) M2).
  - intros D W m points n e w s M V L Vp C R. apply (lo_runs _ _ B D W m points); auto; [exact (outside_perm f g E P V)|exact (constant_perm m points f g E P L)|exact (clean_perm f g e E P C)|].
    apply (lo_runs _ _ A D W m points); auto.
Qed.
Lemma structured_frame f g : well_formed f -> well_formed g -> frame f = frame g -> structured x f -> structured x g.
Proof.
  intros Wf Wg E S h mg H Hh. rewrite <- (frame_labels f g E) in *. destruct (S h mg H Hh) as (A & B & C). split; [exact A|]. split; [exact B|]. exact (frame_dom f g _ _ Wf Wg E C).
Qed.
Lemma move_lowers f b k i a t : well_formed f -> structured x f -> In b (blocks f) -> reach f b -> body b = k ++ i :: a -> target x f (label b) i = Some (Some t) ->
  lowered f (sunk f t b k a i).
Proof.
  intros WF St Hb Rb Bd T. unfold target in T. destruct (candidate x f i) as [[r|]|] eqn:Ca; try discriminate. destruct (walk x (S (length (blocks f))) f (uses f r) (label b) (label b)) as [t'|] eqn:Wk; [|discriminate].
  destruct (N.eqb_spec t' (label b)) as [E|Ne]; [discriminate|]. injection T as ->. pose proof (candidate_result x f i r Ca) as Ri.
  destruct (walk_ok x f WF St (label b) (uses f r) (S (length (blocks f))) (label b) t) as (Dt & Cut & Ht); [| |exact Wk|].
  { intros l P. destruct (path_end _ _ _ _ P) as [l' ->]. apply in_or_app. right. left. reflexivity. }
  { intros u l _ P. destruct (path_first _ _ _ _ P) as [l' ->]. left. reflexivity. }
  constructor.
  - exact (sunk_wf f t WF b k a i r Hb Rb Bd Ri Ht Ne Dt Cut).
  - unfold frame. rewrite blocks_sunk, map_map. cbn [sunk edit prelude]. f_equal. apply map_ext. intros c. rewrite mv_label, mv_phis, mv_op, mv_args, mv_succ. reflexivity.
  - exact (sunk_perm f t b k a i WF Hb Bd Ht Ne).
  - intros y c j D. destruct (N.eq_dec y r) as [->|Ny].
    + pose proof (CodeSinkProofs.def_r f t WF b k a i r Hb Rb Bd Ri Ht Ne Dt Cut) as Dr. destruct (wf_once f WF _ _ _ _ _ D Dr) as [-> ->]. apply in_map_iff in Ht. destruct Ht as (ct & Et & Hct).
      exists (CodeSinkProofs.mv t b k a i ct), 1%nat. rewrite CodeSinkProofs.mv_label, Et. split; [|exact Dt].
      assert (Ht : In t (map label (blocks f))) by (rewrite <- Et; apply in_map, Hct).
      exact (CodeSinkProofs.def_sunk_r f t WF b k a i r Hb Rb Bd Ri Ht Ne Dt Cut ct Hct Et).
    + exists (CodeSinkProofs.mv t b k a i c), (CodeSinkProofs.pl t b k c j). rewrite CodeSinkProofs.mv_label. split; [exact (CodeSinkProofs.def_sunk f t WF b k a i r Hb Rb Bd Ri Ht Ne Dt Cut y c j D Ny)|].
      intros l P. destruct (path_end _ _ _ _ P) as [l' ->]. apply in_or_app. right. left. reflexivity.
  - intros D W m points n g w s MR VO Lc Vp Cl. apply (sunk_runs m x points f t WF b k a i r Hb Rb Bd Ri Ht Ne Dt Cut MR VO); auto. apply (candidate_movable m x points f i r Lc); [|exact Ca].
    apply in_flat_map. exists b. split; [exact Hb|]. rewrite Bd. apply in_or_app. right. left. reflexivity.
Qed.
Lemma sink_block_ok : forall fuel f l f', well_formed f -> structured x f -> reachable (succs f) (entry f) l -> sink_block x fuel f l = Some f' -> lowered f f'.
Proof.
  induction fuel as [|n IH]; intros f l f' WF St R H; cbn [sink_block] in H; destruct (block_of f l) as [b|] eqn:B; try discriminate; destruct (block_of_in f l b B) as [Hb El];
    destruct (pick x f l (rev (body b)) []) as [[[[[k i] a] t]|]|] eqn:Pk; try discriminate; try (injection H as <-; apply lowered_refl, WF).
  apply pick_ok in Pk. destruct Pk as [Bd T]. rewrite rev_involutive, app_nil_r in Bd. subst l. pose proof (move_lowers f b k i a t WF St Hb R Bd T) as M.
  change (edit t (cons i) (edit (label b) (fun _ => k ++ a) f)) with (sunk f t b k a i) in H. apply (lowered_trans f _ f' WF M). apply (IH _ (label b)).
  - apply M.
  - exact (structured_frame f _ WF (lo_wf _ _ M) (lo_frame _ _ M) St).
  - exact (frame_reach f _ _ WF (lo_wf _ _ M) (lo_frame _ _ M) R).
  - exact H.
Qed.
Theorem sink_ok : forall order f f', well_formed f -> structured x f -> (forall l, In l order -> reachable (succs f) (entry f) l) -> sink x order f = Some f' -> lowered f f'.
Proof.
  induction order as [|l order IH]; intros f f' WF St R H; cbn [sink] in H; [injection H as <-; apply lowered_refl, WF|]. destruct (block_of f l) as [b|]; [|discriminate].
  destruct (sink_block x (length (body b)) f l) as [g|] eqn:Sb; [|discriminate]. pose proof (sink_block_ok _ f l g WF St (R l (or_introl eq_refl)) Sb) as M. apply (lowered_trans f g f' WF M). apply IH; [apply M| | |exact H].
  - exact (structured_frame f g WF (lo_wf _ _ M) (lo_frame _ _ M) St).
  - intros z Hz. exact (frame_reach f g _ WF (lo_wf _ _ M) (lo_frame _ _ M) (R z (or_intror Hz))).
Qed.
End Pass.
