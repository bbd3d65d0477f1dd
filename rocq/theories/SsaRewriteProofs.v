(** Proofs about the rewriting of variables into ids: when the new phis and the renaming fit the function, nothing changes. *)
From Verif Require Import Base GraphSpec SsaRewrite SsaRewriteSpec.
From Verif Require LocalElimProofs.
Local Open Scope N_scope.

(** ** Which value a variable has at a place, in terms of ids *)
Definition last_store (v : N) (l : list inst) : option N :=
  fold_left (fun acc i => match i with IStore w x => if w =? v then Some x else acc | _ => acc end) l None.

Section Where.
Variable f : func.
Variable undef : N -> N.
Variable C : N -> N -> N -> Prop.     (* the id stands for the variable at the start of the block *)
Inductive at_start : N -> N -> N -> Prop :=
| S_none l v : preds f l = [] -> at_start l v (undef v)
| S_store l p b v x : preds f l = [p] -> find_block f p = Some b -> last_store v (body b) = Some x -> at_start l v x
| S_pass l p b v d : preds f l = [p] -> find_block f p = Some b -> last_store v (body b) = None -> at_start p v d -> at_start l v d
| S_phi l v p : (1 < length (preds f l))%nat -> C l v p -> at_start l v p.
Definition value_at (b : block) (j : nat) (v d : N) : Prop :=
  match last_store v (firstn j (body b)) with Some x => d = x | None => at_start (label b) v d end.
Definition at_end (l v d : N) : Prop := exists b, find_block f l = Some b /\ value_at b (length (body b)) v d.
End Where.

Lemma at_start_mono f undef (A B : N -> N -> N -> Prop) : (forall l v p, A l v p -> B l v p) -> forall l v d, at_start f undef A l v d -> at_start f undef B l v d.
Proof. intros H l v d S. induction S; [apply S_none|eapply S_store|eapply S_pass|eapply S_phi]; eauto. Qed.
Lemma value_at_mono f undef (A B : N -> N -> N -> Prop) : (forall l v p, A l v p -> B l v p) -> forall b j v d, value_at f undef A b j v d -> value_at f undef B b j v d.
Proof. unfold value_at. intros H b j v d. destruct (last_store _ _); auto. apply at_start_mono, H. Qed.
Lemma at_end_mono f undef (A B : N -> N -> N -> Prop) : (forall l v p, A l v p -> B l v p) -> forall l v d, at_end f undef A l v d -> at_end f undef B l v d.
Proof. intros H l v d (b & F & V). exists b. split; [exact F|]. eapply value_at_mono; eauto. Qed.

Lemma last_store_app v l i : last_store v (l ++ [i]) = match i with IStore w x => if w =? v then Some x else last_store v l | _ => last_store v l end.
Proof. unfold last_store. rewrite fold_left_app. simpl. destruct i; reflexivity. Qed.
Lemma firstn_snoc {A} (l : list A) j x : nth_error l j = Some x -> firstn (S j) l = firstn j l ++ [x].
Proof.
  revert j. induction l as [|a l IH]; intros [|j] H; try discriminate.
  - injection H as ->. reflexivity.
  - change (a :: firstn (S j) l = a :: (firstn j l ++ [x])). rewrite (IH j H). reflexivity.
Qed.
Lemma last_store_in v l x : last_store v l = Some x -> exists i, nth_error l i = Some (IStore v x).
Proof.
  induction l as [|a l IH] using rev_ind; [discriminate|]. rewrite last_store_app.
  assert (Old : (exists i, nth_error l i = Some (IStore v x)) -> exists i, nth_error (l ++ [a]) i = Some (IStore v x)).
  { intros [i Hi]. exists i. rewrite nth_error_app1; [exact Hi|]. apply nth_error_Some. congruence. }
  destruct a as [r w|w y|r o l']; auto. destruct (w =? v) eqn:E; auto. intros H. injection H as ->. apply N.eqb_eq in E. subst w.
  exists (length l). rewrite nth_error_app2 by lia. rewrite Nat.sub_diag. reflexivity.
Qed.
Lemma nth_firstn {A} (l : list A) j i x : nth_error (firstn j l) i = Some x -> (i < j)%nat /\ nth_error l i = Some x.
Proof.
  revert j i. induction l as [|a l IH]; intros [|j] [|i]; simpl; try discriminate.
  - intros H. split; [lia|exact H].
  - intros H. apply IH in H. destruct H. split; [lia|assumption].
Qed.

(** ** Blocks *)
Lemma find_block_in f l b : find_block f l = Some b -> In b f /\ label b = l.
Proof. intros H. apply find_some in H. destruct H as [A B]. apply N.eqb_eq in B. auto. Qed.
Lemma find_block_wf f b : NoDup (map label f) -> In b f -> find_block f (label b) = Some b.
Proof.
  unfold find_block. induction f as [|a l IH]; simpl; [tauto|].
  intros Nd H. inversion Nd as [|? ? Na Nd']; subst. destruct (label a =? label b) eqn:E.
  - destruct H as [->|H]; [reflexivity|]. apply N.eqb_eq in E. destruct Na. rewrite E. apply in_map, H.
  - destruct H as [->|H]; [rewrite N.eqb_refl in E; discriminate|auto].
Qed.
Lemma same_label f b b' : well_formed f -> In b f -> In b' f -> label b = label b' -> b = b'.
Proof.
  intros WF Hb Hb' E. pose proof (find_block_wf f b (wf_labels f WF) Hb) as A. pose proof (find_block_wf f b' (wf_labels f WF) Hb') as B. rewrite E in A. congruence.
Qed.
Lemma in_preds f l p : In p (preds f l) <-> exists b, In b f /\ label b = p /\ In l (t_succ b).
Proof.
  unfold preds. rewrite in_flat_map. split.
  - intros (b & Hb & H). apply in_map_iff in H. destruct H as (x & E & Hx). apply filter_In in Hx. destruct Hx as [Hx Ex]. apply N.eqb_eq in Ex. subst x. eauto.
  - intros (b & Hb & E & H). exists b. split; [exact Hb|]. apply in_map_iff. exists l. split; [exact E|]. apply filter_In. split; [exact H|apply N.eqb_refl].
Qed.
Lemma in_preds_succs f l p : well_formed f -> In p (preds f l) <-> In l (succs f p).
Proof.
  intros WF. rewrite in_preds. unfold succs. split.
  - intros (b & Hb & E & H). rewrite <- E, (find_block_wf f b (wf_labels f WF) Hb). exact H.
  - destruct (find_block f p) as [b|] eqn:F; [|intros []]. apply find_block_in in F. destruct F as [Hb E]. eauto.
Qed.
Lemma entry_no_preds f : well_formed f -> preds f (entry f) = [].
Proof.
  intros WF. destruct (preds f (entry f)) as [|p ps] eqn:E; [reflexivity|exfalso].
  assert (H : In p (preds f (entry f))) by (rewrite E; left; reflexivity). apply in_preds in H. destruct H as (b & Hb & _ & H).
  pose proof (wf_entry f WF) as We. unfold entry in H. destruct f as [|c f']; [destruct Hb|]. destruct We as [_ We]. exact (We b Hb H).
Qed.
Lemma path_last succ a b l : path succ a b l -> l = removelast l ++ [b].
Proof. intros P. destruct (LocalElimProofs.path_end _ _ _ _ P) as [l' ->]. rewrite removelast_last. reflexivity. Qed.
Lemma path_prev f b pa : well_formed f -> path (succs f) (entry f) b pa -> b = entry f \/ exists p, In b (succs f p) /\ path (succs f) (entry f) p (removelast pa).
Proof. intros WF P. inversion P as [|p c l P' H]; subst; [left; reflexivity|right]. exists p. rewrite removelast_last. auto. Qed.
(** a path that meets its end only once *)
Lemma simple_path succ a b : reachable succ a b -> exists pa, path succ a b pa /\ ~ In b (removelast pa).
Proof.
  intros [l P]. remember (length l) as n eqn:En. revert l P En. induction n as [n IH] using lt_wf_ind. intros l P ->.
  destruct (in_dec N.eq_dec b (removelast l)) as [H|H]; [|eauto].
  inversion P as [|p c l' P' Hc]; subst.
  - destruct H.
  - rewrite removelast_last in H. destruct (LocalElimProofs.path_prefix _ _ _ _ P' b H) as (l1 & l2 & -> & P1).
    apply (IH (length l1)) with (l := l1); [|exact P1|reflexivity]. rewrite !app_length. simpl. lia.
Qed.
Lemma in_removelast {A} (x : A) l : In x (removelast l) -> In x l.
Proof.
  destruct l as [|a l] using rev_ind; [intros []|]. rewrite removelast_last. intros H. apply in_or_app. auto.
Qed.
Lemma prefix_inside {A} (l1 l2 : list A) : l2 <> [] -> forall x, In x l1 -> In x (removelast (l1 ++ l2)).
Proof. intros H x Hx. rewrite removelast_app by exact H. apply in_or_app. auto. Qed.

Lemma load_anywhere (f : func) x : (exists b j v, In b f /\ nth_error (body b) j = Some (ILoad x v)) \/ forall b j v, ~ (In b f /\ nth_error (body b) j = Some (ILoad x v)).
Proof.
  induction f as [|b f' IH].
  - right. intros b j v [[] _].
  - assert (H : (exists j v, nth_error (body b) j = Some (ILoad x v)) \/ forall j v, nth_error (body b) j <> Some (ILoad x v)).
    { clear. induction (body b) as [|i l IH]; [right; intros [|j] v; discriminate|].
      destruct IH as [(j & v & H)|H]; [left; exists (S j), v; exact H|].
      assert (Hi : (exists v, i = ILoad x v) \/ forall v, i <> ILoad x v).
      { destruct i as [r v| |]; try (right; discriminate). destruct (N.eq_dec r x) as [->|Ne]; [left; eauto|right; intros w E; injection E; congruence]. }
      destruct Hi as [(v & ->)|Hi]; [left; exists O, v; reflexivity|]. right. intros [|j] v; simpl; [|apply H]. intros E. injection E. apply Hi. }
    destruct H as [(j & v & H)|H]; [left; exists b, j, v; simpl; auto|].
    destruct IH as [(b' & j & v & Hb & Hj)|IH]; [left; exists b', j, v; simpl; auto|].
    right. intros b' j v [[<-|Hb] Hj]; [exact (H j v Hj)|exact (IH b' j v (conj Hb Hj))].
Qed.

(** ** New phis and a renaming that fit *)
Section Fit.
Variable f : func.
Variable undef : N -> N.
Hypothesis WF : well_formed f.
Variable C : N -> N -> N -> Prop.
Variable ren : N -> N.
Variable new : list (N * phi).
Definition cand_id (p : N) : Prop := exists l v, C l v p.
Definition is_load (b : block) (j : nat) (r v : N) : Prop := In b f /\ nth_error (body b) j = Some (ILoad r v).
Definition is_new (l p : N) : Prop := exists q, In (l, q) new /\ p_res q = p.
Definition reach (l : N) : Prop := reachable (succs f) (entry f) l.
Notation value_at := (value_at f undef C).
Notation at_end := (at_end f undef C).
Notation at_start := (at_start f undef C).
Record fits : Prop := {
  fit_fresh : forall p, cand_id p -> ~ In p (ids f) /\ forall v, p <> undef v;
  fit_one : forall l v l' v' p, C l v p -> C l' v' p -> l = l' /\ v = v';
  fit_two : forall l v p, C l v p -> (1 < length (preds f l))%nat;
  fit_keep : forall x, ~ cand_id x -> (forall b j v, ~ is_load b j x v) -> ren x = x;
  fit_load : forall b j r v, is_load b j r v -> reach (label b) -> exists d, value_at b j v d /\ ren r = ren d;
  fit_cand : forall l v p, C l v p -> is_new l p \/ forall q, reach q -> In l (succs f q) -> exists d, at_end q v d /\ ren d = ren p;
  fit_new_once : NoDup (map (fun x => p_res (snd x)) new);
  fit_new : forall l q, In (l, q) new -> exists v, C l v (p_res q) /\ ren (p_res q) = p_res q /\
    forall p, reach p -> In l (succs f p) -> exists a d, find (fun x => snd x =? p) (p_args q) = Some (a, p) /\ at_end p v d /\ a = ren d }.
Hypothesis FIT : fits.
Hypothesis UND : forall v, (forall b k, ~ defined_at f (undef v) b k).

(** where an id is set in the new function *)
Definition writes (id l : N) (k : nat) : Prop :=
  (exists b, defined_at f id b k /\ label b = l /\ match k with S j => forall v, nth_error (body b) j <> Some (ILoad id v) | O => True end) \/
  (k = O /\ is_new l id).

Lemma in_ids_body b j i x : In b f -> nth_error (body b) j = Some i -> In x (reads i) \/ result i = Some x -> In x (ids f).
Proof.
  intros Hb Hi H. apply in_flat_map. exists b. split; [exact Hb|]. right. apply in_or_app. right. apply in_or_app. left.
  apply in_flat_map. exists i. split; [eapply nth_error_In; eauto|]. destruct (result i) as [r|] eqn:E; destruct H as [H|H]; try discriminate; auto; [right; exact H|left; congruence].
Qed.
Lemma defined_ids x b k : defined_at f x b k -> In x (ids f).
Proof.
  intros [Hb H]. destruct k as [|j].
  - destruct H as (p & Hp & <-). apply in_flat_map. exists b. split; [exact Hb|]. right. apply in_or_app. left. apply in_flat_map. exists p. split; [exact Hp|]. left. reflexivity.
  - destruct H as (i & Hi & E). eapply in_ids_body; eauto.
Qed.
Lemma new_cand l p : is_new l p -> cand_id p.
Proof using FIT. intros (q & Hq & <-). destruct (fit_new FIT l q Hq) as (v & Hc & _). exists l, v. exact Hc. Qed.
Lemma new_label l l' p v : is_new l p -> C l' v p -> l = l'.
Proof using FIT. intros (q & Hq & <-) H. destruct (fit_new FIT l q Hq) as (w & Hc & _). apply (fit_one FIT _ _ _ _ _ Hc H). Qed.
Lemma new_ren l p : is_new l p -> ren p = p.
Proof using FIT. intros (q & Hq & <-). destruct (fit_new FIT l q Hq) as (w & _ & E & _). exact E. Qed.
Lemma load_defined b j r v : is_load b j r v -> defined_at f r b (S j).
Proof. intros [Hb H]. split; [exact Hb|]. exists (ILoad r v). auto. Qed.
Lemma load_dec x : (exists b j v, is_load b j x v) \/ forall b j v, ~ is_load b j x v.
Proof. apply load_anywhere. Qed.
Lemma writes_not_load id l k b j v : writes id l k -> is_load b j id v -> False.
Proof using WF FIT.
  intros [(b' & Hd & _ & H)|[_ H]] L.
  - destruct (wf_once f WF _ _ _ _ _ Hd (load_defined _ _ _ _ L)) as [-> ->]. destruct L as [_ L]. exact (H v L).
  - apply new_cand in H. apply (proj1 (fit_fresh FIT _ H)). eapply defined_ids. eapply load_defined; eauto.
Qed.
Lemma writes_label id l k b k' : writes id l k -> defined_at f id b k' -> l = label b /\ k = k'.
Proof using WF FIT.
  intros [(b' & Hd & E & _)|[_ H]] D.
  - destruct (wf_once f WF _ _ _ _ _ Hd D) as [-> ->]. auto.
  - apply new_cand in H. destruct (proj1 (fit_fresh FIT _ H)). eapply defined_ids; eauto.
Qed.
Lemma undef_not_written v l k : ~ writes (undef v) l k.
Proof using FIT UND.
  intros [(b' & Hd & _)|[_ H]]; [exact (UND v _ _ Hd)|]. apply new_cand in H. exact (proj2 (fit_fresh FIT _ H) v eq_refl).
Qed.
Lemma ren_undef v : ren (undef v) = undef v.
Proof using FIT UND.
  apply (fit_keep FIT).
  - intros H. exact (proj2 (fit_fresh FIT _ H) v eq_refl).
  - intros b j w L. exact (UND v _ _ (load_defined _ _ _ _ L)).
Qed.

Lemma before n : forall pa b, (length pa <= n)%nat -> path (succs f) (entry f) (label b) pa -> In b f ->
  (forall v d l k, at_start (label b) v d -> writes (ren d) l k -> In l (removelast pa) \/ is_new (label b) d) /\
  (forall j v d l k, value_at b j v d -> writes (ren d) l k -> In l (removelast pa) \/ (l = label b /\ (k <= j)%nat)).
Proof using WF FIT UND.
  induction n as [|n IH]; intros pa b Len P Hb.
  - destruct (LocalElimProofs.path_end _ _ _ _ P) as [l' ->]. rewrite app_length in Len. simpl in Len. lia.
  - assert (Rb : reach (label b)) by (exists pa; exact P).
    assert (Ends : forall p v d l k, path (succs f) (entry f) p (removelast pa) -> at_end p v d -> writes (ren d) l k -> In l (removelast pa)).
    { intros p v d l k Pp (c & F & V) Hw. apply find_block_in in F. destruct F as [Hc <-].
      assert (Lp : (length (removelast pa) <= n)%nat).
      { pose proof (path_last _ _ _ _ P) as E. rewrite E, app_length in Len. simpl in Len. lia. }
      destruct (proj2 (IH _ c Lp Pp Hc) _ _ _ _ _ V Hw) as [H|[-> _]]; [apply in_removelast, H|].
      rewrite (path_last _ _ _ _ Pp). apply in_or_app. simpl. auto. }
    assert (A : forall v d l k, at_start (label b) v d -> writes (ren d) l k -> In l (removelast pa) \/ is_new (label b) d).
    { intros v d l k S Hw. inversion S as [l0 v0 E|l0 p c v0 x E F Ls|l0 p c v0 d0 E F Ls S0|l0 v0 p Two Hc]; subst.
      - rewrite ren_undef in Hw. destruct (undef_not_written _ _ _ Hw).
      - left. destruct (path_prev f _ _ WF P) as [En|(p' & Hs & Pp)]; [rewrite En, (entry_no_preds f WF) in E; discriminate|].
        apply (in_preds_succs f _ _ WF) in Hs. rewrite E in Hs. destruct Hs as [<-|[]]. eapply (Ends p v d); eauto.
        exists c. split; [exact F|]. unfold SsaRewriteProofs.value_at. rewrite firstn_all, Ls. reflexivity.
      - left. destruct (path_prev f _ _ WF P) as [En|(p' & Hs & Pp)]; [rewrite En, (entry_no_preds f WF) in E; discriminate|].
        apply (in_preds_succs f _ _ WF) in Hs. rewrite E in Hs. destruct Hs as [<-|[]]. eapply (Ends p v d); eauto.
        exists c. split; [exact F|]. unfold SsaRewriteProofs.value_at. rewrite firstn_all, Ls. pose proof (find_block_in _ _ _ F) as [_ ->]. exact S0.
      - destruct (fit_cand FIT _ _ _ Hc) as [H|H]; [right; exact H|left].
        destruct (path_prev f _ _ WF P) as [En|(p' & Hs & Pp)]; [rewrite En, (entry_no_preds f WF) in Two; simpl in Two; lia|].
        destruct (H p') as (d' & He & Er); [exists (removelast pa); exact Pp|exact Hs|]. rewrite <- Er in Hw. eapply Ends; eauto. }
    split; [exact A|]. induction j as [j IHj] using lt_wf_ind. intros v d l k V Hw. unfold SsaRewriteProofs.value_at in V.
    destruct (last_store v (firstn j (body b))) as [x|] eqn:Ls.
    + subst d. apply last_store_in in Ls. destruct Ls as [i Hi]. apply nth_firstn in Hi. destruct Hi as [Li Hi].
      assert (Av : available f b (S i) x) by (eapply (wf_uses f WF); eauto; left; reflexivity).
      destruct (load_dec x) as [(b' & j' & v' & L)|NL].
      * assert (Rb' : reach (label b') /\ (b' = b /\ (j' < i)%nat \/ label b' <> label b /\ dominates (succs f) (entry f) (label b') (label b))).
        { destruct Av as [Nd|(b2 & j2 & Hd & Cs)]; [destruct (Nd _ _ (load_defined _ _ _ _ L))|].
          destruct (wf_once f WF _ _ _ _ _ Hd (load_defined _ _ _ _ L)) as [-> ->]. destruct Cs as [[-> Lt]|[Ne Dm]].
          - split; [exact Rb|left]. split; [reflexivity|lia].
          - split; [eapply LocalElimProofs.dom_reach; eauto|right; auto]. }
        destruct Rb' as [Rb' [[-> Lj]|[Ne Dm]]].
        -- destruct (fit_load FIT _ _ _ _ L Rb) as (d' & V' & Er). rewrite Er in Hw.
           destruct (IHj j' ltac:(lia) _ _ _ _ V' Hw) as [H|[-> Lk]]; [left; exact H|right]. split; [reflexivity|lia].
        -- left. destruct (fit_load FIT _ _ _ _ L Rb') as (d' & V' & Er). rewrite Er in Hw.
           destruct (LocalElimProofs.path_prefix _ _ _ _ P (label b') (Dm pa P)) as (l1 & l2 & E & P1).
           assert (N2 : l2 <> []).
           { intros ->. rewrite app_nil_r in E. subst l1. pose proof (path_last _ _ _ _ P) as E1. pose proof (path_last _ _ _ _ P1) as E2.
             rewrite E2 in E1 at 1. apply app_inj_tail in E1. destruct E1 as [_ E1]. congruence. }
           assert (L1 : (length l1 <= n)%nat). { rewrite E, app_length in Len. destruct l2; [congruence|]. simpl in Len. lia. }
           rewrite E. apply prefix_inside; [exact N2|].
           destruct (proj2 (IH l1 b' L1 P1 (proj1 L)) _ _ _ _ _ V' Hw) as [H|[-> _]]; [apply in_removelast, H|].
           rewrite (path_last _ _ _ _ P1). apply in_or_app. simpl. auto.
      * assert (Nc : ~ cand_id x).
        { intros H. apply (proj1 (fit_fresh FIT _ H)). eapply in_ids_body; eauto. left. simpl. auto. }
        rewrite (fit_keep FIT x Nc NL) in Hw. destruct Av as [Nd|(b2 & j2 & Hd & Cs)].
        -- destruct Hw as [(b' & Hd & _)|[_ Hn]]; [destruct (Nd _ _ Hd)|]. destruct Nc. eapply new_cand; eauto.
        -- destruct (writes_label _ _ _ _ _ Hw Hd) as [-> ->]. destruct Cs as [[-> Lt]|[Ne Dm]].
           ++ right. split; [reflexivity|lia].
           ++ left. specialize (Dm pa P). rewrite (path_last _ _ _ _ P) in Dm. apply in_app_or in Dm. destruct Dm as [Dm|[Dm|[]]]; [exact Dm|congruence].
    + destruct (A v d l k V Hw) as [H|H]; [left; exact H|right].
      rewrite (new_ren _ _ H) in Hw. destruct Hw as [(b' & Hd & _)|[-> H']].
      * apply new_cand in H. destruct (proj1 (fit_fresh FIT _ H)). eapply defined_ids; eauto.
      * destruct H as (q & Hq & E). destruct (fit_new FIT _ _ Hq) as (w & Hc & _). rewrite E in Hc. split; [eapply new_label; eauto|lia].
Qed.

(** what a place sets is nothing that is current there *)
Lemma not_current b j v d : In b f -> reach (label b) -> value_at b j v d -> ~ writes (ren d) (label b) (S j).
Proof using WF FIT UND.
  intros Hb R V Hw. destruct (simple_path _ _ _ R) as (pa & P & Np). destruct (before _ pa b (le_n _) P Hb) as [_ B].
  destruct (B _ _ _ _ _ V Hw) as [H|[_ H]]; [contradiction|lia].
Qed.
Lemma not_at_start b v d : In b f -> reach (label b) -> at_start (label b) v d -> writes (ren d) (label b) 0 -> is_new (label b) d.
Proof using WF FIT UND.
  intros Hb R S Hw. destruct (simple_path _ _ _ R) as (pa & P & Np). destruct (before _ pa b (le_n _) P Hb) as [A _].
  destruct (A _ _ _ _ S Hw) as [H|H]; [contradiction|exact H].
Qed.
Lemma not_needed b k y r : In b f -> reach (label b) -> available f b k y -> ~ cand_id y -> writes r (label b) k -> ren y = r -> y = r.
Proof using WF FIT UND.
  intros Hb R Av Nc Hw E. destruct (load_dec y) as [(b' & j & v & L)|NL]; [exfalso|rewrite <- E; symmetry; apply (fit_keep FIT); assumption].
  destruct Av as [Nd|(b2 & j2 & Hd & Cs)]; [exact (Nd _ _ (load_defined _ _ _ _ L))|].
  destruct (wf_once f WF _ _ _ _ _ Hd (load_defined _ _ _ _ L)) as [-> ->]. destruct Cs as [[-> Lt]|[Ne Dm]].
  - destruct (fit_load FIT _ _ _ _ L R) as (d & V & Er). rewrite <- E, Er in Hw. destruct (simple_path _ _ _ R) as (pa & P & Np).
    destruct (before _ pa b (le_n _) P Hb) as [_ B]. destruct (B _ _ _ _ _ V Hw) as [H|[_ H]]; [contradiction|lia].
  - assert (R' : reach (label b')) by (eapply LocalElimProofs.dom_reach; eauto).
    destruct (fit_load FIT _ _ _ _ L R') as (d & V & Er). rewrite <- E, Er in Hw. destruct (simple_path _ _ _ R') as (pa & P & Np).
    destruct (before _ pa b' (le_n _) P (proj1 L)) as [_ B]. destruct (B _ _ _ _ _ V Hw) as [H|[H _]]; [|congruence].
    apply Np. inversion P as [E1 E2|p c l' P' Hc E1 E2].
    + rewrite <- E2 in H. destruct H.
    + rewrite <- E2 in H. rewrite removelast_last in *.
      destruct (LocalElimProofs.path_prefix _ _ _ _ P' (label b) H) as (l1 & l2 & -> & P1). apply in_or_app. left. apply Dm, P1.
Qed.
End Fit.
