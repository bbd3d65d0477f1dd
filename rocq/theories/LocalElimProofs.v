(** Proofs about the elimination of loads and stores: dominance, and what the walk over the function maintains. *)
From Verif Require Import Base GraphSpec LocalElim LocalElimSpec.
Local Open Scope N_scope.

(** ** Paths and dominance *)
Lemma path_prefix succ a b l : path succ a b l -> forall x, In x l -> exists l1 l2, l = l1 ++ l2 /\ path succ a x l1.
Proof.
  induction 1 as [|b c l P IH Hc]; intros x Hx.
  - destruct Hx as [<-|[]]. exists [a], []. split; [reflexivity|constructor].
  - apply in_app_or in Hx. destruct Hx as [Hx|[<-|[]]].
    + destruct (IH x Hx) as (l1 & l2 & -> & P1). exists l1, (l2 ++ [c]). rewrite app_assoc. auto.
    + exists (l ++ [c]), []. rewrite app_nil_r. split; [reflexivity|]. econstructor; eauto.
Qed.
Lemma path_end succ a b l : path succ a b l -> exists l', l = l' ++ [b].
Proof. destruct 1; [exists []; reflexivity|eauto]. Qed.
Lemma dom_reach succ r x y : dominates succ r x y -> reachable succ r y -> reachable succ r x.
Proof. intros D [l P]. destruct (path_prefix _ _ _ _ P x (D l P)) as (l1 & l2 & _ & P1). exists l1. exact P1. Qed.
Lemma dom_trans succ r x y z : dominates succ r x y -> dominates succ r y z -> dominates succ r x z.
Proof.
  intros A B l P. destruct (path_prefix _ _ _ _ P y (B l P)) as (l1 & l2 & -> & P1). apply in_or_app. left. apply A, P1.
Qed.
Lemma prefix_shorter succ a x y l : path succ a y l -> x <> y -> In x l ->
  exists l1, path succ a x l1 /\ (length l1 < length l)%nat.
Proof.
  intros P Ne Hx. destruct (path_end _ _ _ _ P) as [l' ->]. apply in_app_or in Hx. destruct Hx as [Hx|[E|[]]]; [|congruence].
  inversion P as [E1 E2|b c l0 P0 Hc E1 E2].
  - symmetry in E2. apply app_eq_unit in E2. destruct E2 as [[E2 _]|[_ E2]]; [subst l'; destruct Hx|discriminate].
  - apply app_inj_tail in E2. destruct E2 as [-> _]. destruct (path_prefix _ _ _ _ P0 x Hx) as (l1 & l2 & -> & P1).
    exists l1. split; [exact P1|]. rewrite !app_length; simpl; lia.
Qed.
Lemma dom_antisym succ r x y : dominates succ r x y -> dominates succ r y x -> reachable succ r y -> x = y.
Proof.
  intros A B [l P]. destruct (N.eq_dec x y) as [|Ne]; [assumption|exfalso].
  remember (length l) as n eqn:En. revert l P En. induction n as [n IH] using lt_wf_ind. intros l P ->.
  destruct (prefix_shorter _ _ _ _ _ P Ne (A l P)) as (l1 & P1 & L1).
  assert (Ne' : y <> x) by congruence.
  destruct (prefix_shorter _ _ _ _ _ P1 Ne' (B l1 P1)) as (l2 & P2 & L2).
  apply (IH (length l2)) with (l := l2); [lia|exact P2|reflexivity].
Qed.

(** ** Places *)
Definition reach (f : func) (b : block) : Prop := reachable (succs f) (entry f) (label b).
Lemma map_inj_nodup {A B} (g : A -> B) l : NoDup (map g l) -> forall x y, In x l -> In y l -> g x = g y -> x = y.
Proof.
  induction l as [|a l IH]; simpl; [tauto|]. intros Nd x y Hx Hy E. inversion Nd as [|? ? Na Nd']; subst.
  destruct Hx as [->|Hx], Hy as [->|Hy]; auto.
  - destruct Na. rewrite E. apply in_map, Hy.
  - destruct Na. rewrite <- E. apply in_map, Hx.
Qed.
Lemma same_label f : well_formed f -> forall b b', In b (blocks f) -> In b' (blocks f) -> label b = label b' -> b = b'.
Proof. intros WF b b'. apply map_inj_nodup, WF. Qed.
Lemma same_index f : well_formed f -> forall i j b, nth_error (blocks f) i = Some b -> nth_error (blocks f) j = Some b -> i = j.
Proof.
  intros WF i j b Hi Hj. pose proof (NoDup_map_inv _ _ (wf_labels f WF)) as Nd.
  rewrite NoDup_nth_error in Nd. apply Nd; [|congruence]. apply nth_error_Some. congruence.
Qed.
Lemma defined_bound f y b j : defined_at f y b j -> (j < S (length (body b)))%nat.
Proof.
  intros [_ H]. destruct j as [|j]; [lia|]. destruct H as (i & H & _). assert (j < length (body b))%nat by (apply nth_error_Some; congruence). lia.
Qed.
Lemma find_block f b : well_formed f -> In b (blocks f) -> find (fun x => label x =? label b) (blocks f) = Some b.
Proof.
  intros WF. pose proof (wf_labels f WF) as Nd. revert Nd. generalize (blocks f). induction l as [|a l IH]; simpl; [tauto|].
  intros Nd H. inversion Nd as [|? ? Na Nd']; subst. destruct (label a =? label b) eqn:E.
  - destruct H as [->|H]; [reflexivity|]. apply N.eqb_eq in E. destruct Na. rewrite E. apply in_map, H.
  - destruct H as [->|H]; [rewrite N.eqb_refl in E; discriminate|auto].
Qed.
Lemma find_block_inv f l b : find (fun x => label x =? l) (blocks f) = Some b -> In b (blocks f) /\ label b = l.
Proof. intros H. apply find_some in H. destruct H as [A B]. apply N.eqb_eq in B. auto. Qed.
Lemma reach_edge f b b' : well_formed f -> In b (blocks f) -> reach f b -> In (label b') (t_succ b) -> reach f b'.
Proof.
  intros WF Hb [l P] H. exists (l ++ [label b']). econstructor; [exact P|]. unfold succs. rewrite find_block by assumption. exact H.
Qed.

Lemma avail_reach f b k y b' j : well_formed f -> reach f b -> available f b k y -> defined_at f y b' j -> reach f b'.
Proof.
  intros WF R [H|(b2 & j2 & H & C)] Hd; [destruct (H _ _ Hd)|].
  destruct (wf_once f WF _ _ _ _ _ H Hd) as [-> ->]. destruct C as [[-> _]|[_ C]]; [exact R|]. eapply dom_reach; eauto.
Qed.
(** what executing a definition overwrites was not needed by anything that is still available *)
Lemma keep f b k w y b' j : well_formed f -> reach f b -> defined_at f w b k -> available f b k y -> defined_at f y b' j ->
  available f b' j w -> False.
Proof.
  intros WF R Hw [N|(b1 & j1 & H1 & C1)] Hy; [destruct (N _ _ Hy)|]. intros [N|(b2 & j2 & H2 & C2)]; [destruct (N _ _ Hw)|].
  destruct (wf_once f WF _ _ _ _ _ H1 Hy) as [-> ->]. destruct (wf_once f WF _ _ _ _ _ H2 Hw) as [-> ->].
  destruct C1 as [[-> L1]|[N1 D1]], C2 as [[E2 L2]|[N2 D2]]; try congruence; try lia.
  apply N2. eapply dom_antisym; eauto. eapply dom_reach; eauto.
Qed.
Lemma avail_trans f b k y b' j z : well_formed f -> In b (blocks f) -> reach f b -> available f b k y -> defined_at f y b' j -> available f b' j z ->
  available f b k z.
Proof.
  intros WF Hb R [N|(b1 & j1 & H1 & C1)] Hy Hz; [destruct (N _ _ Hy)|].
  destruct (wf_once f WF _ _ _ _ _ H1 Hy) as [-> ->]. destruct Hz as [N|(b2 & j2 & H2 & C2)]; [left; exact N|].
  destruct C1 as [[-> L1]|[N1 D1]].
  - right. exists b2, j2. split; [exact H2|]. destruct C2 as [[-> L2]|C2]; [left; split; [reflexivity|lia]|right; exact C2].
  - right. exists b2, j2. split; [exact H2|]. destruct C2 as [[-> L2]|[N2 D2]]; [right; auto|]. right. split; [|eapply dom_trans; eauto].
    intros E. apply N1. rewrite E in D2. eapply dom_antisym; eauto.
Qed.
Lemma avail_edge f b b' y : well_formed f -> In b (blocks f) -> reach f b -> In b' (blocks f) -> In (label b') (t_succ b) ->
  available f b' 0 y -> available f b (S (length (body b))) y.
Proof.
  intros WF Hb R Hb' E [N|(b1 & j1 & H1 & C1)]; [left; exact N|]. right. exists b1, j1. split; [exact H1|].
  destruct C1 as [[_ L]|[Ne D]]; [lia|].
  destruct (N.eq_dec (label b1) (label b)) as [El|Nl].
  - left. assert (b1 = b) by (apply (same_label f WF); [apply H1|exact Hb|exact El]). subst b1. split; [reflexivity|]. eapply defined_bound; eauto.
  - right. split; [exact Nl|]. intros l P. assert (P' : path (succs f) (entry f) (label b') (l ++ [label b'])).
    { econstructor; [exact P|]. unfold succs. rewrite find_block by assumption. exact E. }
    specialize (D _ P'). apply in_app_or in D. destruct D as [D|[D|[]]]; [exact D|congruence].
Qed.
Lemma avail_step f b k y : available f b (S k) y -> available f b k y \/ defined_at f y b k.
Proof.
  intros [N|(b1 & j1 & H1 & C1)]; [left; left; exact N|]. destruct C1 as [[-> L]|C].
  - destruct (Nat.eq_dec j1 k) as [->|Ne]; [right; exact H1|]. left. right. exists b, j1. split; [exact H1|]. left. split; [reflexivity|lia].
  - left. right. exists b1, j1. auto.
Qed.
Lemma avail_later f b k k' y : available f b k y -> (k <= k')%nat -> available f b k' y.
Proof.
  intros [N|(b1 & j1 & H1 & C1)] L; [left; exact N|]. right. exists b1, j1. split; [exact H1|]. destruct C1 as [[-> L1]|C]; [left|right; exact C].
  split; [reflexivity|lia].
Qed.
Lemma avail_def f b k k' y : defined_at f y b k -> (k < k')%nat -> available f b k' y.
Proof. intros H L. right. exists b, k. auto. Qed.

(** ** Positions *)
Lemma pos_eqb_eq a b : pos_eqb a b = true <-> a = b.
Proof.
  unfold pos_eqb. destruct a as [a1 a2], b as [b1 b2]; simpl. rewrite andb_true_iff, !Nat.eqb_eq. split; [intros [-> ->]; reflexivity|].
  intros E; injection E; auto.
Qed.
Lemma pos_in p l : existsb (pos_eqb p) l = true <-> In p l.
Proof.
  rewrite existsb_exists. split; [intros (x & H & E); apply pos_eqb_eq in E; subst; exact H|]. intros H. exists p. split; [exact H|]. apply pos_eqb_eq. reflexivity.
Qed.
Lemma pos_not_in p l : existsb (pos_eqb p) l = false <-> ~ In p l.
Proof. rewrite <- pos_in. destruct (existsb (pos_eqb p) l); split; congruence. Qed.

(** ** What a visit does *)
Inductive did (f : func) (p : pos) (i : inst) (s : state) : state -> Prop :=
| did_store_none ptr x vol : i = IStore ptr x vol -> subject f (st_ren s) (st_ren s ptr) = Some None -> did f p i s s
| did_load_none r ptr vol : i = ILoad r ptr vol -> subject f (st_ren s) (st_ren s ptr) = Some None -> did f p i s s
| did_store_whole ptr x vol v : i = IStore ptr x vol -> subject f (st_ren s) (st_ren s ptr) = Some (Some (v, true)) ->
    did f p i s (store_whole f p v (st_ren s x) s)
| did_store_part ptr x vol v : i = IStore ptr x vol -> subject f (st_ren s) (st_ren s ptr) = Some (Some (v, false)) -> did f p i s (store_part v s)
| did_load_whole r ptr vol v : i = ILoad r ptr vol -> subject f (st_ren s) (st_ren s ptr) = Some (Some (v, true)) -> did f p i s (load_whole p v r s)
| did_load_part r ptr vol v : i = ILoad r ptr vol -> subject f (st_ren s) (st_ren s ptr) = Some (Some (v, false)) -> did f p i s (load_part v s)
| did_call r fn args : i = ICall r fn args -> did f p i s (forget s)
| did_other : match i with IChain _ _ _ | ICopy _ _ | IOther _ _ _ => True | _ => False end -> did f p i s s.
Lemma visit_did f p i s s' : visit f p i s = Some s' -> did f p i s s'.
Proof.
  unfold visit. destruct i as [r ptr vol|ptr x vol|r b l|r a|r fn l|r o l]; simpl.
  - destruct (subject f (st_ren s) (st_ren s ptr)) as [[[v []]|]|] eqn:E; intros H; inversion H; subst; clear H.
    + eapply did_load_whole; eauto.
    + eapply did_load_part; eauto.
    + eapply did_load_none; eauto.
  - destruct (subject f (st_ren s) (st_ren s ptr)) as [[[v []]|]|] eqn:E; intros H; inversion H; subst; clear H.
    + eapply did_store_whole; eauto.
    + eapply did_store_part; eauto.
    + eapply did_store_none; eauto.
  - intros H; inversion H; subst. apply did_other. exact I.
  - intros H; inversion H; subst. apply did_other. exact I.
  - intros H; inversion H; subst. eapply did_call; eauto.
  - intros H; inversion H; subst. apply did_other. exact I.
Qed.

Lemma set_eq {A} (m : N -> option A) k x : set m k x k = x.
Proof. unfold set. rewrite N.eqb_refl. reflexivity. Qed.
Lemma set_ne {A} (m : N -> option A) k x y : y <> k -> set m k x y = m y.
Proof. unfold set. intros H. apply N.eqb_neq in H. rewrite H. reflexivity. Qed.
Lemma replace1_ne r b x : x <> r -> replace1 r b x = x.
Proof. unfold replace1. intros H. apply N.eqb_neq in H. rewrite H. reflexivity. Qed.
Lemma replace1_eq r b : replace1 r b r = b.
Proof. unfold replace1. rewrite N.eqb_refl. reflexivity. Qed.

(** the renaming only ever identifies more ids *)
Definition coarser (s s' : state) : Prop := forall y z, st_ren s y = st_ren s z -> st_ren s' y = st_ren s' z.
Definition kill_grows (s s' : state) : Prop := forall q, In q (st_kill s) -> In q (st_kill s').
Lemma did_coarser f p i s s' : did f p i s s' -> coarser s s'.
Proof.
  assert (R : forall r x, coarser s (replace_load p r x s)) by (intros r x y z E; simpl; rewrite E; reflexivity).
  destruct 1; intros y z E; auto.
  - unfold store_whole. destruct (match st_load s v with Some r => _ | None => _ end); exact E.
  - unfold load_whole. destruct (st_store s v) as [[q x]|]; [apply R, E|]. destruct (st_load s v); [apply R, E|exact E].
  - unfold load_part. destruct (st_store s v) as [[q x]|]; exact E.
Qed.
Lemma did_kill f p i s s' : did f p i s s' -> kill_grows s s'.
Proof.
  destruct 1; intros q0 E; auto.
  - unfold store_whole. set (k1 := match st_store s v with Some _ => _ | None => _ end).
    assert (In q0 k1).
    { unfold k1. destruct (st_store s v) as [[prev a]|]; [|exact E]. destruct (negb _ && negb _); [right; exact E|exact E]. }
    destruct (match st_load s v with Some r => _ | None => _ end); simpl; auto.
  - unfold load_whole. destruct (st_store s v) as [[q x]|]; [right; exact E|]. destruct (st_load s v); [right; exact E|exact E].
  - unfold load_part. destruct (st_store s v) as [[q x]|]; exact E.
Qed.

(** a position that is out of reach of the walk: never to be killed *)
Definition closed (q : pos) (s : state) : Prop := ~ In q (st_kill s) /\ (In q (st_save s) \/ forall v a, st_store s v <> Some (q, a)).
Lemma closed_forget q s : closed q s -> closed q (forget s).
Proof. intros [A B]. split; [exact A|]. right. simpl. congruence. Qed.
Lemma did_closed f p i s s' q : did f p i s s' -> p <> q -> closed q s -> closed q s'.
Proof.
  assert (RL : forall r x, p <> q -> closed q s -> closed q (replace_load p r x s)).
  { intros r x Ne [A B]. split; [simpl; intros [E|E]; auto|]. destruct B as [B|B]; [left; exact B|right]. simpl. intros v a E.
    destruct (st_store s v) as [[q' a']|] eqn:Es; [|discriminate]. injection E as -> _. apply (B v a'). exact Es. }
  destruct 1; intros Ne C; auto.
  - destruct C as [A B]. unfold store_whole. set (k1 := match st_store s v with Some _ => _ | None => _ end).
    assert (K1 : ~ In q k1).
    { unfold k1. destruct (st_store s v) as [[prev a]|] eqn:Es; [|exact A].
      destruct (negb (existsb (pos_eqb prev) (st_save s)) && negb (is_debug f v)) eqn:En; [|exact A]. simpl. intros [->|E]; [|auto].
      apply andb_true_iff in En. destruct En as [En _]. rewrite negb_true_iff in En. rewrite pos_not_in in En. destruct B as [B|B]; [auto|].
      apply (B v a). exact Es. }
    destruct (match st_load s v with Some r => _ | None => _ end).
    + split; [simpl; intros [E|E]; auto|exact B].
    + split; [exact K1|]. destruct B as [B|B]; [left; exact B|right]. simpl. intros v' a. destruct (N.eq_dec v' v) as [->|Nv].
      * rewrite set_eq. intros E. injection E; congruence.
      * rewrite set_ne by exact Nv. apply B.
  - destruct C as [A B]. split; [exact A|]. destruct B as [B|B]; [left; exact B|right]. simpl. intros v' a. destruct (N.eq_dec v' v) as [->|Nv].
    + rewrite set_eq. discriminate.
    + rewrite set_ne by exact Nv. apply B.
  - unfold load_whole. destruct (st_store s v) as [[q' x]|]; [auto|]. destruct (st_load s v); [auto|exact C].
  - unfold load_part. destruct (st_store s v) as [[q' x]|]; [|exact C]. destruct C as [A B]. split; [exact A|]. simpl. destruct B as [B|B]; auto.
  - apply closed_forget, C.
Qed.

Lemma body_coarser f b l : forall i s s', visit_body f b i l s = Some s' -> coarser s s' /\ kill_grows s s'.
Proof.
  induction l as [|x l IH]; simpl; intros i s s' H.
  - injection H as <-. split; intros ?; auto.
  - destruct (visit f (b, i) x s) as [s1|] eqn:V; [|discriminate]. apply visit_did in V. destruct (IH _ _ _ H) as [A B].
    pose proof (did_coarser _ _ _ _ _ V) as A1. pose proof (did_kill _ _ _ _ _ V) as B1. split; [intros y z E; apply A, A1, E|intros q E; apply B, B1, E].
Qed.
Lemma blocks_coarser f l : forall b s s', visit_blocks f b l s = Some s' -> coarser s s' /\ kill_grows s s'.
Proof.
  induction l as [|x l IH]; simpl; intros b s s' H.
  - injection H as <-. split; intros ?; auto.
  - destruct (visit_body f b 0 (body x) (forget s)) as [s1|] eqn:V; [|discriminate]. apply body_coarser in V. destruct V as [A1 B1].
    destruct (IH _ _ _ H) as [A B]. split; [intros y z E; apply A, A1, E|intros q E; apply B, B1, E].
Qed.
Lemma body_closed f b l q : forall i s s', visit_body f b i l s = Some s' -> (fst q <> b \/ (snd q < i)%nat) -> closed q s -> closed q s'.
Proof.
  induction l as [|x l IH]; simpl; intros i s s' H L C.
  - injection H as <-. exact C.
  - destruct (visit f (b, i) x s) as [s1|] eqn:V; [|discriminate]. apply visit_did in V. apply (IH _ _ _ H); [destruct L; [left; assumption|right; lia]|].
    apply (did_closed _ _ _ _ _ _ V); [|exact C]. intros <-. simpl in L. destruct L; [congruence|lia].
Qed.
Lemma blocks_closed f l q : forall b s s', visit_blocks f b l s = Some s' -> (fst q < b)%nat -> closed q s -> closed q s'.
Proof.
  induction l as [|x l IH]; simpl; intros b s s' H L C.
  - injection H as <-. exact C.
  - destruct (visit_body f b 0 (body x) (forget s)) as [s1|] eqn:V; [|discriminate]. apply (IH _ _ _ H); [lia|].
    apply (body_closed _ _ _ _ _ _ _ V); [left; lia|]. apply closed_forget, C.
Qed.
