(** Proofs about the removal of redundant instructions: what is removed. *)
From Coq Require Import Permutation.
From Verif Require Import Base GraphSpec Redundancy RedundancySpec RedundancyProofs RedundancyProofs2 RedundancyProofs3.
Local Open Scope N_scope.

Section Removes.
Variables (f : func) (dec : N -> N -> bool) (comm : N -> bool).
Hypothesis WF : well_formed f.
Hypothesis HD : forall a b, dec a b = true.

(** the text as one list *)
Definition item := (inst + phi)%type.
Definition number_item (t : table) (x : item) : table := match x with inl i => number_inst dec comm t i | inr p => number_phi dec t p end.
Definition sets (x : item) : list N := match x with inl i => res1 i | inr p => [p_res p] end.
Definition block_items (b : block) : list item := map inr (phis b) ++ map inl (body b).
Definition items : list item := map inl (prelude f) ++ flat_map block_items (blocks f).
Lemma fold_inst l : forall t, fold_left number_item (map inl l) t = fold_left (number_inst dec comm) l t.
Proof. induction l as [|i l IH]; intros t; simpl; auto. Qed.
Lemma fold_phi l : forall t, fold_left number_item (map inr l) t = fold_left (number_phi dec) l t.
Proof. induction l as [|i l IH]; intros t; simpl; auto. Qed.
Lemma number_items : number_all dec comm f = fold_left number_item items empty.
Proof.
  unfold number_all, items. rewrite fold_left_app, fold_inst. generalize (fold_left (number_inst dec comm) (prelude f) empty) as t. induction (blocks f) as [|b bs IH]; intros t; [reflexivity|].
  cbn [fold_left flat_map]. rewrite fold_left_app. replace (fold_left number_item (block_items b) t) with (number_block dec comm t b); [apply IH|].
  unfold block_items. rewrite fold_left_app, fold_phi, fold_inst. reflexivity.
Qed.
Lemma sets_block b : flat_map sets (block_items b) = results b.
Proof.
  unfold block_items, results. rewrite flat_map_app. f_equal; [|induction (body b) as [|i l IH]; simpl; [reflexivity|rewrite IH; reflexivity]].
  induction (phis b) as [|p l IH]; simpl; [reflexivity|rewrite IH; reflexivity].
Qed.
Lemma sets_inst (l : list inst) : flat_map sets (map inl l) = flat_map res1 l.
Proof. induction l as [|i l IH]; simpl; [reflexivity|rewrite IH; reflexivity]. Qed.
Lemma sets_phi (l : list phi) : flat_map sets (map inr l) = map p_res l.
Proof. induction l as [|i l IH]; simpl; [reflexivity|rewrite IH; reflexivity]. Qed.
Lemma sets_blocks bs : flat_map sets (flat_map block_items bs) = flat_map (fun b => map p_res (phis b) ++ flat_map res1 (body b)) bs.
Proof. induction bs as [|b bs IH]; [reflexivity|]. cbn [flat_map]. rewrite flat_map_app, IH. unfold block_items. rewrite flat_map_app, sets_phi, sets_inst. reflexivity. Qed.
Lemma sets_items : flat_map sets items = set_at_all f.
Proof. unfold items, set_at_all. rewrite flat_map_app, sets_inst, sets_blocks. reflexivity. Qed.
Definition listed (x : item) : Prop := match x with inl i => has f i | inr p => exists c, In c (blocks f) /\ In p (phis c) end.
Lemma items_listed x : In x items -> listed x.
Proof.
  unfold items. intros H. apply in_app_or in H. destruct H as [H|H].
  - apply in_map_iff in H. destruct H as (i & <- & Hi). left. exact Hi.
  - apply in_flat_map in H. destruct H as (b & Hb & H). unfold block_items in H. apply in_app_or in H. destruct H as [H|H]; apply in_map_iff in H; destruct H as (y & <- & Hy).
    + exists b. auto.
    + right. destruct (In_nth_error _ _ Hy) as [j Hj]. eauto.
Qed.
Lemma nodup_join {A} (l1 l2 : list A) : NoDup l1 -> NoDup l2 -> (forall x, In x l1 -> ~ In x l2) -> NoDup (l1 ++ l2).
Proof.
  induction l1 as [|a l1 IH]; intros N1 N2 Dj; simpl; [exact N2|]. inversion N1; subst. constructor; [|apply IH; auto; intros x Hx; apply Dj; right; exact Hx].
  intros Hin. apply in_app_or in Hin. destruct Hin as [Hin|Hin]; [contradiction|]. exact (Dj a (or_introl eq_refl) Hin).
Qed.
Lemma items_nodup : NoDup (set_at_all f).
Proof using WF.
  unfold set_at_all. apply nodup_join.
  - assert (G : forall l2 l1, prelude f = l1 ++ l2 -> NoDup (flat_map res1 l2)).
    { induction l2 as [|i l2 IH]; intros l1 E; simpl; [constructor|]. specialize (IH (l1 ++ [i])). rewrite <- app_assoc in IH. specialize (IH E). unfold res1 at 1.
      destruct (result i) as [r|] eqn:Ri; [|exact IH]. simpl. constructor; [|exact IH]. intros Hin. apply in_flat_map in Hin. destruct Hin as (j & Hj & Hr). unfold res1 in Hr.
      destruct (result j) as [r'|] eqn:Rj; [|destruct Hr]. destruct Hr as [->|[]]. destruct (wf_prelude f WF l1 i l2 r E Ri) as (_ & N & _). exact (N j Hj Rj). }
    apply (G (prelude f) [] eq_refl).
  - assert (G : forall bs, (forall b, In b bs -> In b (blocks f)) -> NoDup (map label bs) -> NoDup (flat_map (fun b => map p_res (phis b) ++ flat_map res1 (body b)) bs)).
    { induction bs as [|b bs IH]; intros Hb Nl; simpl; [constructor|]. inversion Nl as [|? ? Nb Nl']; subst. apply nodup_join.
      - apply (results_nodup f WF b). apply Hb. left. reflexivity.
      - apply IH; auto. intros c Hc. apply Hb. right. exact Hc.
      - intros x Hx Hy. apply in_flat_map in Hy. destruct Hy as (c & Hc & Hy). apply Nb. rewrite (results_apart f WF b c x); auto; [apply in_map, Hc|apply Hb; left; reflexivity|apply Hb; right; exact Hc]. }
    apply (G (blocks f) (fun b H => H) (wf_labels f WF)).
  - intros x Hx Hy. apply in_flat_map in Hx. destruct Hx as (i & Hi & Hx). unfold res1 in Hx. destruct (result i) as [r|] eqn:Ri; [|destruct Hx]. destruct Hx as [->|[]].
    apply in_flat_map in Hy. destruct Hy as (b & Hb & Hy). destruct (results_place f b x Hb Hy) as (k & Dx & _). destruct (in_split _ _ Hi) as (l1 & l2 & E).
    destruct (wf_prelude f WF l1 i l2 x E Ri) as (N & _). exact (N _ _ Dx).
Qed.

(** one item *)
Definition look (t : table) (k : key) : option (key * N) := find (fun x => key_eqb (fst x) k) (known t).
Lemma by_key_look t k r : find (fun x => key_eqb (fst x) k && dec (snd x) r) (known t) = look t k.
Proof using HD.
  unfold look. induction (known t) as [|x l IH]; simpl; [reflexivity|]. rewrite HD, andb_true_r, IH. reflexivity.
Qed.
Lemma list_eqb_refl {A} (eqb : A -> A -> bool) : (forall a, eqb a a = true) -> forall l, list_eqb eqb l l = true.
Proof. intros H. induction l as [|a l IH]; simpl; [reflexivity|]. rewrite H, IH. reflexivity. Qed.
Lemma key_eqb_refl k : key_eqb k k = true.
Proof.
  assert (R : forall a, ref_eqb a a = true) by (intros a; apply ref_eqb_eq; reflexivity). destruct k as [op l|a|l]; simpl.
  - rewrite N.eqb_refl. apply list_eqb_refl, R.
  - apply R.
  - apply list_eqb_refl. intros [a b]. simpl. rewrite R, N.eqb_refl. reflexivity.
Qed.
(** what an item does to the table *)
Record moved (t t' : table) (rs : list N) : Prop := {
  mv_other : forall y, ~ In y rs -> num t' y = num t y;
  mv_kept : forall y, num t y <> 0 -> num t' y = num t y;
  mv_set : forall y, In y rs -> num t' y <> 0;
  mv_look : forall k e, look t k = Some e -> look t' k = Some e }.
Lemma moved_same t r : num t r <> 0 -> moved t t [r].
Proof. intros H. split; auto. intros y [<-|[]]. exact H. Qed.
Lemma moved_set t r v : v <> 0 -> num t r = 0 -> moved t (same_as t r v) [r].
Proof.
  intros Hv Hr. split; simpl; unfold set_num; auto; intros y Hy; destruct (N.eqb_spec y r) as [E|E]; subst; auto; try congruence; simpl in Hy; first [tauto|destruct Hy as [Hy|[]]; congruence|destruct Hy; left; congruence].
Qed.
Lemma moved_new t r ks : 1 <= next t -> num t r = 0 -> (forall k e, look t k = Some e -> find (fun x => key_eqb (fst x) k) ks = Some e) ->
  moved t (mktable (next t + 1) (set_num (num t) r (next t)) ks) [r].
Proof.
  intros Hv Hr Hk. split; simpl; unfold set_num; auto; intros y Hy; destruct (N.eqb_spec y r) as [E|E]; subst; auto; try congruence; try lia; simpl in Hy; first [tauto|destruct Hy as [Hy|[]]; congruence|destruct Hy; left; congruence].
Qed.
Lemma by_key_moved t tr k r : sound f comm t tr -> num t r = 0 -> moved t (by_key dec t k r) [r] /\
  exists z, look (by_key dec t k r) k = Some (k, z) /\ num (by_key dec t k r) z = num (by_key dec t k r) r /\ num (by_key dec t k r) z <> 0.
Proof using HD.
  intros S Hr. unfold by_key. rewrite by_key_look. destruct (look t k) as [[k' z]|] eqn:L.
  - unfold look in L. pose proof (find_some _ _ L) as [Hin Ek]. simpl in Ek. apply key_eqb_eq in Ek. subst k'. destruct (s_known _ _ _ _ S k z Hin) as (Nz & _).
    split; [apply moved_set; auto|]. exists z. unfold same_as, look. simpl. split; [exact L|]. unfold set_num. rewrite N.eqb_refl. destruct (N.eqb_spec z r) as [E|E]; auto.
  - split.
    + apply moved_new; [apply (s_next _ _ _ _ S)|exact Hr|]. intros k0 e He. simpl. destruct (key_eqb k k0) eqn:Ek; [|exact He]. apply key_eqb_eq in Ek. subst k0. congruence.
    + exists r. unfold look. simpl. rewrite key_eqb_refl. split; [reflexivity|]. unfold set_num. rewrite N.eqb_refl. split; [reflexivity|]. pose proof (s_next _ _ _ _ S). lia.
Qed.
Lemma item_moved t tr x : listed x -> sound f comm t tr -> moved t (number_item t x) (sets x).
Proof using HD.
  intros H S. destruct x as [i|p]; simpl.
  - destruct i as [r op args|r a|[r|] op args]; unfold res1; simpl.
    + destruct (N.eqb_spec (num t r) 0) as [E|E]; simpl; [apply (by_key_moved t tr _ r S E)|apply moved_same, E].
    + destruct (N.eqb_spec (num t r) 0) as [E|E]; simpl; [|apply moved_same, E]. destruct (N.eqb_spec (num t a) 0) as [Ea|Ea]; simpl; rewrite ?andb_false_r, ?andb_true_r.
      * apply (by_key_moved t tr _ r S E).
      * rewrite HD. apply moved_set; auto.
    + destruct (N.eqb_spec (num t r) 0) as [E|E]; simpl; [|apply moved_same, E]. apply moved_new; [apply (s_next _ _ _ _ S)|exact E|auto].
    + split; auto; intros y [].
  - unfold number_phi. destruct (N.eqb_spec (num t (p_res p)) 0) as [E|E]; simpl; [|apply moved_same, E]. destruct (p_args p) as [|[a l] rest]; [apply (by_key_moved t tr _ _ S E)|].
    destruct (dec (p_res p) a && negb (num t a =? 0) && forallb (fun b => num t (fst b) =? num t a) rest) eqn:Q; [|apply (by_key_moved t tr _ _ S E)].
    rewrite !andb_true_iff in Q. destruct Q as [[_ Q] _]. apply negb_true_iff, N.eqb_neq in Q. apply moved_set; auto.
Qed.
Lemma item_sound t tr x : listed x -> sound f comm t tr -> exists tr', sound f comm (number_item t x) tr'.
Proof using WF. intros H S. destruct x as [i|p]; [eapply number_inst_sound; eauto|]. destruct H as (c & Hc & Hp). eapply number_phi_sound; eauto. Qed.
Lemma items_moved : forall l t tr, (forall x, In x l -> listed x) -> sound f comm t tr -> moved t (fold_left number_item l t) (flat_map sets l) /\ exists tr', sound f comm (fold_left number_item l t) tr'.
Proof using WF HD.
  induction l as [|x l IH]; intros t tr Hl S; simpl; [split; [split; auto; intros y []|eauto]|].
  assert (Hx : listed x) by (apply Hl; left; reflexivity). pose proof (item_moved t tr x Hx S) as M. destruct (item_sound t tr x Hx S) as [tr1 S1].
  destruct (IH _ tr1 (fun y Hy => Hl y (or_intror Hy)) S1) as [M2 S2]. split; [|exact S2]. destruct M as [A B C E], M2 as [A2 B2 C2 E2]. split.
  - intros y Hy. rewrite A2, A; [reflexivity| |]; intros Hin; apply Hy, in_or_app; auto.
  - intros y Hy. rewrite B2; [apply B, Hy|]. rewrite (B y Hy). exact Hy.
  - intros y Hy. apply in_app_or in Hy. destruct Hy as [Hy|Hy]; [rewrite B2; apply C, Hy|apply C2, Hy].
  - intros k e He. apply E2, E, He.
Qed.

Lemma normal_swap op x y : comm op = true -> normal comm op [x; y] = normal comm op [y; x].
Proof.
  intros Co. unfold normal. rewrite Co. destruct (ref_ltb y x) eqn:A, (ref_ltb x y) eqn:B; try reflexivity.
  - exfalso. destruct x, y; simpl in *; try discriminate; apply N.ltb_lt in A, B; lia.
  - assert (E : x = y); [|subst; reflexivity]. destruct x, y; simpl in *; try discriminate; apply N.ltb_ge in A, B; f_equal; lia.
Qed.
(** two instructions that do the same get the same number *)
Lemma same_number (L1 L2 L3 : list item) r op args r' args' : items = L1 ++ inl (IPure r op args) :: L2 ++ inl (IPure r' op args') :: L3 ->
  (args' = args \/ comm op = true /\ exists x y, args = [x; y] /\ args' = [y; x]) ->
  (forall a, In a args -> In a (flat_map sets L1) \/ ~ In a (set_at_all f)) ->
  num (number_all dec comm f) r' = num (number_all dec comm f) r /\ num (number_all dec comm f) r <> 0.
Proof using WF HD.
  intros E Hargs Hset. rewrite number_items. pose proof items_nodup as Nd. rewrite <- sets_items in Nd. pose proof sets_items as Es.
  assert (Hl : forall x, In x items -> listed x) by exact items_listed. rewrite E in Nd, Es, Hl |- *.
  rewrite flat_map_app in Nd. cbn [flat_map sets res1 result] in Nd. rewrite flat_map_app in Nd. cbn [flat_map sets res1 result] in Nd.
  rewrite fold_left_app. cbn [fold_left]. rewrite fold_left_app. cbn [fold_left]. cbn [number_item].
  set (t1 := fold_left number_item L1 empty).
  assert (H1 : forall x, In x L1 -> listed x) by (intros x Hx; apply Hl, in_or_app; left; exact Hx).
  assert (H2 : forall x, In x L2 -> listed x) by (intros x Hx; apply Hl, in_or_app; right; right; apply in_or_app; left; exact Hx).
  assert (H3 : forall x, In x L3 -> listed x) by (intros x Hx; apply Hl, in_or_app; right; right; apply in_or_app; right; right; exact Hx).
  assert (Hi : listed (inl (IPure r op args))) by (apply Hl, in_or_app; right; left; reflexivity).
  assert (Hi' : listed (inl (IPure r' op args'))) by (apply Hl, in_or_app; right; right; apply in_or_app; right; left; reflexivity).
  destruct (items_moved L1 empty _ H1 (sound_empty f comm)) as [M1 [tr1 S1]]. fold t1 in M1, S1.
  assert (Nr : ~ In r (flat_map sets L1)).
  { intros Hin. apply NoDup_remove_2 in Nd. apply Nd, in_or_app. left. exact Hin. }
  assert (Nr' : ~ In r' (flat_map sets L1 ++ [r] ++ flat_map sets L2)).
  { intros Hin. assert (Nd2 : NoDup ((flat_map sets L1 ++ [r] ++ flat_map sets L2) ++ r' :: flat_map sets L3)) by (rewrite <- !app_assoc; exact Nd).
    apply NoDup_remove_2 in Nd2. apply Nd2, in_or_app. left. exact Hin. }
  assert (Z1 : num t1 r = 0) by (apply (mv_other _ _ _ M1 r Nr)).
  set (k := KPure op (normal comm op (map (ref_of t1) args))).
  assert (Et : number_inst dec comm t1 (IPure r op args) = by_key dec t1 k r) by (simpl; rewrite Z1; reflexivity). rewrite Et.
  destruct (by_key_moved t1 tr1 k r S1 Z1) as [M2 (z & Lz & Ez & Nz)]. set (t2 := by_key dec t1 k r) in *.
  assert (S2 : exists tr2, sound f comm t2 tr2) by (rewrite <- Et; apply (item_sound t1 tr1 (inl (IPure r op args)) Hi S1)). destruct S2 as [tr2 S2].
  destruct (items_moved L2 t2 tr2 H2 S2) as [M3 [tr3 S3]]. set (t3 := fold_left number_item L2 t2) in *.
  assert (Z3 : num t3 r' = 0).
  { rewrite (mv_other _ _ _ M3), (mv_other _ _ _ M2); [apply (mv_other _ _ _ M1)| |]; intros Hin; apply Nr', in_or_app; simpl; [left; exact Hin| |]; right; simpl in *; [destruct Hin as [->|[]]; left; reflexivity|right; exact Hin]. }
  assert (Hr : forall a, In a args -> ref_of t3 a = ref_of t1 a).
  { intros a Ha. unfold ref_of. assert (En : num t3 a = num t1 a); [|rewrite En; reflexivity]. destruct (Hset a Ha) as [Hin|Hin].
    - assert (Na : num t1 a <> 0) by (apply (mv_set _ _ _ M1), Hin). assert (Na2 : num t2 a = num t1 a) by (apply (mv_kept _ _ _ M2), Na). rewrite (mv_kept _ _ _ M3); [exact Na2|congruence].
    - assert (Out : forall x, In x (flat_map sets L1) \/ x = r \/ In x (flat_map sets L2) -> x <> a).
      { intros x Hx ->. apply Hin. rewrite <- Es, flat_map_app. cbn [flat_map sets res1 result]. rewrite flat_map_app. apply in_or_app. simpl. destruct Hx as [Hx|[->|Hx]]; auto. right. right. apply in_or_app. auto. }
      rewrite (mv_other _ _ _ M3), (mv_other _ _ _ M2); [reflexivity| |]; intros Hx; [destruct Hx as [Hx|[]]; exact (Out r (or_intror (or_introl eq_refl)) Hx)|exact (Out a (or_intror (or_intror Hx)) eq_refl)]. }
  assert (Ek : KPure op (normal comm op (map (ref_of t3) args')) = k).
  { unfold k. f_equal. destruct Hargs as [->|(Co & x & y & -> & ->)].
    - f_equal. apply map_ext_in. exact Hr.
    - cbn [map]. rewrite (Hr x), (Hr y) by (simpl; auto). apply normal_swap, Co. }
  assert (Et' : number_inst dec comm t3 (IPure r' op args') = by_key dec t3 k r') by (rewrite <- Ek; simpl; rewrite Z3; reflexivity). rewrite Et'.
  destruct (by_key_moved t3 tr3 k r' S3 Z3) as [M4 _].
  assert (L3' : look t3 k = Some (k, z)) by (apply (mv_look _ _ _ M3), Lz).
  assert (Nz3 : num t3 z = num t2 z) by (apply (mv_kept _ _ _ M3), Nz).
  assert (Nr2 : num t2 r <> 0) by congruence. assert (Nr3 : num t3 r = num t2 r) by (apply (mv_kept _ _ _ M3), Nr2).
  assert (E4 : num (by_key dec t3 k r') r' = num t3 z) by (unfold by_key; rewrite by_key_look, L3'; simpl; unfold set_num; rewrite N.eqb_refl; reflexivity).
  assert (S4 : exists tr4, sound f comm (by_key dec t3 k r') tr4) by (rewrite <- Et'; apply (item_sound t3 tr3 (inl (IPure r' op args')) Hi' S3)). destruct S4 as [tr4 S4].
  destruct (items_moved L3 _ tr4 H3 S4) as [M5 _].
  assert (R4 : num (by_key dec t3 k r') r = num t2 r) by (rewrite (mv_kept _ _ _ M4); congruence).
  assert (F1 : num (fold_left number_item L3 (by_key dec t3 k r')) r' = num t2 z) by (rewrite (mv_kept _ _ _ M5); congruence).
  assert (F2 : num (fold_left number_item L3 (by_key dec t3 k r')) r = num t2 r) by (rewrite (mv_kept _ _ _ M5); congruence).
  split; congruence.
Qed.
End Removes.

(** ** The second is removed *)
Section Gone.
Variables (f : func) (t : table).
Definition there (v : N) (m : list (N * N)) : Prop := exists x, In (v, x) m.
Lemma visit_gone m s r m' s' : visit t (m, s) r = (m', s') -> (forall y, In y (gone s) -> In y (gone s')) /\ (forall v, there v m -> there v m').
Proof.
  unfold visit. destruct (num t r =? 0); [intros H; injection H as <- <-; auto|]. destruct (find _ m) as [[v x]|]; intros H; injection H as <- <-; split; simpl; auto.
  intros v0 (x & Hx). exists x. right. exact Hx.
Qed.
Lemma fold_gone l : forall m s m' s', fold_left (visit t) l (m, s) = (m', s') -> (forall y, In y (gone s) -> In y (gone s')) /\ (forall v, there v m -> there v m').
Proof.
  induction l as [|r l IH]; intros m s m' s' H; cbn [fold_left] in H; [injection H as <- <-; auto|]. destruct (visit t (m, s) r) as [m1 s1] eqn:V.
  destruct (visit_gone m s r m1 s1 V) as [A B]. destruct (IH _ _ _ _ H) as [A2 B2]. auto.
Qed.
Lemma visit_there m s r m' s' : num t r <> 0 -> visit t (m, s) r = (m', s') -> there (num t r) m'.
Proof.
  intros N. unfold visit. destruct (N.eqb_spec (num t r) 0) as [E|_]; [congruence|]. destruct (find (fun x => fst x =? num t r) m) as [[v x]|] eqn:F; intros H; injection H as <- <-.
  - apply find_some in F. destruct F as [Hin F]. simpl in F. apply N.eqb_eq in F. subst v. exists x. exact Hin.
  - exists r. left. reflexivity.
Qed.
Lemma visit_hit m s r m' s' : num t r <> 0 -> there (num t r) m -> visit t (m, s) r = (m', s') -> In r (gone s').
Proof.
  intros N (x & Hx). unfold visit. destruct (N.eqb_spec (num t r) 0) as [E|_]; [congruence|]. destruct (find (fun x => fst x =? num t r) m) as [[v y]|] eqn:F.
  - intros H. injection H as <- <-. left. reflexivity.
  - exfalso. pose proof (find_none _ _ F _ Hx) as E. simpl in E. rewrite N.eqb_refl in E. discriminate.
Qed.
Lemma fold_there l r : In r l -> num t r <> 0 -> forall m s m' s', fold_left (visit t) l (m, s) = (m', s') -> there (num t r) m'.
Proof.
  intros Hin N. destruct (in_split _ _ Hin) as (l1 & l2 & ->). intros m s m' s' H. rewrite fold_left_app in H. cbn [fold_left] in H.
  destruct (fold_left (visit t) l1 (m, s)) as [m1 s1]. destruct (visit t (m1, s1) r) as [m2 s2] eqn:V. apply (fold_gone l2 _ _ _ _ H). eapply visit_there; eauto.
Qed.
Lemma fold_hit l r : In r l -> num t r <> 0 -> forall m s m' s', there (num t r) m -> fold_left (visit t) l (m, s) = (m', s') -> In r (gone s').
Proof.
  intros Hin N. destruct (in_split _ _ Hin) as (l1 & l2 & ->). intros m s m' s' Ht H. rewrite fold_left_app in H. cbn [fold_left] in H.
  destruct (fold_left (visit t) l1 (m, s)) as [m1 s1] eqn:F. destruct (visit t (m1, s1) r) as [m2 s2] eqn:V. apply (fold_gone l2 _ _ _ _ H).
  apply (visit_hit m1 s1 r m2 s2 N); [apply (fold_gone l1 _ _ _ _ F), Ht|exact V].
Qed.
Lemma fold_second l l1 r l2 r' l3 : l = l1 ++ r :: l2 ++ r' :: l3 -> num t r' = num t r -> num t r <> 0 -> forall m s m' s', fold_left (visit t) l (m, s) = (m', s') -> In r' (gone s').
Proof.
  intros -> E N m s m' s' H. replace (l1 ++ r :: l2 ++ r' :: l3) with ((l1 ++ [r]) ++ l2 ++ r' :: l3) in H by (rewrite <- app_assoc; reflexivity). rewrite fold_left_app in H.
  destruct (fold_left (visit t) (l1 ++ [r]) (m, s)) as [m1 s1] eqn:F. eapply (fold_hit (l2 ++ r' :: l3) r'); eauto.
  - apply in_or_app. right. left. reflexivity.
  - congruence.
  - rewrite E. eapply (fold_there (l1 ++ [r]) r); eauto. apply in_or_app. right. left. reflexivity.
Qed.
Lemma local_gone l : forall s y, In y (gone s) -> In y (gone (fold_left (fun s b => snd (eliminate_block t b ([], s))) l s)).
Proof.
  induction l as [|b l IH]; intros s y H; cbn [fold_left]; [exact H|]. apply IH. destruct (eliminate_block t b ([], s)) as [m' s'] eqn:E. simpl. apply (fold_gone _ _ _ _ _ E), H.
Qed.
Lemma local_second b l1 r l2 r' l3 : In b (blocks f) -> results b = l1 ++ r :: l2 ++ r' :: l3 -> num t r' = num t r -> num t r <> 0 ->
  forall s, In r' (gone (fold_left (fun s b => snd (eliminate_block t b ([], s))) (blocks f) s)).
Proof.
  intros Hb E En N s. destruct (in_split _ _ Hb) as (B1 & B2 & ->). rewrite fold_left_app. cbn [fold_left]. apply local_gone.
  destruct (eliminate_block t b ([], fold_left (fun s b => snd (eliminate_block t b ([], s))) B1 s)) as [m' s'] eqn:F. simpl. eapply fold_second; eauto.
Qed.
(** along the tree *)
Definition coming (v : N) (r' : N) (l l' : N) (todo : list (dtree * list (N * N))) (s : progress) : Prop :=
  In r' (gone s) \/ (exists d m, In (d, m) todo /\ above d l l') \/ (exists d m, In (d, m) todo /\ In l' (labels d) /\ there v m).
Lemma global_second b b' r r' : well_formed f -> In b (blocks f) -> In b' (blocks f) -> In r (results b) -> In r' (results b') -> num t r' = num t r -> num t r <> 0 ->
  forall fuel todo s s', coming (num t r) r' (label b) (label b') todo s -> eliminate_from fuel t f todo s = Some s' -> In r' (gone s').
Proof.
  intros WF Hb Hb' Hr Hr' En N. induction fuel as [|fuel IH]; intros todo s s' C H.
  - destruct todo as [|[[l kids] m] todo]; [|discriminate]. injection H as <-. destruct C as [C|[(d & m & [] & _)|(d & m & [] & _)]]. exact C.
  - destruct todo as [|[[l kids] m] todo].
    { injection H as <-. destruct C as [C|[(d & m & [] & _)|(d & m & [] & _)]]. exact C. }
    cbn [eliminate_from] in H. destruct (find (fun b => label b =? l) (blocks f)) as [c|] eqn:F; [|discriminate]. apply find_block_inv in F. destruct F as [Hc El].
    destruct (eliminate_block t c (m, s)) as [m' s1] eqn:E. destruct (fold_gone _ _ _ _ _ E) as [Gk Gm]. apply (IH _ _ _) with (2 := H).
    assert (Kid : forall k, In k kids -> In (k, m') (todo ++ map (fun k => (k, m')) kids)) by (intros k Hk; apply in_or_app; right; apply (in_map (fun k => (k, m'))), Hk).
    assert (Old : forall d m0, In (d, m0) todo -> In (d, m0) (todo ++ map (fun k => (k, m')) kids)) by (intros d m0 Hd; apply in_or_app; left; exact Hd).
    destruct C as [C|[(d & m0 & [Ed|Hd] & A)|(d & m0 & [Ed|Hd] & A & T)]].
    + left. apply Gk, C.
    + injection Ed as <- <-. inversion A as [? ? k ? Hk Hl|? ? k ? ? Hk A']; subst.
      * right. right. exists k, m'. split; [apply Kid, Hk|]. split; [exact Hl|]. assert (Ec : c = b) by (apply (same_label f WF c b Hc Hb); congruence). subst c. eapply fold_there; eauto.
      * right. left. exists k, m'. split; [apply Kid, Hk|exact A'].
    + right. left. exists d, m0. split; [apply Old, Hd|exact A].
    + injection Ed as <- <-. simpl in A. destruct A as [A|A].
      * left. assert (c = b') by (apply (same_label f WF c b' Hc Hb'); congruence). subst c. eapply fold_hit; eauto; rewrite En; auto.
      * apply in_flat_map in A. destruct A as (k & Hk & A). right. right. exists k, m'. split; [apply Kid, Hk|]. split; [exact A|]. apply Gm, T.
    + right. right. exists d, m0. split; [apply Old, Hd|]. auto.
Qed.
Lemma finish_gone s r b k : In r (gone s) -> ~ defined_at (mkfunc (prelude f) (map (finish s) (blocks f))) r b k.
Proof.
  intros G [Hb H]. simpl in Hb. apply in_map_iff in Hb. destruct Hb as (c & <- & Hc).
  assert (Ig : is_gone s r = true) by (unfold is_gone; apply existsb_exists; exists r; split; [exact G|apply N.eqb_refl]). destruct k as [|j].
  - destruct H as (p & Hp & E). simpl in Hp. apply in_map_iff in Hp. destruct Hp as (q & <- & Hq). apply filter_In in Hq. destruct Hq as [_ Hq]. simpl in E. rewrite E, Ig in Hq. discriminate.
  - destruct H as (i & Hi & E). apply nth_error_In in Hi. simpl in Hi. apply in_map_iff in Hi. destruct Hi as (q & <- & Hq). apply filter_In in Hq. destruct Hq as [_ Hq].
    assert (Eq : result q = Some r) by (destruct q; exact E). rewrite Eq, Ig in Hq. discriminate.
Qed.
End Gone.

(** ** In terms of places in the text *)
Section Text.
Variables (f : func) (dec : N -> N -> bool) (comm : N -> bool).
Hypothesis WF : well_formed f.
Hypothesis HD : forall a b, dec a b = true.
Lemma items_split B1 b B2 : blocks f = B1 ++ b :: B2 -> items f = map inl (prelude f) ++ flat_map block_items B1 ++ block_items b ++ flat_map block_items B2.
Proof. intros E. unfold items. rewrite E, flat_map_app. reflexivity. Qed.
Lemma nth_split' {A} (l : list A) j a : nth_error l j = Some a -> l = firstn j l ++ a :: skipn (S j) l.
Proof. revert j. induction l as [|x l IH]; intros [|j] H; simpl in *; try discriminate; [injection H as ->; reflexivity|]. f_equal. apply IH, H. Qed.
Lemma repeated_same B1 b B2 j r i' r' : blocks f = B1 ++ b :: B2 -> repeated f comm B1 b j r i' r' ->
  ((exists j', (j < j')%nat /\ nth_error (body b) j' = Some i') \/ (exists b' j', In b' B2 /\ nth_error (body b') j' = Some i')) ->
  num (number_all dec comm f) r' = num (number_all dec comm f) r /\ num (number_all dec comm f) r <> 0.
Proof using WF HD.
  intros E (op & args & args' & Hj & Ei & Ha & Hs) Hw. subst i'. pose proof (items_split B1 b B2 E) as EI. pose proof (nth_split' _ _ _ Hj) as Eb.
  set (L1 := map inl (prelude f) ++ flat_map block_items B1 ++ map inr (phis b) ++ map inl (firstn j (body b))).
  assert (EL : items f = L1 ++ inl (IPure r op args) :: map inl (skipn (S j) (body b)) ++ flat_map block_items B2).
  { rewrite EI. unfold L1. unfold block_items at 2. rewrite Eb at 1. rewrite map_app. cbn [map]. rewrite <- !app_assoc. reflexivity. }
  assert (ES : flat_map sets L1 = set_before f B1 b j) by (unfold L1, set_before; rewrite !flat_map_app, !sets_inst, sets_phi, sets_blocks; reflexivity).
  assert (Q : exists L2 L3, map inl (skipn (S j) (body b)) ++ flat_map block_items B2 = L2 ++ inl (IPure r' op args') :: L3).
  { apply in_split. apply in_or_app. destruct Hw as [(j' & L & Hj')|(b' & j' & Hb' & Hj')].
    - left. apply in_map. rewrite Eb in Hj'. rewrite nth_error_app2 in Hj' by (rewrite firstn_length; lia). assert (Lj : (j < length (body b))%nat) by (apply nth_error_Some; congruence).
      rewrite firstn_length, Nat.min_l in Hj' by lia. replace (j' - j)%nat with (S (j' - j - 1)) in Hj' by lia. simpl in Hj'. apply nth_error_In in Hj'. exact Hj'.
    - right. apply in_flat_map. exists b'. split; [exact Hb'|]. unfold block_items. apply in_or_app. right. apply in_map. apply nth_error_In with j'. exact Hj'. }
  destruct Q as (L2 & L3 & Q). rewrite Q in EL. apply (same_number f dec comm WF HD L1 L2 L3 r op args r' args' EL Ha). rewrite ES. exact Hs.
Qed.
Lemma in_results b j i r : nth_error (body b) j = Some i -> result i = Some r -> In r (results b).
Proof. intros Hj Hr. unfold results. apply in_or_app. right. apply in_flat_map. exists i. split; [apply nth_error_In with j; exact Hj|]. rewrite Hr. left. reflexivity. Qed.
Lemma local_text B1 b B2 j r j' i' r' : blocks f = B1 ++ b :: B2 -> repeated f comm B1 b j r i' r' -> (j < j')%nat -> nth_error (body b) j' = Some i' ->
  forall b0 k, ~ defined_at (eliminate_local dec comm f) r' b0 k.
Proof using WF HD.
  intros E Hrep L Hj'. destruct (repeated_same B1 b B2 j r i' r' E Hrep) as [En N]; [left; eauto|].
  assert (Hb : In b (blocks f)) by (rewrite E; apply in_or_app; right; left; reflexivity).
  assert (Q : exists l1 l2 l3, results b = l1 ++ r :: l2 ++ r' :: l3).
  { destruct Hrep as (op & args & args' & Hj & -> & _). pose proof (nth_split' _ _ _ Hj) as Eb. unfold results. rewrite Eb, flat_map_app. cbn [flat_map result].
    assert (Hin : In (IPure r' op args') (skipn (S j) (body b))).
    { rewrite Eb in Hj'. rewrite nth_error_app2 in Hj' by (rewrite firstn_length; lia). assert (Lj : (j < length (body b))%nat) by (apply nth_error_Some; congruence).
      rewrite firstn_length, Nat.min_l in Hj' by lia. replace (j' - j)%nat with (S (j' - j - 1)) in Hj' by lia. simpl in Hj'. apply nth_error_In in Hj'. exact Hj'. }
    destruct (in_split _ _ Hin) as (s1 & s2 & ->). rewrite flat_map_app. cbn [flat_map result]. eexists (_ ++ _), _, _. rewrite <- app_assoc. simpl. reflexivity. }
  destruct Q as (l1 & l2 & l3 & Q). intros b0 k. apply finish_gone. eapply local_second; eauto.
Qed.
Lemma global_text d B1 b B2 j r b' j' i' r' g : blocks f = B1 ++ b :: B2 -> repeated f comm B1 b j r i' r' -> In b' B2 -> nth_error (body b') j' = Some i' ->
  above d (label b) (label b') -> eliminate_global dec comm d f = Some g -> forall b0 k, ~ defined_at g r' b0 k.
Proof using WF HD.
  intros E Hrep Hb' Hj' Ab H. destruct (repeated_same B1 b B2 j r i' r' E Hrep) as [En N]; [right; eauto|].
  unfold eliminate_global in H. destruct (eliminate_from _ _ _ _ _) as [s|] eqn:F; [|discriminate]. injection H as <-. intros b0 k. apply finish_gone.
  destruct Hrep as (op & args & args' & Hj & -> & _).
  eapply (global_second f _ b b' r r' WF); [| |eapply in_results; eauto; reflexivity|eapply in_results; eauto; reflexivity|exact En|exact N| |exact F].
  - rewrite E. apply in_or_app. right. left. reflexivity.
  - rewrite E. apply in_or_app. right. right. exact Hb'.
  - right. left. exists d, []. split; [left; reflexivity|exact Ab].
Qed.
End Text.
