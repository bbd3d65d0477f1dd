(** Merging blocks: proofs. *)
From Coq Require Import Permutation.
From Verif Require Import Base NamedIds NamedIdsProofs LocalElimProofs Redundancy RedundancySpec RedundancyProofs RedundancyProofs2 LicmSpec CodeSink BlockMerge BlockMergeSpec.
Local Open Scope N_scope.

Lemma sub_c a c : sub a c c = a.
Proof. unfold sub. rewrite N.eqb_refl. reflexivity. Qed.
Lemma sub_ne a c y : y <> c -> sub a c y = y.
Proof. unfold sub. destruct (N.eqb_spec y c); [contradiction|reflexivity]. Qed.
Lemma sub_all a c l : ~ In c l -> map (sub a c) l = l.
Proof. intros H. erewrite map_ext_in; [apply map_id|]. intros y Hy. apply sub_ne. intros ->. exact (H Hy). Qed.
Lemma rename_id i : rename (fun z => z) i = i.
Proof. destruct i; cbn; rewrite ?map_id; reflexivity. Qed.
Lemma count_app l a b : count l (a ++ b) = (count l a + count l b)%nat.
Proof. unfold count. rewrite filter_app, app_length. reflexivity. Qed.
Lemma count_in l ls : In l ls -> (1 <= count l ls)%nat.
Proof. unfold count. intros H. assert (I : In l (filter (fun y => y =? l) ls)) by (apply filter_In; rewrite N.eqb_refl; auto). destruct (filter (fun y => y =? l) ls); [destruct I|cbn [length]; lia]. Qed.

(** one block *)
Section Turn.
Context {D W : Type} (m : machine D W).
Definition turn (bs : list block) (l : N) (c : config D W) : option (seen (D := D) (W := W) + N * config D W) :=
  match find (fun b => label b =? l) bs with
  | None => None
  | Some b =>
      match steps m (body b) c with
      | None => None
      | Some c1 =>
          match values (env c1) (t_args b) with
          | None => None
          | Some ds =>
              match choose m (t_op b) ds with
              | None => Some (inl (Returned (t_op b) ds (world c1)))
              | Some k =>
                  match nth_error (t_succ b) k with
                  | None => None
                  | Some l' =>
                      match find (fun b => label b =? l') bs with
                      | None => None
                      | Some b' => match phis_from l (phis b') c1 c1 with None => None | Some c2 => Some (inr (l', c2)) end
                      end
                  end
              end
          end
      end
  end.
Lemma run_turn bs n l c : run_from m bs (S n) l c = match turn bs l c with None => None | Some (inl s) => Some s | Some (inr (l', c')) => run_from m bs n l' c' end.
Proof.
  cbn [run_from]. unfold turn. destruct (find (fun b => label b =? l) bs) as [b|]; [|reflexivity]. destruct (steps m (body b) c) as [c1|]; [|reflexivity]. destruct (values (env c1) (t_args b)) as [ds|]; [|reflexivity].
  destruct (choose m (t_op b) ds) as [k|]; [|reflexivity]. destruct (nth_error (t_succ b) k) as [l'|]; [|reflexivity]. destruct (find (fun b => label b =? l') bs) as [b'|]; [|reflexivity].
  destruct (phis_from l (phis b') c1 c1); reflexivity.
Qed.
Lemma steps_app l1 : forall l2 c, steps m (l1 ++ l2) c = match steps m l1 c with None => None | Some c' => steps m l2 c' end.
Proof. induction l1 as [|i l1 IH]; intros l2 c; cbn [app steps]; [reflexivity|]. destruct (step m i c); [apply IH|reflexivity]. Qed.
Lemma phis_agree (h : phi -> phi) from from' ps : (forall p, In p ps -> p_res (h p) = p_res p /\ option_map fst (find (fun a => snd a =? from') (p_args (h p))) = option_map fst (find (fun a => snd a =? from) (p_args p))) ->
  forall c0 c : config D W, phis_from from' (map h ps) c0 c = phis_from from ps c0 c.
Proof.
  induction ps as [|p ps IH]; intros H c0 c; cbn [map phis_from]; [reflexivity|]. destruct (H p (or_introl eq_refl)) as [Er Ef]. rewrite Er.
  destruct (find (fun a => snd a =? from') (p_args (h p))) as [[v1 q1]|], (find (fun a => snd a =? from) (p_args p)) as [[v2 q2]|]; cbn [option_map fst] in Ef; try discriminate; [|reflexivity]. injection Ef as ->.
  destruct (env c0 v2); [|reflexivity]. apply IH. intros p' Hp'. apply H. right. exact Hp'.
Qed.
End Turn.
Lemma take_ok l : forall bs x c y, take l bs = Some (x, c, y) -> bs = x ++ c :: y /\ label c = l.
Proof.
  induction bs as [|b bs IH]; intros x c y H; cbn [take] in H; [discriminate|]. destruct (N.eqb_spec (label b) l) as [E|_]; [injection H as <- <- <-; auto|].
  destruct (take l bs) as [[[x' c'] y']|]; [|discriminate]. injection H as <- <- <-. destruct (IH x' c' y' eq_refl) as [-> E]. auto.
Qed.
Lemma take_some l : forall bs, In l (map label bs) -> exists x c y, take l bs = Some (x, c, y).
Proof.
  induction bs as [|b bs IH]; intros H; [destruct H|]. cbn [take]. destruct (N.eqb_spec (label b) l) as [E|E]; [eauto|]. destruct H as [H|H]; [contradiction|]. destruct (IH H) as (x & c & y & ->). eauto.
Qed.

Lemma entry_hd pre L d r : entry (mkfunc pre (L ++ d :: r)) = label (hd d L).
Proof. destruct L; reflexivity. Qed.
Lemma hd_labels (h : block -> block) L d d' : (forall e, label (h e) = label e) -> label d' = label d -> label (hd d' (map h L)) = label (hd d L).
Proof. intros H E. destruct L; cbn [map hd]; auto. Qed.
Lemma hd_in_ {A} (L : list A) d r : In (hd d L) (L ++ d :: r).
Proof. destruct L; left; reflexivity. Qed.

(** [p] is before [z] *)
Definition comes (ls : list N) (p z : N) : Prop := exists l1 l2, ls = l1 ++ p :: l2 /\ In z l2.
Lemma nodup_after (l1 l2 k1 k2 : list N) p : NoDup (l1 ++ p :: l2) -> l1 ++ p :: l2 = k1 ++ p :: k2 -> l2 = k2.
Proof.
  revert k1. induction l1 as [|u l1 IH]; intros k1 Nd E; destruct k1 as [|v k1]; cbn [app] in *.
  - congruence.
  - injection E as <- E. inversion Nd as [|? ? Ni _]; subst. destruct Ni. apply in_or_app. right. left. reflexivity.
  - injection E as -> E. inversion Nd as [|? ? Ni _]; subst. destruct Ni. apply in_or_app. right. left. reflexivity.
  - injection E as _ E. inversion Nd; subst. eauto.
Qed.
Lemma comes_trans ls p q z : NoDup ls -> comes ls p q -> comes ls q z -> comes ls p z.
Proof.
  intros Nd (l1 & l2 & E1 & H1) (k1 & k2 & E2 & H2). exists l1, l2. split; [exact E1|]. destruct (in_split _ _ H1) as (u1 & u2 & Eu). subst l2. assert (E3 : ls = (l1 ++ p :: u1) ++ q :: u2) by (rewrite E1, <- app_assoc; reflexivity).
  rewrite E3 in Nd, E2. rewrite <- (nodup_after _ _ _ _ _ Nd E2) in H2. apply in_or_app. right. right. exact H2.
Qed.
Lemma comes_remove L1 L2 s p z : p <> s -> z <> s -> comes (L1 ++ s :: L2) p z -> comes (L1 ++ L2) p z.
Proof.
  intros Np Nz (l1 & l2 & E & H). revert l1 E. induction L1 as [|u L1 IH]; intros l1 E; destruct l1 as [|v l1]; cbn [app] in *.
  - congruence.
  - injection E as _ ->. exists l1, l2. auto.
  - injection E as -> E. exists [], (L1 ++ L2). split; [reflexivity|]. rewrite <- E in H. apply in_app_or in H. apply in_or_app. destruct H as [H|[H|H]]; [auto|congruence|auto].
  - injection E as -> E. destruct (IH l1 E) as (k1 & k2 & Ek & Hk). exists (v :: k1), k2. rewrite Ek. auto.
Qed.
Lemma Permutation_app_middle_ {A} (u v w : list A) : Permutation (u ++ v ++ w) (v ++ u ++ w).
Proof. rewrite !app_assoc. apply Permutation_app_tail, Permutation_app_comm. Qed.
Lemma nodup_map_filter {A B} (h : A -> B) P l : NoDup (map h l) -> NoDup (map h (filter P l)).
Proof.
  induction l as [|u l IH]; cbn [map filter]; intros Nd; [constructor|]. inversion Nd as [|? ? Ni Nd']; subst. destruct (P u); [|auto]. cbn [map]. constructor; [|auto]. intros H. apply Ni. apply in_map_iff in H. destruct H as (v & E & Hv). apply filter_In in Hv. rewrite <- E. apply in_map, Hv.
Qed.
Lemma sub_nodup a s l : NoDup l -> ~ (In a l /\ In s l) -> NoDup (map (sub a s) l).
Proof.
  induction l as [|u l IH]; cbn [map]; intros Nd H; [constructor|]. inversion Nd as [|? ? Ni Nd']; subst. constructor; [|apply IH; [exact Nd'|intros [A B]; apply H; split; right; assumption]].
  intros Hu. apply in_map_iff in Hu. destruct Hu as (v & E & Hv). unfold sub in E. destruct (N.eqb_spec v s) as [E1|_], (N.eqb_spec u s) as [E2|_].
  - subst. exact (Ni Hv).
  - subst. apply H. split; [left; reflexivity|right; exact Hv].
  - subst. apply H. split; [right; exact Hv|left; reflexivity].
  - subst. exact (Ni Hv).
Qed.
Lemma header_in ms h mg : NoDup (map fst ms) -> In (h, mg) ms -> header ms h = Some mg.
Proof.
  unfold header. induction ms as [|[h0 m0] ms IH]; cbn [map find fst]; intros Nd H; [destruct H|]. inversion Nd as [|? ? Ni Nd']; subst. destruct (N.eqb_spec h0 h) as [->|Ne].
  - destruct H as [E|H]; [congruence|]. destruct Ni. exact (in_map fst _ _ H).
  - destruct H as [E|H]; [congruence|]. exact (IH Nd' H).
Qed.

(** ** One merge *)
Section Merge.
Variables (pre : list inst) (before x y : list block) (b c : block) (branch : N -> bool).
Let s := label c.
Let a := label b.
Let bs := before ++ b :: x ++ c :: y.
Let f := mkfunc pre bs.
Let fx := redirect a s (fun z => z).
Let bs' := map fx before ++ fx (join b c) :: map fx (x ++ y).
Let g := mkfunc pre bs'.
Hypothesis MB : mergeable branch f.
Hypothesis Br : branch (t_op b) = true.
Hypothesis Su : t_succ b = [s].
Hypothesis One : count s (flat_map t_succ bs) = 1%nat.
Definition M (d : block) : block := if label d =? a then fx (join d c) else fx d.
Lemma in_bs d : In d bs <-> In d (before ++ b :: x ++ y) \/ d = c.
Proof using MB Br Su One. unfold bs. rewrite !in_app_iff. cbn [In]. rewrite !in_app_iff. cbn [In]. firstorder congruence. Qed.
Lemma labels_split : NoDup (map label (before ++ b :: x ++ y)) /\ ~ In s (map label (before ++ b :: x ++ y)).
Proof using MB Br Su One.
  pose proof (mb_labels _ _ MB) as Nd. cbn [f blocks] in Nd. unfold bs in Nd.
  replace (before ++ b :: x ++ c :: y) with ((before ++ b :: x) ++ c :: y) in Nd by (rewrite <- app_assoc; reflexivity). rewrite map_app in Nd. cbn [map] in Nd.
  pose proof (NoDup_remove_1 _ _ _ Nd) as A. pose proof (NoDup_remove_2 _ _ _ Nd) as B. rewrite <- map_app, <- app_assoc in A, B. cbn [app] in A, B. auto.
Qed.
Lemma ne_s d : In d (before ++ b :: x ++ y) -> label d <> s.
Proof using MB Br Su One. intros Hd E. apply (proj2 labels_split). rewrite <- E. apply in_map, Hd. Qed.
Lemma b_in : In b (before ++ b :: x ++ y).
Proof using MB Br Su One. apply in_or_app. right. left. reflexivity. Qed.
Lemma c_in : In c bs.
Proof using MB Br Su One. apply in_bs. auto. Qed.
Lemma a_ne : a <> s.
Proof using MB Br Su One. exact (ne_s b b_in). Qed.
Lemma fresh_a d : In d (before ++ x ++ y) -> label d <> a.
Proof using MB Br Su One.
  intros Hd E. pose proof (proj1 labels_split) as Nd. rewrite map_app in Nd. cbn [map] in Nd. apply NoDup_remove_2 in Nd. apply Nd. rewrite <- map_app. change (label b) with a. rewrite <- E. apply in_map, Hd.
Qed.
Lemma bs'_map : bs' = map M (before ++ b :: x ++ y).
Proof using MB Br Su One.
  unfold bs'. rewrite (map_app M before). cbn [map].
  assert (Ext : forall L, incl L (before ++ x ++ y) -> map fx L = map M L).
  { intros L I. apply map_ext_in. intros d Hd. unfold M. destruct (N.eqb_spec (label d) a) as [E|_]; [destruct (fresh_a d (I d Hd) E)|reflexivity]. }
  rewrite (Ext before) by (intros d Hd; apply in_or_app; auto). rewrite (Ext (x ++ y)) by (intros d Hd; apply in_or_app; auto). replace (M b) with (fx (join b c)); [reflexivity|]. unfold M. change (label b) with a. rewrite N.eqb_refl. reflexivity.
Qed.
Lemma M_label d : label (M d) = label d.
Proof using MB Br Su One. unfold M. destruct (label d =? a); reflexivity. Qed.
Lemma labels' : map label bs' = map label (before ++ b :: x ++ y).
Proof using MB Br Su One. rewrite bs'_map, map_map. apply map_ext. exact M_label. Qed.
Lemma find_M l L : find (fun d => label d =? l) (map M L) = option_map M (find (fun d => label d =? l) L).
Proof using MB Br Su One. induction L as [|d L IH]; cbn [map find]; [reflexivity|]. rewrite M_label. destruct (label d =? l); [reflexivity|exact IH]. Qed.
Lemma find_app_ {A} (p : A -> bool) l1 l2 : find p (l1 ++ l2) = match find p l1 with Some z => Some z | None => find p l2 end.
Proof using MB Br Su One. induction l1 as [|z l1 IH]; cbn [app find]; [reflexivity|]. destruct (p z); [reflexivity|exact IH]. Qed.
Lemma find' l : l <> s -> find (fun d => label d =? l) bs' = option_map M (find (fun d => label d =? l) bs).
Proof using MB Br Su One.
  intros Ne. rewrite bs'_map, find_M. f_equal. unfold bs. rewrite !find_app_. cbn [find]. rewrite !find_app_. cbn [find]. change (label c) with s. destruct (N.eqb_spec s l) as [E|_]; [congruence|reflexivity].
Qed.
Lemma find_c : find (fun d => label d =? s) bs = Some c.
Proof using MB Br Su One.
  assert (K : forall L, incl L (before ++ b :: x ++ y) -> find (fun d => label d =? s) L = None).
  { induction L as [|d L IH]; intros I; cbn [find]; [reflexivity|]. destruct (N.eqb_spec (label d) s) as [E|_]; [destruct (ne_s d (I d (or_introl eq_refl)) E)|]. apply IH. intros z Hz. apply I. right. exact Hz. }
  unfold bs. replace (before ++ b :: x ++ c :: y) with ((before ++ b :: x) ++ c :: y) by (rewrite <- app_assoc; reflexivity). rewrite find_app_, K.
  - cbn [find]. change (label c) with s. rewrite N.eqb_refl. reflexivity.
  - intros d Hd. apply in_app_or in Hd. apply in_or_app. destruct Hd as [Hd|[->|Hd]]; [left; exact Hd|right; left; reflexivity|right; right; apply in_or_app; left; exact Hd].
Qed.
Lemma find_b : find (fun d => label d =? a) bs = Some b.
Proof using MB Br Su One.
  unfold bs. rewrite find_app_. assert (K : forall L, incl L (before ++ x ++ y) -> find (fun d => label d =? a) L = None).
  { induction L as [|d L IH]; intros I; cbn [find]; [reflexivity|]. destruct (N.eqb_spec (label d) a) as [E|_]; [destruct (fresh_a d (I d (or_introl eq_refl)) E)|]. apply IH. intros z Hz. apply I. right. exact Hz. }
  rewrite K by (intros d Hd; apply in_or_app; auto). cbn [find]. change (label b) with a. rewrite N.eqb_refl. reflexivity.
Qed.
(** nothing else leads to [c] *)
Lemma succ_s d : In d bs -> In s (t_succ d) -> d = b.
Proof using MB Br Su One.
  intros Hd Hs. unfold bs in One. rewrite flat_map_app, count_app in One. cbn [flat_map] in One. rewrite Su, count_app in One. assert (O1 : count s [s] = 1%nat) by (unfold count; cbn [filter]; rewrite N.eqb_refl; reflexivity).
  rewrite O1 in One. assert (K : forall L, In d L -> (1 <= count s (flat_map t_succ L))%nat) by (intros L HL; apply count_in, in_flat_map; eauto).
  unfold bs in Hd. apply in_app_or in Hd. destruct Hd as [Hd|[Hd|Hd]]; [|auto|]; apply K in Hd; lia.
Qed.
Lemma c_ne_b : c <> b.
Proof using MB Br Su One. intros E. apply a_ne. unfold a, s. rewrite E. reflexivity. Qed.
Lemma succ_c : ~ In s (t_succ c).
Proof using MB Br Su One. intros H. exact (c_ne_b (succ_s c c_in H)). Qed.
Lemma phis_c : phis c = [].
Proof using MB Br Su One. exact (mb_no_phis _ _ MB c c_in One). Qed.
Lemma args_b : t_args b = [].
Proof using MB Br Su One. apply (mb_branch _ _ MB b); [apply in_bs; left; exact b_in|exact Br]. Qed.
Definition fp (p : phi) : phi := mkphi (p_res p) (map (fun z => (fst z, sub a s (snd z))) (p_args p)).
Lemma fx_body d : body (fx d) = body d.
Proof using MB Br Su One. unfold fx, redirect. cbn [body]. erewrite map_ext; [apply map_id|exact rename_id]. Qed.
Lemma fx_args d : t_args (fx d) = t_args d.
Proof using MB Br Su One. unfold fx, redirect. cbn [t_args]. apply map_id. Qed.
Lemma M_phis d : phis (M d) = map fp (phis d).
Proof using MB Br Su One. unfold M. destruct (label d =? a); reflexivity. Qed.
Lemma M_other d : In d bs -> label d <> a -> body (M d) = body d /\ t_op (M d) = t_op d /\ t_args (M d) = t_args d /\ t_succ (M d) = t_succ d.
Proof using MB Br Su One.
  intros Hd Ne. unfold M. destruct (N.eqb_spec (label d) a) as [E|_]; [contradiction|]. rewrite fx_body, fx_args. repeat split. cbn [fx redirect t_succ]. apply sub_all. intros H. apply Ne. rewrite (succ_s d Hd H). reflexivity.
Qed.
Lemma M_b : body (M b) = body b ++ body c /\ t_op (M b) = t_op c /\ t_args (M b) = t_args c /\ t_succ (M b) = t_succ c.
Proof using MB Br Su One. unfold M. change (label b) with a. rewrite N.eqb_refl, fx_body, fx_args. repeat split. cbn [fx redirect join t_succ]. apply sub_all, succ_c. Qed.
Lemma parent_other q args : q <> a -> q <> s -> option_map fst (find (fun z : N * N => snd z =? q) (map (fun z => (fst z, sub a s (snd z))) args)) = option_map fst (find (fun z => snd z =? q) args).
Proof using MB Br Su One.
  intros Na Ns. induction args as [|[v l] args IH]; cbn [map find fst snd]; [reflexivity|]. unfold sub at 1. destruct (N.eqb_spec l s) as [->|Nl].
  - destruct (N.eqb_spec a q) as [E|_]; [congruence|]. destruct (N.eqb_spec s q) as [E|_]; [congruence|exact IH].
  - destruct (N.eqb_spec l q) as [_|_]; [reflexivity|exact IH].
Qed.
Lemma parent_c args : (forall v, ~ In (v, a) args) -> option_map fst (find (fun z : N * N => snd z =? a) (map (fun z => (fst z, sub a s (snd z))) args)) = option_map fst (find (fun z => snd z =? s) args).
Proof using MB Br Su One.
  induction args as [|[v l] args IH]; intros H; cbn [map find fst snd]; [reflexivity|]. unfold sub at 1. destruct (N.eqb_spec l s) as [->|Nl]; [rewrite N.eqb_refl; reflexivity|].
  destruct (N.eqb_spec l a) as [->|_]; [destruct (H v); left; reflexivity|]. apply IH. intros v' Hv. apply (H v'). right. exact Hv.
Qed.
(** *** what is kept *)
Lemma in_bs' d' : In d' bs' -> exists d, In d (before ++ b :: x ++ y) /\ d' = M d.
Proof using MB Br Su One. rewrite bs'_map. intros H. apply in_map_iff in H. destruct H as (d & E & Hd). eauto. Qed.
Lemma bs_in d : In d (before ++ b :: x ++ y) -> In d bs.
Proof using MB Br Su One. intros H. apply in_bs. auto. Qed.
Lemma is_b d : In d bs -> label d = a -> d = b.
Proof using MB Br Su One. intros Hd E. apply (map_inj_nodup label _ (mb_labels _ _ MB)); auto. apply bs_in, b_in. Qed.
Lemma count' l : count l (flat_map t_succ bs) = (count l [s] + count l (flat_map t_succ bs'))%nat.
Proof using MB Br Su One.
  assert (K : forall L, incl L (before ++ x ++ y) -> flat_map t_succ (map fx L) = flat_map t_succ L).
  { intros L I. rewrite flat_map_concat_map, map_map, <- flat_map_concat_map. rewrite !flat_map_concat_map. f_equal. apply map_ext_in. intros d Hd. apply I in Hd. pose proof (fresh_a d Hd) as Na.
    assert (Hd' : In d bs) by (apply bs_in; apply in_app_or in Hd; apply in_or_app; destruct Hd as [Hd|Hd]; [left; exact Hd|right; right; exact Hd]).
    cbn [fx redirect t_succ]. apply sub_all. intros H. apply Na. rewrite (succ_s d Hd' H). reflexivity. }
  unfold bs, bs'. rewrite !flat_map_app, !count_app. cbn [flat_map]. rewrite !flat_map_app, !count_app. cbn [flat_map]. rewrite !count_app, Su.
  rewrite (K before) by (intros d Hd; apply in_or_app; auto). rewrite (K (x ++ y)) by (intros d Hd; apply in_or_app; auto). rewrite flat_map_app, count_app.
  assert (E : t_succ (fx (join b c)) = t_succ c) by (cbn [fx redirect join t_succ]; apply sub_all, succ_c). rewrite E. lia.
Qed.
Lemma count_ne l : l <> s -> count l (flat_map t_succ bs') = count l (flat_map t_succ bs).
Proof using MB Br Su One. intros Ne. rewrite (count' l). unfold count at 2. cbn [filter]. destruct (N.eqb_spec s l) as [E|_]; [congruence|reflexivity]. Qed.
Lemma args_of v q p : In (v, q) (p_args (fp p)) -> exists q0, In (v, q0) (p_args p) /\ q = sub a s q0.
Proof using MB Br Su One. cbn [fp p_args]. intros H. apply in_map_iff in H. destruct H as ([v0 q0] & E & H). cbn [fst snd] in E. injection E as <- <-. eauto. Qed.
Lemma in_M d : In d (before ++ b :: x ++ y) -> In (M d) bs'.
Proof using MB Br Su One. rewrite bs'_map. apply in_map. Qed.
Theorem merged_mergeable : mergeable branch g.
Proof using MB Br Su One.
  constructor; cbn [g blocks].
  - rewrite labels'. exact (proj1 labels_split).
  - intros d' Hd' E. apply in_bs' in Hd'. destruct Hd' as (d & Hd & ->). destruct (N.eq_dec (label d) a) as [Ea|Na].
    + apply is_b in Ea; [subst d|exact (bs_in _ Hd)]. destruct M_b as (_ & E1 & E2 & _). rewrite E1 in E. rewrite E2. exact (mb_branch _ _ MB c c_in E).
    + destruct (M_other d (bs_in _ Hd) Na) as (_ & E1 & E2 & _). rewrite E1 in E. rewrite E2. exact (mb_branch _ _ MB d (bs_in _ Hd) E).
  - intros e' p' v q Hd' Hp Hv. apply in_bs' in Hd'. destruct Hd' as (e & He & ->). rewrite M_phis in Hp. apply in_map_iff in Hp. destruct Hp as (p & <- & Hp). apply args_of in Hv. destruct Hv as (q0 & Hv & ->). rewrite M_label.
    destruct (mb_parents _ _ MB e p v q0 (bs_in _ He) Hp Hv) as (b' & Hb' & El & Hs). pose proof (ne_s e He) as Ne. cbn [f blocks] in Hb'. apply in_bs in Hb'. destruct Hb' as [Hb'| ->].
    + exists (M b'). split; [exact (in_M b' Hb')|]. rewrite M_label. assert (q0 <> s) by (rewrite <- El; apply ne_s, Hb'). rewrite sub_ne by assumption. split; [exact El|]. destruct (N.eq_dec (label b') a) as [Ea|Na].
      * apply is_b in Ea; [subst b'|exact (bs_in _ Hb')]. rewrite Su in Hs. destruct Hs as [E|[]]. congruence.
      * destruct (M_other b' (bs_in _ Hb') Na) as (_ & _ & _ & ->). exact Hs.
    + exists (M b). split; [exact (in_M b b_in)|]. rewrite M_label. fold s in El. rewrite <- El, sub_c. split; [reflexivity|]. destruct M_b as (_ & _ & _ & ->). exact Hs.
  - intros e' He' C. apply in_bs' in He'. destruct He' as (e & He & ->). rewrite M_label in C. rewrite M_phis. rewrite count_ne in C by exact (ne_s e He). rewrite (mb_no_phis _ _ MB e (bs_in _ He) C). reflexivity.
Qed.
Theorem merged_instructions : Permutation (flat_map body bs) (flat_map body bs').
Proof using MB Br Su One.
  assert (K : forall L, flat_map body (map fx L) = flat_map body L).
  { intros L. rewrite !flat_map_concat_map, map_map. f_equal. apply map_ext. exact fx_body. }
  unfold bs, bs'. rewrite !flat_map_app. cbn [flat_map]. rewrite !K, fx_body, !flat_map_app. cbn [flat_map join body]. apply Permutation_app_head. rewrite <- app_assoc. apply Permutation_app_head. apply Permutation_app_middle_. 
Qed.
(** the order of the text *)
Lemma labels_eq : map label bs = map label (before ++ b :: x) ++ s :: map label y /\ map label bs' = map label (before ++ b :: x) ++ map label y.
Proof using MB Br Su One.
  split; [unfold bs|rewrite labels']; rewrite !map_app; cbn [map]; rewrite ?map_app; cbn [map]; rewrite <- app_assoc; reflexivity.
Qed.
Lemma comes_merged p z : p <> s -> z <> s -> comes (map label bs) p z -> comes (map label bs') p z.
Proof using MB Br Su One. destruct labels_eq as [-> ->]. apply comes_remove. Qed.
Context {D W : Type} (m : machine D W).
Hypothesis Go : branches_go m branch.
Lemma turn_a o : turn m bs a o = match steps m (body b) o with None => None | Some o1 => Some (inr (s, o1)) end.
Proof using MB Br Su One Go.
  unfold turn. rewrite find_b, args_b, Su. destruct (steps m (body b) o) as [o1|]; [|reflexivity]. cbn [values]. rewrite (Go _ [] Br). cbn [nth_error]. rewrite find_c, phis_c. reflexivity.
Qed.
(** the end of a block *)
Definition after (bs : list block) (d : block) (l : N) (c1 : config D W) : option (seen (D := D) (W := W) + N * config D W) :=
  match values (env c1) (t_args d) with
  | None => None
  | Some ds =>
      match choose m (t_op d) ds with
      | None => Some (inl (Returned (t_op d) ds (world c1)))
      | Some k =>
          match nth_error (t_succ d) k with
          | None => None
          | Some l' => match find (fun b => label b =? l') bs with None => None | Some b' => match phis_from l (phis b') c1 c1 with None => None | Some c2 => Some (inr (l', c2)) end end
          end
      end
  end.
Lemma turn_after bs0 l o : turn m bs0 l o = match find (fun b => label b =? l) bs0 with None => None | Some d => match steps m (body d) o with None => None | Some c1 => after bs0 d l c1 end end.
Proof using. reflexivity. Qed.
Lemma after_same d d' l l' o : In d bs -> ~ In s (t_succ d) -> t_op d' = t_op d -> t_args d' = t_args d -> t_succ d' = t_succ d ->
  (forall e p, In e bs -> In (label e) (t_succ d) -> In p (phis e) -> option_map fst (find (fun z => snd z =? l') (p_args (fp p))) = option_map fst (find (fun z => snd z =? l) (p_args p))) ->
  after bs' d' l' o = after bs d l o.
Proof using MB Br Su One Go.
  intros Hd Ns E1 E2 E3 H. unfold after. rewrite E1, E2, E3. destruct (values (env o) (t_args d)) as [ds|]; [|reflexivity]. destruct (choose m (t_op d) ds) as [k|]; [|reflexivity].
  destruct (nth_error (t_succ d) k) as [z|] eqn:Ez; [|reflexivity]. apply nth_error_In in Ez. rewrite find' by (intros ->; exact (Ns Ez)). destruct (find (fun e => label e =? z) bs) as [e|] eqn:Fe; cbn [option_map]; [|reflexivity].
  apply (find_block_inv f) in Fe. destruct Fe as [He El]. rewrite M_phis. rewrite (phis_agree fp l l' (phis e)); [reflexivity|]. intros p Hp. split; [reflexivity|]. apply (H e p He); [rewrite El; exact Ez|exact Hp].
Qed.
Lemma after_next bs0 d l o l' o' : after bs0 d l o = Some (inr (l', o')) -> In l' (t_succ d).
Proof using.
  unfold after. destruct (values (env o) (t_args d)) as [ds|]; [|discriminate]. destruct (choose m (t_op d) ds) as [k|]; [|discriminate]. destruct (nth_error (t_succ d) k) as [z|] eqn:Ez; [|discriminate].
  destruct (find (fun e => label e =? z) bs0) as [e|]; [|discriminate]. destruct (phis_from l (phis e) o o) as [o2|]; [|discriminate]. intros E. injection E as <- _. exact (nth_error_In _ _ Ez).
Qed.
Lemma turn_other l o : l <> s -> l <> a -> turn m bs' l o = turn m bs l o /\ forall l' o', turn m bs l o = Some (inr (l', o')) -> l' <> s.
Proof using MB Br Su One Go.
  intros Ns Na. rewrite !turn_after, find' by exact Ns. destruct (find (fun d => label d =? l) bs) as [d|] eqn:Fd; cbn [option_map]; [|split; [reflexivity|discriminate]].
  apply (find_block_inv f) in Fd. destruct Fd as [Hd El]. assert (Nd : label d <> a) by congruence. destruct (M_other d Hd Nd) as (E0 & E1 & E2 & E3). rewrite E0.
  assert (Nsd : ~ In s (t_succ d)) by (intros K; apply Nd; rewrite (succ_s d Hd K); reflexivity).
  destruct (steps m (body d) o) as [o1|]; [|split; [reflexivity|discriminate]]. split.
  - apply after_same; auto. intros e p _ _ _. apply parent_other; auto.
  - intros l' o' E ->. exact (Nsd (after_next _ _ _ _ _ _ E)).
Qed.
Lemma turn_merged o : turn m bs' a o = match steps m (body b) o with None => None | Some o1 => turn m bs s o1 end.
Proof using MB Br Su One Go.
  rewrite turn_after, find' by exact a_ne. rewrite find_b. cbn [option_map]. destruct M_b as (E0 & E1 & E2 & E3). rewrite E0, steps_app. destruct (steps m (body b) o) as [o1|]; [|reflexivity].
  rewrite turn_after, find_c. destruct (steps m (body c) o1) as [o2|]; [|reflexivity]. apply after_same; auto; [exact c_in|exact succ_c|]. intros e p He Hs Hp. apply parent_c. intros v Hv.
  destruct (mb_parents _ _ MB e p v a He Hp Hv) as (b' & Hb' & Eb & Hs'). assert (b' = b) as -> by (apply (map_inj_nodup label _ (mb_labels _ _ MB)); auto; apply in_bs; left; exact b_in).
  rewrite Su in Hs'. destruct Hs' as [E|[]]. apply succ_c. rewrite E. exact Hs.
Qed.
Lemma turn_c_next o l' o' : turn m bs s o = Some (inr (l', o')) -> l' <> s.
Proof using MB Br Su One Go.
  rewrite turn_after, find_c. destruct (steps m (body c) o) as [o1|]; [|discriminate]. intros E ->. exact (succ_c (after_next _ _ _ _ _ _ E)).
Qed.
Lemma forward : forall n l o op ds w, l <> s -> run_from m bs n l o = Some (Returned op ds w) -> exists k, (k <= n)%nat /\ run_from m bs' k l o = Some (Returned op ds w).
Proof using MB Br Su One Go.
  induction n as [n IH] using lt_wf_ind. intros l o op ds w Ns H. destruct n as [|n]; [discriminate|]. rewrite run_turn in H. destruct (N.eq_dec l a) as [->|Na].
  - rewrite turn_a in H. pose proof (turn_merged o) as T. destruct (steps m (body b) o) as [o1|]; [|discriminate]. destruct n as [|n]; [discriminate|]. rewrite run_turn in H. destruct (turn m bs s o1) as [[z|[l' o']]|] eqn:E; [| |discriminate].
    + injection H as ->. exists 1%nat. split; [lia|]. rewrite run_turn, T. reflexivity.
    + destruct (IH n ltac:(lia) l' o' op ds w (turn_c_next _ _ _ E) H) as (k & Lk & Hk). exists (S k). split; [lia|]. rewrite run_turn, T. exact Hk.
  - destruct (turn_other l o Ns Na) as [T Nx]. destruct (turn m bs l o) as [[z|[l' o']]|] eqn:E; [| |discriminate].
    + injection H as ->. exists 1%nat. split; [lia|]. rewrite run_turn, T. reflexivity.
    + destruct (IH n ltac:(lia) l' o' op ds w (Nx _ _ eq_refl) H) as (k & Lk & Hk). exists (S k). split; [lia|]. rewrite run_turn, T. exact Hk.
Qed.
Lemma backward : forall n l o r, l <> s -> run_from m bs' n l o = Some r -> exists k, (n <= k)%nat /\ run_from m bs k l o = Some r.
Proof using MB Br Su One Go.
  induction n as [|n IH]; intros l o r Ns H; [exists O; split; [lia|exact H]|]. rewrite run_turn in H. destruct (N.eq_dec l a) as [->|Na].
  - pose proof (turn_a o) as Ta. rewrite turn_merged in H. destruct (steps m (body b) o) as [o1|]; [|discriminate]. destruct (turn m bs s o1) as [[z|[l' o']]|] eqn:E; [| |discriminate].
    + injection H as ->. exists (S (S n)). split; [lia|]. rewrite run_turn, Ta, run_turn, E. reflexivity.
    + destruct (IH l' o' r (turn_c_next _ _ _ E) H) as (k & Lk & Hk). exists (S (S k)). split; [lia|]. rewrite run_turn, Ta, run_turn, E. exact Hk.
  - destruct (turn_other l o Ns Na) as [T Nx]. rewrite T in H. destruct (turn m bs l o) as [[z|[l' o']]|] eqn:E; [| |discriminate].
    + exists (S n). split; [lia|]. rewrite run_turn, E. exact H.
    + destruct (IH l' o' r (Nx _ _ eq_refl) H) as (k & Lk & Hk). exists (S k). split; [lia|]. rewrite run_turn, E. exact Hk.
Qed.
Lemma onward : forall n l o, l <> s -> (forall k, run_from m bs k l o <> None) -> run_from m bs' n l o <> None.
Proof using MB Br Su One Go.
  induction n as [|n IH]; intros l o Ns H; [discriminate|]. rewrite run_turn. destruct (N.eq_dec l a) as [->|Na].
  - rewrite turn_merged. pose proof (turn_a o) as Ta. destruct (steps m (body b) o) as [o1|].
    + destruct (turn m bs s o1) as [[z|[l' o']]|] eqn:E; [discriminate| |].
      * apply IH; [exact (turn_c_next _ _ _ E)|]. intros k K. apply (H (S (S k))). rewrite run_turn, Ta, run_turn, E. exact K.
      * exfalso. apply (H 2%nat). rewrite run_turn, Ta, run_turn, E. reflexivity.
    + exfalso. apply (H 1%nat). rewrite run_turn, Ta. reflexivity.
  - destruct (turn_other l o Ns Na) as [T Nx]. rewrite T. destruct (turn m bs l o) as [[z|[l' o']]|] eqn:E; [discriminate| |].
    + apply IH; [exact (Nx _ _ eq_refl)|]. intros k K. apply (H (S k)). rewrite run_turn, E. exact K.
    + exfalso. apply (H 1%nat). rewrite run_turn, E. reflexivity.
Qed.
Lemma entry_same : entry g = entry f /\ entry f <> s /\ bs <> [] /\ bs' <> [].
Proof using MB Br Su One.
  assert (E1 : entry f = label (hd b before)) by apply entry_hd. assert (E2 : entry g = label (hd (fx (join b c)) (map fx before))) by apply entry_hd. rewrite E1, E2. repeat split.
  - apply hd_labels; reflexivity.
  - apply ne_s. apply hd_in_.
  - intros E. symmetry in E. exact (app_cons_not_nil _ _ _ E).
  - intros E. symmetry in E. exact (app_cons_not_nil _ _ _ E).
Qed.
Lemma run_entry h n globals w0 : blocks h <> [] -> run m h n globals w0 = match steps m (prelude h) (mkconfig globals w0) with Some o => run_from m (blocks h) n (entry h) o | None => None end.
Proof using. unfold run, entry. destruct (blocks h); [congruence|reflexivity]. Qed.
Theorem merged_same globals w0 : same_behaviour m globals w0 f g.
Proof using MB Br Su One Go.
  destruct entry_same as (En & Ns & N1 & N2).
  assert (Rf : forall n, run m f n globals w0 = match steps m pre (mkconfig globals w0) with Some o => run_from m bs n (entry f) o | None => None end) by (intros n; exact (run_entry f n globals w0 N1)).
  assert (Rg : forall n, run m g n globals w0 = match steps m pre (mkconfig globals w0) with Some o => run_from m bs' n (entry f) o | None => None end) by (intros n; rewrite <- En; exact (run_entry g n globals w0 N2)).
  destruct (steps m pre (mkconfig globals w0)) as [o|]; constructor.
  - intros n op ds w. rewrite Rf. intros H. destruct (forward n _ o op ds w Ns H) as (k & Lk & Hk). exists k. rewrite Rg. auto.
  - intros n r. rewrite Rg. intros H. destruct (backward n _ o r Ns H) as (k & Lk & Hk). exists k. rewrite Rf. auto.
  - intros H n. rewrite Rg. apply onward; [exact Ns|]. intros k. rewrite <- Rf. apply H.
  - intros n op ds w. rewrite Rf. discriminate.
  - intros n r. rewrite Rg. discriminate.
  - intros H. destruct (H O). rewrite Rf. reflexivity.
Qed.
Variable reached : N -> bool.
Theorem merged_order : reached a = true -> text_order reached f -> text_order reached g.
Proof using MB Br Su One.
  intros Ra [Af Re]. assert (Nd : NoDup (map label bs)) by exact (mb_labels _ _ MB). assert (Rs : reached s = true) by (apply (Re b s); [exact (bs_in b b_in)|exact Ra|rewrite Su; left; reflexivity]).
  assert (Co : forall d z, In d bs -> reached (label d) = true -> t_succ d = [z] -> count z (flat_map t_succ bs) = 1%nat -> comes (map label bs) (label d) z).
  { intros d z Hd R E C. destruct (in_split _ _ Hd) as (l1 & l2 & El). exists (map label l1), (map label l2). rewrite El, map_app. split; [reflexivity|]. exact (Af l1 d l2 z El R E C). }
  constructor.
  - cbn [g blocks]. intros l1 d' l2 z El R E C. assert (Nd' : NoDup (map label bs')) by exact (mb_labels _ _ merged_mergeable).
    enough (Cm : comes (map label bs') (label d') z).
    { destruct Cm as (k1 & k2 & Ek & Hz). rewrite El, map_app in Ek, Nd'. cbn [map] in Ek, Nd'. rewrite (nodup_after _ _ _ _ _ Nd' Ek). exact Hz. }
    assert (Hd' : In d' bs') by (rewrite El; apply in_or_app; right; left; reflexivity). apply in_bs' in Hd'. destruct Hd' as (d & Hd & ->). rewrite M_label in R |- *.
    destruct (N.eq_dec (label d) a) as [Ea|Na].
    + apply is_b in Ea; [subst d|exact (bs_in _ Hd)]. destruct M_b as (_ & _ & _ & Es). rewrite Es in E. assert (Nz : z <> s) by (intros ->; apply succ_c; rewrite E; left; reflexivity). apply comes_merged; [exact a_ne|exact Nz|].
      apply (comes_trans _ _ s _ Nd); [apply Co; auto; exact (bs_in b b_in)|]. apply Co; [exact c_in|exact Rs|exact E|]. rewrite <- count_ne by exact Nz. exact C.
    + destruct (M_other d (bs_in _ Hd) Na) as (_ & _ & _ & Es). rewrite Es in E. assert (Nz : z <> s) by (intros ->; apply Na; rewrite (succ_s d (bs_in _ Hd)); [reflexivity|rewrite E; left; reflexivity]).
      apply comes_merged; [exact (ne_s d Hd)|exact Nz|]. apply Co; auto; [exact (bs_in _ Hd)|]. rewrite <- count_ne by exact Nz. exact C.
  - cbn [g blocks]. intros d' z Hd' R Hz. apply in_bs' in Hd'. destruct Hd' as (d & Hd & ->). rewrite M_label in R. destruct (N.eq_dec (label d) a) as [Ea|Na].
    + apply is_b in Ea; [subst d|exact (bs_in _ Hd)]. destruct M_b as (_ & _ & _ & Es). rewrite Es in Hz. exact (Re c z c_in Rs Hz).
    + destruct (M_other d (bs_in _ Hd) Na) as (_ & _ & _ & Es). rewrite Es in Hz. exact (Re d z (bs_in _ Hd) R Hz).
Qed.
(** the structure *)
Variable conditional : N -> bool.
Variable ms : headers.
Hypothesis Pm : is_merge ms a && is_merge ms s = false.
Hypothesis Ph : forall mg, header ms a = Some mg -> m_target mg = s \/ (header ms s = None /\ (branch (t_op c) = true \/ conditional (t_op c) = true)).
Lemma in_headers h' mg' : In (h', mg') (join_headers a s ms) ->
  exists h mg, In (h, mg) ms /\ (h = a -> m_target mg <> s) /\ h' = sub a s h /\ m_loop mg' = m_loop mg /\ m_target mg' = sub a s (m_target mg) /\ m_continue mg' = sub a s (m_continue mg).
Proof using MB Br Su One.
  unfold join_headers. intros H. apply in_map_iff in H. destruct H as ([h mg] & E & H). cbn [fst snd] in E. injection E as <- <-. apply filter_In in H. cbn [fst snd] in H. destruct H as [H F]. exists h, mg. repeat split; auto.
  intros -> Et. rewrite Et, !N.eqb_refl in F. discriminate.
Qed.
Lemma label' l : In l (map label bs) -> In (sub a s l) (map label bs').
Proof using MB Br Su One.
  rewrite labels'. intros H. apply in_map_iff in H. destruct H as (d & <- & Hd). apply in_bs in Hd. destruct Hd as [Hd| ->].
  - rewrite sub_ne by exact (ne_s d Hd). apply in_map, Hd.
  - fold s. rewrite sub_c. apply (in_map label _ b), b_in.
Qed.
Theorem merged_structure : well_structured branch conditional f ms -> well_structured branch conditional g (join_headers a s ms).
Proof using MB Br Su One Pm Ph.
  intros [Wh Wt We Wl Ws]. assert (Hh : forall h mg, In (h, mg) ms -> header ms h = Some mg) by (intros h mg; apply header_in; exact Wh). constructor.
  - unfold join_headers. rewrite map_map. cbn [fst]. rewrite <- (map_map fst (sub a s)). apply sub_nodup; [apply nodup_map_filter, Wh|]. intros [Ha Hs]. apply in_map_iff in Ha, Hs. destruct Ha as ([h1 m1] & E1 & Ha), Hs as ([h2 m2] & E2 & Hs). cbn [fst] in E1, E2. subst h1 h2.
    apply filter_In in Ha, Hs. destruct Ha as [Ha Fa], Hs as [Hs _]. cbn [fst snd] in Fa. destruct (Ph m1 (Hh _ _ Ha)) as [E|[E _]]; [rewrite E, !N.eqb_refl in Fa; discriminate|]. rewrite (Hh _ _ Hs) in E. discriminate.
  - unfold join_headers. rewrite map_map. cbn [snd m_target]. rewrite <- (map_map (fun h => m_target (snd h)) (sub a s)). apply sub_nodup; [apply nodup_map_filter, Wt|]. intros [Ha Hs].
    assert (K : forall l P, In l (map (fun h => m_target (snd h)) (filter P ms)) -> is_merge ms l = true).
    { intros l P H. apply in_map_iff in H. destruct H as (h & E & H). apply filter_In in H. apply existsb_exists. exists h. split; [apply H|]. apply N.eqb_eq, E. }
    rewrite (K _ _ Ha), (K _ _ Hs) in Pm. discriminate.
  - intros h' mg' H. apply in_headers in H. destruct H as (h & mg & H & _ & -> & El & -> & ->). rewrite El. destruct (We h mg H) as (A & B & C). cbn [g blocks]. repeat split; [apply label', A|apply label', B|]. intros L. apply label', C, L.
  - intros d' mg' Hd' H L. cbn [g blocks] in Hd'. apply in_bs' in Hd'. destruct Hd' as (d & Hd & ->). rewrite M_label in H. apply in_headers in H. destruct H as (h & mg & H & Ht & E & El & _). rewrite El in L. destruct (N.eq_dec (label d) a) as [Ea|Na].
    + apply is_b in Ea; [subst d|exact (bs_in _ Hd)]. destruct M_b as (_ & Eo & _). rewrite Eo. destruct (N.eq_dec h s) as [->|Ns]; [exact (Wl c mg c_in H L)|]. rewrite sub_ne in E by exact Ns. fold a in E. subst h. destruct (Ph mg (Hh _ _ H)) as [E|[_ E]]; [destruct (Ht eq_refl E)|exact E].
    + destruct (M_other d (bs_in _ Hd) Na) as (_ & Eo & _). rewrite Eo. destruct (N.eq_dec h s) as [->|Ns]; [rewrite sub_c in E; contradiction|]. rewrite sub_ne in E by exact Ns. subst h. exact (Wl d mg (bs_in _ Hd) H L).
  - intros d' mg' Hd' H L. cbn [g blocks] in Hd'. apply in_bs' in Hd'. destruct Hd' as (d & Hd & ->). rewrite M_label in H. apply in_headers in H. destruct H as (h & mg & H & Ht & E & El & _). rewrite El in L. destruct (N.eq_dec (label d) a) as [Ea|Na].
    + apply is_b in Ea; [subst d|exact (bs_in _ Hd)]. destruct M_b as (_ & Eo & _). rewrite Eo. destruct (N.eq_dec h s) as [->|Ns]; [exact (Ws c mg c_in H L)|]. rewrite sub_ne in E by exact Ns. fold a in E. subst h.
      rewrite (Ws b mg (bs_in b b_in) H L) in Br. discriminate.
    + destruct (M_other d (bs_in _ Hd) Na) as (_ & Eo & _). rewrite Eo. destruct (N.eq_dec h s) as [->|Ns]; [rewrite sub_c in E; contradiction|]. rewrite sub_ne in E by exact Ns. subst h. exact (Ws d mg (bs_in _ Hd) H L).
Qed.
(** constructs that must not meet *)
Lemma leads_app f0 p q z : leads branch f0 p q -> leads branch f0 q z -> leads branch f0 p z.
Proof using. induction 1 as [l|d u l Hd B S C L IH]; intros H; [exact H|]. eapply L_step; eauto. Qed.
Lemma b_leads : leads branch f a s.
Proof using MB Br Su One. eapply L_step; [exact (bs_in b b_in)|exact Br|exact Su|exact One|constructor]. Qed.
Lemma leads_lift p z : leads branch g p z -> forall k, sub a s k = p -> leads branch f k z \/ (k = s /\ z = a).
Proof using MB Br Su One.
  induction 1 as [l|d' u l Hd' B S C L IH]; intros k E.
  - unfold sub in E. destruct (N.eqb_spec k s) as [E1|_]; [right; auto|]. rewrite E. left. constructor.
  - cbn [g blocks] in Hd', C. apply in_bs' in Hd'. destruct Hd' as (d & Hd & ->). rewrite M_label in E. left. destruct (N.eq_dec (label d) a) as [Ea|Na].
    + apply is_b in Ea; [subst d|exact (bs_in _ Hd)]. destruct M_b as (_ & Eo & _ & Es). rewrite Eo in B. rewrite Es in S. assert (Nu : u <> s) by (intros ->; apply succ_c; rewrite S; left; reflexivity).
      rewrite count_ne in C by exact Nu. destruct (IH u (sub_ne _ _ _ Nu)) as [K|[K _]]; [|contradiction].
      assert (Ls : leads branch f s l) by (eapply (L_step _ f c); [exact c_in|exact B|exact S|exact C|exact K]).
      unfold sub in E. destruct (N.eqb_spec k s) as [E1|_]; [rewrite E1; exact Ls|]. rewrite E. exact (leads_app _ _ _ _ b_leads Ls).
    + destruct (M_other d (bs_in _ Hd) Na) as (_ & Eo & _ & Es). rewrite Eo in B. rewrite Es in S. assert (Nu : u <> s) by (intros ->; apply Na; rewrite (succ_s d (bs_in _ Hd)); [reflexivity|rewrite S; left; reflexivity]).
      rewrite count_ne in C by exact Nu. destruct (IH u (sub_ne _ _ _ Nu)) as [K|[K _]]; [|contradiction].
      unfold sub in E. destruct (N.eqb_spec k s) as [E1|_]; [congruence|]. rewrite E. eapply (L_step _ f d); [exact (bs_in _ Hd)|exact B|exact S|exact C|exact K].
Qed.
Lemma is_merge_in h mg : In (h, mg) ms -> is_merge ms (m_target mg) = true.
Proof using. intros H. apply existsb_exists. exists (h, mg). split; [exact H|]. apply N.eqb_refl. Qed.
Lemma is_continue_in h mg : In (h, mg) ms -> m_loop mg = true -> is_continue ms (m_continue mg) = true.
Proof using. intros H L. apply existsb_exists. exists (h, mg). split; [exact H|]. cbn [snd]. rewrite L, N.eqb_refl. reflexivity. Qed.
Theorem merged_apart : is_merge ms a && is_continue ms s = false -> apart branch f ms -> apart branch g (join_headers a s ms).
Proof using MB Br Su One.
  intros Pc Ap h1 m1 h2 m2 H1 L1 H2 Le. apply in_headers in H1, H2. destruct H1 as (h & mg & H & _ & _ & El & _ & Ec), H2 as (h' & mg' & H' & _ & _ & _ & Et & _). rewrite El in L1. rewrite Ec, Et in Le.
  destruct (leads_lift _ _ Le _ eq_refl) as [K|[Ek Ea]].
  - unfold sub in K. destruct (N.eqb_spec (m_target mg') s) as [Es|_]; [|exact (Ap _ _ _ _ H L1 H' K)]. apply (Ap _ _ _ _ H L1 H'). rewrite Es. exact (leads_app _ _ _ _ K b_leads).
  - unfold sub in Ea. destruct (N.eqb_spec (m_target mg') s) as [Es|_].
    + apply (Ap _ _ _ _ H L1 H'). rewrite Ek, Es. constructor.
    + rewrite <- Ea, (is_merge_in _ _ H'), <- Ek, (is_continue_in _ _ H L1) in Pc. discriminate.
Qed.
Theorem merged_cases case : (is_merge ms s || is_continue ms s = true -> case a = false) -> cases_apart case ms -> cases_apart case (join_headers a s ms).
Proof using MB Br Su One.
  intros Pc Ca h1 m1 H1. apply in_headers in H1. destruct H1 as (h & mg & H & _ & _ & El & Et & Ec). rewrite El, Et, Ec. destruct (Ca h mg H) as [A B]. unfold sub. split; [|intros L; specialize (B L)].
  - destruct (N.eqb_spec (m_target mg) s) as [E|_]; [|exact A]. apply Pc. rewrite <- E, (is_merge_in _ _ H). reflexivity.
  - destruct (N.eqb_spec (m_continue mg) s) as [E|_]; [|exact B]. apply Pc. rewrite <- E, (is_continue_in _ _ H L), orb_true_r. reflexivity.
Qed.
Theorem merged_targets : is_merge ms s = false -> merge_blocks_of (join_headers a s ms) = merge_blocks_of ms.
Proof using.
  intros N. assert (K : forall h, In h ms -> m_target (snd h) <> s).
  { intros h Hh E. enough (is_merge ms s = true) by congruence. apply existsb_exists. exists h. split; [exact Hh|]. apply N.eqb_eq, E. }
  unfold merge_blocks_of, join_headers. clear N. revert K. generalize ms as l. induction l as [|h l IH]; intros K; cbn [filter map]; [reflexivity|]. pose proof (K h (or_introl eq_refl)) as Kh.
  destruct (N.eqb_spec (m_target (snd h)) s) as [E|_]; [contradiction|]. rewrite andb_false_r. cbn [negb map snd m_target]. rewrite sub_ne by exact Kh. f_equal. apply IH. intros h' H'. apply K. right. exact H'.
Qed.
Theorem leads_back p z : leads branch g p z -> leads branch f p z.
Proof using MB Br Su One.
  intros L. destruct (N.eq_dec p s) as [E|Ns].
  - destruct L as [l|d' u l Hd' B S C L]; [constructor|]. cbn [g blocks] in Hd'. apply in_bs' in Hd'. destruct Hd' as (d & Hd & ->). rewrite M_label in E. destruct (ne_s d Hd E).
  - destruct (leads_lift _ _ L p (sub_ne _ _ _ Ns)) as [K|[K _]]; [exact K|contradiction].
Qed.
Lemma sub_leads l : leads branch f (sub a s l) l.
Proof using MB Br Su One. unfold sub. destruct (N.eqb_spec l s) as [E|_]; [rewrite E; exact b_leads|constructor]. Qed.
Theorem merged_constructs : constructs_kept branch f ms (join_headers a s ms).
Proof using MB Br Su One.
  intros h mg H. destruct ((h =? a) && (m_target mg =? s)) eqn:E.
  - apply andb_true_iff in E. destruct E as [E1 E2]. apply N.eqb_eq in E1, E2. left. exists a. rewrite E1, E2. split; [constructor|exact b_leads].
  - right. exists (sub a s h), (mkmerge (m_loop mg) (sub a s (m_target mg)) (sub a s (m_continue mg))). cbn [m_loop m_target m_continue]. repeat split; try (intros _); try apply sub_leads.
    unfold join_headers. apply in_map_iff. exists (h, mg). split; [reflexivity|]. apply filter_In. split; [exact H|]. cbn [fst snd]. rewrite E. reflexivity.
Qed.
End Merge.
