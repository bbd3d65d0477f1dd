(** Proofs about moving instructions out of loops: the function with one instruction moved does what the old one does. *)
From Verif Require Import Base GraphSpec NamedIds NamedIdsProofs Redundancy RedundancySpec RedundancyProofs RedundancyProofs2 Licm LicmSpec LicmProofs.
Local Open Scope N_scope.

Section Sim.
Context {D W : Type} (m : machine D W).
Variable f : func.
Variables (h p : N) (ins : list N).
Hypothesis WF : well_formed f.
Hypothesis PH : has_preheader f h p ins.
Variables (b : block) (kept rest : list inst) (i : inst) (r : N).
Hypothesis Hb : In b (blocks f).
Hypothesis Hin : In (label b) ins.
Hypothesis Rb : reach f b.
Hypothesis Bd : body b = kept ++ i :: rest.
Hypothesis Pi : pure_inst i r.
Hypothesis Out : forall a, In a (reads i) -> is_inside f ins a = false.
Hypothesis Def : match i with IPure _ op _ => forall ds, pure m op ds <> None | _ => True end.

Notation nc := (fun _ : N => false).
Notation f' := (moved f p b kept rest i).
Notation mv := (mv p b kept rest i).
Notation pl := (pl b kept).
Notation n := (n kept).
Lemma no_comm : commutes m nc.
Proof. intros op x y E. discriminate E. Qed.
Lemma WF' : well_formed f'.
Proof using WF PH Hb Hin Rb Bd Pi Out Def. exact (moved_wf f h p ins WF PH b kept rest i r Hb Hin Rb Bd Pi Out). Qed.

Definition alike (o u : config D W) : Prop := world u = world o /\ forall y, y <> r -> env u y = env o y.
(** the operands of the instruction have values where they are available *)
Definition full (e : N -> option D) (c : block) (k : nat) : Prop := forall a, In a (reads i) -> available f c k a -> e a <> None.
Record sim (o u : config D W) V V' (c : block) (k k' : nat) : Prop := {
  s_alike : alike o u;
  s_old : good m f nc (env o) V c k;
  s_new : good m f' nc (env u) V' (mv c) k';
  s_full : full (env o) c k }.

Lemma has_i : has f i.
Proof using WF PH Hb Hin Rb Bd Pi Out Def. right. exists b, n. split; [exact Hb|]. exact (nth_i f h p ins WF PH b kept rest i r Hb Hin Rb Bd Pi Out). Qed.
Lemma has_i' : has f' i.
Proof using WF PH Hb Hin Rb Bd Pi Out Def.
  right. destruct (block_p f h p ins WF PH b kept rest i r Hb Hin Rb Bd Pi Out) as (c & Hc & E). exists (mv c), (length (body c)). split; [rewrite blocks_moved; apply in_map, Hc|].
  rewrite (body_p f h p ins PH b kept rest i Hin c E), nth_error_app2, Nat.sub_diag by lia. reflexivity.
Qed.
Lemma agree o u V V' c k k' : In c (blocks f) -> reach f c -> (pl c k <= k')%nat -> sim o u V V' c k k' -> forall y, available f c k y -> env u y = env o y.
Proof using WF PH Hb Hin Rb Bd Pi Out Def.
  intros Hc R Lk S y Ay. destruct (N.eq_dec y r) as [->|Ne]; [|apply S, Ne].
  assert (Ay' : available f' (mv c) k' r).
  { apply (avail_later _ _ (pl c k)); [|exact Lk]. apply (avail_moved f h p ins WF PH b kept rest i r Hb Hin Rb Bd Pi Out); auto. }
  assert (Eq : forall a, In a (reads i) -> env u a = env o a).
  { intros a Ha. apply S. exact (reads_ne f h p ins WF PH b kept rest i r Hb Hin Rb Bd Pi Out a Ha). }
  pose proof (s_old _ _ _ _ _ _ _ S) as Go. pose proof (s_new _ _ _ _ _ _ _ S) as Gu. pose proof has_i as H. pose proof has_i' as H'.
  destruct Pi as [Ri Np]. destruct i as [r0 op args|r0 a|r0 op args]; [| |destruct Np]; cbn in Ri; injection Ri as ->.
  - assert (M : forall g, has g (IPure r op args) -> means g nc r (Node op (map LId args))).
    { intros g Hg. apply (M_pure g nc r op args); [exact Hg|apply map_length|]. intros j a t Ha Ht. rewrite nth_error_map, Ha in Ht. cbn in Ht. injection Ht as <-. constructor. }
    rewrite <- (Go r _ (M _ H) Ay), <- (Gu r _ (M _ H') Ay'). rewrite !eval_node. assert (L : forall l, (forall a, In a l -> env u a = env o a) -> evals m (env u) V' (map LId l) = evals m (env o) V (map LId l)).
    { induction l as [|x l IH]; intros Hl; cbn; [reflexivity|]. rewrite (Hl x (or_introl eq_refl)), IH; [reflexivity|]. intros a Ha. apply Hl. right. exact Ha. }
    rewrite (L args Eq). reflexivity.
  - assert (M : forall g, has g (ICopy r a) -> means g nc r (LId a)) by (intros g Hg; apply (M_copy g nc r a); [exact Hg|constructor]).
    rewrite <- (Go r _ (M _ H) Ay), <- (Gu r _ (M _ H') Ay'). cbn. apply Eq. left. reflexivity.
Qed.

(** values stay *)
Lemma step_sets x o o' y : step m x o = Some o' -> result x = Some y -> env o' y <> None.
Proof using.
  intros H E. destruct x as [r0 op args|r0 a|r0 op args]; cbn in *.
  - destruct (values (env o) args) as [ds|]; [|discriminate]. destruct (pure m op ds); [|discriminate]. injection H as <-. injection E as ->. cbn. rewrite upd_same. discriminate.
  - destruct (env o a); [|discriminate]. injection H as <-. injection E as ->. cbn. rewrite upd_same. discriminate.
  - destruct (values (env o) args) as [ds|]; [|discriminate]. destruct (own m op ds (world o)) as [[d w]|]; [|discriminate]. injection H as <-. subst r0. cbn. rewrite upd_same. discriminate.
Qed.
Lemma full_step c k x o o' : In c (blocks f) -> nth_error (body c) k = Some x -> step m x o = Some o' -> full (env o) c (S k) -> full (env o') c (S (S k)).
Proof using.
  intros Hc Hx Hs F a Ha Av. assert (Dec : result x = Some a \/ result x <> Some a) by (destruct (result x) as [z|]; [destruct (N.eq_dec z a); [left|right]; congruence|right; discriminate]).
  destruct Dec as [E|E]; [eapply step_sets; eauto|]. rewrite (step_other m x o o' a Hs E). apply F; [exact Ha|]. destruct (avail_step f c (S k) a Av) as [A|[_ (x' & Hx' & Rx')]]; [exact A|congruence].
Qed.
Lemma full_edge c c' (o o' : config D W) : In c (blocks f) -> reach f c -> In c' (blocks f) -> In (label c') (t_succ c) -> phis_from (label c) (phis c') o o = Some o' ->
  full (env o) c (S (length (body c))) -> full (env o') c' 1.
Proof using WF PH Hb Hin Rb Bd Pi Out Def.
  intros Hc R Hc' Hs Hp F a Ha Av. destruct (avail_step f c' 0 a Av) as [A|Dx].
  - rewrite (proj2 (phis_other _ _ _ _ _ Hp) a).
    + apply F; [exact Ha|]. eapply avail_edge; eauto.
    + intros I. apply in_map_iff in I. destruct I as (q & Eq & Hq). assert (Dy : defined_at f a c' 0) by (split; [exact Hc'|eauto]). exact (avail_ne f c' 0 a a WF Dy A eq_refl).
  - destruct Dx as [_ (q & Hq & Eq)]. destruct (phis_values _ _ _ _ _ (wf_phi_once f WF c' Hc') Hp q Hq) as (x & l & _ & Er & Nx). congruence.
Qed.

(** the same instruction on both sides *)
Lemma same_step x o u o' : alike o u -> values (env u) (reads x) = values (env o) (reads x) -> step m x o = Some o' -> exists u', step m x u = Some u' /\ alike o' u'.
Proof using.
  intros [Ew Ey] Va Hs. destruct x as [r0 op args|r0 a|r0 op args]; cbn [step reads] in *.
  - rewrite Va. destruct (values (env o) args) as [ds|]; [|discriminate]. destruct (pure m op ds) as [d|]; [|discriminate]. injection Hs as <-. eexists. split; [reflexivity|].
    split; [exact Ew|]. intros y Ny. cbn. unfold upd. destruct (y =? r0); [reflexivity|apply Ey, Ny].
  - cbn [values] in Va. destruct (env u a) as [d'|], (env o a) as [d|]; try discriminate. injection Va as ->. injection Hs as <-. eexists. split; [reflexivity|].
    split; [exact Ew|]. intros y Ny. cbn. unfold upd. destruct (y =? r0); [reflexivity|apply Ey, Ny].
  - rewrite Va. destruct (values (env o) args) as [ds|]; [|discriminate]. rewrite Ew. destruct (own m op ds (world o)) as [[d w]|]; [|discriminate]. injection Hs as <-. eexists. split; [reflexivity|].
    split; [reflexivity|]. intros y Ny. cbn. destruct r0 as [r0|]; [unfold upd; destruct (y =? r0); [reflexivity|apply Ey, Ny]|apply Ey, Ny].
Qed.
Lemma stay_step c j x o u o' V V' : In c (blocks f) -> reach f c -> nth_error (body c) j = Some x -> (c = b -> j <> n) -> step m x o = Some o' ->
  sim o u V V' c (S j) (pl c (S j)) -> exists u', step m x u = Some u' /\ sim o' u' V V' c (S (S j)) (pl c (S (S j))).
Proof using WF PH Hb Hin Rb Bd Pi Out Def.
  intros Hc R Hx Ne Hs S. pose proof (agree o u V V' c _ _ Hc R (Nat.le_refl _) S) as Ag.
  assert (Va : values (env u) (reads x) = values (env o) (reads x)) by (apply values_ext; intros a Ha; apply Ag; eapply (wf_uses f WF); eauto).
  destruct (same_step x o u o' (s_alike _ _ _ _ _ _ _ S) Va Hs) as (u' & Hu & Al). exists u'. split; [exact Hu|].
  destruct (stay f h p ins WF PH b kept rest i r Hb Hin Rb Bd Pi Out c j x Hc Hx Ne) as (j' & E1 & E2 & E3).
  constructor; [exact Al| | |].
  - exact (good_step m f nc WF no_comm c j x o o' V Hc R Hx Hs (s_old _ _ _ _ _ _ _ S)).
  - rewrite E3. pose proof (s_new _ _ _ _ _ _ _ S) as G. rewrite E1 in G.
    refine (good_step m f' nc WF' no_comm (mv c) j' x u u' V' _ _ E2 Hu G); [rewrite blocks_moved; apply in_map, Hc|apply reach_moved, R].
  - eapply full_step; eauto. apply S.
Qed.
Lemma stay_steps c V V' : In c (blocks f) -> reach f c -> forall l2 l1 l3 o u o', body c = l1 ++ l2 ++ l3 ->
  (c = b -> (length l1 + length l2 <= n \/ n < length l1)%nat) -> steps m l2 o = Some o' -> sim o u V V' c (S (length l1)) (pl c (S (length l1))) ->
  exists u', steps m l2 u = Some u' /\ sim o' u' V V' c (S (length l1 + length l2)) (pl c (S (length l1 + length l2))).
Proof using WF PH Hb Hin Rb Bd Pi Out Def.
  intros Hc R. induction l2 as [|x l2 IH]; intros l1 l3 o u o' E Ne H S.
  - cbn [steps] in H. injection H as <-. exists u. cbn [length]. rewrite Nat.add_0_r. auto.
  - cbn [steps] in *. destruct (step m x o) as [o1|] eqn:Hs; [|discriminate].
    assert (Hx : nth_error (body c) (length l1) = Some x) by (rewrite E, nth_error_app2, Nat.sub_diag; [reflexivity|lia]).
    destruct (stay_step c (length l1) x o u o1 V V' Hc R Hx) as (u1 & Hu & S1); auto.
    { intros e. specialize (Ne e). cbn [length] in Ne. clear - Ne. lia. }
    rewrite Hu. assert (L1 : length (l1 ++ [x]) = Datatypes.S (length l1)) by (rewrite app_length; cbn [length]; clear; lia).
    destruct (IH (l1 ++ [x]) l3 o1 u1 o') as (u' & Hu' & S').
    + rewrite E, <- app_assoc. reflexivity.
    + intros e. specialize (Ne e). cbn [length] in Ne. clear - Ne L1. lia.
    + exact H.
    + rewrite L1. exact S1.
    + exists u'. split; [exact Hu'|]. cbn [length]. rewrite L1 in S'. replace (length l1 + Datatypes.S (length l2))%nat with (Datatypes.S (length l1) + length l2)%nat by (clear; lia). exact S'.
Qed.
Lemma pure_step o o' : step m i o = Some o' -> world o' = world o.
Proof using WF PH Hb Hin Rb Bd Pi Out Def.
  destruct Pi as [_ Np]. destruct i as [r0 op args|r0 a|r0 op args]; [| |destruct Np]; cbn; intros H.
  - destruct (values (env o) args) as [ds|]; [|discriminate]. destruct (pure m op ds); [|discriminate]. injection H as <-. reflexivity.
  - destruct (env o a); [|discriminate]. injection H as <-. reflexivity.
Qed.
Lemma steps_split l1 : forall l2 (o o' : config D W), steps m (l1 ++ l2) o = Some o' -> exists o1, steps m l1 o = Some o1 /\ steps m l2 o1 = Some o'.
Proof using. induction l1 as [|x l1 IH]; intros l2 o o' H; cbn [app steps] in *; [eauto|]. destruct (step m x o) as [o1|]; [|discriminate]. eauto. Qed.
Lemma steps_join l1 : forall l2 (o o1 : config D W), steps m l1 o = Some o1 -> steps m (l1 ++ l2) o = steps m l2 o1.
Proof using. induction l1 as [|x l1 IH]; intros l2 o o1 H; cbn [app steps] in *; [congruence|]. destruct (step m x o) as [o2|]; [|discriminate]. eauto. Qed.

(** one block *)
Lemma block_sim c V V' o u o' : In c (blocks f) -> reach f c -> steps m (body c) o = Some o' -> sim o u V V' c 1 1 ->
  exists u', steps m (body (mv c)) u = Some u' /\ sim o' u' V V' c (S (length (body c))) (S (length (body (mv c)))).
Proof using WF PH Hb Hin Rb Bd Pi Out Def.
  intros Hc R H S. assert (P1 : forall c, pl c 1 = 1%nat) by (intros c0; apply (pl_le f h p ins WF PH b kept rest i r Hb Hin Rb Bd Pi Out); clear; lia).
  destruct (N.eq_dec (label c) (label b)) as [E|E].
  - rewrite (is_b f h p ins WF PH b kept rest i r Hb Hin Rb Bd Pi Out c Hc E) in *. clear E c Hc R.
    rewrite (body_b f h p ins PH b kept rest i Hin). rewrite Bd in H. apply steps_split in H. destruct H as (o1 & H1 & H2). cbn [steps] in H2. destruct (step m i o1) as [o2|] eqn:Hs; [|discriminate].
    destruct (stay_steps b V V' Hb Rb kept [] (i :: rest) o u o1 Bd) as (u1 & Hu1 & S1).
    { intros _. left. cbn [length]. unfold LicmProofs.n. clear; lia. } { exact H1. } { cbn [length]. rewrite P1. exact S. }
    cbn [length Nat.add] in S1. rewrite (steps_join _ _ _ _ Hu1).
    assert (Hi : nth_error (body b) (length kept) = Some i) by exact (nth_i f h p ins WF PH b kept rest i r Hb Hin Rb Bd Pi Out).
    assert (Lk : pl b (Datatypes.S (length kept)) = Datatypes.S (length kept)) by (apply (pl_le f h p ins WF PH b kept rest i r Hb Hin Rb Bd Pi Out); unfold LicmProofs.n; clear; lia).
    assert (Lk' : pl b (Datatypes.S (Datatypes.S (length kept))) = Datatypes.S (length kept)) by (rewrite (pl_b f h p ins WF PH b kept rest i r Hb Hin Rb Bd Pi Out); [reflexivity|unfold LicmProofs.n; clear; lia]).
    assert (S2 : sim o2 u1 V V' b (Datatypes.S (Datatypes.S (length kept))) (pl b (Datatypes.S (Datatypes.S (length kept))))).
    { destruct S1 as [[Ew Ey] Go Gu Fu]. constructor.
      - split; [rewrite Ew; symmetry; apply (pure_step _ _ Hs)|]. intros y Ny. rewrite (Ey y Ny). symmetry. apply (step_other m i o1 o2 y Hs). destruct Pi as [Ri _]. congruence.
      - exact (good_step m f nc WF no_comm b (length kept) i o1 o2 V Hb Rb Hi Hs Go).
      - rewrite Lk'. rewrite Lk in Gu. exact Gu.
      - exact (full_step b (length kept) i o1 o2 Hb Hi Hs Fu). }
    assert (L1 : length (kept ++ [i]) = Datatypes.S (length kept)) by (rewrite app_length; cbn [length]; clear; lia).
    destruct (stay_steps b V V' Hb Rb rest (kept ++ [i]) [] o2 u1 o') as (u' & Hu' & S3).
    { rewrite app_nil_r, <- app_assoc. exact Bd. } { intros _. right. unfold LicmProofs.n. rewrite L1. clear; lia. } { exact H2. } { rewrite L1. exact S2. }
    exists u'. split; [exact Hu'|]. rewrite L1 in S3. rewrite Bd, !app_length. cbn [length].
    replace (length kept + Datatypes.S (length rest))%nat with (Datatypes.S (length kept) + length rest)%nat by (clear; lia).
    rewrite (pl_b f h p ins WF PH b kept rest i r Hb Hin Rb Bd Pi Out) in S3 by (unfold LicmProofs.n; clear; lia). cbn [Nat.pred Nat.add] in *. exact S3.
  - destruct (stay_steps c V V' Hc R (body c) [] [] o u o') as (u1 & Hu & S1).
    { rewrite app_nil_r. reflexivity. } { intros ->. congruence. } { exact H. } { cbn [length]. rewrite P1. exact S. }
    cbn [length Nat.add] in S1. rewrite (pl_other f h p ins WF PH b kept rest i r Hb Hin Rb Bd Pi Out c _ E) in S1.
    destruct (N.eq_dec (label c) p) as [Ep|Ep].
    + rewrite (body_p f h p ins PH b kept rest i Hin c Ep). rewrite (steps_join _ _ _ _ Hu). cbn [steps].
      assert (Va : forall a, In a (reads i) -> env u1 a <> None).
      { intros a Ha. rewrite (proj2 (s_alike _ _ _ _ _ _ _ S1) a) by exact (reads_ne f h p ins WF PH b kept rest i r Hb Hin Rb Bd Pi Out a Ha). apply (s_full _ _ _ _ _ _ _ S1 a Ha).
        exact (reads_at_p f h p ins WF PH b kept rest i r Hb Hin Rb Bd Pi Out a c Ha Hc Ep). }
      assert (Ex : exists u', step m i u1 = Some u').
      { destruct Pi as [_ Np]. destruct i as [r0 op args|r0 a|r0 op args]; [| |destruct Np]; cbn [step reads] in *.
        - assert (Vs : forall l, (forall a, In a l -> env u1 a <> None) -> exists ds, values (env u1) l = Some ds).
          { induction l as [|a l IH]; intros Hl; cbn [values]; [eauto|]. destruct (env u1 a) eqn:Ea; [|destruct (Hl a (or_introl eq_refl) Ea)]. destruct IH as [ds ->]; [intros; apply Hl; right; assumption|]. eauto. }
          destruct (Vs args Va) as [ds ->]. destruct (pure m op ds) eqn:Ed; [eauto|destruct (Def ds Ed)].
        - destruct (env u1 a) eqn:Ea; [eauto|destruct (Va a (or_introl eq_refl) Ea)]. }
      destruct Ex as [u' Hu']. rewrite Hu'. exists u'. split; [reflexivity|]. destruct S1 as [[Ew Ey] Go Gu Fu]. constructor; [|exact Go| |exact Fu].
      * split; [rewrite (pure_step _ _ Hu'); exact Ew|]. intros y Ny. rewrite (step_other m i u1 u' y Hu'); [apply Ey, Ny|]. destruct Pi as [Ri _]. congruence.
      * rewrite app_length. cbn [length]. rewrite Nat.add_1_r. refine (good_step m f' nc WF' no_comm (mv c) (length (body c)) i u1 u' V' _ _ _ Hu' Gu).
        -- rewrite blocks_moved. apply in_map, Hc.
        -- apply reach_moved, R.
        -- rewrite (body_p f h p ins PH b kept rest i Hin c Ep), nth_error_app2, Nat.sub_diag by (clear; lia). reflexivity.
    + rewrite (body_other p b kept rest i c Ep E). exists u1. auto.
Qed.
Lemma phis_alike from (o u : config D W) : forall ps x y x', (forall q a l, In q ps -> find (fun a => snd a =? from) (p_args q) = Some (a, l) -> env u a = env o a) ->
  alike x y -> phis_from from ps o x = Some x' -> exists y', phis_from from ps u y = Some y' /\ alike x' y'.
Proof using.
  induction ps as [|q ps IH]; intros x y x' Ha Al H; cbn [phis_from] in *; [injection H as <-; eauto|].
  destruct (find (fun a => snd a =? from) (p_args q)) as [[a l]|] eqn:F; [|discriminate]. rewrite (Ha q a l (or_introl eq_refl) F). destruct (env o a) as [d|]; [|discriminate].
  apply (IH _ (mkconfig (upd (env y) (p_res q) (Some d)) (world y)) x' (fun q' a' l' Hq => Ha q' a' l' (or_intror Hq))) in H; [exact H|].
  destruct Al as [Ew Ey]. split; [exact Ew|]. intros z Nz. cbn. unfold upd. destruct (z =? p_res q); [reflexivity|apply Ey, Nz].
Qed.
Lemma edge_sim c c' o u o' V V' : In c (blocks f) -> reach f c -> In c' (blocks f) -> In (label c') (t_succ c) ->
  phis_from (label c) (phis c') o o = Some o' -> sim o u V V' c (S (length (body c))) (S (length (body (mv c)))) ->
  exists u' V1 V1', phis_from (label c) (phis c') u u = Some u' /\ sim o' u' V1 V1' c' 1 1.
Proof using WF PH Hb Hin Rb Bd Pi Out Def.
  intros Hc R Hc' Hs Hp S.
  pose proof (agree o u V V' c _ _ Hc R (len_moved f h p ins WF PH b kept rest i r Hb Hin Rb Bd Pi Out c Hc) S) as Ag.
  destruct (phis_alike (label c) o u (phis c') o u o') as (u' & Hu & Al).
  - intros q a l Hq F. apply Ag. apply find_some in F. destruct F as [Fi Fl]. cbn in Fl. apply N.eqb_eq in Fl. subst l. eapply (wf_phis f WF c' q); eauto.
  - apply S.
  - exact Hp.
  - eexists u', _, _. split; [exact Hu|]. constructor; [exact Al| | |].
    + exact (good_edge m f nc WF no_comm c c' o o' V Hc R Hc' Hs Hp (s_old _ _ _ _ _ _ _ S)).
    + refine (good_edge m f' nc WF' no_comm (mv c) (mv c') u u' V' _ _ _ _ _ (s_new _ _ _ _ _ _ _ S)).
      * rewrite blocks_moved. apply in_map, Hc.
      * apply reach_moved, R.
      * rewrite blocks_moved. apply in_map, Hc'.
      * rewrite mv_succ, mv_label. exact Hs.
      * rewrite mv_phis, mv_label. exact Hu.
    + apply (full_edge c c' o o' Hc R Hc' Hs Hp). apply S.
Qed.
Lemma run_sim : forall k c o u V V' s, In c (blocks f) -> reach f c -> sim o u V V' c 1 1 -> run_from m (blocks f) k (label c) o = Some s ->
  run_from m (map mv (blocks f)) k (label c) u = Some s.
Proof using WF PH Hb Hin Rb Bd Pi Out Def.
  induction k as [|k IH]; intros c o u V V' s Hc R S H; cbn [run_from] in *.
  - rewrite (proj1 (s_alike _ _ _ _ _ _ _ S)). exact H.
  - rewrite find_mv. rewrite (find_block f c WF Hc) in *. destruct (steps m (body c) o) as [o1|] eqn:Hs; [|discriminate].
    destruct (block_sim c V V' o u o1 Hc R Hs S) as (u1 & Hu & S1). rewrite Hu, mv_args, mv_op, mv_succ.
    pose proof (agree o1 u1 V V' c _ _ Hc R (len_moved f h p ins WF PH b kept rest i r Hb Hin Rb Bd Pi Out c Hc) S1) as Ag.
    rewrite (values_ext (env u1) (env o1) (t_args c)) by (intros a Ha; apply Ag; eapply (wf_term f WF); eauto).
    destruct (values (env o1) (t_args c)) as [ds|]; [|discriminate]. destruct (choose m (t_op c) ds) as [j|]; [|rewrite (proj1 (s_alike _ _ _ _ _ _ _ S1)); exact H].
    destruct (nth_error (t_succ c) j) as [l'|] eqn:Hn; [|discriminate]. rewrite find_mv. destruct (find (fun b => label b =? l') (blocks f)) as [c'|] eqn:F; [|discriminate].
    apply find_block_inv in F. destruct F as [Hc' El]. subst l'. destruct (phis_from (label c) (phis c') o1 o1) as [o2|] eqn:Hp; [|discriminate]. rewrite mv_phis.
    destruct (edge_sim c c' o1 u1 o2 V V' Hc R Hc' (nth_error_In _ _ Hn) Hp S1) as (u2 & V1 & V1' & Hu2 & S2). rewrite Hu2.
    exact (IH c' o2 u2 _ _ s Hc' (reach_edge f c c' WF Hc R (nth_error_In _ _ Hn)) S2 H).
Qed.
Theorem moved_runs k globals w0 s : inputs_have_values m f globals w0 -> run m f k globals w0 = Some s -> run m f' k globals w0 = Some s.
Proof using WF PH Hb Hin Rb Bd Pi Out Def.
  intros Inp. unfold run. rewrite blocks_moved. change (prelude f') with (prelude f). destruct (blocks f) as [|c0 bs] eqn:Eb; [discriminate|]. cbn [map].
  destruct (steps m (prelude f) (mkconfig globals w0)) as [c|] eqn:Hp; [|discriminate].
  intros H. rewrite mv_label. change (mv c0 :: map mv bs) with (map mv (c0 :: bs)). rewrite <- Eb in *.
  assert (H0 : In c0 (blocks f)) by (rewrite Eb; left; reflexivity). assert (El : label c0 = entry f) by (unfold entry; rewrite Eb; reflexivity).
  assert (R0 : reach f c0) by (unfold reach; rewrite El; exists [entry f]; constructor).
  apply (run_sim k c0 c c (fun _ => None) (fun _ => None) s H0 R0); [|exact H]. constructor.
  - split; reflexivity.
  - exact (good_start m f nc WF no_comm globals w0 c _ c0 Hp H0 El).
  - refine (good_start m f' nc WF' no_comm globals w0 c _ (mv c0) Hp _ _); [rewrite blocks_moved; apply in_map, H0|rewrite mv_label, entry_moved; exact El].
  - intros a Ha Av. apply (Inp b i a c Hb); [rewrite Bd; apply in_or_app; right; left; reflexivity|exact Ha| |exact Hp].
    destruct (avail_step f c0 0 a Av) as [A|[_ (q & Hq & _)]]; [|rewrite (entry_no_phi f c0 WF H0 El) in Hq; destruct Hq].
    destruct A as [Nd|(c1 & j & Dy & C)]; [exact Nd|]. exfalso. destruct C as [[-> L]|[Nl C]]; [clear - L; lia|]. destruct (C [entry f]) as [E|[]]; [rewrite El; constructor|congruence].
Qed.
End Sim.
