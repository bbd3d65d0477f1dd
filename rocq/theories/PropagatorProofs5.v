(** Proofs about constant propagation: blocks, the main loop, and what holds at the end. *)
From Verif Require Import Base Propagator PropagatorSpec PropagatorProofs PropagatorProofs2 PropagatorProofs3 PropagatorProofs4.
Local Open Scope N_scope.
Set Default Proof Using "All".

Section CCP.
Variable consts : N -> option constant.
Variable fold_inst : nat -> inst -> (N -> N) -> folded.
Variable M : Type.
Variable sem : nat -> list (option value) -> M -> value -> M -> Prop.
Variable ty : N -> vtype.
Variable f : func.
Variable V0 : values.
Hypothesis W : well_formed f.
Hypothesis WT : well_typed ty consts f.
Hypothesis FR : folds_right consts sem ty f fold_inst.
Hypothesis FM : folds_more consts f fold_inst.
Hypothesis Hown : forall i, In i (all_insts f) -> res i <> 0 -> V0 (res i) = None /\ consts (res i) = None.
Hypothesis Hconst : forall i id k, In i (all_insts f) -> In id (in_ids i) -> consts id = Some k -> V0 id = Some id.
Hypothesis Hknown : forall id c, V0 id = Some c -> c <> varying_id -> exists k, consts c = Some k /\ ty c = ty id.

Local Notation upto := (PropagatorProofs2.upto consts M sem).
Local Notation inv := (PropagatorProofs4.inv consts fold_inst M sem ty f V0).
Local Notation visit := (visit_instruction consts fold_inst f).
Local Notation sim_inst_inv := (PropagatorProofs4.sim_inst_inv consts fold_inst M sem ty f V0 W WT FR FM Hown Hconst Hknown).
Local Notation sim_inst_no_assert := (PropagatorProofs4.sim_inst_no_assert consts fold_inst M sem ty f V0 W WT FR FM Hown Hconst Hknown).
Definition none {A} : A -> Prop := fun _ => False.

Lemma inv_weaken (ex ex' : inst -> Prop) (cur cur' srcs srcs' : N -> Prop) s V : inv ex cur srcs s V -> (forall i, In i (all_insts f) -> simulated s (blk i) = true -> ex i -> ex' i) -> (forall l, cur l -> simulated s l = true \/ cur' l) ->
  (forall l, srcs l -> simulated s l = true \/ srcs' l) -> inv ex' cur' srcs' s V.
Proof using Type.
  clear. intros I H1 H2 H3. destruct I; split; auto.
  - intros i Hi Hs. destruct (j_upto i Hi Hs) as [A|[A|[A|A]]]; auto.
  - intros p q K. destruct (j_edge p q K) as [A|[A|A]]; auto; destruct (H2 _ A); auto.
  - intros p q K. destruct (j_src p q K) as [A|[A|A]]; auto; destruct (H3 _ A); auto.
  - intros i Hi K. destruct (j_low i Hi K) as (A & [B|B]); [auto|]. split; [exact A|]. destruct (H2 _ B); auto.
Qed.
Lemma sim_insts_app is js : forall su, sim_insts _ visit f (is ++ js) su =
  bind (sim_insts _ visit f is su) (fun r => bind (sim_insts _ visit f js (snd r)) (fun q => Ok (fst r || fst q, snd q))).
Proof using Type.
  clear. induction is as [|i is IH]; intro su; cbn [app sim_insts bind fst snd orb].
  - destruct (sim_insts _ _ _ _ _) as [[? ?]| | |]; reflexivity.
  - destruct (sim_inst _ _ _ _ _) as [[b su1]| | |]; cbn [bind fst snd]; try reflexivity. rewrite IH. destruct (sim_insts _ visit f is su1) as [[c su2]| | |]; cbn [bind fst snd]; try reflexivity.
    destruct (sim_insts _ visit f js su2) as [[d su3]| | |]; cbn [bind fst snd]; try reflexivity. rewrite orb_assoc. reflexivity.
Qed.

(** Simulating instructions of a block that was simulated before. *)
Lemma sim_insts_again is : forall ex cur srcs s V n b s' V' n', inv ex cur srcs s V -> (forall i, In i is -> In i (all_insts f) /\ is_terminator i = false /\ (simulated s (blk i) = true \/ cur (blk i))) ->
  sim_insts _ visit f is (s, (V, n)) = Ok (b, (s', (V', n'))) ->
  inv (fun j => ex j /\ ~ In j is) cur srcs s' V' /\ simulated s' = simulated s /\ (forall p q, executable s' p q = true <-> executable s p q = true).
Proof.
  induction is as [|i is IH]; intros ex cur srcs s V n b s' V' n' I Hi H; cbn [sim_insts] in H.
  - inversion H; subst. split; [|split; [reflexivity|tauto]]. apply (inv_weaken ex _ cur _ srcs _ s' V' I); auto.
  - destruct (sim_inst _ visit f i (s, (V, n))) as [[c [s1 [V1 n1]]]| | |] eqn:E; try discriminate. cbn [bind fst snd] in H.
    destruct (Hi i (or_introl eq_refl)) as (Hin & Ht & Hc).
    destruct (sim_inst_inv ex cur srcs i s V n c s1 V1 n1 I Hin (or_intror (or_intror Ht)) Hc E) as (I1 & _ & F1).
    destruct (sim_insts _ visit f is (s1, (V1, n1))) as [[c2 [s2 [V2 n2]]]| | |] eqn:E2; try discriminate. cbn [bind fst snd] in H. inversion H; subst.
    destruct (IH _ _ _ s1 V1 n1 c2 s' V' n' I1 (fun j Hj => ltac:(rewrite (fr_sim _ _ _ _ _ F1); exact (Hi j (or_intror Hj)))) E2) as (I2 & Q2 & X2).
    split; [|split; [rewrite Q2; apply (fr_sim _ _ _ _ _ F1)|]].
    + apply (inv_weaken _ _ _ _ _ _ _ _ I2); auto. intros j _ _ ((A & B) & C). split; [exact A|]. intros [<-|K]; auto.
    + intros p q. split; intro K.
      * apply X2 in K. destruct (fr_new _ _ _ _ _ F1 p q K) as [A|(_ & A & _)]; [exact A|congruence].
      * apply X2. apply (fr_X _ _ _ _ _ F1). exact K.
Qed.
Lemma sim_insts_no_assert is : forall ex cur srcs s V n, inv ex cur srcs s V -> (forall i, In i is -> In i (all_insts f) /\ (is_terminator i = false \/ srcs (blk i)) /\ (simulated s (blk i) = true \/ cur (blk i))) ->
  sim_insts _ visit f is (s, (V, n)) <> Asserted.
Proof.
  induction is as [|i is IH]; intros ex cur srcs s V n I Hi; cbn [sim_insts]; [discriminate|].
  destruct (Hi i (or_introl eq_refl)) as (Hin & Ht & Hc). pose proof (sim_inst_no_assert ex cur srcs i s V n I Hin) as A.
  destruct (sim_inst _ visit f i (s, (V, n))) as [[c [s1 [V1 n1]]]| | |] eqn:E; try discriminate; [|congruence]. cbn [bind fst snd].
  destruct (sim_inst_inv ex cur srcs i s V n c s1 V1 n1 I Hin ltac:(tauto) Hc E) as (I1 & _ & F1).
  pose proof (IH _ cur srcs s1 V1 n1 I1 (fun j Hj => ltac:(rewrite (fr_sim _ _ _ _ _ F1); exact (Hi j (or_intror Hj))))) as B.
  destruct (sim_insts _ visit f is (s1, (V1, n1))) as [[c2 [s2 [V2 n2]]]| | |]; try discriminate. congruence.
Qed.

(** The first simulation of a block: the instructions already done stay up to date. *)
Definition done_ok (b : block) (s : pstate) (V : values) (is : list inst) : Prop :=
  forall j, In j is -> upto V (executable s) j \/ (is_phi j = true /\ In (label b) (blocksQ s)).
Lemma block_split b is t : In b f -> insts b = is ++ [t] -> forall i, In i (blabel b :: is) -> is_terminator i = false.
Proof using W.
  clear - W. intros Hb E i [<-|Hi].
  - destruct (wf_label f W b Hb) as (Hk & _). unfold is_terminator. rewrite Hk. reflexivity.
  - destruct (wf_terminator f W b Hb) as (is' & t' & E' & _ & Hn). rewrite E in E'. apply app_inj_tail in E' as (-> & ->). rewrite Forall_forall in Hn. auto.
Qed.
Lemma sim_insts_first b t todo : forall done s V n c s' V' n', In b f -> block_insts b = done ++ todo ++ [t] -> inv none (fun l => l = label b) none s V -> simulated s (label b) = false ->
  done_ok b s V done -> sim_insts _ visit f todo (s, (V, n)) = Ok (c, (s', (V', n'))) ->
  inv none (fun l => l = label b) none s' V' /\ simulated s' = simulated s /\ done_ok b s' V' (done ++ todo) /\ (forall p q, executable s p q = true -> executable s' p q = true).
Proof.
  induction todo as [|i todo IH]; intros done s V n c s' V' n' Hb E I Hns Hdone H; cbn [sim_insts] in H.
  - inversion H; subst. rewrite app_nil_r. repeat (split; [auto; fail|]). auto.
  - destruct (sim_inst _ visit f i (s, (V, n))) as [[c1 [s1 [V1 n1]]]| | |] eqn:E1; try discriminate. cbn [bind fst snd] in H.
    destruct (sim_insts _ visit f todo (s1, (V1, n1))) as [[c2 [s2 [V2 n2]]]| | |] eqn:E2; try discriminate. cbn [bind fst snd] in H. inversion H; subst. clear H.
    assert (Hin : In i (block_insts b)) by (rewrite E; apply in_or_app; right; left; reflexivity).
    assert (Hia : In i (all_insts f)) by (apply (in_all_insts f b); auto).
    assert (Hlast : exists is, insts b = is ++ [t] /\ blabel b :: is = done ++ i :: todo).
    { unfold block_insts in E. replace (done ++ (i :: todo) ++ [t]) with ((done ++ i :: todo) ++ [t]) in E by (rewrite <- app_assoc; reflexivity).
      destruct (done ++ i :: todo) as [|x l] eqn:El; [destruct done; discriminate|]. cbn [app] in E. inversion E; subst. eauto. }
    destruct Hlast as (is & Eis & Elab).
    assert (Ht : is_terminator i = false) by (apply (block_split b is t Hb Eis); rewrite Elab; apply in_or_app; right; left; reflexivity).
    destruct (sim_inst_inv none _ none i s V n c1 s1 V1 n1 I Hia (or_intror (or_intror Ht)) (or_intror (wf_blk f W b i Hb Hin)) E1) as (I1 & U1 & [F1 F2 F3 F4 F5]).
    assert (Hbi : blk i = label b) by (apply (wf_blk f W); auto).
    assert (X1 : forall p q, executable s1 p q = true -> executable s p q = true) by (intros p q K; destruct (F3 p q K) as [A|(_ & A & _)]; [exact A|congruence]).
    replace (done ++ i :: todo) with ((done ++ [i]) ++ todo) by (rewrite <- app_assoc; reflexivity).
    cut (inv none (fun l => l = label b) none s' V' /\ simulated s' = simulated s1 /\ done_ok b s' V' ((done ++ [i]) ++ todo) /\ (forall p q, executable s1 p q = true -> executable s' p q = true)).
    { intros (A & B & C & D). split; [exact A|]. split; [congruence|]. split; [exact C|]. intros p q K. apply D. apply F2. exact K. }
    apply (IH (done ++ [i]) s1 V1 n1 c2 s' V' n' Hb); [rewrite E, <- app_assoc; reflexivity| |rewrite F4; exact Hns| |exact E2].
    + apply (inv_weaken _ _ _ _ _ _ _ _ I1); auto. intros j _ _ (A & _). exact A.
    + intros k Hk. apply in_app_or in Hk as [Hk|[<-|[]]]; [|left; exact U1].
      destruct (Hdone k Hk) as [A|(A & B)]; [|right; split; auto].
      assert (Hkb : In k (block_insts b)) by (rewrite E; apply in_or_app; left; exact Hk).
      assert (Hka : In k (all_insts f)) by (apply (in_all_insts f b); auto).
      destruct (Nat.eq_dec (uid k) (uid i)) as [Eu|Nu]; [left; replace k with i by (apply (uid_inj f W); auto); exact U1|].
      assert (Nk : k <> i) by (intros ->; auto).
      left. apply (upto_stable consts M sem V V1 (executable s) (executable s1) k); auto.
      * intros Hph id Hid. apply F1. destruct (N.eq_dec (res i) 0) as [|Nz]; [auto|]. left. intros ->.
        destruct Hkb as [<-|Hki]; [destruct (wf_label f W b Hb) as (Hkl & _); unfold in_ids in Hid; rewrite Hkl in Hid; destruct Hid|].
        (* k comes before i in the block *)
        assert (Hord : exists l1 l2, insts b = l1 ++ k :: l2 /\ In i l2).
        { unfold block_insts in E. destruct done as [|x done']; [destruct Hk|]. cbn [app] in E. injection E as Ex El. destruct Hk as [->|Hk].
          - exfalso. rewrite <- Ex in Hki. destruct (wf_label f W b Hb) as (Hkl & _ & Hnl). rewrite Forall_forall in Hnl. apply (Hnl _ Hki Hkl).
          - apply in_split in Hk as (l1 & l2 & ->). exists l1, (l2 ++ (i :: todo) ++ [t]). split; [rewrite El, <- app_assoc; reflexivity|]. apply in_or_app. right. left. reflexivity. }
        destruct Hord as (l1 & l2 & El & Hil). exact (wf_uses f W b l1 k l2 i Hb El Hph (or_intror Hil) Nz Hid).
      * apply F1. destruct (N.eq_dec (res i) 0) as [|Nz]; [auto|]. left. intro Er. apply Nk. apply (wf_results f W); auto. congruence.
      * intros args a l Hkk Hal HX. apply X1 in HX. split; [exact HX|]. apply F1. destruct (N.eq_dec (res i) 0) as [|Nz]; [auto|]. left. intros ->.
        assert (Hkl : blk k = label b) by (apply (wf_blk f W); auto). rewrite Hkl in HX.
        destruct (j_src _ _ _ _ _ _ _ _ _ _ _ _ I l (label b) HX) as [->|[Hs|[]]].
        -- destruct (j_flow _ _ _ _ _ _ _ _ _ _ _ _ I 0 (label b) HX) as [(_ & (b0 & f' & Ef & Eb0))|(_ & Hl0)].
           ++ assert (b = b0). { assert (Hb0 : In b0 f) by (rewrite Ef; left; reflexivity). pose proof (get_block_label f W b Hb) as G1. pose proof (get_block_label f W b0 Hb0) as G2. rewrite Eb0 in G1. congruence. }
              subst b0. assert (Hkin : In k (insts b)).
              { destruct Hkb as [<-|Hki]; [|exact Hki]. destruct (wf_label f W b Hb) as (Hkl2 & _). congruence. }
              pose proof (wf_phis f W b k Hb Hkin ltac:(unfold is_phi; rewrite Hkk; reflexivity)) as Hlp. rewrite (wf_entry f W b f' Ef) in Hlp. destruct Hlp.
           ++ apply in_map_iff in Hl0 as (b0 & Eb0 & Hb0). destruct (wf_label f W b0 Hb0) as (_ & Hz & _). congruence.
        -- destruct (j_path _ _ _ _ _ _ _ _ _ _ _ _ I l Hs) as (p & Hp & Hps). pose proof (wf_phi_uses f W k args (res i) l i Hka Hkk Hal Hia eq_refl Nz p (xpath_path f _ _ _ Hp)) as Hd.
           rewrite Hbi in Hd. rewrite (Hps _ Hd) in Hns. discriminate.
Qed.

(** Adding the edge to the only successor of a simulated block *)
Lemma inv_add_edge s V src d : inv none none none s V -> simulated s src = true -> In src (labels f) -> (forall l, d = Some l -> In (Some l) (succs f src)) ->
  inv none none none (add_control_edge src d s) V.
Proof.
  intros I Hs Hl Hd. destruct (add_control_edge_grown src d s) as [G1 G2 G3 G4 G5 G6]. set (s' := add_control_edge src d s) in *.
  assert (X1 : forall p q, executable s p q = true -> executable s' p q = true) by (intros p q K; apply G5; auto).
  assert (Xnew : forall p q, executable s' p q = true -> executable s p q = true \/ (p = src /\ d = Some q /\ In q (blocksQ s'))).
  { intros p q K. destruct (executable s p q) eqn:E; [auto|]. right. apply G5 in K as [K|(-> & [K|[]])]; [congruence|]. split; [reflexivity|]. split; [exact K|]. apply G6. right. split; [left; exact K|exact E]. }
  assert (Bl : forall l, In l (blocksQ s) -> In l (blocksQ s')) by (intros l K; apply G6; auto).
  assert (Keep : forall j, upto V (executable s) j -> upto V (executable s') j \/ (is_phi j = true /\ In (blk j) (blocksQ s'))).
  { intros j A. destruct (is_phi j) eqn:Ep.
    - destruct (in_dec N.eq_dec (blk j) (blocksQ s')) as [Hb|Hb]; [auto|]. left. apply (upto_stable consts M sem V V (executable s) (executable s') j); auto.
      intros args a l _ _ HX. split; [|reflexivity]. destruct (Xnew _ _ HX) as [K|(_ & _ & K)]; [exact K|contradiction].
    - left. apply (upto_stable consts M sem V V (executable s) (executable s') j); auto. intros args a l Hk. unfold is_phi in Ep. rewrite Hk in Ep. discriminate. }
  destruct I. split; auto.
  - intros i Hi Hsi. rewrite G2 in Hsi. rewrite G1. destruct (j_upto i Hi Hsi) as [A|[A|[(A & B)|A]]]; [destruct (Keep i A); auto|auto|auto 6|auto].
  - intros i Hi Hdi. rewrite G3 in Hdi. destruct (j_dns i Hi Hdi) as (A & P). destruct P as [(P1 & P2)|(P1 & P2)].
    + assert (Q2 : is_terminator i = true -> all_succs (executable s') i) by (intros K l Hll; apply X1; apply (P2 K l Hll)).
      split; [apply (upto_varying consts M sem f W); auto|left; auto].
    + split; [|right; split].
      * apply (upto_stable consts M sem V V (executable s) (executable s') i); auto. intros args a l Hk Hin _. split; [apply (P2 args a l Hk Hin)|reflexivity].
      * intros id Hid. specialize (P1 id Hid). unfold should_simulate_def in *. rewrite G3. exact P1.
      * intros args a l Hk Hin. apply X1. apply (P2 args a l Hk Hin).
  - intros p q K. rewrite G2. destruct (Xnew p q K) as [K1|(_ & _ & K1)]; [|auto]. destruct (j_edge p q K1) as [A|[A|A]]; auto.
  - intros i Hi Hr. rewrite G4. auto.
  - intros i Hi K. rewrite G4 in K. rewrite G3. auto.
  - intros i Hi c Ec Hc. specialize (j_persists i Hi c Ec Hc). destruct (kind i); auto. destruct j_persists as (a & l & K1 & K2 & K3). exists a, l. auto.
  - intros i K. rewrite G1 in K. rewrite G2. auto.
  - intros p q K. rewrite G2. destruct (Xnew p q K) as [K1|(-> & _ & _)]; [exact (j_src p q K1)|auto].
  - intros p q K. destruct (Xnew p q K) as [K1|(-> & K1 & _)]; [auto|]. right. split; [apply Hd; exact K1|exact Hl].
  - rewrite G2. intros l K. destruct (j_path l K) as (p & Hp & Hall). exists p. split; [apply (xpath_mono f (executable s)); auto|exact Hall].
  - intros l K. apply G6 in K as [K|([K|[]] & _)].
    + destruct (j_queue l K) as (p & K1). exists p. auto.
    + exists src. apply G5. right. split; [reflexivity|left; exact K].
  - intros i Hi K. rewrite G4 in K. rewrite G2. auto.
Qed.

(** A block from the work list *)
Lemma pop_block_inv s V l q : inv none none none s V -> blocksQ s = l :: q -> forall b, get_block f l = Some b ->
  inv (fun j => In j (leading_phis (insts b))) (fun x => x = l) none (pop_block s) V.
Proof.
  intros I Eq b Eb. apply get_block_in in Eb as (Hb & El). destruct I. split; auto; cbn [blocksQ pop_block executable simulated ssaQ]; rewrite Eq in *; cbn [tl].
  - intros i Hi Hs. destruct (j_upto i Hi Hs) as [A|[A|[(A & [B|B])|[]]]]; auto. right. right. right.
    apply in_all_insts_inv in Hi as (b' & Hb' & Hi). rewrite (wf_blk f W b' i Hb' Hi) in B.
    assert (b' = b). { pose proof (get_block_label f W b Hb) as G1. pose proof (get_block_label f W b' Hb') as G2. rewrite El, B in G1. congruence. }
    subst b'. destruct Hi as [<-|Hi]; [destruct (wf_label f W b Hb) as (Hk & _); unfold is_phi in A; rewrite Hk in A; discriminate|]. apply (wf_phis f W b i Hb Hi A).
  - intros p x K. destruct (j_edge p x K) as [A|[[A|A]|[]]]; auto.
  - intros x K. apply j_queue. right. exact K.
  - intros i Hi K. destruct (j_low i Hi K) as (A & [B|[]]). auto.
Qed.
Lemma labels_of_queue ex cur srcs s V l : inv ex cur srcs s V -> In l (blocksQ s) -> In l (labels f).
Proof.
  intros I Hl. destruct (j_queue _ _ _ _ _ _ _ _ _ _ _ _ I l Hl) as (p & K). destruct (j_flow _ _ _ _ _ _ _ _ _ _ _ _ I p l K) as [(_ & (b & f' & Ef & ->))|(K1 & _)].
  - rewrite Ef. left. reflexivity.
  - apply (succs_labels f W p l K1).
Qed.
Lemma sim_block_inv s V n l q c s' V' n' : inv none none none s V -> blocksQ s = l :: q ->
  sim_block _ visit f l (pop_block s, (V, n)) = Ok (c, (s', (V', n'))) -> inv none none none s' V'.
Proof.
  intros I Eq H. unfold sim_block in H. destruct (get_block f l) as [b|] eqn:Eb; [|discriminate].
  pose proof (pop_block_inv s V l q I Eq b Eb) as I0. pose proof (get_block_in f l b Eb) as (Hb & El).
  destruct (sim_insts _ visit f (leading_phis (insts b)) (pop_block s, (V, n))) as [[c1 [s1 [V1 n1]]]| | |] eqn:E1; try discriminate. cbn [bind fst snd] in H.
  assert (Hphi : forall i, In i (leading_phis (insts b)) -> In i (all_insts f) /\ is_terminator i = false /\ (simulated (pop_block s) (blk i) = true \/ blk i = l)).
  { intros i Hi. apply leading_phis_in in Hi as (Hi & Hp). split; [apply (in_all_insts f b); [exact Hb|right; exact Hi]|]. split; [|right; rewrite <- El; apply (wf_blk f W); [exact Hb|right; exact Hi]].
    unfold is_phi in Hp. unfold is_terminator. destruct (kind i); auto; discriminate. }
  destruct (sim_insts_again _ _ _ _ _ _ _ _ _ _ _ I0 Hphi E1) as (I1 & S1 & X1).
  assert (X2 : forall x y, executable s x y = true -> executable s1 x y = true) by (intros x y K; apply X1; exact K).
  destruct (simulated s1 l) eqn:Es.
  - inversion H; subst. apply (inv_weaken _ _ _ _ _ _ _ _ I1); auto.
    + intros j _ _ (A & B). contradiction.
    + intros x ->. auto.
  - destruct (sim_insts _ visit f (block_insts b) (s1, (V1, n1))) as [[c2 [s2 [V2 n2]]]| | |] eqn:E2; try discriminate. cbn [bind fst snd] in H.
    destruct (wf_terminator f W b Hb) as (is & t & Eis & Htt & _).
    assert (Esplit : block_insts b = [] ++ (blabel b :: is) ++ [t]) by (unfold block_insts; rewrite Eis; reflexivity).
    rewrite Esplit in E2. cbn [app] in E2. change (blabel b :: is ++ [t]) with ((blabel b :: is) ++ [t]) in E2. rewrite sim_insts_app in E2.
    destruct (sim_insts _ visit f (blabel b :: is) (s1, (V1, n1))) as [[c3 [s3 [V3 n3]]]| | |] eqn:E3; try discriminate. cbn [bind fst snd sim_insts] in E2.
    destruct (sim_inst _ visit f t (s3, (V3, n3))) as [[c4 [s4 [V4 n4]]]| | |] eqn:E4; try discriminate. cbn [bind fst snd] in E2. inversion E2; subst. clear E2.
    assert (I1' : inv none (fun x => x = label b) none s1 V1).
    { apply (inv_weaken _ _ _ _ _ _ _ _ I1); auto. intros j _ _ (A & B). contradiction. }
    destruct (sim_insts_first b t (blabel b :: is) [] s1 V1 n1 c3 s3 V3 n3 Hb Esplit I1' Es ltac:(intros j []) E3) as (I3 & S3 & D3 & X3). cbn [app] in D3.
    assert (Hta : In t (all_insts f)) by (apply (in_all_insts f b); [exact Hb|right; rewrite Eis; apply in_or_app; right; left; reflexivity]).
    assert (Htb : blk t = label b) by (apply (wf_blk f W b); [exact Hb|right; rewrite Eis; apply in_or_app; right; left; reflexivity]).
    assert (Htr : res t = 0). { pose proof (wf_has_result f W t Hta) as K. unfold is_terminator in *. destruct (kind t); try discriminate; apply K; reflexivity. }
    assert (I3' : inv none (fun x => x = label b) (fun x => x = label b) s3 V3) by (apply (inv_weaken _ _ _ _ _ _ _ _ I3); auto).
    destruct (sim_inst_inv none _ _ t s3 V3 n3 c4 s2 V2 n2 I3' Hta (or_intror (or_introl Htb)) (or_intror Htb) E4) as (I4 & U4 & [F1 F2 F3 F4 F5]).
    assert (D4 : done_ok b s2 V2 (block_insts b)).
    { rewrite Esplit. cbn [app]. intros j Hj. change (blabel b :: is ++ [t]) with ((blabel b :: is) ++ [t]) in Hj. apply in_app_or in Hj as [Hj|[<-|[]]]; [|left; exact U4].
      assert (Hjb : In j (block_insts b)) by (rewrite Esplit; cbn [app]; change (blabel b :: is ++ [t]) with ((blabel b :: is) ++ [t]); apply in_or_app; left; exact Hj).
      destruct (D3 j Hj) as [A|(A & B)]; [|right; split; auto]. assert (Hv : forall id, V2 id = V3 id) by (intro id; apply F1; auto).
      destruct (is_phi j) eqn:Ep.
      - destruct (in_dec N.eq_dec (label b) (blocksQ s2)) as [K|K]; [auto|]. left. apply (upto_stable consts M sem V3 V2 (executable s3) (executable s2) j); auto.
        intros args a x _ _ HX. split; [|auto]. rewrite (wf_blk f W b j Hb Hjb) in *. destruct (F3 _ _ HX) as [K1|(_ & _ & K1)]; [exact K1|contradiction].
      - left. apply (upto_stable consts M sem V3 V2 (executable s3) (executable s2) j); auto. intros args a x Hk. unfold is_phi in Ep. rewrite Hk in Ep. discriminate. }
    (* a path to the block *)
    assert (Hpath : exists p, xpath f (executable s) p (label b) /\ forall x, In x p -> x = label b \/ simulated s x = true).
    { destruct (j_queue _ _ _ _ _ _ _ _ _ _ _ _ I (label b)) as (p & K); [rewrite Eq; left; reflexivity|].
      destruct (j_flow _ _ _ _ _ _ _ _ _ _ _ _ I p (label b) K) as [(_ & (b0 & f' & Ef & Eb0))|(K1 & K2)].
      - exists [label b]. split; [rewrite Eb0; apply (xpath_entry f _ b0 f' Ef)|]. intros x [<-|[]]. auto.
      - destruct (j_src _ _ _ _ _ _ _ _ _ _ _ _ I p (label b) K) as [->|[Hs|[]]].
        + exfalso. apply in_map_iff in K2 as (b0 & Eb0 & Hb0). destruct (wf_label f W b0 Hb0) as (_ & Hz & _). congruence.
        + destruct (j_path _ _ _ _ _ _ _ _ _ _ _ _ I p Hs) as (pp & Hp & Hall). exists (label b :: pp). split; [apply (xpath_step f _ pp p (label b) Hp K1 K)|]. intros x [<-|Hx]; auto. }
    assert (Xs : forall x y, executable s x y = true -> executable s2 x y = true) by (intros x y K; apply F2; apply X3; apply X2; exact K).
    assert (S2 : simulated s2 = simulated s) by (rewrite F4, S3, S1; reflexivity).
    assert (I5 : inv none none none (mark_simulated (label b) s2) V2).
    { assert (Hsim : forall x, simulated (mark_simulated (label b) s2) x = true <-> x = label b \/ simulated s2 x = true).
      { intro x. cbn [simulated mark_simulated]. rewrite orb_true_iff, N.eqb_eq. tauto. }
      destruct I4. split; auto.
      - intros i Hi Hs. cbn [ssaQ executable blocksQ mark_simulated]. apply Hsim in Hs as [Hs|Hs].
        + apply in_all_insts_inv in Hi as (b' & Hb' & Hi'). pose proof (wf_blk f W b' i Hb' Hi') as Hbk. rewrite Hs in Hbk.
          assert (b' = b). { pose proof (get_block_label f W b Hb) as G1. pose proof (get_block_label f W b' Hb') as G2. rewrite <- Hbk in G2. congruence. }
          subst b'. destruct (D4 i Hi') as [A|(A & B)]; [auto|]. right. right. left. rewrite Hs. auto.
        + destruct (j_upto i Hi Hs) as [A|[A|[A|([] & _)]]]; auto.
      - intros p x K. destruct (j_edge p x K) as [A|[A|A]]; [left; apply Hsim; auto|auto|left; apply Hsim; auto].
      - intros i K. destruct (j_ssa i K). split; [auto|apply Hsim; auto].
      - intros p x K. destruct (j_src p x K) as [A|[A|A]]; [auto|right; left; apply Hsim; auto|right; left; apply Hsim; auto].
      - intros x Hx. apply Hsim in Hx as [->|Hx].
        + destruct Hpath as (p & Hp & Hall). exists p. split; [apply (xpath_mono f (executable s)); [exact Xs|exact Hp]|]. intros y Hy. apply Hsim. rewrite S2. auto.
        + destruct (j_path x Hx) as (p & Hp & Hall). exists p. split; [exact Hp|]. intros y Hy. apply Hsim. auto.
      - intros i Hi K. destruct (j_low i Hi K) as (A & [B|B]); (split; [exact A|left; apply Hsim; auto]). }
    inversion H; subst. destruct (block_succs b) as [|d [|? ?]] eqn:Esu; try exact I5.
    apply inv_add_edge; [exact I5|cbn [simulated mark_simulated]; rewrite N.eqb_refl; reflexivity|apply in_map; exact Hb|].
    intros x ->. unfold succs. rewrite (get_block_label f W b Hb), Esu. left. reflexivity.
Qed.
Lemma sim_block_no_assert s V n l q : inv none none none s V -> blocksQ s = l :: q -> sim_block _ visit f l (pop_block s, (V, n)) <> Asserted.
Proof.
  intros I Eq. unfold sim_block. destruct (get_block_some f l) as (b & Eb); [apply (labels_of_queue _ _ _ s V l I); rewrite Eq; left; reflexivity|]. rewrite Eb.
  pose proof (pop_block_inv s V l q I Eq b Eb) as I0. pose proof (get_block_in f l b Eb) as (Hb & El).
  assert (Hphi : forall i, In i (leading_phis (insts b)) -> In i (all_insts f) /\ is_terminator i = false /\ (simulated (pop_block s) (blk i) = true \/ blk i = l)).
  { intros i Hi. apply leading_phis_in in Hi as (Hi & Hp). split; [apply (in_all_insts f b); [exact Hb|right; exact Hi]|]. split; [|right; rewrite <- El; apply (wf_blk f W); [exact Hb|right; exact Hi]].
    unfold is_phi in Hp. unfold is_terminator. destruct (kind i); auto; discriminate. }
  pose proof (sim_insts_no_assert (leading_phis (insts b)) _ _ _ (pop_block s) V n I0 (fun i Hi => conj (proj1 (Hphi i Hi)) (conj (or_introl (proj1 (proj2 (Hphi i Hi)))) (proj2 (proj2 (Hphi i Hi)))))) as A1.
  destruct (sim_insts _ visit f (leading_phis (insts b)) (pop_block s, (V, n))) as [[c1 [s1 [V1 n1]]]| | |] eqn:E1; try discriminate; [|congruence]. cbn [bind fst snd].
  destruct (sim_insts_again _ _ _ _ _ _ _ _ _ _ _ I0 Hphi E1) as (I1 & S1 & X1).
  assert (X2 : forall x y, executable s x y = true -> executable s1 x y = true) by (intros x y K; apply X1; exact K).
  destruct (simulated s1 l); [discriminate|].
  assert (I1' : inv none (fun x => x = label b) (fun x => x = label b) s1 V1).
  { apply (inv_weaken _ _ _ _ _ _ _ _ I1); [intros j _ _ (K & B); contradiction|intros x ->; auto|intros x []]. }
  pose proof (sim_insts_no_assert (block_insts b) _ _ _ s1 V1 n1 I1' (fun i Hi => conj (in_all_insts f b i Hb Hi) (conj (or_intror (wf_blk f W b i Hb Hi)) (or_intror (wf_blk f W b i Hb Hi))))) as A2.
  destruct (sim_insts _ visit f (block_insts b) (s1, (V1, n1))) as [[c2 [s2 [V2 n2]]]| | |]; try discriminate. congruence.
Qed.

(** The main loop *)
Lemma pop_ssa_inv s V i q : inv none none none s V -> ssaQ s = i :: q -> inv (fun j => j = i) none none (pop_ssa s) V.
Proof.
  intros I Eq. destruct I. split; auto; cbn [blocksQ pop_ssa executable simulated ssaQ]; rewrite Eq in *; cbn [tl].
  - intros j Hj Hs. destruct (j_upto j Hj Hs) as [A|[[A|A]|[A|[]]]]; auto.
  - intros j K. apply j_ssa. right. exact K.
Qed.
Lemma run_loop_inv fuel : forall c s V n c' s' V' n', inv none none none s V -> run_loop _ visit f fuel c (s, (V, n)) = Ok (c', (s', (V', n'))) ->
  inv none none none s' V' /\ blocksQ s' = [] /\ ssaQ s' = [].
Proof.
  induction fuel as [|fuel IH]; intros c s V n c' s' V' n' I H; [discriminate|]. cbn [run_loop fst snd] in H. destruct (blocksQ s) as [|l q] eqn:Eq.
  - destruct (ssaQ s) as [|i q] eqn:Es; [inversion H; subst; auto|].
    destruct (sim_inst _ visit f i (pop_ssa s, (V, n))) as [[c2 [s2 [V2 n2]]]| | |] eqn:E; try discriminate. cbn [bind fst snd] in H.
    pose proof (pop_ssa_inv s V i q I Es) as I0. destruct (j_ssa _ _ _ _ _ _ _ _ _ _ _ _ I i) as (Hi & Hs); [rewrite Es; left; reflexivity|].
    destruct (sim_inst_inv _ none none i (pop_ssa s) V n c2 s2 V2 n2 I0 Hi (or_introl Hs) (or_introl Hs) E) as (I1 & _ & _).
    apply (IH (c || c2) s2 V2 n2 c' s' V' n'); [|exact H]. apply (inv_weaken _ _ _ _ _ _ _ _ I1); auto. intros j _ _ (A & B). contradiction.
  - destruct (sim_block _ visit f l (pop_block s, (V, n))) as [[c2 [s2 [V2 n2]]]| | |] eqn:E; try discriminate. cbn [bind fst snd] in H.
    apply (IH (c || c2) s2 V2 n2 c' s' V' n'); [|exact H]. apply (sim_block_inv s V n l q c2 s2 V2 n2 I Eq E).
Qed.
Lemma run_loop_no_assert fuel : forall c s V n, inv none none none s V -> run_loop _ visit f fuel c (s, (V, n)) <> Asserted.
Proof.
  induction fuel as [|fuel IH]; intros c s V n I; [discriminate|]. cbn [run_loop fst snd]. destruct (blocksQ s) as [|l q] eqn:Eq.
  - destruct (ssaQ s) as [|i q] eqn:Es; [discriminate|]. destruct (j_ssa _ _ _ _ _ _ _ _ _ _ _ _ I i) as (Hi & Hs); [rewrite Es; left; reflexivity|].
    pose proof (pop_ssa_inv s V i q I Es) as I0. pose proof (sim_inst_no_assert _ none none i (pop_ssa s) V n I0 Hi) as A.
    destruct (sim_inst _ visit f i (pop_ssa s, (V, n))) as [[c2 [s2 [V2 n2]]]| | |] eqn:E; try discriminate; [|congruence]. cbn [bind fst snd].
    destruct (sim_inst_inv _ none none i (pop_ssa s) V n c2 s2 V2 n2 I0 Hi (or_introl Hs) (or_introl Hs) E) as (I1 & _ & _).
    apply IH. apply (inv_weaken _ _ _ _ _ _ _ _ I1); auto. intros j _ _ (B & C). contradiction.
  - pose proof (sim_block_no_assert s V n l q I Eq) as A.
    destruct (sim_block _ visit f l (pop_block s, (V, n))) as [[c2 [s2 [V2 n2]]]| | |] eqn:E; try discriminate; [|congruence]. cbn [bind fst snd].
    apply IH. apply (sim_block_inv s V n l q c2 s2 V2 n2 I Eq E).
Qed.
Lemma initial_inv : inv none none none (initial_state f) V0.
Proof.
  assert (Hempty : forall s, simulated s = (fun _ => false) -> ssaQ s = [] -> dns s = (fun _ => false) -> statuses s = (fun _ => None) ->
    (forall p q, executable s p q = true -> p = 0 /\ entry f q /\ In q (blocksQ s)) -> (forall l, In l (blocksQ s) -> exists p, executable s p l = true) ->
    (forall l, entry f l -> executable s 0 l = true) -> inv none none none s V0).
  { intros s E1 E2 E3 E4 HX HQ HE. split; rewrite ?E1, ?E2, ?E3, ?E4; try discriminate; auto.
    - intros p q K. destruct (HX p q K) as (_ & _ & A). auto.
    - intros i Hi Hr. cbn [status_of]. apply (Hown i Hi Hr).
    - intros i Hi c Ec Hc. destruct (N.eq_dec (res i) 0) as [Z|Nz]; [|destruct (Hown i Hi Nz); congruence].
      pose proof (wf_has_result f W i Hi) as K. unfold is_terminator in K. destruct (kind i); auto; apply K in Z; discriminate.
    - intros i [].
    - intros p q K. destruct (HX p q K). auto.
    - intros p q K. destruct (HX p q K) as (A & B & _). auto. }
  assert (Hc : f = [] \/ exists b g, f = b :: g) by (destruct f; eauto).
  destruct Hc as [Ef|(b & g & Ef)].
  - replace (initial_state f) with empty_state by (rewrite Ef; reflexivity). apply Hempty; auto; [discriminate|intros l []|]. intros l (b & f' & K & _). congruence.
  - replace (initial_state f) with (add_control_edge 0 (Some (label b)) empty_state) by (rewrite Ef; reflexivity).
    destruct (add_control_edge_grown 0 (Some (label b)) empty_state) as [G1 G2 G3 G4 G5 G6]. apply Hempty; auto.
    + intros p q K. apply G5 in K as [K|(-> & [K|[]])]; [discriminate|]. inversion K; subst. split; [reflexivity|]. split; [exists b, g; auto|]. apply G6. right. split; [left; reflexivity|reflexivity].
    + intros l K. apply G6 in K as [[]|([K|[]] & _)]. exists 0. apply G5. right. split; [reflexivity|left; exact K].
    + intros l (b' & f' & K & ->). rewrite Ef in K. inversion K; subst. apply G5. right. split; [reflexivity|left; reflexivity].
Qed.
Theorem propagate_end fuel c s V n : propagate consts fold_inst f fuel V0 = Ok (c, (s, (V, n))) ->
  inv none none none s V /\ blocksQ s = [] /\ ssaQ s = [].
Proof.
  unfold propagate, run. intro H. destruct (run_loop _ visit f fuel false (initial_state f, (V0, 0%nat))) as [[c1 [s1 [V1 n1]]]| | |] eqn:E; try discriminate. cbn [bind fst snd] in H.
  destruct (forallb _ _); [|discriminate]. inversion H; subst. apply (run_loop_inv fuel false (initial_state f) V0 0%nat c s V n initial_inv E).
Qed.
(** No assertion fails before the last one. *)
Theorem propagate_no_assert fuel : (forall c s V n, inv none none none s V -> blocksQ s = [] -> ssaQ s = [] -> run_loop _ visit f fuel false (initial_state f, (V0, 0%nat)) = Ok (c, (s, (V, n))) ->
  forallb (decided s) (all_insts f) = true) -> propagate consts fold_inst f fuel V0 <> Asserted.
Proof.
  intro D. unfold propagate, run. pose proof (run_loop_no_assert fuel false (initial_state f) V0 0%nat initial_inv) as A.
  destruct (run_loop _ visit f fuel false (initial_state f, (V0, 0%nat))) as [[c1 [s1 [V1 n1]]]| | |] eqn:E; try discriminate; [|congruence]. cbn [bind fst snd].
  destruct (run_loop_inv fuel false (initial_state f) V0 0%nat c1 s1 V1 n1 initial_inv E) as (I & Q1 & Q2). rewrite (D c1 s1 V1 n1 I Q1 Q2 eq_refl). discriminate.
Qed.
End CCP.
