(** Proofs about constant propagation: the invariant of the work lists. *)
From Verif Require Import Base Propagator PropagatorSpec PropagatorProofs PropagatorProofs2 PropagatorProofs3.
Local Open Scope N_scope.
Set Default Proof Using "All".

Lemma nodup_flat_map {A B C} (g : A -> list B) (h : B -> C) l a b x y : NoDup (map h (flat_map g l)) -> In a l -> In b l -> In x (g a) -> In y (g b) -> h x = h y -> a = b.
Proof.
  induction l as [|c l IH]; intros Hn Ha Hb Hx Hy E; [destruct Ha|]. cbn [flat_map] in Hn. rewrite map_app in Hn.
  assert (D : forall u v, In u (g c) -> In v (flat_map g l) -> h u = h v -> False).
  { intros u v Hu Hv Euv. apply (in_map h) in Hu. apply (in_map h) in Hv. rewrite Euv in Hu. apply in_split in Hu as (l1 & l2 & E1). rewrite E1 in Hn.
    rewrite <- app_assoc in Hn. cbn [app] in Hn. apply NoDup_remove_2 in Hn. apply Hn. rewrite !in_app_iff. auto. }
  assert (Hn' : NoDup (map h (flat_map g l))).
  { clear - Hn. induction (map h (g c)) as [|z zs IHz]; [exact Hn|]. inversion Hn; subst. auto. }
  destruct Ha as [->|Ha], Hb as [->|Hb]; [reflexivity| | |apply IH; auto].
  - exfalso. apply (D x y Hx); [|exact E]. apply in_flat_map. eauto.
  - exfalso. apply (D y x Hy); [|congruence]. apply in_flat_map. eauto.
Qed.
Lemma nodup_inj {A B} (h : A -> B) l x y : NoDup (map h l) -> In x l -> In y l -> h x = h y -> x = y.
Proof.
  induction l as [|z l IH]; intros Hn Hx Hy E; [destruct Hx|]. cbn [map] in Hn. inversion Hn; subst. destruct Hx as [->|Hx], Hy as [->|Hy]; auto.
  - exfalso. apply H1. rewrite E. apply in_map. exact Hy.
  - exfalso. apply H1. rewrite <- E. apply in_map. exact Hx.
Qed.

Lemma visit_low consts fold_inst f (W : well_formed f) u X i d u' : In i (all_insts f) -> visit_instruction consts fold_inst f u X i = Visited NotInteresting d u' -> res i <> 0.
Proof.
  intros Hi H Z. pose proof (wf_has_result f W i Hi) as K. unfold visit_instruction, visit_branch, is_terminator in *. rewrite Z in *. cbn [N.eqb negb] in H.
  destruct (kind i); try (apply K in Z; discriminate); try discriminate;
    repeat match type of H with context [match ?x with _ => _ end] => destruct x eqn:?; try discriminate end; discriminate (proj2 K eq_refl).
Qed.

Section CCP.
Variable consts : N -> option constant.
Variable fold_inst : nat -> inst -> (N -> N) -> folded.
Variable M : Type.
Variable sem : nat -> list (option value) -> M -> value -> M -> Prop.
Variable ty : N -> vtype.
Variable f : func.
Variable V0 : values.
Hypothesis W : well_formed f.
Hypothesis WT : well_typed ty consts f.
Hypothesis FR : folds_right consts sem ty f fold_inst.
Hypothesis FM : folds_more consts f fold_inst.
Hypothesis Hown : forall i, In i (all_insts f) -> res i <> 0 -> V0 (res i) = None /\ consts (res i) = None.
Hypothesis Hconst : forall i id k, In i (all_insts f) -> In id (in_ids i) -> consts id = Some k -> V0 id = Some id.
Hypothesis Hknown : forall id c, V0 id = Some c -> c <> varying_id -> exists k, consts c = Some k /\ ty c = ty id.

Local Notation upto := (PropagatorProofs2.upto consts M sem).
Local Notation persists := (PropagatorProofs2.persists fold_inst).
Local Notation typed := (PropagatorProofs2.typed consts ty).
Local Notation const_ids_known := (PropagatorProofs2.const_ids_known consts f).
Local Notation settled := (PropagatorProofs3.settled f).
Local Notation visit_good := (PropagatorProofs2.visit_good consts fold_inst M sem ty).

Definition entry (l : N) : Prop := exists b f', f = b :: f' /\ l = label b.
Definition pinned (s : pstate) (V : values) (i : inst) : Prop :=
  ((res i <> 0 -> vary V (res i)) /\ (is_terminator i = true -> all_succs (executable s) i)) \/ settled s (executable s) i.
(** a path along executable edges *)
Inductive xpath (X : N -> N -> bool) : list N -> N -> Prop :=
| xpath_entry b f' : f = b :: f' -> xpath X [label b] (label b)
| xpath_step p l l' : xpath X p l -> In (Some l') (succs f l) -> X l l' = true -> xpath X (l' :: p) l'.
Lemma xpath_path X p l : xpath X p l -> path f p l.
Proof using Type. clear. intro H. induction H; [eapply path_entry; eauto|eapply path_step; eauto]. Qed.
Lemma xpath_mono X X' p l : (forall p q, X p q = true -> X' p q = true) -> xpath X p l -> xpath X' p l.
Proof using Type. clear. intros K H. induction H; [eapply xpath_entry; eauto|eapply xpath_step; eauto]. Qed.

Record inv (ex : inst -> Prop) (cur srcs : N -> Prop) (s : pstate) (V : values) : Prop := {
  j_upto : forall i, In i (all_insts f) -> simulated s (blk i) = true ->
    upto V (executable s) i \/ In i (ssaQ s) \/ (is_phi i = true /\ In (blk i) (blocksQ s)) \/ ex i;
  j_dns : forall i, In i (all_insts f) -> dns s (uid i) = true -> upto V (executable s) i /\ pinned s V i;
  j_edge : forall p q, executable s p q = true -> simulated s q = true \/ In q (blocksQ s) \/ cur q;
  j_status : forall i, In i (all_insts f) -> res i <> 0 -> status_of (statuses s (uid i)) V (res i);
  j_varying : forall i, In i (all_insts f) -> statuses s (uid i) = Some Varying -> dns s (uid i) = true;
  j_persists : forall i, In i (all_insts f) -> persists V (executable s) i;
  j_typed : typed V;
  j_ssa : forall i, In i (ssaQ s) -> In i (all_insts f) /\ simulated s (blk i) = true;
  j_V0 : forall id, (forall i, In i (all_insts f) -> res i = id -> id = 0) -> V id = V0 id;
  j_src : forall p q, executable s p q = true -> p = 0 \/ simulated s p = true \/ srcs p;
  j_flow : forall p q, executable s p q = true -> (p = 0 /\ entry q) \/ (In (Some q) (succs f p) /\ In p (labels f));
  j_path : forall l, simulated s l = true -> exists p, xpath (executable s) p l /\ forall x, In x p -> simulated s x = true;
  j_queue : forall l, In l (blocksQ s) -> exists p, executable s p l = true;
  j_entry : forall l, entry l -> executable s 0 l = true;
  j_low : forall i, In i (all_insts f) -> statuses s (uid i) = Some NotInteresting -> res i <> 0 /\ (simulated s (blk i) = true \/ cur (blk i)) }.

(** *** Facts about the function *)
Lemma uid_inj i j : In i (all_insts f) -> In j (all_insts f) -> uid i = uid j -> i = j.
Proof using W. clear - W. intros. apply (nodup_inj uid (all_insts f)); auto. apply (wf_uids f W). Qed.
Lemma get_block_label b : In b f -> get_block f (label b) = Some b.
Proof using W.
  clear - W. intro Hb. destruct (get_block_some f (label b)) as (c & E); [apply in_map; exact Hb|]. rewrite E. f_equal.
  apply get_block_in in E as (Hc & El). symmetry. apply (nodup_flat_map block_insts uid f b c (blabel b) (blabel c) (wf_uids f W)); auto; [left; reflexivity|left; reflexivity|].
  f_equal. apply (wf_results f W); [apply (in_all_insts f b); [exact Hb|left; reflexivity]|apply (in_all_insts f c); [exact Hc|left; reflexivity]| |].
  - symmetry. exact El.
  - apply (wf_label f W b Hb).
Qed.
Lemma terminator_succs i : In i (all_insts f) -> is_terminator i = true -> succs f (blk i) = inst_succs i.
Proof using W.
  clear - W. intros Hi Ht. apply in_all_insts_inv in Hi as (b & Hb & Hi). rewrite (wf_blk f W b i Hb Hi). unfold succs. rewrite get_block_label by exact Hb.
  destruct (wf_label f W b Hb) as (Hk & _). destruct Hi as [<-|Hi]; [unfold is_terminator in Ht; rewrite Hk in Ht; discriminate|].
  destruct (wf_terminator f W b Hb) as (is & t & E & _ & Hn). unfold block_succs. rewrite E, last_app_one. rewrite E in Hi. apply in_app_or in Hi as [Hi|[<-|[]]]; [|reflexivity].
  rewrite Forall_forall in Hn. rewrite (Hn i Hi) in Ht. discriminate.
Qed.
Lemma get_def_self i : In i (all_insts f) -> res i <> 0 -> get_def f (res i) = Some i.
Proof using W.
  clear - W. intros Hi Hr. unfold get_def. destruct (find _ _) as [d|] eqn:E.
  - apply find_some in E as (Hd & E). apply N.eqb_eq in E. f_equal. apply (wf_results f W); auto. congruence.
  - pose proof (find_none _ _ E i Hi) as G. cbn beta in G. rewrite N.eqb_refl in G. discriminate.
Qed.
Lemma known_of_inv ex cur srcs s V : inv ex cur srcs s V -> const_ids_known V.
Proof.
  intros I i id k Hi Hid Ek. rewrite (j_V0 _ _ _ _ _ I); [apply (Hconst i id k Hi Hid Ek)|]. intros j Hj <-.
  destruct (N.eq_dec (res j) 0) as [|Nz]; [assumption|]. destruct (Hown j Hj Nz) as (_ & E). congruence.
Qed.

(** *** How facts about one instruction survive a step *)
Lemma upto_stable V V' (X X' : N -> N -> bool) j :
  (is_phi j = false -> forall id, In id (in_ids j) -> V' id = V id) -> V' (res j) = V (res j) -> (forall p q, X p q = true -> X' p q = true) ->
  (forall args a l, kind j = KPhi args -> In (a, l) args -> X' l (blk j) = true -> X l (blk j) = true /\ V' a = V a) ->
  upto V X j -> upto V' X' j.
Proof using Type.
  clear. intros Hv Hr HX Hphi. unfold PropagatorProofs2.upto, vary, all_succs, is_phi in *. destruct (kind j) eqn:Hk; rewrite ?Hr; auto.
  - intros H a l Hin HXl. destruct (Hphi args a l eq_refl Hin HXl) as (H1 & ->). apply (H a l Hin H1).
  - rewrite (Hv eq_refl src); [auto|]. unfold in_ids. rewrite Hk. left. reflexivity.
  - assert (Hids : forall id, In id ids -> V' id = V id) by (intros id Hid; apply (Hv eq_refl); unfold in_ids; rewrite Hk; exact Hid).
    intros [H|[(H & id & Hid & E)|(c & k & H1 & H2 & H3)]]; [auto| |].
    + right. left. split; [exact H|]. exists id. split; [exact Hid|]. rewrite Hids by exact Hid. exact E.
    + right. right. exists c, k. split; [exact H1|]. split; [exact H2|]. intros vs mem v mem' Hc. apply (H3 vs mem v mem').
      clear - Hc Hids. unfold consistent in *. revert Hids. induction Hc as [|id ov ids vs H _ IH]; intro Hids; [constructor|].
      constructor; [|apply IH; intros x Hx; apply Hids; right; exact Hx]. intros k' Ek'. apply H. rewrite (value_map_same V) by (apply Hids; left; reflexivity). exact Ek'.
  - intros [H|(v & k & l & H1 & H2)]; [left; intros l Hl; apply HX; apply H; exact Hl|]. right. exists v, k, l. rewrite (Hv eq_refl c); [|unfold in_ids; rewrite Hk; left; reflexivity].
    split; [exact H1|]. destruct H2 as (H2 & H3 & H4). auto.
  - intros [H|(v & k & l & H1 & H2)]; [left; intros l Hl; apply HX; apply H; exact Hl|]. right. exists v, k, l. rewrite (Hv eq_refl sel); [|unfold in_ids; rewrite Hk; left; reflexivity].
    split; [exact H1|]. destruct H2 as (H2 & H3 & H4). auto.
Qed.
Lemma persists_keeps V V' (X X' : N -> N -> bool) i j : In j (all_insts f) -> const_ids_known V -> typed V -> V' (res j) = V (res j) -> (forall id, id <> res i \/ res i = 0 -> V' id = V id) ->
  (V (res i) = None \/ V' (res i) = V (res i) \/ vary V' (res i)) -> (forall p q, X p q = true -> X' p q = true) -> persists V X j -> persists V' X' j.
Proof using FM.
  clear - FM. intros Hj CK T Hr Hfr Hup HX H c Ec Hc. rewrite Hr in Ec. specialize (H c Ec Hc).
  assert (Up : forall id, V id = None \/ V' id = V id \/ vary V' id).
  { intro id. destruct (N.eq_dec id (res i)) as [->|Ni]; [exact Hup|]. right. left. apply Hfr. auto. }
  assert (Upc : forall id c, V id = Some c \/ vary V id -> V' id = Some c \/ vary V' id).
  { intros id c0 Hc0. destruct (Up id) as [E|[E|E]]; [destruct Hc0 as [Hc0|Hc0]; unfold vary in Hc0; congruence|unfold vary; rewrite E; exact Hc0|auto]. }
  destruct (kind j) eqn:Hk; auto.
  - destruct H as (a & l & Hin & HXl & H). exists a, l. auto.
  - destruct H as [(id & Hid & Hv)|H].
    + left. exists id. split; [exact Hid|]. destruct (Up id) as [E|[E|E]]; [unfold vary in Hv; congruence|unfold vary; rewrite E; exact Hv|exact E].
    + destruct (existsb (is_varying V') ids) eqn:Ex.
      * left. apply existsb_exists in Ex as (id & Hid & E). exists id. split; [exact Hid|]. unfold is_varying in E. destruct (V' id) as [v|] eqn:Ev; [|discriminate].
        apply N.eqb_eq in E. subst v. exact Ev.
      * right. intro n. apply (FM 0%nat n j op ids (value_map V) (value_map V') Hj Hk); [|apply H]. intros id Hid Hcid. apply value_map_same.
        destruct (Up id) as [E|[E|E]]; [|exact E|].
        -- exfalso. unfold value_map in Hcid. rewrite E in Hcid. destruct (consts id) as [k|] eqn:Ek; [|congruence].
           rewrite (CK j id k Hj) in E; [discriminate|unfold in_ids; rewrite Hk; exact Hid|exact Ek].
        -- exfalso. assert (existsb (is_varying V') ids = true); [|congruence]. apply existsb_exists. exists id. split; [exact Hid|]. unfold is_varying. rewrite E. reflexivity.
Qed.

(** What a step leaves alone. *)
Record frame (i : inst) (s s' : pstate) (V V' : values) : Prop := {
  fr_V : forall id, id <> res i \/ res i = 0 -> V' id = V id;
  fr_X : forall p q, executable s p q = true -> executable s' p q = true;
  fr_new : forall p q, executable s' p q = true -> executable s p q = true \/ (p = blk i /\ is_terminator i = true /\ In q (blocksQ s'));
  fr_sim : simulated s' = simulated s;
  fr_blocks : forall l, In l (blocksQ s) -> In l (blocksQ s') }.

Lemma sim_inst_inv ex cur srcs i s V n b s' V' n' : inv ex cur srcs s V -> In i (all_insts f) ->
  (simulated s (blk i) = true \/ srcs (blk i) \/ is_terminator i = false) -> (simulated s (blk i) = true \/ cur (blk i)) ->
  sim_inst _ (visit_instruction consts fold_inst f) f i (s, (V, n)) = Ok (b, (s', (V', n'))) ->
  inv (fun j => ex j /\ j <> i) cur srcs s' V' /\ upto V' (executable s') i /\ frame i s s' V V'.
Proof.
  intros I Hi Hsrc Hcur H. pose proof (known_of_inv _ _ _ _ _ I) as CK.
  assert (Dec : forall j, In j (all_insts f) -> j = i \/ (j <> i /\ uid j <> uid i)).
  { intros j Hj. destruct (Nat.eq_dec (uid j) (uid i)) as [E|E]; [left; apply uid_inj; auto|right; split; [intros ->; auto|exact E]]. }
  apply sim_inst_spec in H as [(Hd & -> & E)|(Hd & st & dest & Ev & [T1 T2 T3 T4 T5 T6 T7 T8])].
  - inversion E; subst. destruct (j_dns _ _ _ _ _ I i Hi Hd) as (Hu & _). split; [|split; [exact Hu|split; auto]].
    destruct I; split; auto. intros j Hj Hs. destruct (Dec j Hj) as [->|(Nj & _)]; [left; exact Hu|]. destruct (j_upto0 j Hj Hs) as [A|[A|[A|A]]]; auto.
  - assert (O : statuses s (uid i) <> Some Varying).
    { intro E. pose proof (j_varying _ _ _ _ _ I i Hi E). congruence. }
    pose proof (visit_instruction_good consts fold_inst M sem ty f W WT FR FM V (executable s) i (statuses s (uid i)) n Hi (j_typed _ _ _ _ _ I) CK
      (j_persists _ _ _ _ _ I i Hi) (j_status _ _ _ _ _ I i Hi) O) as G.
    rewrite Ev in G. cbn [visit_result fst] in G. destruct G as [G1 G2 G3 G4 G5 G6 G7 G8 G9].
    (* the new edges *)
    assert (X1 : forall p q, executable s p q = true -> executable s' p q = true) by (intros p q K; apply T3; auto).
    assert (Xnew : forall p q, executable s' p q = true -> executable s p q = true \/ (p = blk i /\ is_terminator i = true /\ In (Some q) (inst_succs i))).
    { intros p q K. apply T3 in K as [K|(-> & [(K1 & K2 & K3)|(K1 & K2)])]; [auto| |].
      - right. rewrite terminator_succs in K3 by auto. auto.
      - right. destruct (G9 q K2) as (K3 & K4 & _). auto. }
    assert (Xblk : forall p q, executable s' p q = true -> executable s p q = true \/ (p = blk i /\ is_terminator i = true /\ In q (blocksQ s'))).
    { intros p q K. destruct (executable s p q) eqn:Ek; [auto|]. right. destruct (Xnew p q K) as [K1|(-> & K2 & _)]; [congruence|].
      split; [reflexivity|]. split; [exact K2|]. apply T4. auto. }
    assert (Hu : upto V' (executable s') i).
    { apply G6; [exact X1| | |].
      - intros Ht p q. destruct (executable s p q) eqn:Ek; [apply X1; exact Ek|]. destruct (executable s' p q) eqn:Ek'; [|reflexivity].
        destruct (Xnew p q Ek') as [K1|(_ & K2 & _)]; congruence.
      - intros d ->. apply T3. right. split; [reflexivity|]. right. split; [|reflexivity]. apply (G9 d eq_refl).
      - intros -> Ht l Hl. apply T3. right. split; [reflexivity|]. left. rewrite terminator_succs by auto. auto. }
    assert (Hsame : forall j, In j (all_insts f) -> j <> i -> V' (res j) = V (res j)).
    { intros j Hj Nj. apply G1. destruct (N.eq_dec (res i) 0) as [|Nz]; [auto|]. left. intro E. apply Nj. apply (wf_results f W); auto. congruence. }
    assert (Bl : forall l, In l (blocksQ s) -> In l (blocksQ s')) by (intros l K; apply T4; auto).
    (* instructions not to simulate again *)
    assert (Hpin : forall j, In j (all_insts f) -> dns s' (uid j) = true -> upto V' (executable s') j /\ pinned s' V' j).
    { intros j Hj Hdj. destruct (T6 _ Hdj) as [Hold|(Eu & Hnew)].
      - assert (Nj : j <> i) by (intros ->; congruence). destruct (j_dns _ _ _ _ _ I j Hj Hold) as (Huj & [(P1 & P2)|(P1 & P2)]).
        + assert (Q1 : res j <> 0 -> vary V' (res j)) by (intro K; unfold vary; rewrite Hsame by auto; apply P1; exact K).
          assert (Q2 : is_terminator j = true -> all_succs (executable s') j) by (intros K l Hl; apply X1; apply (P2 K l Hl)).
          split; [apply (upto_varying consts M sem f W); auto|left; auto].
        + assert (Hdep : forall id, In id (dep_ids j) -> V' id = V id).
          { intros id Hid. apply G1. destruct (N.eq_dec (res i) 0) as [|Nz]; [auto|]. left. intros ->. specialize (P1 _ Hid). unfold should_simulate_def in P1.
            rewrite get_def_self in P1 by auto. rewrite Hd in P1. discriminate. }
          split; [|right; split].
          * apply (upto_stable V V' (executable s) (executable s') j); auto.
            -- intros Hph id Hid. apply Hdep. unfold dep_ids. unfold is_phi in Hph. destruct (kind j); auto. discriminate.
            -- intros args a l Hk Hin _. split; [apply (P2 args a l Hk Hin)|]. apply Hdep. unfold dep_ids. rewrite Hk. apply (in_map fst) in Hin. exact Hin.
          * intros id Hid. specialize (P1 id Hid). unfold should_simulate_def in *. destruct (get_def f id) as [d|]; [|discriminate].
            apply negb_false_iff in P1. apply negb_false_iff. apply T7. exact P1.
          * intros args a l Hk Hin. apply X1. apply (P2 args a l Hk Hin).
      - assert (j = i) by (apply uid_inj; auto). subst j. split; [exact Hu|]. destruct Hnew as [->|(P1 & P2)].
        + left. split; [intro Nz; exact (G3 Nz)|]. intros Ht l Hl. apply T3. right. split; [reflexivity|]. left. rewrite terminator_succs by auto. auto.
        + right. split; [|exact P2]. intros id Hid. specialize (P1 id Hid). unfold should_simulate_def in *. destruct (get_def f id) as [d|]; [|discriminate].
          apply negb_false_iff in P1. apply negb_false_iff. apply T7. exact P1. }
    split; [|split; [exact Hu|split; auto]].
    split.
    + (* up to date *)
      intros j Hj Hs. rewrite T1 in Hs. destruct (Dec j Hj) as [->|(Nj & Nu)]; [left; exact Hu|].
      destruct (j_upto _ _ _ _ _ I j Hj Hs) as [A|[A|[(A1 & A2)|A]]]; [|right; left; apply T5; auto|right; right; left; auto|right; right; right; auto].
      destruct (in_dec N.eq_dec (res i) (dep_ids j)) as [Hmen|Hmen].
      * destruct (N.eq_dec (res i) 0) as [Z|Nz].
        -- (* no value changes *)
           destruct (in_dec N.eq_dec (blk j) (blocksQ s')) as [Hb|Hb].
           ++ destruct (is_phi j) eqn:Ep; [auto|]. left. apply (upto_stable V V' (executable s) (executable s') j); auto.
              intros args a l Hk. unfold is_phi in Ep. rewrite Hk in Ep. discriminate.
           ++ left. apply (upto_stable V V' (executable s) (executable s') j); auto.
              intros args a l Hk Hin HX. split; [|auto]. destruct (Xblk _ _ HX) as [K|(_ & _ & K)]; [exact K|contradiction].
        -- assert (Hv : V' (res i) = V (res i) \/ V' (res i) <> V (res i)).
           { destruct (V' (res i)) as [x|], (V (res i)) as [y|]; try (right; discriminate); auto. destruct (N.eq_dec x y) as [->|K]; [auto|right; congruence]. }
           destruct Hv as [Hv|Hv].
           ++ assert (Hall : forall id, V' id = V id) by (intro id; destruct (N.eq_dec id (res i)) as [->|K]; [exact Hv|apply G1; auto]).
              destruct (in_dec N.eq_dec (blk j) (blocksQ s')) as [Hb|Hb].
              ** destruct (is_phi j) eqn:Ep; [auto|]. left. apply (upto_stable V V' (executable s) (executable s') j); auto.
                 intros args a l Hk. unfold is_phi in Ep. rewrite Hk in Ep. discriminate.
              ** left. apply (upto_stable V V' (executable s) (executable s') j); auto.
                 intros args a l Hk Hin HX. split; [|auto]. destruct (Xblk _ _ HX) as [K|(_ & _ & K)]; [exact K|contradiction].
           ++ destruct (dns s (uid j)) eqn:Edj; [left; apply (Hpin j Hj (T7 _ Edj))|]. right. left. apply T5. right.
              split; [exact (G5 Nz Hv)|]. split.
              { intros ->. specialize (G3 Nz). cbn [status_of] in G3. destruct G2 as [K|[K|K]]; unfold vary in *; congruence. }
              split; [exact Nz|]. split; [|split; [exact Hs|split; [exact Edj|auto]]]. apply users_in. split; [exact Hj|].
              unfold dep_ids, in_ids in Hmen. unfold in_ids. destruct (kind j); auto. apply in_map_iff in Hmen as ((a & l) & Ea & Hin). cbn [fst] in Ea. apply in_flat_map. exists (a, l). split; [exact Hin|left; exact Ea].
      * assert (Hdep : forall id, In id (dep_ids j) -> V' id = V id) by (intros id Hid; apply G1; left; intros ->; contradiction).
        destruct (in_dec N.eq_dec (blk j) (blocksQ s')) as [Hb|Hb].
        -- destruct (is_phi j) eqn:Ep; [auto|]. left. apply (upto_stable V V' (executable s) (executable s') j); auto.
           ++ intros _ id Hid. apply Hdep. unfold dep_ids. unfold is_phi in Ep. destruct (kind j); auto. discriminate.
           ++ intros args a l Hk. unfold is_phi in Ep. rewrite Hk in Ep. discriminate.
        -- left. apply (upto_stable V V' (executable s) (executable s') j); auto.
           ++ intros Ep id Hid. apply Hdep. unfold dep_ids. unfold is_phi in Ep. destruct (kind j); auto. discriminate.
           ++ intros args a l Hk Hin HX. split; [destruct (Xblk _ _ HX) as [K|(_ & _ & K)]; [exact K|contradiction]|]. apply Hdep. unfold dep_ids. rewrite Hk. apply (in_map fst) in Hin. exact Hin.
    + exact Hpin.
    + intros p q K. rewrite T1. destruct (Xblk p q K) as [K1|(_ & _ & K1)]; [|auto]. destruct (j_edge _ _ _ _ _ I p q K1) as [A|[A|A]]; auto.
    + intros j Hj Hr. rewrite T2. destruct (Nat.eqb_spec (uid j) (uid i)) as [E|E].
      * assert (j = i) by (apply uid_inj; auto). subst j. apply G3. exact Hr.
      * assert (Nj : j <> i) by (intros ->; auto). pose proof (j_status _ _ _ _ _ I j Hj Hr) as K. unfold status_of, vary in *. rewrite (Hsame j Hj Nj). exact K.
    + intros j Hj. rewrite T2. destruct (Nat.eqb_spec (uid j) (uid i)) as [E|E].
      * intros [= ->]. rewrite E. apply T8. reflexivity.
      * intro K. apply T7. apply (j_varying _ _ _ _ _ I j Hj K).
    + intros j Hj. destruct (Dec j Hj) as [->|(Nj & _)].
      * intros c Ec Hc. specialize (G7 c Ec Hc). destruct (kind i); auto. destruct G7 as (a & l & K1 & K2 & K3). exists a, l. auto.
      * apply (persists_keeps V V' (executable s) (executable s') i j); auto; [apply (j_typed _ _ _ _ _ I)|apply (j_persists _ _ _ _ _ I j Hj)].
    + exact G8.
    + intros j K. rewrite T1. apply T5 in K as [K|(_ & _ & _ & K1 & K2 & _)]; [apply (j_ssa _ _ _ _ _ I j K)|]. apply users_in in K1. tauto.
    + intros id K. rewrite G1; [apply (j_V0 _ _ _ _ _ I id K)|]. destruct (N.eq_dec id (res i)) as [E|E]; [|auto]. right. rewrite <- E. apply (K i Hi). symmetry. exact E.
    + intros p q K. rewrite T1. destruct (Xnew p q K) as [K1|(-> & K1 & _)]; [apply (j_src _ _ _ _ _ I p q K1)|]. destruct Hsrc as [A|[A|A]]; [auto|auto|congruence].
    + intros p q K. destruct (Xnew p q K) as [K1|(-> & K1 & K2)]; [apply (j_flow _ _ _ _ _ I p q K1)|]. right. rewrite terminator_succs by auto. split; [exact K2|apply (blk_label f W i Hi)].
    + rewrite T1. intros l Hl. destruct (j_path _ _ _ _ _ I l Hl) as (p & Hp & Hall). exists p. split; [apply (xpath_mono (executable s)); auto|exact Hall].
    + intros l K. apply T4 in K as [K|(K & _)]; [destruct (j_queue _ _ _ _ _ I l K) as (p & K1); eauto|eauto].
    + intros l K. apply X1. apply (j_entry _ _ _ _ _ I l K).
    + intros j Hj. rewrite T1, T2. destruct (Nat.eqb_spec (uid j) (uid i)) as [E|E].
      * assert (j = i) by (apply uid_inj; auto). subst j. intros [= ->]. split; [|exact Hcur]. apply (visit_low consts fold_inst f W _ _ _ _ _ Hi Ev).
      * apply (j_low _ _ _ _ _ I j Hj).
Qed.
Lemma sim_inst_no_assert ex cur srcs i s V n : inv ex cur srcs s V -> In i (all_insts f) ->
  sim_inst _ (visit_instruction consts fold_inst f) f i (s, (V, n)) <> Asserted.
Proof.
  intros I Hi. pose proof (known_of_inv _ _ _ _ _ I) as CK. unfold sim_inst. cbn [fst snd]. destruct (dns s (uid i)) eqn:Hd; [discriminate|].
  assert (O : statuses s (uid i) <> Some Varying).
  { intro E. pose proof (j_varying _ _ _ _ _ I i Hi E). congruence. }
  pose proof (visit_instruction_good consts fold_inst M sem ty f W WT FR FM V (executable s) i (statuses s (uid i)) n Hi (j_typed _ _ _ _ _ I) CK
    (j_persists _ _ _ _ _ I i Hi) (j_status _ _ _ _ _ I i Hi) O) as G.
  destruct (visit_instruction consts fold_inst f (V, n) (executable s) i) as [st dest u| |]; [|discriminate|destruct G]. cbn [visit_result] in G. destruct G as [_ _ _ G4 _ _ _ _ _].
  unfold set_status. destruct (statuses s (uid i)) as [old|].
  - destruct (Nat.leb_spec (status_rank old) (status_rank st)) as [L|L].
    + destruct (status_eqb old st); cbn [bind fst snd]; destruct st; discriminate.
    + exfalso. destruct old, st; cbn in L; try lia; try congruence. apply G4; reflexivity.
  - cbn [bind fst snd]. destruct st; discriminate.
Qed.
End CCP.
