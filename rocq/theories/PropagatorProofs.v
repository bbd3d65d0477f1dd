(** Proofs about the propagator: it terminates. *)
From Verif Require Import Base Propagator PropagatorSpec.
Local Open Scope N_scope.
Set Default Proof Using "Type".

(** ** Lists *)
Lemma filter_le {A} (p q : A -> bool) l : (forall x, In x l -> p x = true -> q x = true) -> (length (filter p l) <= length (filter q l))%nat.
Proof.
  induction l as [|x l IH]; intro H; [apply le_n|]. cbn [filter]. specialize (IH (fun y Hy => H y (or_intror Hy))).
  destruct (p x) eqn:Ep; [rewrite (H x (or_introl eq_refl) Ep); cbn [length]; lia|]. destruct (q x); cbn [length]; lia.
Qed.
Lemma filter_lt {A} (p q : A -> bool) l x : (forall y, In y l -> p y = true -> q y = true) -> In x l -> p x = false -> q x = true ->
  (length (filter p l) < length (filter q l))%nat.
Proof.
  induction l as [|y l IH]; intros H Hx Hp Hq; [destruct Hx|]. cbn [filter]. destruct Hx as [->|Hx].
  - rewrite Hp, Hq. cbn [length]. pose proof (filter_le p q l (fun z Hz => H z (or_intror Hz))). lia.
  - specialize (IH (fun z Hz => H z (or_intror Hz)) Hx Hp Hq). destruct (p y) eqn:Ep; [rewrite (H y (or_introl eq_refl) Ep); cbn [length]; lia|].
    destruct (q y); cbn [length]; lia.
Qed.
Lemma filter_length_le {A} (p : A -> bool) l : (length (filter p l) <= length l)%nat.
Proof. induction l as [|x l IH]; [apply le_n|]. cbn [filter]. destruct (p x); cbn [length]; lia. Qed.

(** ** Blocks and instructions *)
Lemma in_all_insts f b i : In b f -> In i (block_insts b) -> In i (all_insts f).
Proof. intros. apply in_flat_map. eauto. Qed.
Lemma in_all_insts_inv f i : In i (all_insts f) -> exists b, In b f /\ In i (block_insts b).
Proof. intro H. apply in_flat_map in H as (b & ? & ?). eauto. Qed.
Lemma get_block_in f l b : get_block f l = Some b -> In b f /\ label b = l.
Proof. intro H. apply find_some in H as (? & H). apply N.eqb_eq in H. auto. Qed.
Lemma get_block_some f l : In l (labels f) -> exists b, get_block f l = Some b.
Proof.
  intro H. apply in_map_iff in H as (b & E & Hb). unfold get_block. destruct (find _ f) as [c|] eqn:F; [eauto|].
  exfalso. pose proof (find_none _ _ F b Hb) as G. cbn beta in G. rewrite E, N.eqb_refl in G. discriminate.
Qed.
Lemma leading_phis_in is i : In i (leading_phis is) -> In i is /\ is_phi i = true.
Proof.
  induction is as [|j is IH]; cbn [leading_phis]; [intros []|]. destruct (is_phi j) eqn:E; [|intros []].
  intros [<-|H]; [split; [left; reflexivity|exact E]|]. destruct (IH H). split; [right|]; auto.
Qed.
Lemma mentions_in i id : mentions i id = true <-> In id (in_ids i).
Proof.
  unfold mentions. rewrite existsb_exists. split.
  - intros (x & Hx & E). apply N.eqb_eq in E. subst. exact Hx.
  - intro H. exists id. rewrite N.eqb_refl. auto.
Qed.
Lemma users_in f id u : In u (users f id) <-> In u (all_insts f) /\ In id (in_ids u).
Proof. unfold users. rewrite filter_In, mentions_in. tauto. Qed.
Lemma last_in {A} (l : list A) d : l <> [] -> In (last l d) l.
Proof.
  induction l as [|x l IH]; [congruence|]. intros _. destruct l as [|y l]; [left; reflexivity|]. right. apply IH. discriminate.
Qed.
Lemma last_app_one {A} (l : list A) x d : last (l ++ [x]) d = x.
Proof. induction l as [|y l IH]; [reflexivity|]. cbn [app]. destruct (l ++ [x]) eqn:E; [destruct l; discriminate|]. exact IH. Qed.

Section Termination.
Variable U : Type.
Variable visit : U -> (N -> N -> bool) -> inst -> visited U.
Variable f : func.
Hypothesis W : well_formed f.
Hypothesis Hdest : forall u X i st d u', In i (all_insts f) -> visit u X i = Visited st (Some d) u' -> In d (labels f).

Definition weight (i : inst) : nat := length (users f (res i)).
Definition rank (o : option status) : nat := match o with None => 0 | Some s => status_rank s end.
Definition todo (st : nat -> option status) (is : list inst) : nat :=
  fold_right (fun i a => ((3 - rank (st (uid i))) * weight i + a)%nat) 0%nat is.
Definition edges : list (N * N) := list_prod (0 :: labels f) (labels f).
Definition missing (X : N -> N -> bool) : nat := length (filter (fun e => negb (X (fst e) (snd e))) edges).
Definition potential (s : pstate) : nat :=
  (length (blocksQ s) + length (ssaQ s) + missing (executable s) + todo (statuses s) (all_insts f))%nat.
Definition queued (s : pstate) : Prop := forall i, In i (ssaQ s) -> In i (all_insts f).

Lemma blk_label i : In i (all_insts f) -> In (blk i) (labels f).
Proof using W. clear Hdest.
  intro H. apply in_all_insts_inv in H as (b & Hb & Hi). rewrite (wf_blk f W b i Hb Hi). apply in_map. exact Hb.
Qed.
Lemma weight_le i : (weight i <= length (all_insts f))%nat.
Proof. unfold weight, users. apply filter_length_le. Qed.
Lemma succs_labels l l' : In (Some l') (succs f l) -> In l' (labels f).
Proof using W. clear Hdest.
  unfold succs. destruct (get_block f l) as [b|] eqn:E; [|intros []]. apply get_block_in in E as (Hb & _). intro H.
  apply (wf_targets f W (last (insts b) (blabel b))); [|exact H].
  apply (in_all_insts f b); [exact Hb|]. destruct (insts b) as [|i is] eqn:Ei.
  - left. reflexivity.
  - right. rewrite Ei. apply last_in. discriminate.
Qed.

Lemma add_control_edge_potential src d s : In src (0 :: labels f) -> (forall l, d = Some l -> In l (labels f)) ->
  (potential (add_control_edge src d s) <= potential s)%nat /\ ssaQ (add_control_edge src d s) = ssaQ s.
Proof.
  intros Hs Hd. unfold add_control_edge. destruct d as [l|]; [|auto]. destruct (executable s src l) eqn:E; [auto|]. split; [|reflexivity].
  unfold potential. cbn [blocksQ ssaQ executable statuses]. rewrite app_length. cbn [length].
  assert (D : Nat.lt (missing (fun p q => ((p =? src) && (q =? l)) || executable s p q)) (missing (executable s))); [|lia].
  unfold missing. apply (filter_lt _ _ _ (src, l)).
  - intros [p q] _. cbn [fst snd]. destruct ((p =? src) && (q =? l)); cbn [orb negb]; [discriminate|auto].
  - apply in_prod; [exact Hs|apply Hd; reflexivity].
  - cbn [fst snd]. rewrite !N.eqb_refl. reflexivity.
  - cbn [fst snd]. rewrite E. reflexivity.
Qed.
Lemma add_control_edges_potential src ds : forall s, In src (0 :: labels f) -> (forall l, In (Some l) ds -> In l (labels f)) ->
  (potential (fold_left (fun a d => add_control_edge src d a) ds s) <= potential s)%nat /\
  ssaQ (fold_left (fun a d => add_control_edge src d a) ds s) = ssaQ s.
Proof.
  induction ds as [|d ds IH]; intros s Hs Hd; cbn [fold_left]; [auto|].
  destruct (add_control_edge_potential src d s Hs) as (A & B); [intros l ->; apply Hd; left; reflexivity|].
  destruct (IH (add_control_edge src d s) Hs (fun l Hl => Hd l (or_intror Hl))) as (C & D). split; [lia|congruence].
Qed.
Lemma add_ssa_edges_potential i s : (potential (add_ssa_edges f i s) <= potential s + weight i)%nat.
Proof.
  unfold add_ssa_edges. destruct (res i =? 0); [lia|]. unfold potential. cbn [blocksQ ssaQ executable statuses]. rewrite app_length.
  pose proof (filter_length_le (fun u => simulated s (blk u) && negb (dns s (uid u))) (users f (res i))). unfold weight. lia.
Qed.
Lemma add_ssa_edges_queued i s : queued s -> queued (add_ssa_edges f i s).
Proof.
  unfold add_ssa_edges, queued. destruct (res i =? 0); [auto|]. cbn [ssaQ]. intros H j Hj. apply in_app_or in Hj as [Hj|Hj]; [auto|].
  apply filter_In in Hj as (Hj & _). apply users_in in Hj. tauto.
Qed.
Lemma todo_same st st' is : (forall i, In i is -> st' (uid i) = st (uid i)) -> todo st' is = todo st is.
Proof.
  induction is as [|i is IH]; intro H; [reflexivity|]. cbn [todo fold_right]. fold (todo st is) (todo st' is). rewrite (IH (fun j Hj => H j (or_intror Hj))).
  rewrite (H i (or_introl eq_refl)). reflexivity.
Qed.
Lemma todo_drop st st' is i : NoDup (map uid is) -> In i is -> (forall n, n <> uid i -> st' n = st n) -> (rank (st (uid i)) < rank (st' (uid i)) <= 3)%nat ->
  (todo st' is + weight i <= todo st is)%nat.
Proof.
  induction is as [|j is IH]; intros Hn Hi Hst Hr; [destruct Hi|]. cbn [map] in Hn. inversion Hn as [|a b Hj Hn']; subst.
  cbn [todo fold_right]. fold (todo st is) (todo st' is). destruct Hi as [->|Hi].
  - rewrite (todo_same st st' is); [|intros k Hk; apply Hst; intro E; apply Hj; rewrite <- E; apply in_map; exact Hk].
    assert ((3 - rank (st' (uid i))) * weight i + weight i <= (3 - rank (st (uid i))) * weight i)%nat; [|lia].
    replace ((3 - rank (st' (uid i))) * weight i + weight i)%nat with ((3 - rank (st' (uid i)) + 1) * weight i)%nat by lia. apply Nat.mul_le_mono_r. lia.
  - specialize (IH Hn' Hi Hst Hr). rewrite (Hst (uid j)); [lia|]. intro E. apply Hj. rewrite E. apply in_map. exact Hi.
Qed.
Lemma rank_le o : (rank o <= 3)%nat.
Proof. destruct o as [[]|]; cbn; lia. Qed.
Lemma set_status_potential i st s b s' : In i (all_insts f) -> set_status i st s = Ok (b, s') ->
  ssaQ s' = ssaQ s /\ if b then (potential s' + weight i <= potential s)%nat else s' = s.
Proof using W. clear Hdest.
  intros Hi H. unfold set_status in H. destruct (statuses s (uid i)) as [old|] eqn:E.
  - destruct (Nat.leb_spec (status_rank old) (status_rank st)) as [L|]; [|discriminate]. unfold status_eqb in H.
    destruct (Nat.eqb_spec (status_rank old) (status_rank st)) as [Q|Q]; inversion H; subst; [auto|]. split; [reflexivity|].
    unfold potential. cbn [blocksQ ssaQ executable statuses].
    assert (D : (todo (fun n => if Nat.eqb n (uid i) then Some st else statuses s n) (all_insts f) + weight i <= todo (statuses s) (all_insts f))%nat); [|lia].
    apply todo_drop; [apply (wf_uids f W)|exact Hi| |]; cbn beta.
    + intros n Hn. destruct (Nat.eqb_spec n (uid i)); [contradiction|reflexivity].
    + rewrite Nat.eqb_refl, E. cbn [rank]. pose proof (rank_le (Some st)). cbn [rank] in *. lia.
  - inversion H; subst. split; [reflexivity|]. unfold potential. cbn [blocksQ ssaQ executable statuses].
    assert (D : (todo (fun n => if Nat.eqb n (uid i) then Some st else statuses s n) (all_insts f) + weight i <= todo (statuses s) (all_insts f))%nat); [|lia].
    apply todo_drop; [apply (wf_uids f W)|exact Hi| |]; cbn beta.
    + intros n Hn. destruct (Nat.eqb_spec n (uid i)); [contradiction|reflexivity].
    + rewrite Nat.eqb_refl, E. cbn [rank]. pose proof (rank_le (Some st)). cbn [rank] in *. split; [destruct st; cbn; lia|lia].
Qed.
Lemma dont_potential i s : potential (dont_simulate_again i s) = potential s.
Proof. reflexivity. Qed.
Lemma sim_inst_potential i s u b s' u' : In i (all_insts f) -> queued s -> sim_inst U visit f i (s, u) = Ok (b, (s', u')) ->
  (potential s' <= potential s)%nat /\ queued s'.
Proof using W Hdest.
  intros Hi Hq H. unfold sim_inst in H. cbn [fst snd] in H. destruct (dns s (uid i)); [inversion H; subst; auto|].
  destruct (visit u (executable s) i) as [st dest u1| |] eqn:Ev; try discriminate.
  destruct (set_status i st s) as [[c s1]| | |] eqn:Es; try discriminate. cbn [bind fst snd] in H.
  destruct (set_status_potential i st s c s1 Hi Es) as (Q1 & P1).
  assert (Hq1 : queued s1) by (unfold queued; rewrite Q1; exact Hq).
  assert (Hb : In (blk i) (0 :: labels f)) by (right; apply blk_label; exact Hi).
  set (s2 := if c then add_ssa_edges f i s1 else s1).
  assert (P2 : (potential s2 <= potential s)%nat /\ queued s2).
  { unfold s2. destruct c; [|subst s1; auto]. split; [|apply add_ssa_edges_queued; exact Hq1]. pose proof (add_ssa_edges_potential i s1). lia. }
  destruct st.
  - (* not interesting *)
    inversion H; subst. destruct (operands_to_simulate f i s1); [|rewrite dont_potential; unfold queued; cbn [ssaQ dont_simulate_again]];
      (split; [destruct c; [lia|subst s1; lia]|exact Hq1]).
  - fold s2 in H. set (s3 := match dest with Some d => add_control_edge (blk i) (Some d) s2 | None => s2 end) in *.
    assert (P3 : (potential s3 <= potential s)%nat /\ queued s3).
    { unfold s3. destruct dest as [d|]; [|exact P2].
      destruct (add_control_edge_potential (blk i) (Some d) s2 Hb) as (A & B); [intros l [= <-]; apply (Hdest _ _ _ _ _ _ Hi Ev)|].
      split; [lia|]. unfold queued. rewrite B. apply P2. }
    inversion H; subst. destruct (operands_to_simulate f i s3); exact P3.
  - set (s3 := if c then add_ssa_edges f i (dont_simulate_again i s1) else dont_simulate_again i s1) in *.
    assert (P3 : (potential s3 <= potential s)%nat /\ queued s3).
    { unfold s3. destruct c; [|subst s1; auto]. split; [|apply add_ssa_edges_queued; exact Hq1].
      pose proof (add_ssa_edges_potential i (dont_simulate_again i s1)). rewrite dont_potential in *. lia. }
    inversion H; subst. destruct (is_terminator i); [|exact P3].
    destruct (add_control_edges_potential (blk i) (succs f (blk i)) s3 Hb (succs_labels _)) as (A & B). split; [lia|]. unfold queued. rewrite B. apply P3.
Qed.
Lemma sim_insts_potential is : forall s u b s' u', (forall i, In i is -> In i (all_insts f)) -> queued s -> sim_insts U visit f is (s, u) = Ok (b, (s', u')) ->
  (potential s' <= potential s)%nat /\ queued s'.
Proof using W Hdest.
  induction is as [|i is IH]; intros s u b s' u' Hi Hq H; cbn [sim_insts] in H; [inversion H; subst; auto|].
  destruct (sim_inst U visit f i (s, u)) as [[c [s1 u1]]| | |] eqn:E; try discriminate. cbn [bind fst snd] in H.
  destruct (sim_inst_potential i s u c s1 u1 (Hi i (or_introl eq_refl)) Hq E) as (A & B).
  destruct (sim_insts U visit f is (s1, u1)) as [[c2 [s2 u2]]| | |] eqn:E2; try discriminate. cbn [bind fst snd] in H. inversion H; subst.
  destruct (IH s1 u1 c2 s' u' (fun j Hj => Hi j (or_intror Hj)) B E2). split; [lia|auto].
Qed.
Lemma sim_block_potential l s u b s' u' : queued s -> sim_block U visit f l (s, u) = Ok (b, (s', u')) -> (potential s' <= potential s)%nat /\ queued s'.
Proof using W Hdest.
  intros Hq H. unfold sim_block in H. destruct (get_block f l) as [bb|] eqn:Eb; [|discriminate]. apply get_block_in in Eb as (Hbb & Hl).
  destruct (sim_insts U visit f (leading_phis (insts bb)) (s, u)) as [[c [s1 u1]]| | |] eqn:E1; try discriminate. cbn [bind fst snd] in H.
  destruct (sim_insts_potential _ s u c s1 u1 (fun i Hi => in_all_insts f bb i Hbb (or_intror (proj1 (leading_phis_in _ _ Hi)))) Hq E1) as (A & B).
  destruct (simulated s1 l); [inversion H; subst; auto|].
  destruct (sim_insts U visit f (block_insts bb) (s1, u1)) as [[c2 [s2 u2]]| | |] eqn:E2; try discriminate. cbn [bind fst snd] in H.
  destruct (sim_insts_potential _ s1 u1 c2 s2 u2 (fun i Hi => in_all_insts f bb i Hbb Hi) B E2) as (C & D).
  set (s3 := mark_simulated l s2) in *. assert (P3 : (potential s3 <= potential s)%nat /\ queued s3) by (split; [change (potential s3) with (potential s2); lia|exact D]).
  inversion H; subst. destruct (block_succs bb) as [|d [|? ?]] eqn:Esu; try exact P3.
  destruct (add_control_edge_potential (label bb) d s3) as (F & G).
  - right. apply in_map. exact Hbb.
  - intros l' ->. apply (wf_targets f W (last (insts bb) (blabel bb))); [|fold (block_succs bb); rewrite Esu; left; reflexivity].
    apply (in_all_insts f bb); [exact Hbb|]. destruct (insts bb) as [|i is] eqn:Ei; [left; reflexivity|right; rewrite Ei; apply last_in; discriminate].
  - split; [lia|]. unfold queued. rewrite G. apply P3.
Qed.
Lemma set_status_fuel i st s : set_status i st s <> OutOfFuel.
Proof. unfold set_status. destruct (statuses s (uid i)); [|discriminate]. destruct (Nat.leb _ _); [|discriminate]. destruct (status_eqb _ _); discriminate. Qed.
Lemma sim_inst_fuel i su : sim_inst U visit f i su <> OutOfFuel.
Proof.
  unfold sim_inst. destruct (dns _ _); [discriminate|]. destruct (visit _ _ _) as [st dest u| |]; try discriminate.
  pose proof (set_status_fuel i st (fst su)) as F. destruct (set_status i st (fst su)) as [[c s1]| | |]; try discriminate; [|congruence].
  cbn [bind fst snd]. destruct st; discriminate.
Qed.
Lemma sim_insts_fuel is : forall su, sim_insts U visit f is su <> OutOfFuel.
Proof.
  induction is as [|i is IH]; intro su; cbn [sim_insts]; [discriminate|]. pose proof (sim_inst_fuel i su) as F.
  destruct (sim_inst U visit f i su) as [[c su1]| | |]; try discriminate; [|congruence]. cbn [bind fst snd].
  pose proof (IH su1) as G. destruct (sim_insts U visit f is su1) as [[c2 su2]| | |]; try discriminate. congruence.
Qed.
Lemma sim_block_fuel l su : sim_block U visit f l su <> OutOfFuel.
Proof.
  unfold sim_block. destruct (get_block f l) as [b|]; [|discriminate]. pose proof (sim_insts_fuel (leading_phis (insts b)) su) as F.
  destruct (sim_insts U visit f (leading_phis (insts b)) su) as [[c su1]| | |]; try discriminate; [|congruence]. cbn [bind fst snd].
  destruct (simulated (fst su1) l); [discriminate|]. pose proof (sim_insts_fuel (block_insts b) su1) as G.
  destruct (sim_insts U visit f (block_insts b) su1) as [[c2 su2]| | |]; try discriminate. congruence.
Qed.
Lemma run_loop_terminates fuel : forall c s u, queued s -> (potential s < fuel)%nat -> run_loop U visit f fuel c (s, u) <> OutOfFuel.
Proof using W Hdest.
  induction fuel as [|fuel IH]; intros c s u Hq Hf; [lia|]. cbn [run_loop fst snd]. destruct (blocksQ s) as [|l q] eqn:Eq.
  - destruct (ssaQ s) as [|i q] eqn:Es; [discriminate|]. pose proof (sim_inst_fuel i (pop_ssa s, u)) as F.
    destruct (sim_inst U visit f i (pop_ssa s, u)) as [[c2 [s2 u2]]| | |] eqn:E; try discriminate; [|congruence]. cbn [bind fst snd].
    assert (Hq' : queued (pop_ssa s)) by (intros j Hj; cbn [ssaQ pop_ssa] in Hj; rewrite Es in Hj; apply Hq; rewrite Es; right; exact Hj).
    destruct (sim_inst_potential i (pop_ssa s) u c2 s2 u2 (Hq i ltac:(rewrite Es; left; reflexivity)) Hq' E) as (A & B).
    apply IH; [exact B|]. unfold potential in A at 2. cbn [blocksQ ssaQ executable statuses pop_ssa] in A. rewrite Es in A. cbn [tl] in A.
    unfold potential in Hf. rewrite Es in Hf. cbn [length] in Hf. lia.
  - pose proof (sim_block_fuel l (pop_block s, u)) as F.
    destruct (sim_block U visit f l (pop_block s, u)) as [[c2 [s2 u2]]| | |] eqn:E; try discriminate; [|congruence]. cbn [bind fst snd].
    destruct (sim_block_potential l (pop_block s) u c2 s2 u2 Hq E) as (A & B).
    apply IH; [exact B|]. unfold potential in A at 2. cbn [blocksQ ssaQ executable statuses pop_block] in A. rewrite Eq in A. cbn [tl] in A.
    unfold potential in Hf. rewrite Eq in Hf. cbn [length] in Hf. lia.
Qed.
Definition run_bound : nat := (2 + S (length f) * length f + 3 * (length (all_insts f) * length (all_insts f)))%nat.
Lemma todo_bound st is : (todo st is <= 3 * (length is * length (all_insts f)))%nat.
Proof.
  induction is as [|i is IH]; [apply Nat.le_0_l|]. cbn [todo fold_right length]. fold (todo st is). pose proof (weight_le i).
  assert ((3 - rank (st (uid i))) * weight i <= 3 * length (all_insts f))%nat by (apply Nat.mul_le_mono; lia). lia.
Qed.
Lemma run_terminates_general fuel u : (run_bound <= fuel)%nat -> run U visit f fuel u <> OutOfFuel.
Proof using W Hdest.
  intro Hf. unfold run. cut (run_loop U visit f fuel false (initial_state f, u) <> OutOfFuel).
  { destruct (run_loop U visit f fuel false (initial_state f, u)); cbn [bind]; try discriminate; [|congruence]. destruct (forallb _ _); discriminate. }
  apply run_loop_terminates.
  - unfold initial_state. intros i Hi. destruct f as [|b g]; destruct Hi.
  - unfold run_bound in Hf.
    assert (E : (potential empty_state <= S (length f) * length f + 3 * (length (all_insts f) * length (all_insts f)))%nat).
    { unfold potential, empty_state. cbn [blocksQ ssaQ executable statuses length]. pose proof (todo_bound (fun _ => None) (all_insts f)).
      pose proof (filter_length_le (fun e : N * N => negb false) edges) as L. unfold missing, edges in *. rewrite prod_length in L. cbn [length] in L. unfold labels in L.
      rewrite map_length in L. unfold labels. lia. }
    unfold initial_state. destruct f as [|b g] eqn:Ef; [lia|]. rewrite <- Ef in *.
    destruct (add_control_edge_potential 0 (Some (label b)) empty_state) as (A & _); [left; reflexivity| |lia].
    intros l [= <-]. rewrite Ef. left. reflexivity.
Qed.
End Termination.
