(** Proofs about the propagator: the effect of simulating one instruction on the work lists. *)
From Verif Require Import Base Propagator PropagatorSpec PropagatorProofs.
Local Open Scope N_scope.
Set Default Proof Using "Type".

(** [grown ds src s s']: the edges from [src] to [ds] were added and nothing else changed. *)
Record grown (src : N) (ds : list (option N)) (s s' : pstate) : Prop := {
  gr_ssa : ssaQ s' = ssaQ s;
  gr_sim : simulated s' = simulated s;
  gr_dns : dns s' = dns s;
  gr_st : statuses s' = statuses s;
  gr_exec : forall p q, executable s' p q = true <-> executable s p q = true \/ (p = src /\ In (Some q) ds);
  gr_blocks : forall l, In l (blocksQ s') <-> In l (blocksQ s) \/ (In (Some l) ds /\ executable s src l = false) }.
Lemma add_control_edge_grown src d s : grown src [d] s (add_control_edge src d s).
Proof.
  unfold add_control_edge. destruct d as [d|].
  - destruct (executable s src d) eqn:E; split; cbn [ssaQ simulated dns statuses executable blocksQ In]; auto.
    + intros p q. split; [auto|]. intros [H|(-> & [H|[]])]; [exact H|inversion H; subst; exact E].
    + intros l. split; [auto|]. intros [H|([H|[]] & F)]; [exact H|inversion H; subst; congruence].
    + intros p q. rewrite orb_true_iff, andb_true_iff, !N.eqb_eq. split; [intros [(-> & ->)|H]; auto|]. intros [H|(-> & [H|[]])]; [auto|inversion H; auto].
    + intro l. rewrite in_app_iff. cbn [In]. split; [intros [H|[->|[]]]; auto|]. intros [H|([H|[]] & F)]; [auto|inversion H; auto].
  - split; auto; cbn [In].
    + intros p q. split; [auto|]. intros [H|(_ & [H|[]])]; [exact H|discriminate].
    + intro l. split; [auto|]. intros [H|([H|[]] & _)]; [exact H|discriminate].
Qed.
Lemma add_control_edges_grown src ds : forall s, grown src ds s (fold_left (fun a d => add_control_edge src d a) ds s).
Proof.
  induction ds as [|d ds IH]; intro s; cbn [fold_left].
  - split; auto; cbn [In]; intros; tauto.
  - destruct (add_control_edge_grown src d s) as [A1 A2 A3 A4 A5 A6]. destruct (IH (add_control_edge src d s)) as [B1 B2 B3 B4 B5 B6].
    split; try congruence.
    + intros p q. rewrite B5, A5. cbn [In]. tauto.
    + intro l. rewrite B6, A6. cbn [In]. split.
      * intros [[H|([H|[]] & F)]|(H & F)]; [auto|auto|]. right. split; [auto|]. destruct (executable s src l) eqn:E; [|reflexivity].
        assert (executable (add_control_edge src d s) src l = true) by (apply A5; auto). congruence.
      * intros [H|([H|H] & F)]; [auto|auto|]. destruct (executable (add_control_edge src d s) src l) eqn:E; [|auto].
        apply A5 in E as [E|(_ & [E|[]])]; [congruence|auto].
Qed.

Section Simulate.
Variable U : Type.
Variable visit : U -> (N -> N -> bool) -> inst -> visited U.
Variable f : func.

(** The operands of an instruction that may still make it change *)
Definition dep_ids (i : inst) : list N := match kind i with KPhi args => map fst args | _ => in_ids i end.
Definition settled (s : pstate) (X : N -> N -> bool) (i : inst) : Prop :=
  (forall id, In id (dep_ids i) -> should_simulate_def f s id = false) /\
  (forall args a l, kind i = KPhi args -> In (a, l) args -> X l (blk i) = true).
Lemma operands_settled i s : operands_to_simulate f i s = false -> settled s (executable s) i.
Proof.
  unfold operands_to_simulate, settled, dep_ids. intro H.
  assert (G : forall (A : Type) (p : A -> bool) l, existsb p l = false -> forall x, In x l -> p x = false).
  { intros A p l E x Hx. destruct (p x) eqn:Ep; [|reflexivity]. assert (existsb p l = true) by (apply existsb_exists; eauto). congruence. }
  destruct (kind i) eqn:Hk; try (split; [exact (G _ _ _ H)|discriminate]).
  split.
  - intros id Hid. apply in_map_iff in Hid as ((a & l) & <- & Hin). specialize (G _ _ _ H _ Hin). cbn [fst snd] in *. apply orb_false_iff in G. tauto.
  - intros args' a l [= <-] Hin. specialize (G _ _ _ H _ Hin). cbn [fst snd] in G. apply orb_false_iff in G as (G & _). destruct (executable s l (blk i)); [reflexivity|discriminate].
Qed.

(** What one simulation does, when it is not skipped. *)
Record simulated_to (i : inst) (st : status) (dest : option N) (s s' : pstate) : Prop := {
  to_sim : simulated s' = simulated s;
  to_status : forall n, statuses s' n = if Nat.eqb n (uid i) then Some st else statuses s n;
  to_exec : forall p q, executable s' p q = true <->
    executable s p q = true \/ (p = blk i /\ ((st = Varying /\ is_terminator i = true /\ In (Some q) (succs f (blk i))) \/ (st = Interesting /\ dest = Some q)));
  to_blocks : forall l, In l (blocksQ s') <-> In l (blocksQ s) \/ (executable s' (blk i) l = true /\ executable s (blk i) l = false);
  to_ssa : forall j, In j (ssaQ s') <-> In j (ssaQ s) \/
    (statuses s (uid i) <> Some st /\ st <> NotInteresting /\ res i <> 0 /\ In j (users f (res i)) /\ simulated s (blk j) = true /\ dns s (uid j) = false /\
     (st = Varying -> uid j <> uid i));
  to_dns : forall n, dns s' n = true -> dns s n = true \/ (n = uid i /\ (st = Varying \/ settled s (executable s') i));
  to_dns_mono : forall n, dns s n = true -> dns s' n = true;
  to_dns_varying : st = Varying -> dns s' (uid i) = true }.
Lemma status_eqb_eq a b : status_eqb a b = true <-> a = b.
Proof. destruct a, b; cbn; split; congruence. Qed.
Lemma set_status_spec i st s c s1 : set_status i st s = Ok (c, s1) ->
  blocksQ s1 = blocksQ s /\ ssaQ s1 = ssaQ s /\ simulated s1 = simulated s /\ dns s1 = dns s /\ executable s1 = executable s /\
  (forall n, statuses s1 n = if Nat.eqb n (uid i) then Some st else statuses s n) /\ (c = true <-> statuses s (uid i) <> Some st).
Proof.
  unfold set_status. destruct (statuses s (uid i)) as [old|] eqn:E.
  - destruct (Nat.leb _ _); [|discriminate]. destruct (status_eqb old st) eqn:Q; intro H; inversion H; subst; clear H; cbn [blocksQ ssaQ simulated dns executable statuses].
    + apply status_eqb_eq in Q. subst. repeat (split; [reflexivity|]). split; [|split; congruence]. intro n. destruct (Nat.eqb_spec n (uid i)); [subst; exact E|reflexivity].
    + repeat (split; [reflexivity|]). split; [intros _|reflexivity]. intro H. inversion H; subst. rewrite (proj2 (status_eqb_eq st st) eq_refl) in Q. discriminate.
  - intro H; inversion H; subst. cbn [blocksQ ssaQ simulated dns executable statuses]. repeat (split; [reflexivity|]). split; [discriminate|reflexivity].
Qed.
Lemma add_ssa_edges_spec i s : let s' := add_ssa_edges f i s in
  blocksQ s' = blocksQ s /\ simulated s' = simulated s /\ dns s' = dns s /\ executable s' = executable s /\ statuses s' = statuses s /\
  forall j, In j (ssaQ s') <-> In j (ssaQ s) \/ (res i <> 0 /\ In j (users f (res i)) /\ simulated s (blk j) = true /\ dns s (uid j) = false).
Proof.
  cbv zeta. unfold add_ssa_edges. destruct (N.eqb_spec (res i) 0) as [Z|Z].
  - repeat (split; [reflexivity|]). intro j. split; [auto|]. intros [H|(H & _)]; [exact H|contradiction].
  - cbn [blocksQ ssaQ simulated dns executable statuses]. repeat (split; [reflexivity|]). intro j. rewrite in_app_iff, filter_In, andb_true_iff, negb_true_iff. tauto.
Qed.
Lemma sim_inst_spec i s u b s' u' : sim_inst U visit f i (s, u) = Ok (b, (s', u')) ->
  (dns s (uid i) = true /\ s' = s /\ u' = u) \/
  (dns s (uid i) = false /\ exists st dest, visit u (executable s) i = Visited st dest u' /\ simulated_to i st dest s s').
Proof.
  intro H. unfold sim_inst in H. cbn [fst snd] in H. destruct (dns s (uid i)) eqn:Ed; [inversion H; subst; auto|]. right. split; [reflexivity|].
  destruct (visit u (executable s) i) as [st dest u1| |] eqn:Ev; try discriminate. exists st, dest.
  destruct (set_status i st s) as [[c s1]| | |] eqn:Es; try discriminate. cbn [bind fst snd] in H.
  destruct (set_status_spec i st s c s1 Es) as (A1 & A2 & A3 & A4 & A5 & A6 & A7).
  destruct st.
  - (* not interesting *)
    inversion H; subst; clear H. split; [reflexivity|].
    assert (E1 : forall (P : pstate -> Prop), P s1 -> P (dont_simulate_again i s1) -> P (if operands_to_simulate f i s1 then s1 else dont_simulate_again i s1)) by (intros P; destruct (operands_to_simulate f i s1); auto).
    split.
    + apply E1; exact A3.
    + apply E1; exact A6.
    + apply E1; cbn [executable dont_simulate_again]; rewrite A5; intros p q; (split; [auto|]); intros [K|(_ & [(K & _)|(K & _)])]; [exact K|discriminate|discriminate|exact K|discriminate|discriminate].
    + apply E1; cbn [executable blocksQ dont_simulate_again]; rewrite A5, A1; intro l; (split; [auto|]); intros [K|(K1 & K2)]; try exact K; congruence.
    + apply E1; cbn [ssaQ dont_simulate_again]; rewrite A2; intro j; (split; [auto|]); intros [K|(_ & K & _)]; try exact K; congruence.
    + intros n Hn. destruct (operands_to_simulate f i s1) eqn:Eo; [rewrite A4 in Hn; auto|]. cbn [dns dont_simulate_again] in Hn.
      apply orb_true_iff in Hn as [Hn|Hn]; [|rewrite A4 in Hn; auto]. apply Nat.eqb_eq in Hn. right. split; [exact Hn|]. right.
      destruct (operands_settled i s1 Eo) as (B1 & B2). split; [|exact B2]. intros id Hid. specialize (B1 id Hid). unfold should_simulate_def in *. rewrite A4 in B1. exact B1.
    + apply E1; cbn [dns dont_simulate_again]; rewrite A4; auto. intros n Hn. rewrite Hn. apply orb_true_r.
    + discriminate.
  - (* interesting *)
    set (s2 := if c then add_ssa_edges f i s1 else s1) in *.
    assert (S2 : blocksQ s2 = blocksQ s /\ simulated s2 = simulated s /\ dns s2 = dns s /\ executable s2 = executable s /\ statuses s2 = statuses s1 /\
      forall j, In j (ssaQ s2) <-> In j (ssaQ s) \/ (statuses s (uid i) <> Some Interesting /\ res i <> 0 /\ In j (users f (res i)) /\ simulated s (blk j) = true /\ dns s (uid j) = false)).
    { unfold s2. destruct c.
      - destruct (add_ssa_edges_spec i s1) as (B1 & B2 & B3 & B4 & B5 & B6). repeat (split; [congruence|]). intro j. rewrite B6, A2, A3, A4. assert (statuses s (uid i) <> Some Interesting) by (apply A7; reflexivity). tauto.
      - repeat (split; [congruence|]). intro j. rewrite A2. split; [auto|]. intros [K|(K & _)]; [exact K|]. apply A7 in K. discriminate. }
    destruct S2 as (C1 & C2 & C3 & C4 & C5 & C6).
    set (s3 := match dest with Some d => add_control_edge (blk i) (Some d) s2 | None => s2 end) in *.
    assert (S3 : grown (blk i) [dest] s2 s3).
    { unfold s3. destruct dest as [d|]; [apply add_control_edge_grown|]. exact (add_control_edge_grown (blk i) None s2). }
    destruct S3 as [D1 D2 D3 D4 D5 D6]. inversion H; subst; clear H. split; [reflexivity|].
    assert (E1 : forall (P : pstate -> Prop), P s3 -> P (dont_simulate_again i s3) -> P (if operands_to_simulate f i s3 then s3 else dont_simulate_again i s3)) by (intros P; destruct (operands_to_simulate f i s3); auto).
    assert (DE : forall p q, executable s3 p q = true <-> executable s p q = true \/ p = blk i /\ (Interesting = Varying /\ is_terminator i = true /\ In (Some q) (succs f (blk i)) \/ Interesting = Interesting /\ dest = Some q)).
    { intros p q. rewrite D5, C4. cbn [In]. split; [intros [K|(K & [K1|[]])]; auto|]. intros [K|(K & [(K1 & _)|(_ & K1)])]; [auto|discriminate|auto]. }
    assert (DB : forall l, In l (blocksQ s3) <-> In l (blocksQ s) \/ executable s3 (blk i) l = true /\ executable s (blk i) l = false).
    { intro l. rewrite D6, C1, C4, DE. cbn [In]. split.
      - intros [K|([K|[]] & K2)]; [left; exact K|]. right. split; [|exact K2]. right. split; [reflexivity|]. right. split; [reflexivity|exact K].
      - intros [K|(K1 & K2)]; [left; exact K|]. right. split; [|exact K2]. left. destruct K1 as [K1|(K3 & [(K4 & K5)|(K4 & K5)])]; [congruence|discriminate|exact K5]. }
    split.
    + apply E1; cbn [simulated dont_simulate_again]; congruence.
    + apply E1; cbn [statuses dont_simulate_again]; rewrite D4, C5; exact A6.
    + apply E1; exact DE.
    + apply E1; exact DB.
    + assert (DS : forall j, In j (ssaQ s3) <-> In j (ssaQ s) \/ (statuses s (uid i) <> Some Interesting /\ Interesting <> NotInteresting /\ res i <> 0 /\ In j (users f (res i)) /\ simulated s (blk j) = true /\ dns s (uid j) = false /\ (Interesting = Varying -> uid j <> uid i))).
      { intro j. rewrite D1, C6. assert (Interesting <> NotInteresting) by discriminate. assert (Interesting = Varying -> uid j <> uid i) by discriminate. tauto. }
      apply E1; exact DS.
    + intros n Hn. destruct (operands_to_simulate f i s3) eqn:Eo; [rewrite D3, C3 in Hn; auto|]. cbn [dns dont_simulate_again] in Hn.
      apply orb_true_iff in Hn as [Hn|Hn]; [|rewrite D3, C3 in Hn; auto]. apply Nat.eqb_eq in Hn. right. split; [exact Hn|]. right.
      destruct (operands_settled i s3 Eo) as (B1 & B2). split; [|exact B2]. intros id Hid. specialize (B1 id Hid). unfold should_simulate_def in *. rewrite D3, C3 in B1. exact B1.
    + apply E1; cbn [dns dont_simulate_again]; rewrite D3, C3; auto. intros n Hn. rewrite Hn. apply orb_true_r.
    + discriminate.
  - (* varying *)
    set (s3 := if c then add_ssa_edges f i (dont_simulate_again i s1) else dont_simulate_again i s1) in *.
    assert (S3 : blocksQ s3 = blocksQ s /\ simulated s3 = simulated s /\ dns s3 = dns (dont_simulate_again i s) /\ executable s3 = executable s /\ statuses s3 = statuses s1 /\
      forall j, In j (ssaQ s3) <-> In j (ssaQ s) \/ (statuses s (uid i) <> Some Varying /\ res i <> 0 /\ In j (users f (res i)) /\ simulated s (blk j) = true /\ dns s (uid j) = false /\ uid j <> uid i)).
    { unfold s3. destruct c.
      - destruct (add_ssa_edges_spec i (dont_simulate_again i s1)) as (B1 & B2 & B3 & B4 & B5 & B6). cbn [blocksQ simulated executable statuses dont_simulate_again] in B1, B2, B4, B5. split; [congruence|]. split; [congruence|]. split; [rewrite B3; cbn [dns dont_simulate_again]; rewrite A4; reflexivity|].
        split; [congruence|]. split; [congruence|]. intro j. rewrite B6. cbn [ssaQ simulated dns dont_simulate_again]. rewrite A2, A3, A4, orb_false_iff, Nat.eqb_neq. assert (statuses s (uid i) <> Some Varying) by (apply A7; reflexivity). tauto.
      - cbn [blocksQ simulated dns executable statuses ssaQ dont_simulate_again]. split; [congruence|]. split; [congruence|]. split; [rewrite A4; reflexivity|]. split; [congruence|]. split; [reflexivity|].
        intro j. rewrite A2. split; [auto|]. intros [K|(K & _)]; [exact K|]. apply A7 in K. discriminate. }
    destruct S3 as (C1 & C2 & C3 & C4 & C5 & C6).
    set (ds := if is_terminator i then succs f (blk i) else []).
    set (s4 := if is_terminator i then fold_left (fun a d => add_control_edge (blk i) d a) (succs f (blk i)) s3 else s3) in *.
    assert (S4 : grown (blk i) ds s3 s4).
    { unfold s4, ds. destruct (is_terminator i); [apply add_control_edges_grown|]. exact (add_control_edges_grown (blk i) [] s3). }
    destruct S4 as [D1 D2 D3 D4 D5 D6]. inversion H; subst; clear H. split; [reflexivity|].
    assert (Hds : forall q, In (Some q) ds <-> is_terminator i = true /\ In (Some q) (succs f (blk i))) by (intro q; unfold ds; destruct (is_terminator i); cbn [In]; split; [auto|tauto|tauto|intros (? & _); discriminate]).
    assert (DE : forall p q, executable s4 p q = true <-> executable s p q = true \/ p = blk i /\ (Varying = Varying /\ is_terminator i = true /\ In (Some q) (succs f (blk i)) \/ Varying = Interesting /\ dest = Some q)).
    { intros p q. rewrite D5, C4, Hds. split; [intros [K|(K & K1)]; auto|]. intros [K|(K & [(_ & K1)|(K1 & _)])]; [auto|auto|discriminate]. }
    split.
    + congruence.
    + rewrite D4, C5. exact A6.
    + exact DE.
    + intro l. rewrite D6, C1, C4, DE, Hds. split; [intros [K|(K & K2)]; [auto|right; split; [right; split; [reflexivity|left; tauto]|exact K2]]|].
      intros [K|([K1|(_ & [(_ & K3)|(K4 & _)])] & K2)]; [auto|congruence|auto|discriminate].
    + intro j. rewrite D1, C6. split; [intros [K|K]; [auto|right]; split; [tauto|]; split; [discriminate|]; tauto|].
      intros [K|K]; [auto|right]. assert (uid j <> uid i) by (apply K; reflexivity). tauto.
    + intros n Hn. rewrite D3, C3 in Hn. cbn [dns dont_simulate_again] in Hn. apply orb_true_iff in Hn as [Hn|Hn]; [|auto]. apply Nat.eqb_eq in Hn. auto.
    + intros n Hn. rewrite D3, C3. cbn [dns dont_simulate_again]. rewrite Hn. apply orb_true_r.
    + intros _. rewrite D3, C3. cbn [dns dont_simulate_again]. rewrite Nat.eqb_refl. reflexivity.
Qed.
End Simulate.
