(** C49: rewriting of the variables of a function into ids (--ssa-rewrite). *)
From Verif Require Import Base GraphSpec SsaRewrite SsaRewriteSpec SsaRewriteProofs SsaRewriteProofs2 SsaRewriteProofs3 SsaRewriteProofs4 SsaRewriteProofs5.
Local Open Scope N_scope.

(** Two conditions on the tables with which the algorithm ends.  The first: a phi that only turns out to be superfluous at the end is not recorded as
    the value of its variable at a block that writes to this variable.  The second: no load is replaced by a phi that was removed. *)
Definition nothing_stale (f : func) (s : state) : Prop := forall p c b x,
  cands s p = Some c -> c_done c = true -> c_copy c <> 0 -> In b f -> In (label b) (c_users c) -> ~ In (IStore (c_var c) x) (body b).
Definition nothing_dangling (s : state) : Prop := forall r x c, repl s r = Some x -> cands s x = Some c -> c_copy c = 0.

(** The pass does not change what a function does: whatever the values and the other instructions, a run of the function whose behaviour is defined is,
    block by block, a run of the function the pass leaves, with the same effects and the same values returned.
    Missing for the full statement: the cases in which one of the two conditions does not hold, for which it is false ([ssa_rewrite_stale_refuted],
    [ssa_rewrite_dangling_refuted]); that the algorithm returns; variables that hold pointers; debug declarations. *)
Theorem ssa_rewrite_preserves_partial : forall f undef first fuel s g, well_formed f -> fresh_from f undef first ->
  tables f undef fuel (visit_order f) first = Some s -> nothing_stale f s -> nothing_dangling s -> rewrite f undef fuel first = Some g ->
  forall (D W : Type) (m : machine D W) n globals mem0 w0 r, fair_start undef globals mem0 ->
  run m f n globals mem0 w0 = Some r -> run m g n globals mem0 w0 = Some r.
Proof.
  intros f undef first fuel s g WF FR T NS ND H. unfold rewrite in H. rewrite T in H. eapply rewrite_preserves; eauto.
  intros p c u Hp Dn Z Hu Lu (b & F & L). apply find_block_in in F. destruct F as [Hb <-]. destruct (last_store (c_var c) (body b)) as [x|] eqn:E; [|congruence].
  apply last_store_in in E. destruct E as [i Hi]. apply (NS p c b x Hp Dn Z Hb Hu). eapply nth_error_In; eauto.
Qed.

(** No load of a rewritten variable is left in a block that can be reached. *)
Theorem ssa_rewrite_no_loads : forall f undef first fuel g, well_formed f -> fresh_from f undef first -> rewrite f undef fuel first = Some g ->
  forall l b r v, reachable (succs f) (entry f) l -> find_block g l = Some b -> ~ In (ILoad r v) (body b).
Proof. exact rewrite_no_loads. Qed.

(** The blocks are visited in an order in which each comes once, none that can be reached is left out, and a block with one predecessor comes after it. *)
Theorem ssa_visit_order : forall f, well_formed f -> f <> [] ->
  NoDup (visit_order f) /\ (forall l, reachable (succs f) (entry f) l -> In l (visit_order f)) /\
  forall pre l post p, visit_order f = pre ++ l :: post -> preds f l = [p] -> In p pre.
Proof. intros f WF Nf. destruct (visit_order_ok f WF Nf) as [(A & _ & B) Cv]. auto. Qed.

(** ** A machine *)
(** numbers; the world is what can still be read, and a list of what was done *)
Definition toy : machine N (list N * list N) :=
  mkmachine
    (fun op ds w => if op =? 3 then match fst w with b :: bs => Some (b, (bs, snd w)) | [] => None end
                    else if op =? 5 then Some (if hd 0 ds <? 2 then 1 else 0, w)
                    else Some (fold_right N.add 1 ds, (fst w, snd w ++ op :: ds)))
    (fun op ds => if op =? 0 then None else if op =? 1 then Some 0%nat else match ds with 0 :: _ => Some 1%nat | _ => Some 0%nat end).

(** tests for the hypotheses *)
Definition places_of (b : block) : list (N * block * nat) :=
  map (fun p => (p_res p, b, O)) (phis b) ++
  flat_map (fun x => match result (snd x) with Some r => [(r, b, S (fst x))] | None => [] end) (combine (seq 0 (length (body b))) (body b)).
Lemma in_numbered (l : list inst) : forall n j i, nth_error l j = Some i <-> In ((n + j)%nat, i) (combine (seq n (length l)) l).
Proof.
  induction l as [|x l IH]; intros n j i; simpl.
  - destruct j; simpl; split; (discriminate || tauto).
  - destruct j as [|j]; simpl.
    + rewrite Nat.add_0_r. split; [intros H; injection H as ->; auto|]. intros [H|H]; [injection H as ->; reflexivity|].
      apply in_combine_l in H. apply in_seq in H. lia.
    + rewrite Nat.add_succ_r, <- Nat.add_succ_l. rewrite (IH (S n) j i). split; [intros H; right; exact H|]. intros [H|H]; [injection H; lia|]. exact H.
Qed.
Lemma places_ok f id b k : defined_at f id b k <-> In (id, b, k) (flat_map places_of f).
Proof.
  rewrite in_flat_map. split.
  - intros [Hb H]. exists b. split; [exact Hb|]. unfold places_of. apply in_or_app. destruct k as [|j].
    + left. destruct H as (p & Hp & <-). apply (in_map (fun p => (p_res p, b, O)) _ _ Hp).
    + right. destruct H as (i & Hi & Hr). apply in_flat_map. exists (j, i). split; [apply (proj1 (in_numbered (body b) 0 j i) Hi)|]. simpl. rewrite Hr. left. reflexivity.
  - intros (b' & Hb & H). unfold places_of in H. apply in_app_or in H. destruct H as [H|H].
    + apply in_map_iff in H. destruct H as (p & E & Hp). injection E as <- <- <-. split; [exact Hb|]. eauto.
    + apply in_flat_map in H. destruct H as ([j i] & Hi & H). simpl in H. destruct (result i) as [r|] eqn:Er; [|destruct H]. destruct H as [E|[]]. injection E as <- <- <-.
      split; [exact Hb|]. exists i. split; [apply (in_numbered (body b') 0 j i); exact Hi|exact Er].
Qed.
Definition available_b (f : func) (b : block) (k : nat) (a : N) : bool :=
  forallb (fun x => negb (fst (fst x) =? a)) (flat_map places_of f) || existsb (fun x => (fst (fst x) =? a) && Nat.ltb (snd x) k) (places_of b).
Lemma in_places_block b x : In x (places_of b) -> snd (fst x) = b.
Proof.
  unfold places_of. intros H. apply in_app_or in H. destruct H as [H|H].
  - apply in_map_iff in H. destruct H as (p & <- & _). reflexivity.
  - apply in_flat_map in H. destruct H as (y & _ & H). destruct (result (snd y)); [|destruct H]. destruct H as [<-|[]]. reflexivity.
Qed.
Lemma available_b_ok f b k a : In b f -> available_b f b k a = true -> available f b k a.
Proof.
  unfold available_b. rewrite !orb_true_iff. intros Hb [H|H].
  - left. intros b' j Hd. apply places_ok in Hd. rewrite forallb_forall in H. specialize (H _ Hd). simpl in H. rewrite N.eqb_refl in H. discriminate.
  - right. apply existsb_exists in H. destruct H as ([[x b'] j] & Hx & E). simpl in E. apply andb_true_iff in E. destruct E as [E1 E2].
    apply N.eqb_eq in E1. apply Nat.ltb_lt in E2. subst x. pose proof (in_places_block _ _ Hx) as Eb. simpl in Eb. subst b'.
    exists b, j. split; [|left; auto]. apply places_ok, in_flat_map. eauto.
Qed.
Fixpoint distinct (l : list N) : bool := match l with [] => true | x :: l' => negb (existsb (N.eqb x) l') && distinct l' end.
Lemma distinct_ok l : distinct l = true -> NoDup l.
Proof.
  induction l as [|x l IH]; simpl; intros H; constructor; apply andb_true_iff in H; destruct H as [A B]; [|apply IH, B]. apply negb_true_iff in A. intros K.
  assert (existsb (N.eqb x) l = true) by (apply existsb_exists; exists x; split; [exact K|apply N.eqb_refl]). congruence.
Qed.
Definition well_formed_b (f : func) : bool :=
  distinct (map label f) && distinct (map (fun x => fst (fst x)) (flat_map places_of f)) &&
  forallb (fun b => forallb (fun x => negb (fst (fst x) =? label b)) (flat_map places_of f)) f &&
  forallb (fun b => forallb (fun l => existsb (N.eqb l) (map label f)) (t_succ b)) f &&
  match f with [] => true | b :: _ => match phis b with [] => true | _ => false end && forallb (fun b' => negb (existsb (N.eqb (label b)) (t_succ b'))) f end &&
  forallb (fun b => forallb (fun x => forallb (available_b f b (S (fst x))) (reads (snd x))) (combine (seq 0 (length (body b))) (body b)) &&
                    forallb (available_b f b (S (length (body b)))) (t_args b) &&
                    match phis b with [] => true | _ => false end) f.
Lemma well_formed_b_ok f : well_formed_b f = true -> well_formed f.
Proof.
  unfold well_formed_b. rewrite !andb_true_iff. intros [[[[[H1 H2] H3] H4] H5] H6]. rewrite forallb_forall in H3, H4, H6. split.
  - apply distinct_ok, H1.
  - intros id b k b' k' A B. apply places_ok in A. apply places_ok in B. apply distinct_ok in H2. revert A B H2. generalize (flat_map places_of f) as l. clear.
    induction l as [|z l IH]; simpl; [tauto|]. intros Hx Hy ND. inversion ND as [|? ? N1 N2]; subst. destruct Hx as [->|Hx], Hy as [Ey|Hy]; auto.
    + injection Ey as -> ->. auto.
    + destruct N1. apply (in_map (fun x => fst (fst x)) _ _ Hy).
    + destruct N1. subst z. apply (in_map (fun x => fst (fst x)) _ _ Hx).
  - intros b b' k Hb A. apply places_ok in A. specialize (H3 b Hb). rewrite forallb_forall in H3. specialize (H3 _ A). simpl in H3. rewrite N.eqb_refl in H3. discriminate.
  - intros b l Hb Hl. specialize (H4 b Hb). rewrite forallb_forall in H4. specialize (H4 l Hl). apply existsb_exists in H4. destruct H4 as (x & Hx & E). apply N.eqb_eq in E. subst x. exact Hx.
  - revert H5. generalize f at 2 4. intros g. destruct f as [|b f']; [auto|]. rewrite andb_true_iff, forallb_forall. intros [A B]. split; [destruct (phis b); [reflexivity|discriminate]|].
    intros b' Hb' K. specialize (B b' Hb'). apply negb_true_iff in B. assert (existsb (N.eqb (label b)) (t_succ b') = true) by (apply existsb_exists; exists (label b); split; [exact K|apply N.eqb_refl]). congruence.
  - intros b j i a Hb _ Hi Ha. specialize (H6 b Hb). rewrite !andb_true_iff in H6. destruct H6 as [[H6 _] _]. rewrite forallb_forall in H6.
    specialize (H6 _ (proj1 (in_numbered (body b) 0 j i) Hi)). rewrite forallb_forall in H6. apply available_b_ok; [exact Hb|]. apply H6, Ha.
  - intros b a Hb _ Ha. specialize (H6 b Hb). rewrite !andb_true_iff in H6. destruct H6 as [[_ H6] _]. rewrite forallb_forall in H6. apply available_b_ok; [exact Hb|]. apply H6, Ha.
  - intros b p a l Hb Hp. specialize (H6 b Hb). rewrite !andb_true_iff in H6. destruct H6 as [_ H6]. destruct (phis b); [destruct Hp|discriminate].
Qed.
Definition fresh_b (f : func) (u first : N) : bool := forallb (fun x => (0 <? x) && (x <? first)) (u :: ids f) && forallb (fun x => negb (fst (fst x) =? u)) (flat_map places_of f).
Lemma fresh_b_ok f u first : fresh_b f u first = true -> fresh_from f (fun _ => u) first.
Proof.
  unfold fresh_b. rewrite andb_true_iff. intros [A B]. rewrite forallb_forall in A, B. split.
  - intros x Hx. specialize (A x (or_intror Hx)). rewrite andb_true_iff, !N.ltb_lt in A. lia.
  - intros _. split; [specialize (A u (or_introl eq_refl)); rewrite andb_true_iff, !N.ltb_lt in A; lia|]. intros b k H. apply places_ok in H. specialize (B _ H). simpl in B. rewrite N.eqb_refl in B. discriminate.
Qed.
Definition ids_to (n : N) : list N := map N.of_nat (seq 0 (N.to_nat n)).
Lemma ids_to_ok n x : x < n -> In x (ids_to n).
Proof. intros H. unfold ids_to. replace x with (N.of_nat (N.to_nat x)) by apply N2Nat.id. apply in_map, in_seq. lia. Qed.
Definition stale_free (f : func) (s : state) : bool :=
  forallb (fun p => match cands s p with
                    | Some c => negb (c_done c) || (c_copy c =? 0) ||
                        forallb (fun b => negb (existsb (N.eqb (label b)) (c_users c)) || forallb (fun i => match i with IStore v _ => negb (v =? c_var c) | _ => true end) (body b)) f
                    | None => true end) (ids_to (next s)).
Definition dangling_free (f : func) (s : state) : bool :=
  forallb (fun r => match repl s r with Some x => match cands s x with Some c => c_copy c =? 0 | None => true end | None => true end) (loads f).
Lemma stale_free_ok f undef fuel o first s : tables f undef fuel o first = Some s -> stale_free f s = true -> nothing_stale f s.
Proof.
  intros T H p c b x Hp Dn Z Hb Hu Hi. destruct (tables_keys _ _ _ _ _ _ T) as [B _]. unfold stale_free in H. rewrite forallb_forall in H. specialize (H p (ids_to_ok _ _ (B p c Hp))).
  rewrite Hp, Dn in H. apply N.eqb_neq in Z. rewrite Z in H. simpl in H. rewrite forallb_forall in H. specialize (H b Hb). apply orb_true_iff in H. destruct H as [H|H].
  - apply negb_true_iff in H. assert (existsb (N.eqb (label b)) (c_users c) = true) by (apply existsb_exists; exists (label b); split; [exact Hu|apply N.eqb_refl]). congruence.
  - rewrite forallb_forall in H. specialize (H _ Hi). simpl in H. rewrite N.eqb_refl in H. discriminate.
Qed.
Lemma dangling_free_ok f undef fuel o first s : tables f undef fuel o first = Some s -> dangling_free f s = true -> nothing_dangling s.
Proof.
  intros T H r x c Hr Hc. destruct (tables_keys _ _ _ _ _ _ T) as [_ K]. unfold dangling_free in H. rewrite forallb_forall in H. specialize (H r (K r ltac:(congruence))).
  rewrite Hr, Hc in H. apply N.eqb_eq, H.
Qed.

(** ** A loop *)
(** 1 is a counter, 2 stays as it is; 3 is 0, 4 is 7; 9 is the OpUndef.  Block 13 comes after the loop. *)
Definition ex : func :=
  [mkblock 10 [] [IStore 1 3; IStore 2 4] 1 [] [11];
   mkblock 11 [] [ILoad 20 1; IOther (Some 21) 5 [20]] 2 [21] [12; 13];
   mkblock 12 [] [ILoad 22 2; ILoad 23 1; IOther (Some 24) 6 [23; 3]; IStore 1 24; IOther None 8 [22]] 1 [] [11];
   mkblock 13 [] [ILoad 25 1; ILoad 26 2] 0 [25; 26] []].
Definition ex_after : func :=
  [mkblock 10 [] [IStore 1 3; IStore 2 4] 1 [] [11];
   mkblock 11 [mkphi 100 [(3, 10); (24, 12)]] [IOther (Some 21) 5 [100]] 2 [21] [12; 13];
   mkblock 12 [] [IOther (Some 24) 6 [100; 3]; IStore 1 24; IOther None 8 [4]] 1 [] [11];
   mkblock 13 [] [] 0 [100; 4] []].
Example ex_rewrite : rewrite ex (fun _ => 9) 50 100 = Some ex_after.
Proof. vm_compute. reflexivity. Qed.
Example ex_order : visit_order ex = [10; 11; 13; 12].
Proof. vm_compute. reflexivity. Qed.
Example ex_well_formed : well_formed ex.
Proof. apply well_formed_b_ok. vm_compute. reflexivity. Qed.
Example ex_fresh : fresh_from ex (fun _ => 9) 100.
Proof. apply fresh_b_ok. vm_compute. reflexivity. Qed.
Definition ex_checked : bool :=
  match tables ex (fun _ => 9) 50 (visit_order ex) 100 with
  | Some s => stale_free ex s && dangling_free ex s && match cands s 101 with Some c => c_done c && negb (c_copy c =? 0) | None => false end
  | None => false
  end.
Example ex_tables : exists s, tables ex (fun _ => 9) 50 (visit_order ex) 100 = Some s /\ nothing_stale ex s /\ nothing_dangling s /\
  (exists p c, cands s p = Some c /\ c_done c = true /\ c_copy c <> 0).
Proof.
  assert (K : ex_checked = true) by (vm_compute; reflexivity). unfold ex_checked in K.
  destruct (tables ex (fun _ => 9) 50 (visit_order ex) 100) as [s|] eqn:T; [|discriminate]. exists s. split; [reflexivity|].
  rewrite !andb_true_iff in K. destruct K as [[A B] Cc]. split; [eapply stale_free_ok; eauto|]. split; [eapply dangling_free_ok; eauto|].
  exists 101. destruct (cands s 101) as [c|]; [|discriminate]. exists c. split; [reflexivity|]. apply andb_true_iff in Cc. destruct Cc as [C1 C2].
  split; [exact C1|]. apply negb_true_iff, N.eqb_neq in C2. exact C2.
Qed.
Definition ex_globals (id : N) : option N := match id with 3 => Some 0 | 4 => Some 7 | 9 => Some 0 | _ => None end.
Example ex_fair : fair_start (fun _ => 9) ex_globals (fun _ => 0).
Proof. intros v. reflexivity. Qed.
Example ex_runs : run toy ex 10 ex_globals (fun _ => 0) ([], []) = Some (Returned 0 [2; 7] ([], [6; 0; 0; 8; 7; 6; 1; 0; 8; 7])).
Proof. vm_compute. reflexivity. Qed.

(** ** What goes wrong *)
Definition full_statement : Prop := forall f undef first fuel g, well_formed f -> fresh_from f undef first -> rewrite f undef fuel first = Some g ->
  forall (D W : Type) (m : machine D W) n globals mem0 w0 r, fair_start undef globals mem0 ->
  run m f n globals mem0 w0 = Some r -> run m g n globals mem0 w0 = Some r.
(** A phi of the inner loop turns out to be superfluous at the end, and a block in which the variable is written after it was read gets what the phi
    stood for back as its value.  A later phi then takes the old value: the function leaves with 2 where it should leave with 3. *)
Definition stale : func :=
  [mkblock 10 [] [IStore 1 4] 1 [] [11];
   mkblock 11 [] [IOther (Some 31) 3 []] 2 [31] [12; 19];
   mkblock 12 [] [IOther (Some 32) 3 []] 2 [32] [14; 13];
   mkblock 13 [] [IStore 1 2] 1 [] [15];
   mkblock 15 [] [ILoad 20 1; IStore 1 3; IOther None 7 [20]; IOther (Some 33) 3 []] 2 [33] [16; 17];
   mkblock 16 [] [IStore 1 2] 1 [] [15];
   mkblock 17 [] [] 1 [] [18];
   mkblock 14 [] [ILoad 21 1; IOther None 8 [21]] 1 [] [18];
   mkblock 18 [] [] 1 [] [11];
   mkblock 19 [] [] 0 [] []].
Definition globals (id : N) : option N := match id with 2 => Some 2 | 3 => Some 3 | 4 => Some 4 | 9 => Some 0 | _ => None end.
Definition after (f : func) : func := match rewrite f (fun _ => 9) 50 100 with Some g => g | None => [] end.
Definition stale_input : list N * list N := ([1; 0; 0; 1; 1; 0], []).
Theorem ssa_rewrite_stale_refuted : exists f g,
  well_formed f /\ fresh_from f (fun _ => 9) 100 /\ rewrite f (fun _ => 9) 50 100 = Some g /\ fair_start (fun _ => 9) globals (fun _ => 0) /\
  run toy f 20 globals (fun _ => 0) stale_input = Some (Returned 0 [] ([], [7; 2; 8; 3])) /\
  run toy g 20 globals (fun _ => 0) stale_input = Some (Returned 0 [] ([], [7; 2; 8; 2])).
Proof.
  exists stale, (after stale).
  split; [apply well_formed_b_ok; vm_compute; reflexivity|]. split; [apply fresh_b_ok; vm_compute; reflexivity|]. split; [vm_compute; reflexivity|]. split; [intros v; reflexivity|].
  split; vm_compute; reflexivity.
Qed.
Theorem ssa_rewrite_full_refuted : ~ full_statement.
Proof.
  intros H. destruct ssa_rewrite_stale_refuted as (f & g & WF & FR & E & FS & R & R'). pose proof (H f _ _ _ g WF FR E N (list N * list N)%type toy _ _ _ _ _ FS R) as R2. congruence.
Qed.
(** A load that had been replaced by a phi that turned out to be superfluous is replaced by what that phi stood for, but is not recorded as a use of it: if
    this is removed in turn the load keeps it.  The function the pass leaves uses an id that is not set anywhere. *)
Definition dangling : func :=
  [mkblock 10 [] [IStore 1 4] 1 [] [11];
   mkblock 11 [] [IOther (Some 31) 3 []] 2 [31] [12; 14];
   mkblock 12 [] [IOther (Some 32) 3 []] 2 [32] [15; 13];
   mkblock 13 [] [IOther (Some 33) 3 []] 2 [33] [14; 11];
   mkblock 14 [] [ILoad 40 1] 0 [40] [];
   mkblock 15 [] [ILoad 41 1; IOther None 7 [41]; IOther (Some 34) 3 []] 2 [34] [12; 16];
   mkblock 16 [] [] 1 [] [11]].
Theorem ssa_rewrite_dangling_refuted : exists f g b id,
  well_formed f /\ fresh_from f (fun _ => 9) 100 /\ rewrite f (fun _ => 9) 50 100 = Some g /\ fair_start (fun _ => 9) globals (fun _ => 0) /\
  (exists r, run toy f 20 globals (fun _ => 0) ([1; 1; 0; 0], []) = Some r) /\ run toy g 20 globals (fun _ => 0) ([1; 1; 0; 0], []) = None /\
  In b g /\ In (IOther None 7 [id]) (body b) /\ 100 <= id /\ forall b' k, ~ defined_at g id b' k.
Proof.
  exists dangling, (after dangling).
  exists (mkblock 15 [] [IOther None 7 [101]; IOther (Some 34) 3 []] 2 [34] [12; 16]), 101.
  split; [apply well_formed_b_ok; vm_compute; reflexivity|]. split; [apply fresh_b_ok; vm_compute; reflexivity|]. split; [vm_compute; reflexivity|]. split; [intros v; reflexivity|].
  split; [eexists; vm_compute; reflexivity|]. split; [vm_compute; reflexivity|]. split; [vm_compute; tauto|]. split; [left; reflexivity|]. split; [discriminate|].
  assert (K : forallb (fun x => negb (fst (fst x) =? 101)) (flat_map places_of (after dangling)) = true) by (vm_compute; reflexivity). rewrite forallb_forall in K.
  intros b' k H. apply places_ok in H. specialize (K _ H). clear H. cbn [fst snd] in K. rewrite N.eqb_refl in K. discriminate K.
Qed.

Print Assumptions ssa_rewrite_preserves_partial.
Print Assumptions ssa_rewrite_no_loads.
Print Assumptions ssa_visit_order.
Print Assumptions ssa_rewrite_stale_refuted.
Print Assumptions ssa_rewrite_full_refuted.
Print Assumptions ssa_rewrite_dangling_refuted.
