(** C48: elimination of loads and stores inside a block (--eliminate-local-single-block). *)
From Verif Require Import Base GraphSpec LocalElim LocalElimSpec LocalElimProofs LocalElimProofs2 LocalElimProofs3 LocalElimProofs4 LocalElimProofs5 LocalElimProofs6.
Local Open Scope N_scope.

(** The pass does not change what a function does: whatever the values, the inputs, the calls and the other instructions do, a run of the function
    whose behaviour is defined is, block by block, a run of the function the pass leaves, with the same contents of the variables others may see,
    the same outside world and the same values returned.
    Missing for the full statement: volatile accesses, for which it is false ([local_elim_volatile_refuted]); functions that store pointers to their
    own variables; debug declarations. *)
Theorem local_elim_preserves_partial : forall (D W : Type) (m : machine D W) (f g : func) (n : nat) globals mem0 known0 w0 (r : @seen D W),
  sane m -> well_formed f -> no_volatile f -> pointers_not_stored f -> fair_start m f globals known0 ->
  elim f = Some g ->
  run m f n globals mem0 known0 w0 = Some r -> run m g n globals mem0 known0 w0 = Some r.
Proof. intros. eapply elim_preserves; eauto. Qed.

(** The pass returns, if definitions come before uses in the text. *)
Theorem local_elim_returns : forall f, in_order f -> exists g, elim f = Some g.
Proof. exact elim_returns. Qed.

(** ** A machine *)
(** numbers, and pointers; the parts of a number are its digits; the world is a list of what was done *)
Inductive val := Num (n : N) | Ref (v : N) (q : list val).
Definition num (d : val) : N := match d with Num n => n | Ref v _ => v end.
Definition digit (n k : N) : N := (n / 10 ^ k) mod 10.
Definition toy : machine val (list N) :=
  mkmachine
    (fun d => match d with Ref v q => Some (v, q) | Num _ => None end) Ref
    (fun d q => match q, d with [], _ => Some d | [Num k], Num n => Some (Num (digit n k)) | _, _ => None end)
    (fun d q x => match q, d, x with
                  | [], _, _ => Some x
                  | [Num k], Num n, Num e => Some (Num (n - digit n k * 10 ^ k + e * 10 ^ k))
                  | _, _, _ => None end)
    (fun v q x w => w ++ [v])
    (fun fn ds vw w => Some (Num (num (hd (Num 0) ds) + 1), fun _ => Num 77, w ++ [fn]))
    (fun op ds vw w => Some (Num (fold_right N.add 0 (map num ds)), fun _ => Num 55, w ++ op :: map num ds))
    (fun op ds => if op =? 0 then None else if op =? 1 then Some 0%nat else match ds with Num 0 :: _ => Some 1%nat | Num 10 :: _ => Some 1%nat | _ => Some 0%nat end).
Lemma toy_sane : sane toy.
Proof. split; intros; simpl; try reflexivity; destruct d; try reflexivity; destruct x; reflexivity. Qed.

(** ** A function with a loop, a call, and parts of variables *)
(** 1 and 2 are variables; 3 is 5, 4 is 0, 6 is 10.  Block 10 stores and loads 1, block 11 is a loop, block 12 leaves. *)
Definition ex : func :=
  mkfunc [mkvar 1 true false; mkvar 2 true true]
    [mkblock 10 []
       [IStore 1 3 false; ILoad 20 1 false; IChain 21 1 [4]; ILoad 22 21 false; IStore 1 20 false; ILoad 23 1 false; ICopy 25 1; IStore 25 22 false;
        IStore 2 23 false; ICall 26 90 [20]; ILoad 27 2 false; IOther (Some 24) 7 [20; 23; 27]] 1 [] [11];
     mkblock 11 [mkphi 30 [(24, 10); (31, 11)]]
       [ILoad 32 1 false; IStore 1 32 false; ILoad 33 1 false; IStore 21 4 false; ILoad 34 1 false; IStore 1 30 false; IStore 1 33 false;
        IOther (Some 31) 8 [4; 34]; ILoad 35 1 false; IOther None 9 [35; 33]] 2 [31] [11; 12];
     mkblock 12 [] [ILoad 40 1 false; IOther (Some 41) 7 [40; 20]] 0 [41; 23] []].
Definition ex_globals (id : N) : option val := match id with 3 => Some (Num 5) | 4 => Some (Num 0) | 6 => Some (Num 10) | _ => None end.
Definition ex_after : func :=
  mkfunc [mkvar 1 true false; mkvar 2 true true]
    [mkblock 10 []
       [IStore 1 3 false; IChain 21 1 [4]; ILoad 22 21 false; ICopy 25 1; IStore 25 22 false;
        IStore 2 3 false; ICall 26 90 [3]; ILoad 27 2 false; IOther (Some 24) 7 [3; 3; 27]] 1 [] [11];
     mkblock 11 [mkphi 30 [(24, 10); (31, 11)]]
       [ILoad 32 1 false; IStore 21 4 false; ILoad 34 1 false; IStore 1 32 false;
        IOther (Some 31) 8 [4; 34]; IOther None 9 [32; 32]] 2 [31] [11; 12];
     mkblock 12 [] [ILoad 40 1 false; IOther (Some 41) 7 [40; 3]] 0 [41; 3] []].
Example ex_elim : elim ex = Some ex_after.
Proof. vm_compute. reflexivity. Qed.
Example ex_runs : exists ds vw w, run toy ex 5 ex_globals (fun _ => Num 0) (fun _ => false) [] = Some (Returned 0 ds vw w).
Proof. eexists _, _, _. vm_compute. reflexivity. Qed.
(** the places of a function where an id gets its value *)
Definition places_of (b : block) : list (N * block * nat) :=
  map (fun p => (p_res p, b, O)) (phis b) ++
  flat_map (fun x => match result (snd x) with Some r => [(r, b, S (fst x))] | None => [] end) (combine (seq 0 (length (body b))) (body b)).
Lemma in_numbered (l : list inst) : forall n j i, nth_error l j = Some i <-> In ((n + j)%nat, i) (combine (seq n (length l)) l).
Proof.
  induction l as [|x l IH]; intros n j i; simpl.
  - destruct j; simpl; split; (discriminate || tauto).
  - destruct j as [|j]; simpl.
    + rewrite Nat.add_0_r. split; [intros H; injection H as ->; auto|]. intros [H|H]; [injection H as ->; reflexivity|].
      apply in_combine_l in H. apply in_seq in H. lia.
    + rewrite Nat.add_succ_r, <- Nat.add_succ_l. rewrite (IH (S n) j i). split; [intros H; right; exact H|]. intros [H|H]; [injection H; lia|]. exact H.
Qed.
Lemma places_ok f id b k : defined_at f id b k <-> In (id, b, k) (flat_map places_of (blocks f)).
Proof.
  rewrite in_flat_map. split.
  - intros [Hb H]. exists b. split; [exact Hb|]. unfold places_of. apply in_or_app. destruct k as [|j].
    + left. destruct H as (p & Hp & <-). apply (in_map (fun p => (p_res p, b, O)) _ _ Hp).
    + right. destruct H as (i & Hi & Hr). apply in_flat_map. exists (j, i). split; [apply (proj1 (in_numbered (body b) 0 j i) Hi)|]. simpl. rewrite Hr. left. reflexivity.
  - intros (b' & Hb & H). unfold places_of in H. apply in_app_or in H. destruct H as [H|H].
    + apply in_map_iff in H. destruct H as (p & E & Hp). injection E as <- <- <-. split; [exact Hb|]. eauto.
    + apply in_flat_map in H. destruct H as ([j i] & Hi & H). simpl in H. destruct (result i) as [r|] eqn:Er; [|destruct H]. destruct H as [E|[]]. injection E as <- <- <-.
      split; [exact Hb|]. exists i. split; [apply (in_numbered (body b') 0 j i); exact Hi|exact Er].
Qed.
Lemma entry_dominates f l : dominates (succs f) (entry f) (entry f) l.
Proof. intros p H. induction H as [|b c p H IH Hc]; [left; reflexivity|]. apply in_or_app. left. exact IH. Qed.
(** a test for [available], for ids set in the block itself, in the entry block, or nowhere *)
Definition available_b (f : func) (b : block) (k : nat) (a : N) : bool :=
  forallb (fun x => negb (fst (fst x) =? a)) (flat_map places_of (blocks f)) ||
  existsb (fun x => (fst (fst x) =? a) && Nat.ltb (snd x) k) (places_of b) ||
  existsb (fun b' => (label b' =? entry f) && negb (label b' =? label b) && existsb (fun x => fst (fst x) =? a) (places_of b')) (blocks f).
Lemma in_places_block b x : In x (places_of b) -> snd (fst x) = b.
Proof.
  unfold places_of. intros H. apply in_app_or in H. destruct H as [H|H].
  - apply in_map_iff in H. destruct H as (p & <- & _). reflexivity.
  - apply in_flat_map in H. destruct H as (y & _ & H). destruct (result (snd y)); [|destruct H]. destruct H as [<-|[]]. reflexivity.
Qed.
Lemma available_b_ok f b k a : In b (blocks f) -> available_b f b k a = true -> available f b k a.
Proof.
  unfold available_b. rewrite !orb_true_iff. intros Hb [[H|H]|H].
  - left. intros b' j Hd. apply places_ok in Hd. rewrite forallb_forall in H. specialize (H _ Hd). simpl in H. rewrite N.eqb_refl in H. discriminate.
  - right. apply existsb_exists in H. destruct H as ([[x b'] j] & Hx & E). simpl in E. apply andb_true_iff in E. destruct E as [E1 E2].
    apply N.eqb_eq in E1. apply Nat.ltb_lt in E2. subst x. pose proof (in_places_block _ _ Hx) as Eb. simpl in Eb. subst b'.
    exists b, j. split; [|left; auto]. apply places_ok, in_flat_map. eauto.
  - right. apply existsb_exists in H. destruct H as (b' & Hb' & E). rewrite !andb_true_iff, negb_true_iff, N.eqb_eq, N.eqb_neq in E. destruct E as [[E1 E2] E3].
    apply existsb_exists in E3. destruct E3 as ([[x b2] j] & Hx & E). simpl in E. apply N.eqb_eq in E. subst x. pose proof (in_places_block _ _ Hx) as Eb. simpl in Eb. subst b2.
    exists b', j. split; [apply places_ok, in_flat_map; eauto|]. right. split; [exact E2|]. rewrite E1. apply entry_dominates.
Qed.
Definition well_formed_b (f : func) : bool :=
  forallb (fun b => forallb (fun x => forallb (available_b f b (S (fst x))) (reads (snd x))) (combine (seq 0 (length (body b))) (body b)) &&
                    forallb (available_b f b (S (length (body b)))) (t_args b) &&
                    forallb (fun p => forallb (fun al => forallb (fun b' => negb (label b' =? snd al) || available_b f b' (S (length (body b'))) (fst al)) (blocks f)) (p_args p)) (phis b))
          (blocks f).
Lemma well_formed_b_ok f : NoDup (map label (blocks f)) -> NoDup (map v_id (vars f)) ->
  (forall x y, In x (flat_map places_of (blocks f)) -> In y (flat_map places_of (blocks f)) -> fst (fst x) = fst (fst y) -> x = y) ->
  (forall v x, In v (vars f) -> In x (flat_map places_of (blocks f)) -> v_id v <> fst (fst x)) ->
  match blocks f with [] => True | b :: _ => phis b = [] end -> well_formed_b f = true -> well_formed f.
Proof.
  intros H1 H2 H3 H4 H5 H6. unfold well_formed_b in H6. rewrite forallb_forall in H6. split; auto.
  - intros id b k b' k' A B. apply places_ok in A. apply places_ok in B. specialize (H3 _ _ A B eq_refl). injection H3 as <- <-. auto.
  - intros v b k Hv A. apply places_ok in A. exact (H4 v _ Hv A eq_refl).
  - intros b j i a Hb _ Hi Ha. specialize (H6 b Hb). rewrite !andb_true_iff in H6. destruct H6 as [[H6 _] _]. rewrite forallb_forall in H6.
    specialize (H6 _ (proj1 (in_numbered (body b) 0 j i) Hi)). rewrite forallb_forall in H6. apply available_b_ok; [exact Hb|]. apply H6, Ha.
  - intros b a Hb _ Ha. specialize (H6 b Hb). rewrite !andb_true_iff in H6. destruct H6 as [[_ H6] _]. rewrite forallb_forall in H6. apply available_b_ok; [exact Hb|]. apply H6, Ha.
  - intros b p a l Hb Hp Ha b' Hb' El _. specialize (H6 b Hb). rewrite !andb_true_iff in H6. destruct H6 as [_ H6]. rewrite forallb_forall in H6. specialize (H6 p Hp).
    rewrite forallb_forall in H6. specialize (H6 _ Ha). rewrite forallb_forall in H6. specialize (H6 _ Hb'). simpl in H6. rewrite El, N.eqb_refl in H6. simpl in H6.
    apply available_b_ok; [exact Hb'|exact H6].
Qed.
Ltac no_dup := repeat (constructor; [simpl; intuition discriminate|]); constructor.
Example ex_well_formed : well_formed ex.
Proof.
  apply well_formed_b_ok; [no_dup|no_dup| | |reflexivity|vm_compute; reflexivity].
  - intros x y Hx Hy. remember ex as f eqn:Ef. 
    assert (ND : NoDup (map (fun x => fst (fst x)) (flat_map places_of (blocks f)))) by (subst f; simpl; no_dup). clear Ef.
    intros E. revert Hx Hy ND. generalize (flat_map places_of (blocks f)) as l. induction l as [|z l IH]; simpl; [tauto|]. intros Hx Hy ND. inversion ND as [|? ? N1 N2]; subst.
    destruct Hx as [->|Hx], Hy as [->|Hy]; auto.
    + destruct N1. rewrite E. apply (in_map (fun x => fst (fst x)) _ _ Hy).
    + destruct N1. rewrite <- E. apply (in_map (fun x => fst (fst x)) _ _ Hx).
  - intros v x Hv Hx. assert (E : forallb (fun v => forallb (fun x => negb (v_id v =? fst (fst x))) (flat_map places_of (blocks ex))) (vars ex) = true) by (vm_compute; reflexivity).
    rewrite forallb_forall in E. specialize (E v Hv). rewrite forallb_forall in E. specialize (E x Hx). apply negb_true_iff, N.eqb_neq in E. exact E.
Qed.
Example ex_no_volatile : no_volatile ex.
Proof.
  intros i Hi. assert (E : forallb (fun i => match i with ILoad _ _ vol | IStore _ _ vol => negb vol | _ => true end) (all_insts ex) = true) by (vm_compute; reflexivity).
  rewrite forallb_forall in E. specialize (E i Hi). destruct i; auto; apply negb_true_iff; exact E.
Qed.
Example ex_pointers_not_stored : pointers_not_stored ex.
Proof.
  assert (Q : forall i, In i (all_insts ex) -> match i with IChain r _ _ | ICopy r _ => In r [1; 2; 21; 25] | _ => True end).
  { intros i Hi. simpl in Hi. intuition (subst; simpl; auto). }
  assert (P : forall v p, derived ex v p -> In p [1; 2; 21; 25]).
  { intros v p H. induction H as [x Hx E|r b idx Hi H IH|r a Hi H IH].
    - destruct Hx as [<-|[<-|[]]]; subst v; simpl; auto.
    - exact (Q _ Hi).
    - exact (Q _ Hi). }
  intros p a vol x Hi _ _ Hd. apply P in Hd.
  assert (E : forallb (fun i => match i with IStore _ a _ => negb (mem_id a [1; 2; 21; 25]) | _ => true end) (all_insts ex) = true) by (vm_compute; reflexivity).
  rewrite forallb_forall in E. specialize (E _ Hi). simpl in E. apply negb_true_iff in E. 
  assert (mem_id a [1; 2; 21; 25] = true) by (apply existsb_exists; exists a; split; [exact Hd|apply N.eqb_refl]). unfold mem_id in *. simpl in *. congruence.
Qed.
Example ex_fair : fair_start toy ex ex_globals (fun _ => false).
Proof.
  split.
  - intros v [<-|[<-|[]]]; reflexivity.
  - intros id d v q H. unfold ex_globals in H. destruct id as [|p]; [discriminate|]. do 4 (try destruct p as [p|p|]); try discriminate; injection H as <-; discriminate.
Qed.
Example ex_in_order : in_order ex.
Proof.
  assert (E : forallb (fun x => forallb (fun y => match result (snd y) with
       | None => true
       | Some a => (negb (match result (snd x) with Some b => b =? a | None => false end) || Nat.eqb (fst x) (fst y)) &&
                   (negb (mem_id a (reads (snd x))) || Nat.ltb (fst y) (fst x))
       end) (combine (seq 0 (length (all_insts ex))) (all_insts ex))) (combine (seq 0 (length (all_insts ex))) (all_insts ex)) = true) by (vm_compute; reflexivity).
  assert (Q : forall i j x y a, nth_error (all_insts ex) i = Some x -> nth_error (all_insts ex) j = Some y -> result y = Some a ->
     (result x = Some a -> i = j) /\ (In a (reads x) -> (j < i)%nat)).
  { intros i j x y a Hx Hy Hr. apply (in_numbered _ 0) in Hx. apply (in_numbered _ 0) in Hy. rewrite forallb_forall in E. specialize (E _ Hx). rewrite forallb_forall in E. specialize (E _ Hy).
    cbn [fst snd] in E. rewrite Hr in E. apply andb_true_iff in E. destruct E as [E1 E2]. split.
    - intros Rx. rewrite Rx, N.eqb_refl in E1. apply Nat.eqb_eq in E1. exact E1.
    - intros Ha. assert (M : mem_id a (reads x) = true) by (apply existsb_exists; exists a; split; [exact Ha|apply N.eqb_refl]). rewrite M in E2. apply Nat.ltb_lt in E2. exact E2. }
  split; intros i j x y a Hx Hy; [intros Rx Ry; exact (proj1 (Q i j x y a Hx Hy Ry) Rx)|intros Ry; exact (proj2 (Q i j x y a Hx Hy Ry))].
Qed.

(** ** Volatile accesses *)
(** The statement without the hypothesis that no access is volatile is false: the pass removes volatile loads and stores like any others. *)
Definition full_statement : Prop := forall (D W : Type) (m : machine D W) (f g : func) (n : nat) globals mem0 known0 w0 (r : @seen D W),
  sane m -> well_formed f -> pointers_not_stored f -> fair_start m f globals known0 -> elim f = Some g ->
  run m f n globals mem0 known0 w0 = Some r -> run m g n globals mem0 known0 w0 = Some r.
Definition vol : func := mkfunc [mkvar 1 true false] [mkblock 10 [] [ILoad 20 1 true; ILoad 21 1 true] 0 [20; 21] []].
Theorem local_elim_volatile_refuted : ~ full_statement.
Proof.
  intros H.
  assert (R : run toy vol 1 (fun _ => None) (fun _ => Num 0) (fun _ => false) [] = Some (Returned 0 [Num 0; Num 0] [None] [1; 1])) by (vm_compute; reflexivity).
  assert (E : elim vol = Some (mkfunc [mkvar 1 true false] [mkblock 10 [] [ILoad 20 1 true] 0 [20; 20] []])) by (vm_compute; reflexivity).
  refine (_ (H val (list N) toy vol _ 1%nat (fun _ => None) (fun _ => Num 0) (fun _ => false) [] _ toy_sane _ _ _ E R)).
  - intros R'. vm_compute in R'. discriminate.
  - apply well_formed_b_ok; [no_dup|no_dup| | |reflexivity|vm_compute; reflexivity].
    + simpl. intros x y [<-|[<-|[]]] [<-|[<-|[]]]; simpl; intros E'; (reflexivity || discriminate).
    + simpl. intros v x [<-|[]] [<-|[<-|[]]]; discriminate.
  - intros p a v x Hi. simpl in Hi. destruct Hi as [Hi|[Hi|[]]]; discriminate.
  - split; [intros v [<-|[]]; reflexivity|discriminate].
Qed.

Print Assumptions local_elim_preserves_partial.
Print Assumptions local_elim_returns.
Print Assumptions local_elim_volatile_refuted.
