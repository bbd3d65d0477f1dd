(** C51: value numbering and the removal of redundant instructions (--local-redundancy-elimination, --redundancy-elimination). *)
From Verif Require Import Base GraphSpec Redundancy RedundancySpec RedundancyProofs RedundancyProofs2 RedundancyProofs3 RedundancyProofs4 RedundancyProofs5.
Local Open Scope N_scope.

(** Removing the redundant instructions of each block does not change what a function does: whatever the values and the instructions are, and
    whichever operations commute, a run of the function whose behaviour is defined is, block by block, a run of the function the pass leaves, with the
    same effects on the world and the same values returned.
    Missing: the pass works on whole modules, here on one function; the texts of names, decorations and debug information, which may get lost. *)
Theorem local_redundancy_preserves_partial : forall (D W : Type) (m : machine D W) (dec : N -> N -> bool) (comm : N -> bool) (f : func) (n : nat) globals w0 (r : @seen D W),
  commutes m comm -> well_formed f ->
  run m f n globals w0 = Some r -> run m (eliminate_local dec comm f) n globals w0 = Some r.
Proof.
  intros D W m dec comm f n globals w0 r HC WF H. destruct (number_all_sound f dec comm WF) as [tr S]. destruct (local_done f (number_all dec comm f) WF) as [ls Iv].
  apply (run_preserved m f comm _ tr _ ls WF HC S Iv n globals w0 r H).
Qed.
(** The same for the removal along the dominator tree, whatever part of the function the tree covers; and that pass comes to an end. *)
Theorem redundancy_preserves_partial : forall (D W : Type) (m : machine D W) (dec : N -> N -> bool) (comm : N -> bool) (d : dtree) (f g : func) (n : nat) globals w0 (r : @seen D W),
  commutes m comm -> well_formed f -> dominator_tree f d -> NoDup (labels d) -> eliminate_global dec comm d f = Some g ->
  run m f n globals w0 = Some r -> run m g n globals w0 = Some r.
Proof.
  intros D W m dec comm d f g n globals w0 r HC WF Dt Nd E H. unfold eliminate_global in E. destruct (number_all_sound f dec comm WF) as [tr S].
  destruct (global_done f (number_all dec comm f) WF (size d) [(d, [])] [] start) as (s & ls & E' & Iv).
  - simpl. lia.
  - unfold pending. simpl. rewrite app_nil_r. exact Nd.
  - intros l _ [].
  - apply start_inv.
  - intros d' m' [Ed|[]]. injection Ed as <- <-. split; [exact Dt|]. intros b Hb El v x [].
  - rewrite E' in E. injection E as <-. apply (run_preserved m f comm _ tr _ ls WF HC S Iv n globals w0 r H).
Qed.
Theorem redundancy_returns : forall (dec : N -> N -> bool) (comm : N -> bool) (d : dtree) (f : func),
  well_formed f -> dominator_tree f d -> NoDup (labels d) -> exists g, eliminate_global dec comm d f = Some g.
Proof.
  intros dec comm d f WF Dt Nd. unfold eliminate_global.
  destruct (global_done f (number_all dec comm f) WF (size d) [(d, [])] [] start) as (s & ls & E' & Iv).
  - simpl. lia.
  - unfold pending. simpl. rewrite app_nil_r. exact Nd.
  - intros l _ [].
  - apply start_inv.
  - intros d' m' [Ed|[]]. injection Ed as <- <-. split; [exact Dt|]. intros b Hb El v x [].
  - rewrite E'. eauto.
Qed.

(** What is removed: of two instructions of a block that do the same thing to the same operands, in either order if the operation commutes, the second;
    and in the pass over the tree also when the first is in a block above. *)
Theorem local_redundancy_removes : forall (dec : N -> N -> bool) (comm : N -> bool) (f : func) B1 b B2 j r j' i' r',
  well_formed f -> (forall x y, dec x y = true) -> blocks f = B1 ++ b :: B2 -> repeated f comm B1 b j r i' r' -> (j < j')%nat -> nth_error (body b) j' = Some i' ->
  forall b0 k, ~ defined_at (eliminate_local dec comm f) r' b0 k.
Proof. intros. eapply local_text; eauto. Qed.
Theorem redundancy_removes : forall (dec : N -> N -> bool) (comm : N -> bool) (d : dtree) (f g : func) B1 b B2 j r b' j' i' r',
  well_formed f -> (forall x y, dec x y = true) -> blocks f = B1 ++ b :: B2 -> repeated f comm B1 b j r i' r' -> In b' B2 -> nth_error (body b') j' = Some i' ->
  above d (label b) (label b') -> eliminate_global dec comm d f = Some g -> forall b0 k, ~ defined_at g r' b0 k.
Proof. intros. eapply global_text; eauto. Qed.

(** ** A machine *)
(** numbers; the world is a list of what was done *)
Definition total (l : list N) : N := fold_right N.add 0 l.
Definition toy : machine N (list N) :=
  mkmachine
    (fun op ds => if op =? 100 then Some 5 else if op =? 101 then Some 3 else if op =? 8 then match ds with [a; b] => Some (a - b) | _ => None end else Some (total ds))
    (fun op ds w => Some (N.of_nat (length w), op :: ds ++ w))
    (fun op ds => if op =? 0 then None else if op =? 1 then Some 0%nat else match ds with x :: _ => if x <? 25 then Some 0%nat else Some 1%nat | _ => Some 0%nat end).
Definition sums (op : N) : bool := op =? 7.
Lemma toy_commutes : commutes toy sums.
Proof. intros op a b H. apply N.eqb_eq in H. subst op. simpl. f_equal. lia. Qed.

(** ** A function with branches and a loop *)
(** 7 adds, 8 subtracts, 9 does something; 50 and 51 come from outside. *)
Definition ex : func :=
  mkfunc [IPure 1 100 []; IPure 2 101 []; IPure 3 7 [1; 2]]
    [mkblock 10 [] [IPure 20 7 [1; 50]; IPure 21 7 [50; 1]; IPure 22 8 [1; 50]; IPure 23 8 [50; 1]; IOwn (Some 24) 9 [20; 21]; IOwn (Some 25) 9 [20; 21]; ICopy 26 20;
                    IPure 27 7 [26; 3]; IPure 28 7 [3; 21]] 2 [25] [11; 12];
     mkblock 11 [] [IPure 30 7 [3; 20]; IPure 31 7 [27; 2]] 2 [25] [13; 14];
     mkblock 12 [] [IPure 32 7 [27; 2]; IPure 33 7 [2; 28]] 2 [25] [13; 14];
     mkblock 13 [mkphi 40 [(20, 11); (22, 12)]; mkphi 41 [(21, 11); (22, 12)]; mkphi 42 [(31, 11); (32, 12)]; mkphi 43 [(20, 11); (21, 12)]] [IOwn None 9 [40; 41; 42; 43]] 1 [] [15];
     mkblock 14 [mkphi 44 [(20, 11); (22, 12)]; mkphi 45 [(22, 11); (20, 12)]] [IOwn None 9 [44; 45]] 1 [] [15];
     mkblock 15 [mkphi 60 [(20, 13); (21, 14); (62, 15)]; mkphi 61 [(21, 13); (21, 14); (62, 15)]]
       [IPure 62 7 [60; 2]; IPure 63 7 [2; 61]; IPure 64 7 [1; 50]; IOwn (Some 65) 9 [62; 63; 64]] 2 [65] [15; 16];
     mkblock 16 [mkphi 70 [(63, 15)]] [IPure 71 8 [50; 1]; IPure 72 7 [70; 71]] 0 [72; 70; 25] []].
Definition ex_tree : dtree := DNode 10 [DNode 11 []; DNode 12 []; DNode 13 []; DNode 14 []; DNode 15 [DNode 16 []]].
Definition same (a b : N) : bool := negb (a =? 71) && negb (b =? 71).
Definition ex_globals (id : N) : option N := match id with 50 => Some 4 | 51 => Some 6 | _ => None end.
(** the places of a function where an id gets its value *)
Definition places_of (b : block) : list (N * block * nat) :=
  map (fun p => (p_res p, b, O)) (phis b) ++
  flat_map (fun x => match result (snd x) with Some r => [(r, b, S (fst x))] | None => [] end) (combine (seq 0 (length (body b))) (body b)).
Lemma in_numbered (l : list inst) : forall n j i, nth_error l j = Some i <-> In ((n + j)%nat, i) (combine (seq n (length l)) l).
Proof.
  induction l as [|x l IH]; intros n j i; simpl.
  - destruct j; simpl; split; (discriminate || tauto).
  - destruct j as [|j]; simpl.
    + rewrite Nat.add_0_r. split; [intros H; injection H as ->; auto|]. intros [H|H]; [injection H as ->; reflexivity|].
      apply in_combine_l in H. apply in_seq in H. lia.
    + rewrite Nat.add_succ_r, <- Nat.add_succ_l. rewrite (IH (S n) j i). split; [intros H; right; exact H|]. intros [H|H]; [injection H; lia|]. exact H.
Qed.
Lemma places_ok f id b k : defined_at f id b k <-> In (id, b, k) (flat_map places_of (blocks f)).
Proof.
  rewrite in_flat_map. split.
  - intros [Hb H]. exists b. split; [exact Hb|]. unfold places_of. apply in_or_app. destruct k as [|j].
    + left. destruct H as (p & Hp & <-). apply (in_map (fun p => (p_res p, b, O)) _ _ Hp).
    + right. destruct H as (i & Hi & Hr). apply in_flat_map. exists (j, i). split; [apply (proj1 (in_numbered (body b) 0 j i) Hi)|]. simpl. rewrite Hr. left. reflexivity.
  - intros (b' & Hb & H). unfold places_of in H. apply in_app_or in H. destruct H as [H|H].
    + apply in_map_iff in H. destruct H as (p & E & Hp). injection E as <- <- <-. split; [exact Hb|]. eauto.
    + apply in_flat_map in H. destruct H as ([j i] & Hi & H). simpl in H. destruct (result i) as [r|] eqn:Er; [|destruct H]. destruct H as [E|[]]. injection E as <- <- <-.
      split; [exact Hb|]. exists i. split; [apply (in_numbered (body b') 0 j i); exact Hi|exact Er].
Qed.
Lemma entry_dominates f l : dominates (succs f) (entry f) (entry f) l.
Proof. intros p H. induction H as [|b c p H IH Hc]; [left; reflexivity|]. apply in_or_app. left. exact IH. Qed.
(** a test for [available], for ids set in the block itself, in the entry block, or nowhere *)
Definition available_b (f : func) (b : block) (k : nat) (a : N) : bool :=
  forallb (fun x => negb (fst (fst x) =? a)) (flat_map places_of (blocks f)) ||
  existsb (fun x => (fst (fst x) =? a) && Nat.ltb (snd x) k) (places_of b) ||
  existsb (fun b' => (label b' =? entry f) && negb (label b' =? label b) && existsb (fun x => fst (fst x) =? a) (places_of b')) (blocks f).
Lemma in_places_block b x : In x (places_of b) -> snd (fst x) = b.
Proof.
  unfold places_of. intros H. apply in_app_or in H. destruct H as [H|H].
  - apply in_map_iff in H. destruct H as (p & <- & _). reflexivity.
  - apply in_flat_map in H. destruct H as (y & _ & H). destruct (result (snd y)); [|destruct H]. destruct H as [<-|[]]. reflexivity.
Qed.
Lemma available_b_ok f b k a : In b (blocks f) -> available_b f b k a = true -> available f b k a.
Proof.
  unfold available_b. rewrite !orb_true_iff. intros Hb [[H|H]|H].
  - left. intros b' j Hd. apply places_ok in Hd. rewrite forallb_forall in H. specialize (H _ Hd). simpl in H. rewrite N.eqb_refl in H. discriminate.
  - right. apply existsb_exists in H. destruct H as ([[x b'] j] & Hx & E). simpl in E. apply andb_true_iff in E. destruct E as [E1 E2].
    apply N.eqb_eq in E1. apply Nat.ltb_lt in E2. subst x. pose proof (in_places_block _ _ Hx) as Eb. simpl in Eb. subst b'.
    exists b, j. split; [|left; auto]. apply places_ok, in_flat_map. eauto.
  - right. apply existsb_exists in H. destruct H as (b' & Hb' & E). rewrite !andb_true_iff, negb_true_iff, N.eqb_eq, N.eqb_neq in E. destruct E as [[E1 E2] E3].
    apply existsb_exists in E3. destruct E3 as ([[x b2] j] & Hx & E). simpl in E. apply N.eqb_eq in E. subst x. pose proof (in_places_block _ _ Hx) as Eb. simpl in Eb. subst b2.
    exists b', j. split; [apply places_ok, in_flat_map; eauto|]. right. split; [exact E2|]. rewrite E1. apply entry_dominates.
Qed.

Definition ids_b (l : list (N * block * nat)) : list N := map (fun x => fst (fst x)) l.
Definition mem (a : N) (l : list N) : bool := existsb (N.eqb a) l.
Fixpoint nodup_b (l : list N) : bool := match l with [] => true | a :: l' => negb (mem a l') && nodup_b l' end.
Lemma mem_in a l : mem a l = true <-> In a l.
Proof. unfold mem. rewrite existsb_exists. split; [intros (x & Hx & E); apply N.eqb_eq in E; subst x; exact Hx|intros H; exists a; split; [exact H|apply N.eqb_refl]]. Qed.
Lemma mem_not a l : mem a l = false <-> ~ In a l.
Proof. rewrite <- mem_in. destruct (mem a l); split; congruence. Qed.
Lemma nodup_b_ok l : nodup_b l = true -> NoDup l.
Proof. induction l as [|a l IH]; simpl; intros H; constructor; apply andb_true_iff in H; destruct H as [H1 H2]; [apply negb_true_iff, mem_not in H1; exact H1|apply IH, H2]. Qed.
Fixpoint prelude_b (ids : list N) (l1 l : list inst) : bool :=
  match l with
  | [] => true
  | i :: l2 =>
      match result i with
      | None => true
      | Some r => negb (mem r ids) && forallb (fun j => match result j with Some r' => negb (r' =? r) | None => true end) l2 && forallb (fun j => negb (mem r (reads j))) (l1 ++ [i])
      end && prelude_b ids (l1 ++ [i]) l2
  end.
Lemma prelude_b_ok ids : forall l l0 l1 i l2 r, prelude_b ids l0 l = true -> l = l1 ++ i :: l2 -> result i = Some r ->
  ~ In r ids /\ (forall j, In j l2 -> result j <> Some r) /\ (forall j, In j (l0 ++ l1 ++ [i]) -> ~ In r (reads j)).
Proof.
  induction l as [|x l IH]; intros l0 l1 i l2 r H E Hr; [destruct l1; discriminate|]. cbn [prelude_b] in H. apply andb_true_iff in H. destruct H as [H H'].
  destruct l1 as [|y l1]; simpl in E; injection E as -> E.
  - subst l2. rewrite Hr in H. rewrite !andb_true_iff in H. destruct H as [[H1 H2] H3]. apply negb_true_iff, mem_not in H1. split; [exact H1|]. rewrite forallb_forall in H2, H3. split.
    + intros j Hj Ej. specialize (H2 j Hj). rewrite Ej, N.eqb_refl in H2. discriminate.
    + intros j Hj. apply mem_not, negb_true_iff. apply H3, Hj.
  - destruct (IH (l0 ++ [y]) l1 i l2 r H' E Hr) as (A & B & C). split; [exact A|]. split; [exact B|]. intros j Hj. apply C. rewrite <- app_assoc. exact Hj.
Qed.
(** [av]: a test for [available] *)
Definition well_formed_by (av : block -> nat -> N -> bool) (f : func) : bool :=
  nodup_b (map label (blocks f)) && nodup_b (ids_b (flat_map places_of (blocks f))) &&
  match blocks f with [] => true | b :: _ => match phis b with [] => true | _ => false end && forallb (fun b' => negb (mem (label b) (t_succ b'))) (blocks f) end &&
  prelude_b (ids_b (flat_map places_of (blocks f))) [] (prelude f) &&
  forallb (fun i => forallb (fun a => negb (mem a (ids_b (flat_map places_of (blocks f))))) (reads i)) (prelude f) &&
  forallb (fun b => forallb (fun x => forallb (av b (S (fst x))) (reads (snd x))) (combine (seq 0 (length (body b))) (body b)) &&
                    forallb (av b (S (length (body b)))) (t_args b) &&
                    forallb (fun p => forallb (fun al => forallb (fun b' => negb (label b' =? snd al) || av b' (S (length (body b'))) (fst al)) (blocks f)) (p_args p) &&
                                      forallb (fun l => existsb (fun b' => (label b' =? l) && mem (label b) (t_succ b')) (blocks f)) (map snd (p_args p)) &&
                                      forallb (fun b' => negb (mem (label b) (t_succ b')) || mem (label b') (map snd (p_args p))) (blocks f)) (phis b))
          (blocks f).
Definition well_formed_b (f : func) : bool := well_formed_by (available_b f) f.
Lemma nodup_places l : NoDup (ids_b l) -> forall x y, In x l -> In y l -> fst (fst x) = fst (fst y) -> x = y.
Proof.
  intros ND x y. induction l as [|z l IH]; simpl; [tauto|]. intros Hx Hy E. inversion ND as [|? ? N1 N2]; subst.
  destruct Hx as [->|Hx], Hy as [->|Hy]; auto.
  - destruct N1. rewrite E. apply (in_map (fun x => fst (fst x)) _ _ Hy).
  - destruct N1. rewrite <- E. apply (in_map (fun x => fst (fst x)) _ _ Hx).
Qed.
Lemma not_defined f r b k : ~ In r (ids_b (flat_map places_of (blocks f))) -> ~ defined_at f r b k.
Proof. intros H Dr. apply H. apply places_ok in Dr. apply (in_map (fun x => fst (fst x)) _ _ Dr). Qed.
Lemma nodup_left {A} (l m : list A) : NoDup (l ++ m) -> NoDup l.
Proof. induction l as [|a l IH]; simpl; intros H; [constructor|]. inversion H; subst. constructor; [|apply IH; assumption]. intros Hin. apply H2. apply in_or_app. left. exact Hin. Qed.
Lemma nodup_right {A} (l m : list A) : NoDup (l ++ m) -> NoDup m.
Proof. induction l as [|a l IH]; simpl; intros H; [exact H|]. inversion H; subst. apply IH. assumption. Qed.
Lemma phi_nodup f : NoDup (ids_b (flat_map places_of (blocks f))) -> forall b, In b (blocks f) -> NoDup (map p_res (phis b)).
Proof.
  induction (blocks f) as [|b0 bs IH]; intros ND b Hb; [destruct Hb|]. unfold ids_b in ND. cbn [flat_map] in ND. rewrite map_app in ND. destruct Hb as [->|Hb].
  - apply nodup_left in ND. unfold places_of in ND. rewrite map_app, map_map in ND. apply nodup_left in ND. exact ND.
  - apply (IH (nodup_right _ _ ND) b Hb).
Qed.
Lemma well_formed_by_ok av f : (forall b k a, In b (blocks f) -> av b k a = true -> available f b k a) -> well_formed_by av f = true -> well_formed f.
Proof.
  intros Av. unfold well_formed_by. rewrite !andb_true_iff. intros [[[[[H1 H2] H3] H4] H5] H6]. apply nodup_b_ok in H1. apply nodup_b_ok in H2. rewrite forallb_forall in H5, H6. split.
  - exact H1.
  - intros id b k b' k' A B. apply places_ok in A. apply places_ok in B. pose proof (nodup_places _ H2 _ _ A B eq_refl) as E. injection E as <- <-. auto.
  - apply phi_nodup. exact H2.
  - destruct (blocks f) as [|b bs]; [exact I|]. apply andb_true_iff in H3. destruct H3 as [H3 H3']. split; [destruct (phis b); [reflexivity|discriminate]|].
    intros b' Hb'. rewrite forallb_forall in H3'. apply mem_not, negb_true_iff. apply H3', Hb'.
  - intros l1 i l2 r E Hr. destruct (prelude_b_ok _ _ [] l1 i l2 r H4 E Hr) as (A & B & C). split; [|auto]. intros b k. apply not_defined. exact A.
  - intros i a b k Hi Ha. apply not_defined. specialize (H5 i Hi). rewrite forallb_forall in H5. apply mem_not, negb_true_iff. apply H5, Ha.
  - intros b j i a Hb _ Hi Ha. specialize (H6 b Hb). rewrite !andb_true_iff in H6. destruct H6 as [[H6 _] _]. rewrite forallb_forall in H6.
    specialize (H6 _ (proj1 (in_numbered (body b) 0 j i) Hi)). rewrite forallb_forall in H6. apply Av; [exact Hb|]. apply H6, Ha.
  - intros b a Hb _ Ha. specialize (H6 b Hb). rewrite !andb_true_iff in H6. destruct H6 as [[_ H6] _]. rewrite forallb_forall in H6. apply Av; [exact Hb|]. apply H6, Ha.
  - intros b p a l b' Hb Hp Ha Hb' El _. specialize (H6 b Hb). rewrite !andb_true_iff in H6. destruct H6 as [_ H6]. rewrite forallb_forall in H6. specialize (H6 p Hp).
    rewrite !andb_true_iff in H6. destruct H6 as [[H6 _] _]. rewrite forallb_forall in H6. specialize (H6 _ Ha). rewrite forallb_forall in H6. specialize (H6 _ Hb'). simpl in H6. rewrite El, N.eqb_refl in H6. simpl in H6.
    apply Av; [exact Hb'|exact H6].
  - intros b p l Hb Hp. specialize (H6 b Hb). rewrite !andb_true_iff in H6. destruct H6 as [_ H6]. rewrite forallb_forall in H6. specialize (H6 p Hp).
    rewrite !andb_true_iff in H6. destruct H6 as [[_ H6] H7]. rewrite forallb_forall in H6, H7. split.
    + intros Hl. specialize (H6 l Hl). apply existsb_exists in H6. destruct H6 as (b' & Hb' & E). apply andb_true_iff in E. destruct E as [E1 E2]. apply N.eqb_eq in E1. apply mem_in in E2. eauto.
    + intros (b' & Hb' & <- & Hs). specialize (H7 b' Hb'). apply orb_true_iff in H7. destruct H7 as [H7|H7]; [|apply mem_in, H7]. apply negb_true_iff, mem_not in H7. contradiction.
Qed.
Lemma well_formed_b_ok f : well_formed_b f = true -> well_formed f.
Proof. apply well_formed_by_ok. intros b k a. apply available_b_ok. Qed.
Example ex_well_formed : well_formed ex.
Proof. apply well_formed_b_ok. vm_compute. reflexivity. Qed.
Example ex_tree_dominates : dominator_tree ex ex_tree /\ NoDup (labels ex_tree).
Proof.
  split; [|apply nodup_b_ok; vm_compute; reflexivity].
  assert (Leaf : forall l, In l (map label (blocks ex)) -> dominator_tree ex (DNode l [])) by (intros l Hl; constructor; [exact Hl|intros k []]).
  assert (L : forall l, mem l (map label (blocks ex)) = true -> In l (map label (blocks ex))) by (intros l; apply mem_in).
  constructor; [apply L; reflexivity|]. intros k Hk. split; [|apply (entry_dominates ex)]. simpl in Hk.
  destruct Hk as [<-|[<-|[<-|[<-|[<-|[]]]]]]; try (apply Leaf, L; reflexivity). constructor; [apply L; reflexivity|]. intros k [<-|[]]. split; [apply Leaf, L; reflexivity|].
  (* block 16 can be reached from block 15 only *)
  intros p P. simpl in P. inversion P as [E|b c p' P' Hc E]; subst. destruct (succ_block ex b _ Hc) as (q & Hq & <- & Hs). apply in_or_app. left.
  assert (E : forallb (fun q => negb (mem 16 (t_succ q)) || (label q =? 15)) (blocks ex) = true) by (vm_compute; reflexivity).
  rewrite forallb_forall in E. specialize (E q Hq). apply orb_true_iff in E. destruct E as [E|E]; [apply negb_true_iff, mem_not in E; contradiction|]. apply N.eqb_eq in E. rewrite E in P'.
  destruct (path_end _ _ _ _ P') as [l' ->]. apply in_or_app. right. left. reflexivity.
Qed.
Example ex_local : eliminate_local same sums ex =
  mkfunc (prelude ex)
    [mkblock 10 [] [IPure 20 7 [1; 50]; IPure 22 8 [1; 50]; IPure 23 8 [50; 1]; IOwn (Some 24) 9 [20; 20]; IOwn (Some 25) 9 [20; 20]; IPure 27 7 [20; 3]] 2 [25] [11; 12];
     mkblock 11 [] [IPure 30 7 [3; 20]; IPure 31 7 [27; 2]] 2 [25] [13; 14];
     mkblock 12 [] [IPure 32 7 [27; 2]] 2 [25] [13; 14];
     mkblock 13 [mkphi 40 [(20, 11); (22, 12)]; mkphi 42 [(31, 11); (32, 12)]; mkphi 43 [(20, 11); (20, 12)]] [IOwn None 9 [40; 40; 42; 43]] 1 [] [15];
     mkblock 14 [mkphi 44 [(20, 11); (22, 12)]; mkphi 45 [(22, 11); (20, 12)]] [IOwn None 9 [44; 45]] 1 [] [15];
     mkblock 15 [mkphi 60 [(20, 13); (20, 14); (62, 15)]] [IPure 62 7 [60; 2]; IPure 64 7 [1; 50]; IOwn (Some 65) 9 [62; 62; 64]] 2 [65] [15; 16];
     mkblock 16 [mkphi 70 [(62, 15)]] [IPure 71 8 [50; 1]; IPure 72 7 [70; 71]] 0 [72; 70; 25] []].
Proof. vm_compute. reflexivity. Qed.
Example ex_global : eliminate_global same sums ex_tree ex = Some (
  mkfunc (prelude ex)
    [mkblock 10 [] [IPure 20 7 [1; 50]; IPure 22 8 [1; 50]; IPure 23 8 [50; 1]; IOwn (Some 24) 9 [20; 20]; IOwn (Some 25) 9 [20; 20]; IPure 27 7 [20; 3]] 2 [25] [11; 12];
     mkblock 11 [] [IPure 31 7 [27; 2]] 2 [25] [13; 14];
     mkblock 12 [] [IPure 32 7 [27; 2]] 2 [25] [13; 14];
     mkblock 13 [mkphi 40 [(20, 11); (22, 12)]; mkphi 42 [(31, 11); (32, 12)]] [IOwn None 9 [40; 40; 42; 20]] 1 [] [15];
     mkblock 14 [mkphi 44 [(20, 11); (22, 12)]; mkphi 45 [(22, 11); (20, 12)]] [IOwn None 9 [44; 45]] 1 [] [15];
     mkblock 15 [mkphi 60 [(20, 13); (20, 14); (62, 15)]] [IPure 62 7 [60; 2]; IOwn (Some 65) 9 [62; 62; 20]] 2 [65] [15; 16];
     mkblock 16 [] [IPure 71 8 [50; 1]; IPure 72 7 [62; 71]] 0 [72; 62; 25] []]).
Proof. vm_compute. reflexivity. Qed.
Example ex_runs : exists ds w, run toy ex 12 ex_globals [] = Some (Returned 0 ds w).
Proof. eexists _, _. vm_compute. reflexivity. Qed.

Example ex_repeated : repeated ex sums [] (hd (mkblock 0 [] [] 0 [] []) (blocks ex)) 0 20 (IPure 21 7 [50; 1]) 21.
Proof.
  exists 7, [1; 50], [50; 1]. split; [reflexivity|]. split; [reflexivity|]. split; [right; split; [reflexivity|eauto]|].
  intros a [<-|[<-|[]]]; [left; apply mem_in; reflexivity|right; apply mem_not; reflexivity].
Qed.
Example ex_repeated_below : repeated ex sums [] (hd (mkblock 0 [] [] 0 [] []) (blocks ex)) 0 20 (IPure 64 7 [1; 50]) 64 /\ above ex_tree 10 15.
Proof.
  split.
  - exists 7, [1; 50], [1; 50]. split; [reflexivity|]. split; [reflexivity|]. split; [left; reflexivity|].
    intros a [<-|[<-|[]]]; [left; apply mem_in; reflexivity|right; apply mem_not; reflexivity].
  - apply (AB_root 10 _ (DNode 15 [DNode 16 []])); simpl; auto 10.
Qed.

Print Assumptions local_redundancy_removes.
Print Assumptions redundancy_removes.
Print Assumptions local_redundancy_preserves_partial.
Print Assumptions redundancy_preserves_partial.
Print Assumptions redundancy_returns.
