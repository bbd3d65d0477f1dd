(** C53: moving loop-invariant instructions out of loops. *)
From Coq Require Import Permutation.
From Verif Require Import Base GraphSpec NamedIds NamedIdsProofs Redundancy RedundancySpec RedundancyProofs P_Redundancy Licm LicmSpec LicmProofs LicmProofs2 LicmProofs3 LicmProofs4 LicmProofs5.
Local Open Scope N_scope.

(** The function goes on doing what it does, if the operations that are moved have results for all operands. *)
Theorem licm_preserves_partial {D W} (m : machine D W) safe d ls f f' : well_formed f -> tree_reached f d -> (forall x, In x ls -> loop_ok f x) -> never_undefined m safe ->
  licm safe d ls f = Some f' ->
  forall n globals w0 s, inputs_have_values m f globals w0 -> run m f n globals w0 = Some s -> run m f' n globals w0 = Some s.
Proof. intros WF TR LO NU H. apply (licm_ok m safe NU d ls f f' WF LO TR H). Qed.
(** The result is in the shape the specification requires; blocks, phis and terminators are what they were, and every instruction is still there, once. *)
Theorem licm_keeps_shape safe d ls f f' : well_formed f -> tree_reached f d -> (forall x, In x ls -> loop_ok f x) -> licm safe d ls f = Some f' ->
  well_formed f' /\ frame f = frame f' /\ Permutation (insts f) (insts f').
Proof.
  intros WF TR LO H. pose proof (licm_ok trivial safe (trivial_nu safe) d ls f f' WF LO TR H) as M. split; [apply M|]. split; apply M.
Qed.
(** Nothing that could be moved is left: an instruction in a block of a loop, and of no loop nested in it, is not invariant there. *)
Theorem licm_moves_all safe d ls f f' : well_formed f -> whole_tree f d -> (forall x, In x ls -> loop_ok f x /\ nesting x) -> ForallOrdPairs separate ls -> (forall x, among x ls -> l_pre x <> None) ->
  licm safe d ls f = Some f' ->
  forall x b i, among x ls -> In b (blocks f') -> In (label b) (l_inside x) -> (forall y, In y (l_nested x) -> ~ In (label b) (l_inside y)) -> In (label b) (labels d) -> In i (body b) ->
    ~ invariant safe f' (l_inside x) i.
Proof.
  intros WF WT LO Sep Pr H x b i Hx Hb Hi Hn Hl Hb' Inv. apply hoist_invariant in Inv.
  pose proof (licm_settled safe d f WF WT ls f' (fun y Hy => proj1 (LO y Hy)) (fun y Hy => proj2 (LO y Hy)) Sep Pr H x Hx b i Hb Hl) as S. rewrite S in Inv; [discriminate| |exact Hb'].
  destruct x as [h pre ins ns]. cbn [immediate l_inside l_nested] in *. apply andb_true_iff. split; [apply NamedIdsProofs.mem_In, Hi|]. apply negb_true_iff.
  destruct (existsb (fun y => NamedIds.mem (label b) (l_inside y)) ns) eqn:E; [|reflexivity]. apply existsb_exists in E. destruct E as (y & Hy & E). destruct (Hn y Hy). apply NamedIdsProofs.mem_In, E.
Qed.
(** The pass has a result. *)
Theorem licm_returns safe d ls f : tree_reached f d -> (forall x, among x ls -> l_pre x <> None /\ In (l_header x) (labels d)) -> exists f', licm safe d ls f = Some f'.
Proof. intros TR H. apply licm_has_result; [exact H|]. intros l Hl. apply (TR l Hl). Qed.

(** ** Checks for examples *)
Definition tree_step (f : func) (a : N) (S : list N) : bool :=
  negb (mem (entry f) S) && forallb (fun b => forallb (fun l => negb (mem l S) || mem (label b) S || (label b =? a)) (t_succ b)) (blocks f).
Fixpoint tree_b (f : func) (t : dtree) : bool :=
  match t with DNode a kids => mem a (map label (blocks f)) && tree_step f a (flat_map labels kids) && forallb (tree_b f) kids end.
Lemma tree_step_ok f a S y : tree_step f a S = true -> In y S -> dominates (succs f) (entry f) a y.
Proof.
  unfold tree_step. intros H Hy l P. apply andb_true_iff in H. destruct H as [He H]. apply negb_true_iff, mem_not in He. revert Hy. induction P as [|x y l P IH Hx]; intros Hy; [contradiction|].
  destruct (succ_block f x y Hx) as (q & Hq & <- & Hs). rewrite forallb_forall in H. specialize (H q Hq). rewrite forallb_forall in H. specialize (H y Hs). rewrite !orb_true_iff in H. apply in_or_app. left.
  destruct H as [[H|H]|H]; [apply negb_true_iff, mem_not in H; contradiction|apply mem_in in H; auto|]. apply N.eqb_eq in H. subst a. destruct (path_end _ _ _ _ P) as [l' ->]. apply in_or_app. right. left. reflexivity.
Qed.
Lemma tree_b_ok f t : tree_b f t = true -> dominator_tree f t.
Proof.
  induction t as [a kids IH] using dtree_ind2. cbn [tree_b]. intros H. rewrite !andb_true_iff in H. destruct H as [[Ha Hs] Hk]. rewrite forallb_forall in Hk. constructor; [apply mem_in, Ha|].
  intros k Hi. split; [apply IH; auto|]. apply (tree_step_ok f a _ _ Hs). apply in_flat_map. exists k. split; [exact Hi|apply root_in].
Qed.
Fixpoint above_b (t : dtree) (x y : N) : bool :=
  match t with DNode l kids => ((l =? x) && mem y (flat_map labels kids)) || existsb (fun k => above_b k x y) kids end.
Lemma above_b_ok t x y : above_b t x y = true -> above t x y.
Proof.
  induction t as [l kids IH] using dtree_ind2. cbn [above_b]. intros H. apply orb_true_iff in H. destruct H as [H|H].
  - apply andb_true_iff in H. destruct H as [E Hy]. apply N.eqb_eq in E. subst l. apply mem_in, in_flat_map in Hy. destruct Hy as (k & Hk & Hy). exact (AB_root x kids k y Hk Hy).
  - apply existsb_exists in H. destruct H as (k & Hk & H). exact (AB_kid l kids k x y Hk (IH k Hk H)).
Qed.
(** the blocks reached without [x] *)
Fixpoint avoiding (f : func) (x : N) (n : nat) : list N :=
  match n with
  | O => if entry f =? x then [] else [entry f]
  | S n' => let r := avoiding f x n' in nodup N.eq_dec (r ++ filter (fun l => negb (l =? x)) (flat_map (succs f) r))
  end.
Lemma avoiding_ok f x : forall n y, In y (avoiding f x n) -> exists l, path (succs f) (entry f) y l /\ ~ In x l.
Proof.
  induction n as [|n IH]; intros y Hy; cbn [avoiding] in Hy.
  - destruct (N.eqb_spec (entry f) x) as [E|E]; [destruct Hy|]. destruct Hy as [<-|[]]. exists [entry f]. split; [constructor|]. intros [E'|[]]. exact (E E').
  - apply nodup_In in Hy. apply in_app_or in Hy. destruct Hy as [Hy|Hy]; [apply IH, Hy|]. apply filter_In in Hy. destruct Hy as [Hy Ne]. apply negb_true_iff, N.eqb_neq in Ne.
    apply in_flat_map in Hy. destruct Hy as (z & Hz & Hy). destruct (IH z Hz) as (l & P & A). exists (l ++ [y]). split; [econstructor; eauto|]. intros I. apply in_app_or in I. destruct I as [I|[E|[]]]; auto.
Qed.
Definition whole_b (f : func) (d : dtree) (n : nat) : bool :=
  tree_b f d && nodup_b (labels d) && forallb (fun l => mem l (map label (blocks f)) && mem l (avoiding f 999 n)) (labels d) &&
  forallb (fun x => forallb (fun y => (x =? y) || above_b d x y || mem y (avoiding f x n)) (labels d)) (labels d).
Lemma whole_b_ok f d n : whole_b f d n = true -> whole_tree f d.
Proof.
  unfold whole_b. rewrite !andb_true_iff. intros [[[H1 H2] H3] H4]. rewrite forallb_forall in H3, H4. constructor.
  - apply tree_b_ok, H1.
  - intros l Hl. specialize (H3 l Hl). apply andb_true_iff in H3. destruct H3 as [A B]. split; [apply mem_in, A|]. apply mem_in in B. destruct (avoiding_ok f 999 n l B) as (p & P & _). exists p. exact P.
  - apply nodup_b_ok, H2.
  - intros x y Hx Hy Ne Dm. specialize (H4 x Hx). rewrite forallb_forall in H4. specialize (H4 y Hy). rewrite !orb_true_iff in H4. destruct H4 as [[H4|H4]|H4].
    + apply N.eqb_eq in H4. contradiction.
    + apply above_b_ok, H4.
    + apply mem_in in H4. destruct (avoiding_ok f x n y H4) as (l & P & A). destruct (A (Dm l P)).
Qed.
Definition available_t (f : func) (d : dtree) (b : block) (k : nat) (a : N) : bool :=
  forallb (fun x => negb (fst (fst x) =? a)) (flat_map places_of (blocks f)) ||
  existsb (fun x => (fst (fst x) =? a) && Nat.ltb (snd x) k) (places_of b) ||
  existsb (fun b' => above_b d (label b') (label b) && negb (label b' =? label b) && existsb (fun x => fst (fst x) =? a) (places_of b')) (blocks f).
Lemma available_t_ok f d b k a : dominator_tree f d -> In b (blocks f) -> available_t f d b k a = true -> available f b k a.
Proof.
  unfold available_t. rewrite !orb_true_iff. intros DT Hb [[H|H]|H].
  - left. intros b' j Hd. apply places_ok in Hd. rewrite forallb_forall in H. specialize (H _ Hd). simpl in H. rewrite N.eqb_refl in H. discriminate.
  - right. apply existsb_exists in H. destruct H as ([[x b'] j] & Hx & E). simpl in E. apply andb_true_iff in E. destruct E as [E1 E2].
    apply N.eqb_eq in E1. apply Nat.ltb_lt in E2. subst x. pose proof (in_places_block _ _ Hx) as Eb. simpl in Eb. subst b'.
    exists b, j. split; [|left; auto]. apply places_ok, in_flat_map. eauto.
  - right. apply existsb_exists in H. destruct H as (b' & Hb' & E). rewrite !andb_true_iff, negb_true_iff, N.eqb_neq in E. destruct E as [[E1 E2] E3].
    apply existsb_exists in E3. destruct E3 as ([[x b2] j] & Hx & E). simpl in E. apply N.eqb_eq in E. subst x. pose proof (in_places_block _ _ Hx) as Eb. simpl in Eb. subst b2.
    exists b', j. split; [apply places_ok, in_flat_map; eauto|]. right. split; [exact E2|]. apply (above_dom f d); [exact DT|apply above_b_ok, E1].
Qed.
Definition preheader_b (f : func) (h p : N) (ins : list N) : bool :=
  mem h ins && negb (mem p ins) && negb (mem (entry f) ins) && existsb (fun b => (label b =? p) && mem h (t_succ b)) (blocks f) &&
  forallb (fun b => forallb (fun l => negb (mem l ins) || mem (label b) ins || ((label b =? p) && (l =? h))) (t_succ b)) (blocks f).
Lemma preheader_b_ok f h p ins : preheader_b f h p ins = true -> has_preheader f h p ins.
Proof.
  unfold preheader_b. rewrite !andb_true_iff. intros [[[[H1 H2] H3] H4] H5]. rewrite forallb_forall in H5. constructor.
  - apply mem_in, H1.
  - apply mem_not, negb_true_iff, H2.
  - apply mem_not, negb_true_iff, H3.
  - apply existsb_exists in H4. destruct H4 as (b & Hb & E). apply andb_true_iff in E. destruct E as [E1 E2]. apply N.eqb_eq in E1. apply mem_in in E2. eauto.
  - intros b l Hb Hl Hi. specialize (H5 b Hb). rewrite forallb_forall in H5. specialize (H5 l Hl). rewrite !orb_true_iff in H5. destruct H5 as [[H5|H5]|H5].
    + apply negb_true_iff, mem_not in H5. contradiction.
    + left. apply mem_in, H5.
    + right. apply andb_true_iff in H5. destruct H5 as [A B]. apply N.eqb_eq in A, B. auto.
Qed.
(** every id that is read and not set in the function has a value *)
Definition inputs_b (f : func) (e : N -> option N) : bool :=
  forallb (fun i => forallb (fun a => mem a (ids_b (flat_map places_of (blocks f))) || match e a with Some _ => true | None => false end) (reads i)) (insts f).
Lemma inputs_b_ok {W} (m : machine N W) f g w c : steps m (prelude f) (mkconfig g w) = Some c -> inputs_b f (env c) = true -> inputs_have_values m f g w.
Proof.
  intros Hc H b i a c' Hb Hi Ha Nd Hp. rewrite Hc in Hp. injection Hp as <-. unfold inputs_b in H. rewrite forallb_forall in H. assert (I : In i (insts f)) by (apply in_flat_map; eauto).
  specialize (H i I). rewrite forallb_forall in H. specialize (H a Ha). apply orb_true_iff in H. destruct H as [H|H]; [|destruct (env c a); discriminate].
  exfalso. apply mem_in in H. unfold ids_b in H. apply in_map_iff in H. destruct H as ([[x b'] k] & E & H). cbn in E. subst x. apply places_ok in H. exact (Nd b' k H).
Qed.

(** ** Two loops, one in the other *)
(** 3 adds, 9 is not moved; terminator 1 branches, 2 branches on a value, 0 returns.  10 and 11 are constants, 12 comes from outside. *)
Definition nest : func :=
  mkfunc [IPure 10 100 []; IPure 11 101 []]
    [mkblock 1 [] [IOwn (Some 20) 9 [12]] 1 [] [2];
     mkblock 2 [] [] 1 [] [3];
     mkblock 3 [mkphi 30 [(10, 2); (70, 7)]] [IPure 31 3 [11; 12]] 2 [30] [4; 9];
     mkblock 4 [] [] 1 [] [5];
     mkblock 5 [mkphi 50 [(10, 4); (63, 6)]] [IPure 51 3 [50; 11]] 2 [50] [6; 7];
     mkblock 6 [] [IPure 60 3 [10; 11]; IPure 61 3 [60; 30]; ICopy 62 61; IPure 63 3 [50; 11]; IOwn (Some 64) 9 [62; 51]; IPure 65 9 [60]; IPure 66 3 [65; 60]; IPure 67 3 [31; 20]] 1 [] [5];
     mkblock 7 [] [IPure 70 3 [30; 11]; IPure 71 3 [31; 11]] 1 [] [3];
     mkblock 9 [] [] 0 [30] []].
Definition nest_tree : dtree := DNode 1 [DNode 2 [DNode 3 [DNode 4 [DNode 5 [DNode 6 []; DNode 7 []]]; DNode 9 []]]].
Definition nest_loops : list loop := [Loop 3 (Some 2) [3; 4; 5; 6; 7] [Loop 5 (Some 4) [5; 6] []]].
Definition only3 (op : N) : bool := op =? 3.
Definition counting : machine N (list N) :=
  mkmachine
    (fun op ds => if op =? 100 then Some 0 else if op =? 101 then Some 1 else if op =? 3 then Some (fold_right N.add 0 ds) else match ds with x :: _ => Some (x * 2) | [] => None end)
    (fun op ds w => Some (N.of_nat (length w), ds ++ w))
    (fun op ds => if op =? 0 then None else if op =? 1 then Some 0%nat else match ds with x :: _ => if x <? 2 then Some 0%nat else Some 1%nat | [] => Some 0%nat end).
Example counting_total : never_undefined counting only3.
Proof. intros op ds H. apply N.eqb_eq in H. subst op. cbn. discriminate. Qed.
Example nest_whole : whole_tree nest nest_tree.
Proof. apply (whole_b_ok _ _ 10). vm_compute. reflexivity. Qed.
Example nest_well_formed : well_formed nest.
Proof.
  apply (well_formed_by_ok (available_t nest nest_tree)); [|vm_compute; reflexivity]. intros b k a. apply available_t_ok. apply nest_whole.
Qed.
Example nest_loops_fit : (forall x, In x nest_loops -> loop_ok nest x /\ nesting x) /\ ForallOrdPairs separate nest_loops.
Proof.
  split; [|repeat constructor]. intros x [<-|[]]. split.
  - constructor; [intros p E; injection E as <-; apply preheader_b_ok; vm_compute; reflexivity|]. intros y [<-|[]]. constructor; [intros p E; injection E as <-; apply preheader_b_ok; vm_compute; reflexivity|intros y []].
  - constructor; [|repeat constructor]. intros y [<-|[]]. split; [constructor; [intros y []|constructor]|]. split.
    + intros l Hl. cbn in *. destruct Hl as [<-|[<-|[]]]; auto 10.
    + intros p E. injection E as <-. cbn. auto.
Qed.
Example nest_pre : forall x, among x nest_loops -> l_pre x <> None /\ In (l_header x) (labels nest_tree).
Proof.
  assert (Leaf : forall x, ~ among x []). { intros x H. inversion H as [l Hi|y l Hy _]; subst; [destruct Hi|destruct Hy]. }
  intros x H. inversion H as [l Hi|y l Hy Ha]; subst.
  - destruct Hi as [<-|[]]. split; [discriminate|]. apply mem_in. reflexivity.
  - destruct Hy as [<-|[]]. cbn [l_nested] in Ha. inversion Ha as [l Hi|y l Hy Ha']; subst; [destruct Hi as [<-|[]]; split; [discriminate|apply mem_in; reflexivity]|]. destruct Hy as [<-|[]]. destruct (Leaf x Ha').
Qed.
Example nest_inputs : inputs_have_values counting nest (fun a => if a =? 12 then Some 5 else None) [].
Proof. eapply inputs_b_ok; [cbn; reflexivity|vm_compute; reflexivity]. Qed.
(** 60 and 31 leave both loops, 61, 62 and 67 the inner one only *)
Example nest_result : licm only3 nest_tree nest_loops nest = Some (
  mkfunc (prelude nest)
    [mkblock 1 [] [IOwn (Some 20) 9 [12]] 1 [] [2];
     mkblock 2 [] [IPure 31 3 [11; 12]; IPure 60 3 [10; 11]; IPure 67 3 [31; 20]; IPure 71 3 [31; 11]] 1 [] [3];
     mkblock 3 [mkphi 30 [(10, 2); (70, 7)]] [] 2 [30] [4; 9];
     mkblock 4 [] [IPure 61 3 [60; 30]; ICopy 62 61] 1 [] [5];
     mkblock 5 [mkphi 50 [(10, 4); (63, 6)]] [IPure 51 3 [50; 11]] 2 [50] [6; 7];
     mkblock 6 [] [IPure 63 3 [50; 11]; IOwn (Some 64) 9 [62; 51]; IPure 65 9 [60]; IPure 66 3 [65; 60]] 1 [] [5];
     mkblock 7 [] [IPure 70 3 [30; 11]] 1 [] [3];
     mkblock 9 [] [] 0 [30] []]).
Proof. vm_compute. reflexivity. Qed.
Example nest_runs : exists ds w, run counting nest 40 (fun a => if a =? 12 then Some 5 else None) [] = Some (Returned 0 ds w) /\ length w = 9%nat.
Proof. eexists _, _. split; vm_compute; reflexivity. Qed.

(** ** Without the hypothesis about undefined results *)
(** IsOpcodeCodeMotionSafe (instruction.cpp:883-984) has the integer divisions among the operations that may be moved; a division that is done only if the divisor is not
    zero is moved to where it is always done.  Here 134 (OpUDiv) has no result for a divisor of zero. *)
Definition divides : machine N unit :=
  mkmachine
    (fun op ds => if op =? 134 then match ds with [a; b] => if b =? 0 then None else Some (a / b) | _ => None end else if op =? 100 then Some 0 else Some 1)
    (fun op ds w => None)
    (fun op ds => if op =? 0 then None else if op =? 1 then Some 0%nat else match ds with x :: _ => if x =? 0 then Some 1%nat else Some 0%nat | [] => Some 0%nat end).
(** while (first time) { if (y != 0) x / y; } *)
Definition guarded : func :=
  mkfunc [IPure 10 100 []; IPure 11 101 []]
    [mkblock 1 [] [] 1 [] [2];
     mkblock 2 [mkphi 20 [(11, 1); (10, 5)]] [] 2 [20] [3; 6];
     mkblock 3 [] [] 2 [13] [4; 5];
     mkblock 4 [] [IPure 40 134 [12; 13]] 1 [] [5];
     mkblock 5 [] [] 1 [] [2];
     mkblock 6 [] [] 0 [] []].
Definition guarded_tree : dtree := DNode 1 [DNode 2 [DNode 3 [DNode 4 []; DNode 5 []]; DNode 6 []]].
Definition guarded_loops : list loop := [Loop 2 (Some 1) [2; 3; 4; 5] []].
Definition by_zero (a : N) : option N := if a =? 12 then Some 7 else if a =? 13 then Some 0 else None.
Theorem licm_preserves_refuted : exists (m : machine N unit) safe d ls f f' n globals w0 s,
  well_formed f /\ whole_tree f d /\ (forall x, In x ls -> loop_ok f x /\ nesting x) /\ inputs_have_values m f globals w0 /\ (forall op, safe op = true <-> op = 134) /\
  licm safe d ls f = Some f' /\ run m f n globals w0 = Some s /\ run m f' n globals w0 = None.
Proof.
  assert (WT : whole_tree guarded guarded_tree) by (apply (whole_b_ok _ _ 8); vm_compute; reflexivity).
  eexists divides, (fun op => op =? 134), guarded_tree, guarded_loops, guarded, _, 8%nat, by_zero, tt, _. split.
  { apply (well_formed_by_ok (available_t guarded guarded_tree)); [|vm_compute; reflexivity]. intros b k a. apply available_t_ok. apply WT. }
  split; [exact WT|]. split.
  { intros x [<-|[]]. split; [|constructor; [intros y []|constructor]]. constructor; [intros p E; injection E as <-; apply preheader_b_ok; vm_compute; reflexivity|intros y []]. }
  split; [eapply inputs_b_ok; [cbn; reflexivity|vm_compute; reflexivity]|]. split; [intros op; apply N.eqb_eq|]. split; [vm_compute; reflexivity|]. split; vm_compute; reflexivity.
Qed.

Print Assumptions licm_preserves_partial.
Print Assumptions licm_keeps_shape.
Print Assumptions licm_moves_all.
Print Assumptions licm_returns.
Print Assumptions licm_preserves_refuted.
