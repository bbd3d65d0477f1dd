(** C55: merging blocks with their successors. *)
From Coq Require Import Permutation.
From Verif Require Import Base NamedIds NamedIdsProofs Redundancy RedundancySpec P_Redundancy LicmSpec CodeSink BlockMerge BlockMergeSpec BlockMergeProofs BlockMergeProofs2.
Local Open Scope N_scope.

Lemma merge_blocks_kept branch conditional maximal reached in_case f ms g ms' : mergeable branch f -> merge_blocks branch conditional maximal reached in_case f ms = Some (g, ms') ->
  kept branch conditional maximal in_case f ms g ms' /\ prelude g = prelude f.
Proof.
  unfold merge_blocks. intros MB H. destruct (merge_from branch conditional maximal reached in_case (length (blocks f)) [] (blocks f) ms) as [[bs ms0]|] eqn:E; [|discriminate]. injection H as <- <-. split; [|reflexivity].
  destruct f as [pre bs0]. apply (merge_from_kept branch conditional maximal reached in_case pre (length bs0) [] bs0); assumption.
Qed.
(** The function does what it did.  Missing: phis in blocks that are reached over one edge only ([mb_no_phis]). *)
Theorem block_merge_preserves_partial {D W} (m : machine D W) branch conditional maximal reached in_case f ms g ms' : branches_go m branch -> mergeable branch f ->
  merge_blocks branch conditional maximal reached in_case f ms = Some (g, ms') -> forall globals w0, same_behaviour m globals w0 f g.
Proof. intros Go MB H globals w0. apply merge_blocks_kept in H; [|exact MB]. apply (k_same _ _ _ _ _ _ _ _ (proj1 H)). exact Go. Qed.
(** Every instruction is still there, once; no block is new, labels are unique, phis name predecessors. *)
Theorem block_merge_keeps_instructions branch conditional maximal reached in_case f ms g ms' : mergeable branch f ->
  merge_blocks branch conditional maximal reached in_case f ms = Some (g, ms') ->
  prelude g = prelude f /\ Permutation (flat_map body (blocks f)) (flat_map body (blocks g)) /\ incl (map label (blocks g)) (map label (blocks f)) /\ mergeable branch g.
Proof. intros MB H. apply merge_blocks_kept in H; [|exact MB]. destruct H as [[A B C E _ _ _ _ _ _] P]. auto. Qed.
(** Merge instructions stay where they may stand, and name blocks that exist; no construct is lost unless its header and merge block become one; merge blocks stay apart, from each other, from continue targets and from the cases of switches. *)
Theorem block_merge_keeps_structure branch conditional maximal reached in_case f ms g ms' : mergeable branch f ->
  merge_blocks branch conditional maximal reached in_case f ms = Some (g, ms') ->
  (well_structured branch conditional f ms -> well_structured branch conditional g ms') /\ (apart branch f ms -> apart branch g ms') /\ constructs_kept branch f ms ms' /\
  (forall case, (forall bs ms l, case l = true -> in_case bs ms l = true) -> cases_apart case ms -> cases_apart case ms').
Proof. intros MB H. apply merge_blocks_kept in H; [|exact MB]. destruct H as [[A B C E F G H I J _] P]. auto. Qed.
(** With SPV_KHR_maximal_reconvergence all merge blocks stay. *)
Theorem block_merge_reconvergence branch conditional reached in_case f ms g ms' : mergeable branch f ->
  merge_blocks branch conditional true reached in_case f ms = Some (g, ms') ->
  merge_blocks_of ms' = merge_blocks_of ms /\ forall l, In l (map label (blocks f)) -> In l (merge_blocks_of ms) -> In l (map label (blocks g)).
Proof.
  intros MB H. apply merge_blocks_kept in H; [|exact MB]. destruct (k_maximal _ _ _ _ _ _ _ _ (proj1 H) eq_refl) as [A B]. split; [exact A|]. intros l Hl Hm. apply B; [exact Hl|].
  unfold merge_blocks_of in Hm. apply in_map_iff in Hm. destruct Hm as (h & E & Hh). apply existsb_exists. exists h. split; [exact Hh|]. apply N.eqb_eq, E.
Qed.
(** The pass has a result. *)
Theorem block_merge_returns branch conditional maximal reached in_case f ms : mergeable branch f -> text_order reached f -> exists g ms', merge_blocks branch conditional maximal reached in_case f ms = Some (g, ms').
Proof.
  intros MB TO. destruct f as [pre bs]. unfold merge_blocks. cbn [blocks prelude].
  destruct (merge_from_returns branch conditional maximal reached in_case pre (length bs) [] bs ms MB TO (le_n _)) as [[bs' ms'] ->]. eauto.
Qed.

(** ** Checks for examples *)
Fixpoint distinct_b (l : list N) : bool := match l with [] => true | y :: l' => negb (mem y l') && distinct_b l' end.
Lemma distinct_b_ok l : distinct_b l = true -> NoDup l.
Proof. induction l as [|y l IH]; cbn [distinct_b]; intros H; [constructor|]. apply andb_true_iff in H. destruct H as [A B]. constructor; [apply mem_not, negb_true_iff, A|apply IH, B]. Qed.
Definition mergeable_b (branch : N -> bool) (f : func) : bool :=
  distinct_b (map label (blocks f)) &&
  forallb (fun b => (negb (branch (t_op b)) || match t_args b with [] => true | _ => false end) &&
                    forallb (fun p => forallb (fun x => existsb (fun b' => (label b' =? snd x) && mem (label b) (t_succ b')) (blocks f)) (p_args p)) (phis b) &&
                    (negb (Nat.eqb (count (label b) (flat_map t_succ (blocks f))) 1) || match phis b with [] => true | _ => false end)) (blocks f).
Lemma mergeable_b_ok branch f : mergeable_b branch f = true -> mergeable branch f.
Proof.
  unfold mergeable_b. intros H. apply andb_true_iff in H. destruct H as [A B]. rewrite forallb_forall in B. constructor.
  - apply distinct_b_ok, A.
  - intros b Hb E. specialize (B b Hb). rewrite E in B. destruct (t_args b); [reflexivity|discriminate].
  - intros b p v q Hb Hp Hv. specialize (B b Hb). apply andb_true_iff in B. destruct B as [B _]. apply andb_true_iff in B. destruct B as [_ B]. rewrite forallb_forall in B. specialize (B p Hp). rewrite forallb_forall in B. specialize (B _ Hv).
    apply existsb_exists in B. destruct B as (b' & Hb' & B). apply andb_true_iff in B. destruct B as [B1 B2]. apply N.eqb_eq in B1. apply mem_in in B2. eauto.
  - intros b Hb E. specialize (B b Hb). apply andb_true_iff in B. destruct B as [_ B]. rewrite E in B. destruct (phis b); [reflexivity|discriminate].
Qed.
Fixpoint after_b (reached : N -> bool) (all : list N) (bs : list block) : bool :=
  match bs with
  | [] => true
  | b :: bs' => (negb (reached (label b)) || match t_succ b with [s] => negb (Nat.eqb (count s all) 1) || mem s (map label bs') | _ => true end) && after_b reached all bs'
  end.
Definition text_order_b (reached : N -> bool) (f : func) : bool :=
  after_b reached (flat_map t_succ (blocks f)) (blocks f) && forallb (fun b => negb (reached (label b)) || forallb reached (t_succ b)) (blocks f).
Lemma text_order_b_ok reached f : text_order_b reached f = true -> text_order reached f.
Proof.
  unfold text_order_b. intros H. apply andb_true_iff in H. destruct H as [A B]. constructor.
  - intros l1 b l2 s E R S C. revert A. rewrite E at 2. clear E. induction l1 as [|d l1 IH]; cbn [app after_b]; intros A; apply andb_true_iff in A; destruct A as [A1 A2]; [|exact (IH A2)].
    rewrite R, S, C in A1. apply mem_in, A1.
  - intros b s Hb R Hs. rewrite forallb_forall in B. specialize (B b Hb). rewrite R in B. cbn [negb orb] in B. rewrite forallb_forall in B. exact (B s Hs).
Qed.
Definition well_structured_b (branch conditional : N -> bool) (f : func) (ms : headers) : bool :=
  let ls := map label (blocks f) in
  distinct_b (map fst ms) && distinct_b (map (fun h => m_target (snd h)) ms) &&
  forallb (fun h => mem (fst h) ls && mem (m_target (snd h)) ls && (negb (m_loop (snd h)) || mem (m_continue (snd h)) ls)) ms &&
  forallb (fun b => forallb (fun h => negb (fst h =? label b) || (if m_loop (snd h) then branch (t_op b) || conditional (t_op b) else negb (branch (t_op b)))) ms) (blocks f).
Lemma well_structured_b_ok branch conditional f ms : well_structured_b branch conditional f ms = true -> well_structured branch conditional f ms.
Proof.
  unfold well_structured_b. cbv zeta. intros H. apply andb_true_iff in H. destruct H as [H Hb]. apply andb_true_iff in H. destruct H as [H He]. apply andb_true_iff in H. destruct H as [Hh Ht]. rewrite forallb_forall in He, Hb. constructor.
  - apply distinct_b_ok, Hh.
  - apply distinct_b_ok, Ht.
  - intros h m Hm. specialize (He _ Hm). cbn [fst snd] in He. apply andb_true_iff in He. destruct He as [He Hc]. apply andb_true_iff in He. destruct He as [H1 H2]. split; [apply mem_in, H1|]. split; [apply mem_in, H2|]. intros L. rewrite L in Hc. apply mem_in, Hc.
  - intros b m Hin Hm L. specialize (Hb b Hin). rewrite forallb_forall in Hb. specialize (Hb _ Hm). cbn [fst snd] in Hb. rewrite N.eqb_refl, L in Hb. apply orb_prop, Hb.
  - intros b m Hin Hm L. specialize (Hb b Hin). rewrite forallb_forall in Hb. specialize (Hb _ Hm). cbn [fst snd] in Hb. rewrite N.eqb_refl, L in Hb. apply negb_true_iff, Hb.
Qed.
(** where a block leads *)
Fixpoint leads_to (branch : N -> bool) (f : func) (n : nat) (l : N) : list N :=
  l :: match n with
       | O => []
       | S n' => flat_map (fun b => match branch (t_op b), t_succ b with true, [z] => if (label b =? l) && Nat.eqb (count z (flat_map t_succ (blocks f))) 1 then leads_to branch f n' z else [] | _, _ => [] end) (blocks f)
       end.
(** a set that holds the block and all it leads to *)
Definition closed_set (branch : N -> bool) (f : func) (K : list N) : bool :=
  forallb (fun b => negb (mem (label b) K) || match branch (t_op b), t_succ b with true, [z] => negb (Nat.eqb (count z (flat_map t_succ (blocks f))) 1) || mem z K | _, _ => true end) (blocks f).
Lemma closed_set_ok branch f K l z : closed_set branch f K = true -> leads branch f l z -> In l K -> In z K.
Proof.
  unfold closed_set. rewrite forallb_forall. intros H L. induction L as [l|b u l Hb B S C L IH]; intros Hl; [exact Hl|]. apply IH. specialize (H b Hb). rewrite B, S, C in H. apply mem_in in Hl. rewrite Hl in H. apply mem_in, H.
Qed.
Definition apart_b (branch : N -> bool) (f : func) (ms : headers) (n : nat) : bool :=
  forallb (fun h => negb (m_loop (snd h)) || (let K := leads_to branch f n (m_continue (snd h)) in closed_set branch f K && forallb (fun h' => negb (mem (m_target (snd h')) K)) ms)) ms.
Lemma apart_b_ok branch f ms n : apart_b branch f ms n = true -> apart branch f ms.
Proof.
  unfold apart_b. rewrite forallb_forall. intros H h m h' m' Hm L Hm' Le. specialize (H _ Hm). cbn [snd] in H. rewrite L in H. cbn [negb orb] in H. cbv zeta in H. apply andb_true_iff in H. destruct H as [C F]. rewrite forallb_forall in F. specialize (F _ Hm').
  apply negb_true_iff, mem_not in F. apply F. cbn [snd]. apply (closed_set_ok _ _ _ _ _ C Le). destruct n; left; reflexivity.
Qed.

(** ** A loop and a block that is left at once *)
(** 249: OpBranch, 250: OpBranchConditional, 251: OpSwitch, 254: OpReturnValue; 128: OpIAdd, 61: OpLoad *)
Definition is_branch (op : N) : bool := op =? 249.
Definition is_conditional (op : N) : bool := op =? 250.
Definition no_case (bs : list block) (ms : headers) (l : N) : bool := false.
Definition counting : func :=
  mkfunc [IPure 1 100 []; IPure 2 101 []]
    [mkblock 10 [] [IPure 30 128 [2; 2]] 249 [] [11];
     mkblock 11 [mkphi 31 [(1, 10); (33, 14)]] [IOwn (Some 32) 61 [31]] 249 [] [12];
     mkblock 12 [] [IPure 34 129 [31]] 250 [34] [13; 15];
     mkblock 13 [] [] 249 [] [14];
     mkblock 14 [] [IPure 33 128 [31; 2]] 249 [] [11];
     mkblock 15 [] [] 249 [] [18];
     mkblock 18 [] [IOwn (Some 35) 61 [30]] 249 [] [16];
     mkblock 16 [] [IPure 36 128 [35; 31]] 254 [36] [];
     mkblock 17 [] [] 249 [] [18]].
Definition counting_headers : headers := [(11, mkmerge true 15 13); (18, mkmerge true 16 17)].
Definition is_reached (l : N) : bool := negb (l =? 17).
(** loads are seen in the world *)
Definition counter : machine N (list N) :=
  mkmachine
    (fun op ds => if op =? 100 then Some 0 else if op =? 101 then Some 1 else if op =? 128 then Some (fold_right N.add 0 ds) else match ds with [d] => Some (if d <? 5 then 1 else 0) | _ => None end)
    (fun op ds w => match ds with [d] => Some (d * d, d :: w) | _ => None end)
    (fun op ds => if op =? 249 then Some 0%nat else if op =? 250 then match ds with d :: _ => if d =? 0 then Some 1%nat else Some 0%nat | [] => None end else None).
Example counting_ok : mergeable is_branch counting /\ text_order is_reached counting /\ well_structured is_branch is_conditional counting counting_headers /\ apart is_branch counting counting_headers /\ branches_go counter is_branch.
Proof.
  split; [apply mergeable_b_ok; vm_compute; reflexivity|]. split; [apply text_order_b_ok; vm_compute; reflexivity|]. split; [apply well_structured_b_ok; vm_compute; reflexivity|]. split; [apply (apart_b_ok _ _ _ 3); vm_compute; reflexivity|].
  intros op ds E. unfold is_branch in E. cbn [choose counter]. rewrite E. reflexivity.
Qed.
(** 12 becomes part of the loop header, 14 of the continue target, 16 of the header that leaves at once, which loses its merge instruction *)
Example counting_result : merge_blocks is_branch is_conditional false is_reached no_case counting counting_headers = Some (
  mkfunc [IPure 1 100 []; IPure 2 101 []]
    [mkblock 10 [] [IPure 30 128 [2; 2]] 249 [] [11];
     mkblock 11 [mkphi 31 [(1, 10); (33, 13)]] [IOwn (Some 32) 61 [31]; IPure 34 129 [31]] 250 [34] [13; 15];
     mkblock 13 [] [IPure 33 128 [31; 2]] 249 [] [11];
     mkblock 15 [] [] 249 [] [18];
     mkblock 18 [] [IOwn (Some 35) 61 [30]; IPure 36 128 [35; 31]] 254 [36] [];
     mkblock 17 [] [] 249 [] [18]],
  [(11, mkmerge true 15 13)]).
Proof. vm_compute. reflexivity. Qed.
Example counting_runs : run counter counting 30 (fun _ => None) [] = Some (Returned 254 [9] [2; 5; 4; 3; 2; 1; 0]).
Proof. vm_compute. reflexivity. Qed.
(** with the extension the last two stay apart *)
Example counting_reconverges : option_map (fun r => (map label (blocks (fst r)), snd r)) (merge_blocks is_branch is_conditional true is_reached no_case counting counting_headers) = Some ([10; 11; 13; 15; 18; 16; 17], counting_headers).
Proof. vm_compute. reflexivity. Qed.
(** ** What is kept apart *)
(** 20 is the merge block of a selection and 21 the continue target of the loop 22; 26 is the case of a switch and goes to its merge block *)
Definition nested : func :=
  mkfunc []
    [mkblock 22 [] [] 249 [] [23];
     mkblock 23 [] [] 250 [5] [24; 20];
     mkblock 24 [] [] 249 [] [20];
     mkblock 20 [] [] 249 [] [21];
     mkblock 21 [] [] 250 [5] [22; 25];
     mkblock 25 [] [] 251 [5] [26; 28];
     mkblock 26 [] [] 249 [] [27];
     mkblock 28 [] [] 252 [] [];
     mkblock 27 [] [] 253 [] []].
Definition nested_headers : headers := [(22, mkmerge true 25 21); (23, mkmerge false 20 0); (25, mkmerge false 27 0)].
Definition is_case (l : N) : bool := (l =? 26) || (l =? 28).
Example nested_ok : mergeable is_branch nested /\ text_order (fun _ => true) nested /\ well_structured is_branch is_conditional nested nested_headers /\ apart is_branch nested nested_headers /\ cases_apart is_case nested_headers.
Proof.
  split; [apply mergeable_b_ok; vm_compute; reflexivity|]. split; [apply text_order_b_ok; vm_compute; reflexivity|]. split; [apply well_structured_b_ok; vm_compute; reflexivity|]. split; [apply (apart_b_ok _ _ _ 3); vm_compute; reflexivity|].
  intros h m [E|[E|[E|[]]]]; injection E as <- <-; vm_compute; auto.
Qed.
(** a loop header and a selection header are not merged, nor is anything else here *)
Example nested_result : merge_blocks is_branch is_conditional false (fun _ => true) (fun _ _ => is_case) nested nested_headers = Some (nested, nested_headers).
Proof. vm_compute. reflexivity. Qed.

Print Assumptions block_merge_preserves_partial.
Print Assumptions block_merge_keeps_instructions.
Print Assumptions block_merge_keeps_structure.
Print Assumptions block_merge_reconvergence.
Print Assumptions block_merge_returns.
