(** C50: elimination of the loads of variables that are stored to once (--eliminate-local-single-store). *)
From Verif Require Import Base GraphSpec LocalElim LocalElimSpec SingleStore SingleStoreSpec SingleStoreProofs SingleStoreProofs2 SingleStoreProofs3 SingleStoreProofs4 P_LocalElim.
Local Open Scope N_scope.

(** The pass does not change what a function does: whatever the values, the inputs, the calls and the other instructions do, a run of the function
    whose behaviour is defined is, block by block, a run of the function the pass leaves, with the same contents of the variables others may see,
    the same outside world and the same values returned.
    Missing for the full statement: volatile accesses, for which it is false ([single_store_volatile_refuted]); functions that store pointers to their
    own variables; debug declarations. *)
Theorem single_store_preserves_partial : forall (D W : Type) (m : machine D W) (dom : N -> N -> bool) (f g : func) (n : nat) globals mem0 known0 w0 (r : @seen D W),
  sane m -> well_formed f -> no_volatile f -> pointers_not_stored f -> fair_start m f globals known0 -> tells_dominators f dom ->
  single_store_elim dom f = Some g ->
  run m f n globals mem0 known0 w0 = Some r -> run m g n globals mem0 known0 w0 = Some r.
Proof. intros. eapply single_store_run; eauto. Qed.

(** The pass returns, if definitions come before uses in the text. *)
Theorem single_store_returns : forall (dom : N -> N -> bool) f, well_formed f -> pointers_not_stored f -> in_order f -> indices_are_numbers f -> tells_dominators f dom ->
  exists g, single_store_elim dom f = Some g.
Proof. intros. apply single_store_total_run; auto. Qed.

(** ** A function *)
(** 1 is stored to once, in block 10; 2 is stored to once, but block 12 does not come after that store; 5 is stored to through a part;
    7 is stored to once, the value loaded from 1; 3 is 5, 4 is 0, 6 is 10. *)
Definition ss : func :=
  mkfunc [mkvar 1 true false; mkvar 2 true false; mkvar 5 true true; mkvar 7 true false]
    [mkblock 10 []
       [ILoad 19 1 false; ICopy 18 1; IStore 18 3 false; ILoad 20 1 false; IChain 21 1 [4]; ILoad 22 21 false; IStore 7 20 false; IChain 23 5 [4]; IStore 5 3 false; IStore 23 4 false;
        IOther None 9 [20; 22]; IOther (Some 24) 7 [4]] 1 [] [11];
     mkblock 11 [mkphi 30 [(24, 10); (31, 11)]]
       [ILoad 32 1 false; ILoad 33 7 false; IStore 2 33 false; ILoad 34 2 false; ILoad 35 5 false; IOther (Some 31) 8 [30; 34; 35]; IOther None 9 [32; 33; 30]] 2 [31] [11; 12];
     mkblock 12 [] [ILoad 40 1 false; ILoad 42 18 false; ILoad 43 2 false; IOther (Some 41) 7 [40; 42; 43]] 0 [41; 20] []].
(** block 11 is not said to dominate block 12 *)
Definition ss_dom (a b : N) : bool := a =? 10.
Definition ss_after : func :=
  mkfunc (vars ss)
    [mkblock 10 []
       [ILoad 19 1 false; ICopy 18 1; IStore 18 3 false; IChain 21 1 [4]; ILoad 22 21 false; IStore 7 3 false; IChain 23 5 [4]; IStore 5 3 false; IStore 23 4 false;
        IOther None 9 [3; 22]; IOther (Some 24) 7 [4]] 1 [] [11];
     mkblock 11 [mkphi 30 [(24, 10); (31, 11)]]
       [IStore 2 3 false; ILoad 35 5 false; IOther (Some 31) 8 [30; 3; 35]; IOther None 9 [3; 3; 30]] 2 [31] [11; 12];
     mkblock 12 [] [ILoad 43 2 false; IOther (Some 41) 7 [3; 3; 43]] 0 [41; 3] []].
Example ss_elim : single_store_elim ss_dom ss = Some ss_after.
Proof. vm_compute. reflexivity. Qed.
Example ss_runs : exists n ds vw w, run toy ss n ex_globals (fun _ => Num 0) (fun _ => false) [] = Some (Returned 0 ds vw w).
Proof. eexists 4%nat, _, _, _. vm_compute. reflexivity. Qed.
Example ss_well_formed : well_formed ss.
Proof.
  apply well_formed_b_ok; [no_dup|no_dup| | |reflexivity|vm_compute; reflexivity].
  - intros x y Hx Hy. remember ss as f eqn:Ef.
    assert (ND : NoDup (map (fun x => fst (fst x)) (flat_map places_of (blocks f)))) by (subst f; simpl; no_dup). clear Ef.
    intros E. revert Hx Hy ND. generalize (flat_map places_of (blocks f)) as l. induction l as [|z l IH]; simpl; [tauto|]. intros Hx Hy ND. inversion ND as [|? ? N1 N2]; subst.
    destruct Hx as [->|Hx], Hy as [->|Hy]; auto.
    + destruct N1. rewrite E. apply (in_map (fun x => fst (fst x)) _ _ Hy).
    + destruct N1. rewrite <- E. apply (in_map (fun x => fst (fst x)) _ _ Hx).
  - intros v x Hv Hx. assert (E : forallb (fun v => forallb (fun x => negb (v_id v =? fst (fst x))) (flat_map places_of (blocks ss))) (vars ss) = true) by (vm_compute; reflexivity).
    rewrite forallb_forall in E. specialize (E v Hv). rewrite forallb_forall in E. specialize (E x Hx). apply negb_true_iff, N.eqb_neq in E. exact E.
Qed.
Example ss_no_volatile : no_volatile ss.
Proof.
  intros i Hi. assert (E : forallb (fun i => match i with ILoad _ _ vol | IStore _ _ vol => negb vol | _ => true end) (all_insts ss) = true) by (vm_compute; reflexivity).
  rewrite forallb_forall in E. specialize (E i Hi). destruct i; auto; apply negb_true_iff; exact E.
Qed.
Definition ss_ptrs : list N := [1; 2; 5; 7; 18; 21; 23].
Lemma ss_derived v p : derived ss v p -> In p ss_ptrs.
Proof.
  assert (Q : forall i, In i (all_insts ss) -> match i with IChain r _ _ | ICopy r _ => In r ss_ptrs | _ => True end).
  { intros i Hi. simpl in Hi. unfold ss_ptrs. intuition (subst; simpl; auto 10). }
  intros H. induction H as [x Hx E|r b idx Hi H IH|r a Hi H IH].
  - simpl in Hx. unfold ss_ptrs. intuition (subst; simpl; auto 10).
  - exact (Q _ Hi).
  - exact (Q _ Hi).
Qed.
Example ss_pointers_not_stored : pointers_not_stored ss.
Proof.
  intros p a vol x Hi _ _ Hd. apply ss_derived in Hd.
  assert (E : forallb (fun i => match i with IStore _ a _ => negb (mem_id a ss_ptrs) | _ => true end) (all_insts ss) = true) by (vm_compute; reflexivity).
  rewrite forallb_forall in E. specialize (E _ Hi). cbv beta iota in E. apply negb_true_iff in E.
  assert (T : mem_id a ss_ptrs = true) by (apply existsb_exists; exists a; split; [exact Hd|apply N.eqb_refl]). congruence.
Qed.
Example ss_indices : indices_are_numbers ss.
Proof.
  intros r b idx x p Hi _ _ Hd Hp. apply ss_derived in Hd.
  assert (E : forallb (fun i => match i with IChain _ _ idx => forallb (fun p => negb (mem_id p ss_ptrs)) idx | _ => true end) (all_insts ss) = true) by (vm_compute; reflexivity).
  rewrite forallb_forall in E. specialize (E _ Hi). cbv beta iota in E. rewrite forallb_forall in E. specialize (E p Hp). apply negb_true_iff in E.
  assert (T : mem_id p ss_ptrs = true) by (apply existsb_exists; exists p; split; [exact Hd|apply N.eqb_refl]). congruence.
Qed.
Example ss_fair : fair_start toy ss ex_globals (fun _ => false).
Proof. split; [intros v [<-|[<-|[<-|[<-|[]]]]]; reflexivity|apply ex_fair]. Qed.
Example ss_dominators : tells_dominators ss ss_dom.
Proof. intros b c _ _ _ E. unfold ss_dom in E. apply N.eqb_eq in E. rewrite E. apply (entry_dominates ss (label c)). Qed.
Example ss_in_order : in_order ss.
Proof.
  assert (E : forallb (fun x => forallb (fun y => match result (snd y) with
       | None => true
       | Some a => (negb (match result (snd x) with Some b => b =? a | None => false end) || Nat.eqb (fst x) (fst y)) &&
                   (negb (mem_id a (reads (snd x))) || Nat.ltb (fst y) (fst x))
       end) (combine (seq 0 (length (all_insts ss))) (all_insts ss))) (combine (seq 0 (length (all_insts ss))) (all_insts ss)) = true) by (vm_compute; reflexivity).
  assert (Q : forall i j x y a, nth_error (all_insts ss) i = Some x -> nth_error (all_insts ss) j = Some y -> result y = Some a ->
     (result x = Some a -> i = j) /\ (In a (reads x) -> (j < i)%nat)).
  { intros i j x y a Hx Hy Hr. apply (in_numbered _ 0) in Hx. apply (in_numbered _ 0) in Hy. rewrite forallb_forall in E. specialize (E _ Hx). rewrite forallb_forall in E. specialize (E _ Hy).
    cbn [fst snd] in E. rewrite Hr in E. apply andb_true_iff in E. destruct E as [E1 E2]. split.
    - intros Rx. rewrite Rx, N.eqb_refl in E1. apply Nat.eqb_eq in E1. exact E1.
    - intros Ha. assert (M : mem_id a (reads x) = true) by (apply existsb_exists; exists a; split; [exact Ha|apply N.eqb_refl]). rewrite M in E2. apply Nat.ltb_lt in E2. exact E2. }
  split; intros i j x y a Hx Hy; [intros Rx Ry; exact (proj1 (Q i j x y a Hx Hy Ry) Rx)|intros Ry; exact (proj2 (Q i j x y a Hx Hy Ry))].
Qed.

(** ** Volatile accesses *)
(** The statement without the hypothesis that no access is volatile is false: the pass removes volatile loads like any others. *)
Definition full_statement : Prop := forall (D W : Type) (m : machine D W) (dom : N -> N -> bool) (f g : func) (n : nat) globals mem0 known0 w0 (r : @seen D W),
  sane m -> well_formed f -> pointers_not_stored f -> fair_start m f globals known0 -> tells_dominators f dom -> single_store_elim dom f = Some g ->
  run m f n globals mem0 known0 w0 = Some r -> run m g n globals mem0 known0 w0 = Some r.
Definition ss_vol : func := mkfunc [mkvar 1 true false] [mkblock 10 [] [IStore 1 3 false; ILoad 20 1 true] 0 [20] []].
Theorem single_store_volatile_refuted : ~ full_statement.
Proof.
  intros H.
  assert (R : run toy ss_vol 1 ex_globals (fun _ => Num 0) (fun _ => false) [] = Some (Returned 0 [Num 5] [None] [1])) by (vm_compute; reflexivity).
  assert (E : single_store_elim ss_dom ss_vol = Some (mkfunc [mkvar 1 true false] [mkblock 10 [] [IStore 1 3 false] 0 [3] []])) by (vm_compute; reflexivity).
  refine (_ (H val (list N) toy ss_dom ss_vol _ 1%nat ex_globals (fun _ => Num 0) (fun _ => false) [] _ toy_sane _ _ _ _ E R)).
  - intros R'. vm_compute in R'. discriminate.
  - apply well_formed_b_ok; [no_dup|no_dup| | |reflexivity|vm_compute; reflexivity].
    + simpl. intros x y [<-|[]] [<-|[]]; reflexivity.
    + simpl. intros v x [<-|[]] [<-|[]]; discriminate.
  - intros p a v x Hi Hx _ Hd. simpl in Hi. destruct Hi as [Hi|[Hi|[]]]; [|discriminate]. injection Hi as <- <- <-. inversion Hd as [y Hy E1|r b idx Hi|r b Hi]; subst.
    + destruct Hx as [<-|[]]. discriminate.
    + simpl in Hi. intuition discriminate.
    + simpl in Hi. intuition discriminate.
  - split; [intros v [<-|[]]; reflexivity|apply ex_fair].
  - intros b c [<-|[]] [<-|[]] _ _. apply (entry_dominates ss_vol 10).
Qed.

Print Assumptions single_store_preserves_partial.
Print Assumptions single_store_returns.
Print Assumptions single_store_volatile_refuted.
