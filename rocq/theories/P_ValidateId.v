(** C52: the validator accepts exactly the modules whose ids are defined before they are used on
    every path. *)
From Verif Require Import Base GraphSpec ValidateId ValidateIdSpec ValidateIdProofs3 ValidateIdProofs4 ValidateIdProofs5.
Local Open Scope N_scope.

(** The checks end, never follow a null pointer, and accept a module if and only if it obeys the
    rule of ValidateIdSpec.v. *)
Theorem validator_ids_exact_partial : forall m,
  well_formed m -> merges_can_end m ->
  validate_ids m <> Undef /\ (validate_ids m = Ok <-> ssa_rule m).
Proof. exact validate_ids_exact. Qed.

(** In an accepted module, whatever way control takes to an instruction, each id the instruction
    uses has been defined: outside the functions, as a parameter or a label of the function,
    earlier in the same block, or in a block passed on the way. *)
Theorem accepted_uses_are_defined_partial : forall m f b0 rest b l before i after x,
  well_formed m -> merges_can_end m -> validate_ids m = Ok ->
  In f (funcs m) -> blocks f = b0 :: rest -> In b (blocks f) ->
  path (succ f) (label b0) (label b) (l ++ [label b]) ->
  body b = before ++ i :: after -> is_phi i = false ->
  uses_backward (Item i (Some (f_id f)) (Some (label b))) x ->
  exists d, In d (items m) /\ defines d x /\
    (it_func d = None \/
     it_func d = Some (f_id f) /\
       (it_block d = None \/
        it_block d = Some (label b) /\ In (it_inst d) before \/
        exists bd, it_block d = Some bd /\ In bd l)).
Proof.
  intros m f b0 rest b l before i after x W T V. apply use_defined; auto.
  apply (validate_ids_exact m W T); auto.
Qed.

(** An OpPhi has exactly one value for the edge control comes along, and that value has been
    defined on the way. *)
Theorem accepted_phi_values_are_defined_partial : forall m f b0 rest b p l i,
  well_formed m -> merges_can_end m -> validate_ids m = Ok ->
  In f (funcs m) -> blocks f = b0 :: rest -> In b (blocks f) -> In i (body b) -> is_phi i = true ->
  path (succ f) (label b0) p l -> In (label b) (succ f p) ->
  exists pairs v, phi_pairs i = Some pairs /\ In (v, p) pairs /\ (forall v', In (v', p) pairs -> v' = v) /\
  exists d, In d (items m) /\ defines d v /\
    (it_func d = None \/
     it_func d = Some (f_id f) /\ (it_block d = None \/ exists bd, it_block d = Some bd /\ In bd l)).
Proof.
  intros m f b0 rest b p l i W T V. apply phi_defined; auto.
  apply (validate_ids_exact m W T); auto.
Qed.

(** *** Deciding the hypotheses on concrete modules *)
Definition wf_b (m : module) : bool :=
  (fix nd l := match l with [] => true | x :: r => negb (existsb (N.eqb x) r) && nd r end)
    (flat_map (fun it => match result_id (it_inst it) with Some x => [x] | None => [] end) (items m)) &&
  forallb (fun f => forallb (fun l => (0 <? l) && (l <? 0x400000)) (labels f)) (funcs m) &&
  forallb (fun i => negb (is_phi i)) (globals m).
Lemma wf_b_ok m : wf_b m = true -> well_formed m.
Proof.
  unfold wf_b. rewrite !andb_true_iff. intros [[A B] C]. constructor.
  - revert A. generalize (flat_map (fun it => match result_id (it_inst it) with Some x => [x] | None => [] end) (items m)).
    induction l as [|x r IH]; intros A; constructor.
    + apply andb_true_iff in A. destruct A as [A _]. rewrite negb_true_iff in A. intros I.
      enough (existsb (N.eqb x) r = true) by congruence. apply existsb_exists. exists x. rewrite N.eqb_refl. auto.
    + apply andb_true_iff in A. destruct A as [_ A]. auto.
  - intros f l Hf Hl. rewrite forallb_forall in B. specialize (B f Hf). rewrite forallb_forall in B. specialize (B l Hl). lia.
  - intros i Hi. rewrite forallb_forall in C. specialize (C i Hi). destruct (is_phi i); auto; discriminate.
Qed.
Definition no_added_edges (m : module) : bool :=
  forallb (fun f => forallb (fun b => forallb (fun t => existsb (N.eqb t) (succ f b)) (struct_succ f b)) (labels f)) (funcs m).
Lemma no_added_edges_ok m : no_added_edges m = true -> merges_can_end m.
Proof.
  unfold no_added_edges. intros H f b Hf Hb. left. intros t Ht. rewrite forallb_forall in H. specialize (H f Hf).
  rewrite forallb_forall in H. specialize (H b Hb). rewrite forallb_forall in H. specialize (H t Ht).
  apply existsb_exists in H. destruct H as (y & Hy & E). apply N.eqb_eq in E. congruence.
Qed.

(** *** A module with two functions; the second has a loop with an OpPhi and a call *)
Definition ex_globals : list inst :=
  [Inst OpAnnotation [Id 40; Literal];
   Inst OpOther [ResultId 1]; Inst OpOther [ResultId 2; Id 1]; Inst OpOther [ResultId 3];
   Inst OpOther [ResultId 5; Id 3; Id 3]; Inst OpOther [TypeId 3; ResultId 4; Literal]].
Definition add t r a b := Inst OpOther [TypeId t; ResultId r; Id a; Id b].
Definition ex_main (value : N) : func :=
  Func 40 1 2 []
    [Block 41 [Inst OpBranch [Id 42]];
     Block 42 [Inst OpPhi [TypeId 3; ResultId 50; Id 4; Id 41; Id value; Id 44];
               add 3 51 50 4;
               Inst OpLoopMerge [Id 45; Id 44; Literal];
               Inst OpBranchConditional [Id 51; Id 43; Id 45]];
     Block 43 [add 3 52 51 50; Inst OpBranch [Id 44]];
     Block 44 [Inst OpFunctionCall [TypeId 3; ResultId 53; Id 30; Id 52]; Inst OpBranch [Id 42]];
     Block 45 [add 3 54 51 50; Inst OpExit []]].
Definition ex_callee (x : N) : func :=
  Func 30 3 5 [(3, 31)] [Block 32 [add 3 33 31 x; Inst OpExit [Id 33]]].
Definition ex_good : module := SpvModule ex_globals [ex_main 53; ex_callee 31].

Lemma ex_end mm a b : mm = SpvModule ex_globals [ex_main a; ex_callee b] -> merges_can_end mm.
Proof.
  intros -> f l Hf Hl. cbn [funcs] in Hf. destruct Hf as [<-|[<-|[]]].
  - assert (K : forall x, In x (struct_succ (ex_main a) 42) -> x = 45 \/ x = 44 \/ x = 43).
    { cbn. intros x [<-|[<-|[<-|[<-|[]]]]]; auto. }
    cbn in Hl. destruct Hl as [<-|[<-|[<-|[<-|[<-|[]]]]]].
    + left. apply incl_refl.
    + right. exists 45. split; [|reflexivity]. exists [42; 45]. apply (path_step _ _ 42 _ [42]); [constructor|]. left; reflexivity.
    + left. apply incl_refl.
    + left. apply incl_refl.
    + left. apply incl_refl.
  - left. destruct Hl as [<-|[]]. apply incl_refl.
Qed.

Example ex_accepted : well_formed ex_good /\ merges_can_end ex_good /\ validate_ids ex_good = Ok /\ ssa_rule ex_good.
Proof.
  assert (W : well_formed ex_good) by (apply wf_b_ok; vm_compute; reflexivity).
  assert (T : merges_can_end ex_good) by (eapply ex_end; reflexivity).
  assert (V : validate_ids ex_good = Ok) by (vm_compute; reflexivity).
  split; [exact W|split; [exact T|split; [exact V|]]]. apply (validator_ids_exact_partial ex_good W T); auto.
Qed.
(** The value of the OpPhi comes from a block the loop may have been left without. *)
Example ex_rejected_phi : validate_ids (SpvModule ex_globals [ex_main 54; ex_callee 31]) = Bad.
Proof. vm_compute. reflexivity. Qed.
(** The callee uses an id of the caller. *)
Example ex_rejected_local : validate_ids (SpvModule ex_globals [ex_main 53; ex_callee 51]) = Bad.
Proof. vm_compute. reflexivity. Qed.

(** *** Without the last hypothesis the validator can reject a module that obeys the rule *)
Definition bad_globals : list inst :=
  [Inst OpOther [ResultId 1]; Inst OpOther [ResultId 2; Id 1]; Inst OpOther [ResultId 3];
   Inst OpOther [TypeId 3; ResultId 4]].
Definition bad_func (merge : list inst) : func :=
  Func 20 1 2 []
    [Block 10 [Inst OpBranchConditional [Id 4; Id 13; Id 11]];
     Block 11 [add 3 30 4 4; Inst OpBranch [Id 12]];
     Block 12 [add 3 31 30 4; Inst OpBranchConditional [Id 31; Id 12; Id 11]];
     Block 13 (merge ++ [Inst OpBranchConditional [Id 4; Id 11; Id 11]])].
Definition bad_module merge : module := SpvModule bad_globals [bad_func merge].
Definition bad_merge : inst := Inst OpSelectionMerge [Id 12; Literal].

Lemma bad_plain_rule : ssa_rule (bad_module []).
Proof.
  apply (validator_ids_exact_partial (bad_module [])).
  - apply wf_b_ok. vm_compute. reflexivity.
  - apply no_added_edges_ok. vm_compute. reflexivity.
  - vm_compute. reflexivity.
Qed.
Lemma bad_same_succ l : succ (bad_func [bad_merge]) l = succ (bad_func []) l.
Proof.
  unfold succ, find_block. cbn [blocks bad_func find label].
  destruct (10 =? l); auto. destruct (11 =? l); auto. destruct (12 =? l); auto. destruct (13 =? l); auto.
Qed.
Lemma path_same (s s' : N -> list N) a b l : (forall x, s x = s' x) -> path s a b l -> path s' a b l.
Proof. intros E P. induction P; econstructor; eauto. rewrite <- E; auto. Qed.
Lemma bad_path a b l : path (succ (bad_func [bad_merge])) a b l <-> path (succ (bad_func [])) a b l.
Proof. split; apply path_same; intros; rewrite bad_same_succ; auto. Qed.
Lemma bad_reaches b : reaches (bad_func [bad_merge]) b -> reaches (bad_func []) b.
Proof.
  intros (b0 & rest & E & (l & P)). injection E as <- _. apply bad_path in P.
  eexists _, _. split; [reflexivity|]. exists l. exact P.
Qed.
Lemma bad_every a b : on_every_path (bad_func [bad_merge]) a b <-> on_every_path (bad_func []) a b.
Proof.
  split; intros H b0 rest E l P; injection E as <- _; apply bad_path in P.
  - exact (H _ _ eq_refl l P).
  - exact (H _ _ eq_refl l P).
Qed.
Lemma bad_items u : In u (items (bad_module [bad_merge])) ->
  u = Item bad_merge (Some 20) (Some 13) \/ In u (items (bad_module [])).
Proof.
  intros H. cbn in H.
  repeat (destruct H as [<-|H]; [first [left; reflexivity | right; cbn; repeat (first [left; reflexivity | right])]|]).
  destruct H.
Qed.

Theorem validator_ids_exact_refuted :
  ~ (forall m, well_formed m -> (validate_ids m = Ok <-> ssa_rule m)).
Proof.
  intros H. assert (W : well_formed (bad_module [bad_merge])) by (apply wf_b_ok; vm_compute; reflexivity).
  assert (V : validate_ids (bad_module [bad_merge]) = Bad) by (vm_compute; reflexivity).
  assert (R : ssa_rule (bad_module [bad_merge])).
  2:{ apply H in R; auto. rewrite V in R. discriminate. }
  pose proof bad_plain_rule as Q.
  assert (I : id_passes [] [] (items (bad_module [bad_merge])) = true) by (vm_compute; reflexivity).
  apply id_passes_rule in I. destruct I as [I1 I2].
  constructor; auto.
  - intros f b t [<-|[]] Hb. apply (proj1 (targets_defined_rule (bad_func [bad_merge])) eq_refl b t Hb).
  - intros f b0 rest b [<-|[]]. apply (proj1 (first_block_rule (bad_func [bad_merge])) eq_refl).
  - intros f a b [<-|[]] Rb D N. apply bad_reaches in Rb. apply bad_every in D.
    exact (rule_order _ Q (bad_func []) a b (or_introl eq_refl) Rb D N).
  - intros d u x f bd bu Hd Hu D U Bd [<-|[]] Fu Bu NP Rb. apply bad_every. apply bad_reaches in Rb.
    apply bad_items in Hd. destruct Hd as [->|Hd]; [discriminate|].
    apply bad_items in Hu. destruct Hu as [->|Hu].
    + exfalso. unfold uses in U. cbn in U. assert (x = 12) as -> by intuition congruence.
      clear -Hd D Bd. cbn in Hd. unfold defines in D.
      repeat (destruct Hd as [<-|Hd]; [cbn in D, Bd; discriminate|]). destruct Hd.
    + exact (rule_value _ Q d u x (bad_func []) bd bu Hd Hu D U Bd (or_introl eq_refl) Fu Bu NP Rb).
  - intros d u x fd Hd Hu D U Fd Bd.
    apply bad_items in Hd. destruct Hd as [->|Hd]; [discriminate|].
    apply bad_items in Hu. destruct Hu as [->|Hu]; [|exact (rule_local _ Q d u x fd Hd Hu D U Fd Bd)].
    right. unfold uses in U. cbn in U. assert (x = 12) as -> by intuition congruence.
    clear -Hd D Fd. cbn in Hd. unfold defines in D.
    repeat (destruct Hd as [<-|Hd]; [cbn in D, Fd |- *; congruence|]). destruct Hd.
  - intros u f bu Hu PH. exfalso. cbn in Hu.
    repeat (destruct Hu as [<-|Hu]; [discriminate PH|]). destruct Hu.
Qed.

Print Assumptions validator_ids_exact_partial.
Print Assumptions accepted_uses_are_defined_partial.
Print Assumptions accepted_phi_values_are_defined_partial.
Print Assumptions validator_ids_exact_refuted.
