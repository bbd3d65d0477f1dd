(** C54: moving loads and access chains down to where they are used. *)
From Coq Require Import Permutation.
From Verif Require Import Base GraphSpec NamedIds NamedIdsProofs Redundancy RedundancySpec RedundancyProofs P_Redundancy Licm LicmSpec LicmProofs LicmProofs3 P_Licm CodeSink CodeSinkSpec CodeSinkProofs
  CodeSinkProofs2 CodeSinkProofs3 CodeSinkProofs4.
Local Open Scope N_scope.

(** The function goes on doing what it does, if nothing in it writes to the variables whose loads the pass takes for constant. *)
Theorem code_sink_preserves_partial {D W} (m : machine D W) x points order f f' : well_formed f -> structured x f -> (forall l, In l order -> reachable (succs f) (entry f) l) ->
  memory_rules m x points -> variables_outside x f -> loads_are_constant m x points f -> sink x order f = Some f' ->
  forall n globals w0 s, variables_point x points globals -> starts_clean f globals -> run m f n globals w0 = Some s -> run m f' n globals w0 = Some s.
Proof. intros WF St R MR VO LC H n globals w0 s VP SC. apply (lo_runs _ _ _ (sink_ok x order f f' WF St R H) D W m points); auto. Qed.
(** The result is in the shape the specification requires; blocks, phis and terminators are what they were, every instruction is still there, once, and in a block that is
    reached through the one it was in. *)
Theorem code_sink_keeps_shape x order f f' : well_formed f -> structured x f -> (forall l, In l order -> reachable (succs f) (entry f) l) -> sink x order f = Some f' ->
  well_formed f' /\ frame f = frame f' /\ Permutation (insts f) (insts f') /\
  forall r b k, defined_at f r b k -> exists b' k', defined_at f' r b' k' /\ dominates (succs f) (entry f) (label b) (label b').
Proof. intros WF St R H. destruct (sink_ok x order f f' WF St R H) as [A B C E _]. auto. Qed.
(** The pass has a result, if merge blocks are reached when their headers are. *)
Theorem code_sink_returns_partial x order f : well_formed f -> structured x f -> closed f -> merges_reached x f -> ordered f ->
  (forall l, In l order -> reachable (succs f) (entry f) l /\ In l (map label (blocks f))) -> exists f', sink x order f = Some f'.
Proof. intros WF St Cl Mr Or R. exact (sink_ends x order f WF St Cl Mr Or R). Qed.

(** ** Checks for examples *)
Definition closed_b (f : func) : bool := forallb (fun b => forallb (fun l => mem l (map label (blocks f))) (t_succ b)) (blocks f).
Lemma closed_b_ok f : closed_b f = true -> closed f.
Proof. unfold closed_b. rewrite forallb_forall. intros H b l Hb Hl. specialize (H b Hb). rewrite forallb_forall in H. apply mem_in, H, Hl. Qed.
Definition outside_b (x : info) (f : func) (vs : list N) : bool :=
  forallb (fun i => match result i with Some r => negb (mem r vs) | None => true end) (all_insts f) && forallb (fun b => forallb (fun p => negb (mem (p_res p) vs)) (phis b)) (blocks f).
Lemma outside_b_ok x f vs : (forall v, i_var x v <> None -> In v vs) -> outside_b x f vs = true -> variables_outside x f.
Proof.
  intros Hv H v Nv. specialize (Hv v Nv). apply andb_true_iff in H. destruct H as [A B]. rewrite forallb_forall in A, B. split.
  - intros i Hi E. specialize (A i Hi). rewrite E in A. apply negb_true_iff, mem_not in A. contradiction.
  - intros b p Hb Hp E. specialize (B b Hb). rewrite forallb_forall in B. specialize (B p Hp). rewrite E in B. apply negb_true_iff, mem_not in B. contradiction.
Qed.
Definition clean_b {D} (f : func) (g : N -> option D) : bool := forallb (fun i => match result i with Some r => match g r with Some _ => false | None => true end | None => true end) (all_insts f).
Lemma clean_b_ok {D} f (g : N -> option D) : clean_b f g = true -> starts_clean f g.
Proof. unfold clean_b. rewrite forallb_forall. intros H i r Hi E. specialize (H i Hi). rewrite E in H. destruct (g r); [discriminate|reflexivity]. Qed.
Definition ordered_b (f : func) : bool :=
  forallb (fun i => match i with IOwn _ _ _ => true | _ => match result i with Some r => forallb (fun a => a <? r) (reads i) | None => true end end) (all_insts f).
Lemma ordered_b_ok f : ordered_b f = true -> ordered f.
Proof.
  unfold ordered_b. rewrite forallb_forall. intros H. exists N.to_nat. intros i r a Hi Pu E Ha. specialize (H i Hi). destruct i as [r0 op l|r0 b|r0 op l]; [| |destruct Pu]; rewrite E, forallb_forall in H; specialize (H a Ha);
    apply N.ltb_lt in H; lia.
Qed.
Definition order_b (f : func) (order : list N) (n : nat) : bool := forallb (fun l => mem l (avoiding f 999 n) && mem l (map label (blocks f))) order.
Lemma order_b_ok f order n : order_b f order n = true -> forall l, In l order -> reachable (succs f) (entry f) l /\ In l (map label (blocks f)).
Proof.
  unfold order_b. rewrite forallb_forall. intros H l Hl. specialize (H l Hl). apply andb_true_iff in H. destruct H as [A B]. split; [|apply mem_in, B].
  apply mem_in in A. destruct (avoiding_ok f 999 n l A) as (p & P & _). exists p. exact P.
Qed.

(** ** A selection *)
(** 65: OpAccessChain, 61: OpLoad, 62: OpStore; terminators 249: OpBranch, 250: OpBranchConditional, 253: OpReturn.  The variable 20 is Uniform and nothing writes to it, 21 is
    read-only, 22 is an output. *)
Definition kinds (op : N) : opkind := if op =? 65 then KAccessChain else if op =? 61 then KLoad else if op =? 62 then KStore else KOther.
Definition vars (v : N) : option variable :=
  if v =? 20 then Some (mkvariable false true) else if v =? 21 then Some (mkvariable true false) else if v =? 22 then Some (mkvariable false false) else None.
Definition shader_info : info := mkinfo kinds vars (fun v => v =? 20) [] (fun op => op =? 249) (fun h => if h =? 1 then Some 5 else None).
Definition shader : func :=
  mkfunc [IPure 10 100 []; IPure 11 101 []]
    [mkblock 1 [] [IPure 30 65 [20; 11]; IOwn (Some 31) 61 [30]; IPure 32 65 [21; 10]; IOwn (Some 33) 61 [32]; IOwn (Some 34) 61 [20]; IOwn (Some 35) 61 [22]; IPure 36 65 [22; 11]] 250 [12] [2; 4];
     mkblock 2 [] [] 249 [] [3];
     mkblock 3 [] [IOwn None 62 [22; 31]; IOwn None 62 [36; 34]] 249 [] [5];
     mkblock 4 [] [IOwn None 62 [22; 34]; IOwn None 62 [36; 35]] 249 [] [5];
     mkblock 5 [] [IOwn None 62 [36; 33]] 253 [35] []].
Definition shader_tree : dtree := DNode 1 [DNode 2 [DNode 3 []]; DNode 4 []; DNode 5 []].
(** a pointer into the variable [v] is a number from 100 v on *)
Definition into (p v : N) : Prop := p / 100 = v.
Fixpoint look (w : list (N * N)) (p : N) : N := match w with [] => p | (q, d) :: w' => if q =? p then d else look w' p end.
Definition memory : machine N (list (N * N)) :=
  mkmachine
    (fun op ds => if op =? 100 then Some 0 else if op =? 101 then Some 1 else match ds with p :: ds' => Some (p / 100 * 100 + fold_right N.add 0 ds' mod 100) | [] => None end)
    (fun op ds w => if op =? 61 then match ds with [p] => Some (look w p, w) | _ => None end else if op =? 62 then match ds with [p; d] => Some (0, (p, d) :: w) | _ => None end else None)
    (fun op ds => if op =? 249 then Some 0%nat else if op =? 250 then match ds with x :: _ => if x =? 0 then Some 1%nat else Some 0%nat | [] => None end else None).
Definition inputs (c a : N) : option N := if a =? 12 then Some c else if a =? 20 then Some 2000 else if a =? 21 then Some 2100 else if a =? 22 then Some 2200 else None.
Lemma vars_all v : vars v <> None -> In v [20; 21; 22].
Proof.
  unfold vars. destruct (N.eqb_spec v 20) as [->|]; [cbn; auto|]. destruct (N.eqb_spec v 21) as [->|]; [cbn; auto|]. destruct (N.eqb_spec v 22) as [->|]; [cbn; auto|]. intros H. destruct (H eq_refl).
Qed.
Lemma kinds_load op : kinds op = KLoad -> op = 61.
Proof. unfold kinds. destruct (N.eqb_spec op 65) as [_|_]; [discriminate|]. destruct (N.eqb_spec op 61) as [E|_]; [auto|]. destruct (op =? 62); discriminate. Qed.
Lemma kinds_path op : path_op (kinds op) -> op = 65.
Proof. unfold kinds, path_op. destruct (N.eqb_spec op 65) as [E|_]; [auto|]. destruct (op =? 61); [intros [E|[E|E]]; discriminate|]. destruct (op =? 62); intros [E|[E|E]]; discriminate. Qed.
Lemma memory_keeps x : i_kind x = kinds -> memory_rules memory x into.
Proof.
  intros K. constructor.
  - intros op p ds q v Po E Hp. rewrite K in Po. apply kinds_path in Po. subst op. unfold pure, memory in E. cbn [N.eqb Pos.eqb] in E. injection E as <-. unfold into in *. rewrite N.add_comm, N.div_add by discriminate.
    rewrite N.div_small by (apply N.mod_lt; discriminate). cbn. exact Hp.
  - intros op ds w d w' Ko E. rewrite K in Ko. apply kinds_load in Ko. subst op. unfold own, memory in E. cbn [N.eqb Pos.eqb] in E. destruct ds as [|p [|q ds]]; try discriminate. injection E as _ <-. reflexivity.
Qed.
Lemma inputs_point x c : i_var x = vars -> variables_point x into (inputs c).
Proof. intros K v p Nv E. rewrite K in Nv. destruct (vars_all v Nv) as [<-|[<-|[<-|[]]]]; cbn in E; injection E as <-; reflexivity. Qed.
(** what a pointer rests on: looked up in the function *)
Fixpoint rests_b (x : info) (f : func) (n : nat) (a : N) : list N :=
  (match i_var x a with Some _ => [a] | None => [] end) ++
  match n with
  | O => []
  | S n' => flat_map (fun i => match i with
                              | ICopy r b => if r =? a then rests_b x f n' b else []
                              | IPure r op (b :: _) => if (r =? a) && match i_kind x op with KAccessChain | KPtrChain | KPath => true | _ => false end then rests_b x f n' b else []
                              | _ => [] end) (all_insts f)
  end.
Lemma rests_b_ok x f n a v : In v (rests_b x f n a) -> rests_on x f a v.
Proof.
  revert a. induction n as [|n IH]; intros a H; cbn [rests_b] in H; apply in_app_or in H; destruct H as [H|H].
  - destruct (i_var x a) eqn:E; [|destruct H]. destruct H as [<-|[]]. constructor. congruence.
  - destruct H.
  - destruct (i_var x a) eqn:E; [|destruct H]. destruct H as [<-|[]]. constructor. congruence.
  - apply in_flat_map in H. destruct H as (i & Hi & H). destruct i as [r op [|b l]|r b|r op l]; try (destruct H; fail).
    + destruct (N.eqb_spec r a) as [->|_]; cbn [andb] in H; [|destruct H]. destruct (i_kind x op) eqn:K; try (destruct H; fail); (eapply RO_path; [exact Hi|unfold path_op; auto|apply IH, H]).
    + destruct (N.eqb_spec r a) as [->|_]; [|destruct H]. eapply RO_copy; [exact Hi|apply IH, H].
Qed.
(** stores go to the variable 22 only *)
Lemma only_output x f n : i_kind x = kinds ->
  forallb (fun i => match i with IOwn _ op args => negb (op =? 62) || match args with p :: _ => mem 22 (rests_b x f n p) | [] => false end | _ => true end) (all_insts f) = true ->
  forall v, v <> 22 -> not_written memory x into f v.
Proof.
  intros K H v Nv r op args ds Hi Ft w d w' E lop q Kl Hq. rewrite K in Kl. apply kinds_load in Kl. subst lop. rewrite forallb_forall in H. specialize (H _ Hi). unfold own, memory in *. cbn [N.eqb Pos.eqb] in *.
  destruct (N.eqb_spec op 61) as [->|N61].
  - destruct ds as [|p [|q' ds]]; try discriminate. injection E as _ <-. reflexivity.
  - destruct (N.eqb_spec op 62) as [->|N62]; [|discriminate]. destruct ds as [|p [|d' [|d2 ds]]]; try discriminate. injection E as _ <-. cbn [option_map fst look]. destruct (N.eqb_spec p q) as [<-|_]; [|reflexivity].
    exfalso. cbn [N.eqb Pos.eqb negb orb] in H. destruct args as [|a args]; [discriminate|]. apply mem_in in H. pose proof (Ft 0%nat a p 22 eq_refl eq_refl (rests_b_ok x f n a 22 H)) as P. unfold into in *. congruence.
Qed.

Example shader_well_formed : well_formed shader.
Proof. apply (well_formed_by_ok (available_t shader shader_tree)); [|vm_compute; reflexivity]. intros b k a. apply available_t_ok. apply tree_b_ok. vm_compute. reflexivity. Qed.
Example shader_structured : structured shader_info shader.
Proof.
  intros h mg H _. cbn in H. destruct (N.eqb_spec h 1) as [->|_]; [|discriminate]. injection H as <-. split; [cbn; tauto|]. split; [discriminate|]. apply (tree_step_ok shader 1 [2; 3; 4; 5]); [vm_compute; reflexivity|cbn; tauto].
Qed.
Example shader_order : forall l, In l [5; 3; 2; 4; 1] -> reachable (succs shader) (entry shader) l /\ In l (map label (blocks shader)).
Proof. apply (order_b_ok shader _ 5). vm_compute. reflexivity. Qed.
Example shader_merges : merges_reached shader_info shader.
Proof. intros h mg H _. cbn in H. destruct (N.eqb_spec h 1) as [->|_]; [|discriminate]. injection H as <-. apply shader_order. cbn. tauto. Qed.
Example shader_closed : closed shader /\ ordered shader.
Proof. split; [apply closed_b_ok|apply ordered_b_ok]; vm_compute; reflexivity. Qed.
Example shader_outside : variables_outside shader_info shader.
Proof. apply (outside_b_ok _ _ [20; 21; 22]); [exact vars_all|vm_compute; reflexivity]. Qed.
Example shader_constant : loads_are_constant memory shader_info into shader.
Proof.
  intros v _ (q & E & S). apply (only_output shader_info shader 3); [reflexivity|vm_compute; reflexivity|]. intros ->. cbn in E. injection E as <-. destruct S as [S|[S _]]; discriminate.
Qed.
Example shader_starts c : starts_clean shader (inputs c) /\ variables_point shader_info into (inputs c) /\ memory_rules memory shader_info into.
Proof. split; [apply clean_b_ok; vm_compute; reflexivity|]. split; [apply inputs_point; reflexivity|apply memory_keeps; reflexivity]. Qed.
(** 31 and its pointer go to the block after the branch that leads to their use, 33 to the merge block; 34 is needed on both sides, 35 and 36 too *)
Example shader_result : sink shader_info [5; 3; 2; 4; 1] shader = Some (
  mkfunc (prelude shader)
    [mkblock 1 [] [IOwn (Some 34) 61 [20]; IOwn (Some 35) 61 [22]; IPure 36 65 [22; 11]] 250 [12] [2; 4];
     mkblock 2 [] [] 249 [] [3];
     mkblock 3 [] [IPure 30 65 [20; 11]; IOwn (Some 31) 61 [30]; IOwn None 62 [22; 31]; IOwn None 62 [36; 34]] 249 [] [5];
     mkblock 4 [] [IOwn None 62 [22; 34]; IOwn None 62 [36; 35]] 249 [] [5];
     mkblock 5 [] [IPure 32 65 [21; 10]; IOwn (Some 33) 61 [32]; IOwn None 62 [36; 33]] 253 [35] []]).
Proof. vm_compute. reflexivity. Qed.
Example shader_runs : run memory shader 5 (inputs 1) [] = Some (Returned 253 [2200] [(2201, 2100); (2201, 2000); (2200, 2001)]).
Proof. vm_compute. reflexivity. Qed.

(** ** A store to a Uniform variable *)
(** HasPossibleStore (code_sink.cpp:277-293) gives true only if every user of the variable is a store or leads to nothing but stores, so it is false of every variable that is loaded
    from: it never keeps a load where it is. *)
Lemma go_true (A : inst -> option bool) us i : In i us -> A i <> Some true -> (fix go (us : list inst) : option bool := match us with [] => Some true | i :: us' => match A i with Some true => go us' | y => y end end) us <> Some true.
Proof.
  induction us as [|j us IH]; intros Hi Na; [destruct Hi|]. destruct Hi as [->|Hi]; [destruct (A i) as [[|]|]; congruence|]. destruct (A j) as [[|]|]; [exact (IH Hi Na)|discriminate|discriminate].
Qed.
Definition answer (x : info) (n : nat) (f : func) (i : inst) : option bool :=
  match i with
  | IOwn _ op _ => match i_kind x op with KStore => Some true | _ => Some false end
  | IPure r op _ => match i_kind x op with KAccessChain | KPtrChain => possible_store x n f r | _ => Some false end
  | ICopy _ _ => Some false
  end.
Lemma user_not_true x f v i : In i (all_insts f) -> In v (reads i) -> (forall n, answer x n f i <> Some true) -> forall n, possible_store x n f v <> Some true.
Proof.
  intros Hi Hv Na [|n]; cbn [possible_store]; [discriminate|]. destruct (other_user x f v); [discriminate|]. apply (go_true (answer x n f) _ i); [|apply Na].
  apply filter_In. split; [exact Hi|]. apply mem_In, Hv.
Qed.
Theorem store_check_refuted x f v : loaded x f v -> forall n, possible_store x n f v <> Some true.
Proof.
  intros (r & op & p & Hi & K & Ro).
  assert (Hp : forall n, possible_store x n f p <> Some true).
  { apply (user_not_true x f p (IOwn (Some r) op [p])); [apply in_or_app; right; exact Hi|left; reflexivity|]. intros n. cbn [answer]. rewrite K. discriminate. }
  clear Hi K. induction Ro as [v Nv|y a v Hi Ro IH|y op' a l v Hi Po Ro IH]; [exact Hp| |]; apply IH; eapply user_not_true; try exact Hi; try (left; reflexivity); intros n; cbn [answer]; [discriminate|].
  destruct (i_kind x op'); try discriminate; apply Hp.
Qed.
(** A load moved past a store to the same variable. *)
Definition stores : func :=
  mkfunc [IPure 11 101 []]
    [mkblock 1 [] [IOwn (Some 30) 61 [20]; IOwn None 62 [20; 11]] 249 [] [2];
     mkblock 2 [] [] 253 [30] []].
Definition stores_tree : dtree := DNode 1 [DNode 2 []].
Definition plain_info : info := mkinfo kinds vars (fun v => false) [] (fun op => op =? 249) (fun h => None).
Theorem code_sink_preserves_refuted : exists (m : machine N (list (N * N))) x points order f f' n globals w0 s s', well_formed f /\ structured x f /\ (forall l, In l order -> reachable (succs f) (entry f) l) /\
  memory_rules m x points /\ variables_outside x f /\ variables_point x points globals /\ starts_clean f globals /\
  sink x order f = Some f' /\ run m f n globals w0 = Some s /\ run m f' n globals w0 = Some s' /\ s <> s'.
Proof.
  eexists memory, plain_info, into, [2; 1], stores, _, 3%nat, (inputs 0), [], _, _. split.
  { apply (well_formed_by_ok (available_t stores stores_tree)); [|vm_compute; reflexivity]. intros b k a. apply available_t_ok. apply tree_b_ok. vm_compute. reflexivity. }
  split; [intros h mg H; discriminate|]. split; [intros l Hl; apply (order_b_ok stores [2; 1] 3); [vm_compute; reflexivity|exact Hl]|]. split; [apply memory_keeps; reflexivity|].
  split; [apply (outside_b_ok _ _ [20; 21; 22]); [exact vars_all|vm_compute; reflexivity]|]. split; [apply inputs_point; reflexivity|]. split; [apply clean_b_ok; vm_compute; reflexivity|].
  split; [vm_compute; reflexivity|]. split; [vm_compute; reflexivity|]. split; [vm_compute; reflexivity|]. discriminate.
Qed.

(** ** A loop behind a selection *)
(** The comments at code_sink.cpp:99-100 and 148-149 say an instruction is not moved to where it is executed more often; the merge block of a selection can be the header of a loop. *)
Definition looping : func :=
  mkfunc [IPure 10 100 []; IPure 11 101 []]
    [mkblock 1 [] [IOwn (Some 30) 61 [20]] 250 [12] [2; 3];
     mkblock 2 [] [] 249 [] [4];
     mkblock 3 [] [] 249 [] [4];
     mkblock 4 [mkphi 40 [(11, 2); (11, 3); (10, 5)]] [] 250 [40] [5; 6];
     mkblock 5 [] [] 249 [] [4];
     mkblock 6 [] [] 253 [30] []].
(** 30 is used in the loop *)
Definition looping_use : func :=
  mkfunc (prelude looping) (map (fun b => if label b =? 4 then mkblock 4 (phis b) [IPure 41 65 [30; 10]] (t_op b) (t_args b) (t_succ b) else b) (blocks looping)).
Definition looping_tree : dtree := DNode 1 [DNode 2 []; DNode 3 []; DNode 4 [DNode 5 []; DNode 6 []]].
Definition looping_info : info := mkinfo kinds vars (fun v => false) [] (fun op => op =? 249) (fun h => if h =? 1 then Some 4 else None).
(** the world counts the loads *)
Definition counts : machine N N := mkmachine (pure memory) (fun op ds w => if op =? 61 then Some (0, w + 1) else None) (choose memory).
Theorem code_sink_not_more_often_refuted : exists x order f f' n globals d d' w w', well_formed f /\ structured x f /\ (forall l, In l order -> reachable (succs f) (entry f) l) /\
  variables_outside x f /\ starts_clean f globals /\ sink x order f = Some f' /\
  run counts f n globals 0 = Some (Returned 253 d w) /\ run counts f' n globals 0 = Some (Returned 253 d' w') /\ w < w'.
Proof.
  eexists looping_info, [6; 5; 4; 3; 2; 1], looping_use, _, 8%nat, (inputs 0), _, _, _, _. split.
  { apply (well_formed_by_ok (available_t looping_use looping_tree)); [|vm_compute; reflexivity]. intros b k a. apply available_t_ok. apply tree_b_ok. vm_compute. reflexivity. }
  split.
  { intros h mg H _. cbn in H. destruct (N.eqb_spec h 1) as [->|_]; [|discriminate]. injection H as <-. split; [cbn; tauto|]. split; [discriminate|]. apply (tree_step_ok looping_use 1 [2; 3; 4; 5; 6]); [vm_compute; reflexivity|cbn; tauto]. }
  split; [intros l Hl; apply (order_b_ok looping_use [6; 5; 4; 3; 2; 1] 8); [vm_compute; reflexivity|exact Hl]|].
  split; [apply (outside_b_ok _ _ [20; 21; 22]); [exact vars_all|vm_compute; reflexivity]|]. split; [apply clean_b_ok; vm_compute; reflexivity|].
  split; [vm_compute; reflexivity|]. split; [vm_compute; reflexivity|]. split; [vm_compute; reflexivity|]. reflexivity.
Qed.

(** ** A merge block that is not reached *)
(** Both sides of the selection return; the merge block is the header of a loop that only goes back to it.  The search for a block for the load, which is not used, goes round
    in that loop for ever. *)
Definition endless : func :=
  mkfunc []
    [mkblock 1 [] [IOwn (Some 30) 61 [21]] 250 [12] [2; 3];
     mkblock 2 [] [] 253 [] [];
     mkblock 3 [] [] 253 [] [];
     mkblock 4 [] [] 249 [] [5];
     mkblock 5 [] [] 249 [] [4]].
Definition endless_tree : dtree := DNode 1 [DNode 2 []; DNode 3 []].
Theorem code_sink_returns_refuted : exists x f, well_formed f /\ structured x f /\ closed f /\ ordered f /\
  (exists b r op p, In b (blocks f) /\ reachable (succs f) (entry f) (label b) /\ In (IOwn (Some r) op [p]) (body b) /\ candidate x f (IOwn (Some r) op [p]) = Some (Some r) /\
    forall fuel, walk x fuel f (uses f r) (label b) (label b) = None).
Proof.
  exists looping_info, endless. split.
  { apply (well_formed_by_ok (available_t endless endless_tree)); [|vm_compute; reflexivity]. intros b k a. apply available_t_ok. apply tree_b_ok. vm_compute. reflexivity. }
  split.
  { intros h mg H _. cbn in H. destruct (N.eqb_spec h 1) as [->|_]; [|discriminate]. injection H as <-. split; [cbn; tauto|]. split; [discriminate|]. apply (tree_step_ok endless 1 [4; 5]); [vm_compute; reflexivity|cbn; tauto]. }
  split; [apply closed_b_ok; vm_compute; reflexivity|]. split; [apply ordered_b_ok; vm_compute; reflexivity|].
  eexists _, 30, 61, 21. split; [left; reflexivity|]. split; [exists [1]; constructor|]. split; [left; reflexivity|]. split; [vm_compute; reflexivity|].
  assert (U : uses endless 30 = []) by (vm_compute; reflexivity). cbn [label]. rewrite U.
  assert (L : forall n, walk looping_info n endless [] 1 4 = None /\ walk looping_info n endless [] 1 5 = None).
  { induction n as [|n [A B]]; [split; reflexivity|]. split; [change (walk looping_info (S n) endless [] 1 4) with (walk looping_info n endless [] 1 5); exact B|].
    change (walk looping_info (S n) endless [] 1 5) with (walk looping_info n endless [] 1 4). exact A. }
  intros [|n]; [reflexivity|]. change (walk looping_info (S n) endless [] 1 1) with (walk looping_info n endless [] 1 4). apply L.
Qed.

Print Assumptions code_sink_preserves_partial.
Print Assumptions code_sink_keeps_shape.
Print Assumptions code_sink_returns_partial.
Print Assumptions store_check_refuted.
Print Assumptions code_sink_preserves_refuted.
Print Assumptions code_sink_not_more_often_refuted.
Print Assumptions code_sink_returns_refuted.
