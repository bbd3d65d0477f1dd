(** C58: removing functions that cannot be called, and the interfaces of entry points. *)
From Verif Require Import Base NamedIds NamedIdsProofs CallTree CallTreeSpec CallTreeProofs.
Local Open Scope N_scope.

(** The functions that are left are the functions that can be called, in their order.  The module has no conditional entry points: the optimizer's loader refuses them
    (ir_loader.cpp:337-385), only the linker makes them, and it does not run this pass. *)
Theorem live_functions_exact : forall m, valid m -> (forall e, In e (m_entries m) -> e_cond e = false) ->
  exists p, live_functions m = Done (filter p (m_funcs m)) /\ forall f, In f (m_funcs m) -> (p f = true <-> reachable m (f_id f)).
Proof.
  intros m V NC. assert (R : forall r, In r (roots m) <-> (exists e, In e (m_entries m) /\ e_function e = r) \/ In r (m_exports m) /\ In r (map f_id (m_funcs m))).
  { intros r. unfold roots. rewrite in_app_iff, in_map_iff, filter_In. split.
    - intros [(e & E & He)|[A B]]; [left; exists e; split; [exact He|]; unfold e_function; rewrite (NC e He); exact E|]. right. split; [exact A|]. destruct (get_function m r) as [f|] eqn:G; [|discriminate]. apply (get_ok m V) in G. destruct G as [Hf <-]. apply in_map, Hf.
    - intros [(e & He & E)|[A B]]; [left; exists e; split; [|exact He]; unfold e_function in E; rewrite (NC e He) in E; exact E|]. right. split; [exact A|]. destruct (get_known m V r B) as (f & ->). reflexivity. }
  destruct (process_ok m V (roots m)) as (d & E & _ & D).
  - intros r Hr. apply R in Hr. destruct Hr as [(e & He & <-)|[_ B]]; [exact (va_entries _ V e He)|exact B].
  - exists (fun f => mem (f_id f) d). unfold live_functions. rewrite E. split; [reflexivity|]. intros f Hf. rewrite mem_In, D. unfold reachable. split; intros (r & A & C); exists r; (split; [apply R; exact A|exact C]).
Qed.
(** What a function that is left calls is left. *)
Theorem live_functions_closed : forall m, valid m -> (forall e, In e (m_entries m) -> e_cond e = false) -> forall l, live_functions m = Done l ->
  (forall e, In e (m_entries m) -> In (e_function e) (map f_id l)) /\ forall f i g, In f l -> In i (f_insts f) -> calls_inst g i -> In g (map f_id l).
Proof.
  intros m V NC l E. destruct (live_functions_exact m V NC) as (p & E' & P). assert (l = filter p (m_funcs m)) as -> by congruence.
  assert (L : forall x, In x (map f_id (m_funcs m)) -> reachable m x -> In x (map f_id (filter p (m_funcs m)))).
  { intros x Hx Rx. apply in_map_iff in Hx. destruct Hx as (f & <- & Hf). apply in_map, filter_In. split; [exact Hf|]. apply (P f Hf), Rx. }
  split.
  - intros e He. apply L; [exact (va_entries _ V e He)|]. exists (e_function e). split; [left; exists e; auto|constructor].
  - intros f i g Hf Hi C. apply filter_In in Hf. destruct Hf as [Hf Pf]. apply L; [exact (va_calls _ V f i g Hf Hi C)|]. apply (P f Hf) in Pf. destruct Pf as (r & A & B). exists r. split; [exact A|]. clear A.
    assert (T : forall a b, calls m a b -> b = f_id f -> calls m a g) by (intros a b H; induction H as [a0|a0 fn j k h Hfn Ea Hj Cj H IH]; intros Eb; [subst a0; exact (Ca_step m (f_id f) f i g g Hf eq_refl Hi C (Ca_self m g))|exact (Ca_step m a0 fn j k g Hfn Ea Hj Cj (IH Eb))]).
    exact (T r (f_id f) B eq_refl).
Qed.
(** The interface of an entry point gets to be the variables it uses, each once; the rest of it stays.
    Partial: for a conditional entry point, the first four characters of the name are not the id of a variable that it uses (see below). *)
Theorem interface_exact_partial : forall m e, valid m -> In e (m_entries m) -> ((if e_cond e then 4 else 3) <= length (e_ops e))%nat ->
  (e_cond e = true -> ~ (listed m (nth 3 (e_ops e) 0) /\ uses m e (nth 3 (e_ops e) 0))) ->
  exists ops, new_operands m e = Done ops /\ firstn (if e_cond e then 4 else 3) ops = firstn (if e_cond e then 4 else 3) (e_ops e) /\
    NoDup (e_interface (mkentry (e_cond e) ops)) /\ forall x, In x (e_interface (mkentry (e_cond e) ops)) <-> listed m x /\ uses m e x.
Proof.
  intros m e V He Le Hc. destruct (used_ok m V e (va_entries _ V e He)) as (u & E & D & U). unfold new_operands. rewrite E. destruct (should_modify u (rev (skipn 3 (e_ops e))) []) eqn:S.
  - eexists. split; [reflexivity|]. unfold e_interface. cbn [e_cond e_ops]. set (k := if e_cond e then 4%nat else 3%nat) in *. assert (Lk : length (firstn k (e_ops e)) = k) by (rewrite firstn_length; lia).
    split; [rewrite firstn_app, Lk, Nat.sub_diag; cbn [firstn]; rewrite app_nil_r, firstn_firstn, Nat.min_id; reflexivity|].
    replace (skipn k (firstn k (e_ops e) ++ u)) with u by (rewrite skipn_app, Lk, Nat.sub_diag, (skipn_all2 (firstn k (e_ops e))) by lia; reflexivity). split; assumption.
  - apply should_modify_ok in S. destruct S as (A & B & _ & L). rewrite rev_length in L. cbn [length] in L. rewrite Nat.add_0_r in L.
    assert (I : incl (skipn 3 (e_ops e)) u) by (intros z Hz; apply A; rewrite <- in_rev; exact Hz). apply NoDup_rev in B. rewrite rev_involutive in B.
    destruct (e_cond e) eqn:C.
    + destruct (Hc eq_refl). apply U, I. destruct (e_ops e) as [|a [|b [|c [|w l]]]]; cbn [length] in Le; try lia. left. reflexivity.
    + exists (e_ops e). split; [reflexivity|]. split; [reflexivity|]. unfold e_interface. cbn [e_cond e_ops]. split; [exact B|]. intros x. rewrite <- U. split; [apply I|]. apply (NoDup_length_incl B); [lia|exact I].
Qed.
(** An interface that is right stays as it is.  Partial: not for conditional entry points, whose interfaces are written anew. *)
Theorem interface_stays_partial : forall m e, valid m -> In e (m_entries m) -> e_cond e = false -> NoDup (e_interface e) -> (forall x, In x (e_interface e) <-> listed m x /\ uses m e x) ->
  new_operands m e = Done (e_ops e).
Proof.
  intros m e V He C D H. destruct (used_ok m V e (va_entries _ V e He)) as (u & E & Du & U). unfold new_operands. rewrite E, C. unfold e_interface in D, H. rewrite C in D, H.
  replace (should_modify u (rev (skipn 3 (e_ops e))) []) with false; [reflexivity|]. symmetry. apply should_modify_ok. rewrite rev_length. cbn [length]. rewrite Nat.add_0_r.
  split; [intros z Hz; apply U, H; rewrite in_rev; exact Hz|]. split; [apply NoDup_rev, D|]. split; [intros z _ []|].
  apply Nat.le_antisymm; apply NoDup_incl_length; try assumption; intros z Hz; [apply U, H, Hz|apply H, U, Hz].
Qed.

(** ** Examples *)
Definition void_inst := mkinst OtherOp [] [].
(** 1 calls 2, which loads through 3 and 4; 5 is exported; 6 calls itself only; 7 is not called *)
Definition ex_load : load := {| l_pointer := 50; l_object := 51; l_layout := 52; l_memory := 18; l_aligned := Some 4; l_available := None; l_visible := Some 53; l_tensor := 7; l_view := Some 54; l_decode := Some 3; l_vector := Some 4 |}.
Definition ex_f := [mkfunc 1 [mkinst OtherOp [20] [20]; mkinst Call [2] [2]]; mkfunc 2 [mkinst LoadTensor (load_words ex_load) [50; 51; 52; 53; 54; 3; 4]; mkinst OtherOp [21; 22] [21; 22]]; mkfunc 3 [mkinst OtherOp [20] [20]];
  mkfunc 4 [mkinst PerElement [60; 2] [60; 2]]; mkfunc 5 [void_inst]; mkfunc 6 [mkinst Call [6] [6]]; mkfunc 7 [mkinst OtherOp [23] [23]]].
Definition ex_var (x : N) : option N := if x =? 20 then Some 1 else if x =? 21 then Some 3 else if x =? 22 then Some 7 else if x =? 23 then Some 1 else if x =? 50 then Some 12 else None.
Definition ex_m (v14 : bool) : module := mkmodule ex_f [mkentry false [4; 1; 1852399981; 23; 20; 20]; mkentry false [4; 5; 97]] [5; 99] ex_var v14.
Lemma ex_load_ok : load_ok ex_load.
Proof. constructor; reflexivity. Qed.
Lemma ex_valid v : valid (ex_m v).
Proof.
  assert (I : forall f i, In f (m_funcs (ex_m v)) -> In i (f_insts f) -> inst_ok i).
  { intros f i Hf Hi. assert (A : forall f, In f ex_f -> Forall inst_ok (f_insts f)) by (apply Forall_forall; unfold ex_f; repeat (constructor; [cbn [f_insts]; repeat (constructor; [first [exact (Ok_load ex_load _ ex_load_ok)|constructor]|]); constructor|]); constructor).
    exact (proj1 (Forall_forall _ _) (A f Hf) i Hi). }
  constructor.
  - cbn. repeat (constructor; [cbn; intuition discriminate|]). constructor.
  - exact I.
  - intros f i g Hf Hi C. apply (add_calls_inst_ok i g (I f i Hf Hi)) in C. assert (A : incl (flat_map add_calls ex_f) (map f_id ex_f)) by (intros z; vm_compute; tauto). apply A, in_flat_map. exists f. split; [exact Hf|]. apply in_flat_map. exists i. auto.
  - intros e [<-|[<-|[]]]; cbn; tauto.
Qed.
Example ex_live : live_functions (ex_m true) = Done (firstn 5 ex_f).
Proof. vm_compute. reflexivity. Qed.
Example ex_unconditional v : forall e, In e (m_entries (ex_m v)) -> e_cond e = false.
Proof. intros e [<-|[<-|[]]]; reflexivity. Qed.
Example ex_interface : new_operands (ex_m false) (mkentry false [4; 1; 1852399981; 23; 20; 20]) = Done [4; 1; 1852399981; 20; 21] /\
  new_operands (ex_m true) (mkentry false [4; 1; 1852399981; 23; 20; 20]) = Done [4; 1; 1852399981; 20; 50; 21].
Proof. split; vm_compute; reflexivity. Qed.
Example ex_interface_stays : new_operands (ex_m true) (mkentry false [4; 1; 1852399981; 50; 21; 20]) = Done [4; 1; 1852399981; 50; 21; 20].
Proof. vm_compute. reflexivity. Qed.
(** a conditional entry point whose name does not collide *)
Definition ex_c : module := mkmodule [mkfunc 1 [mkinst OtherOp [20; 21] [20; 21]]] [mkentry true [9; 4; 1; 1852399981; 23]] [] ex_var true.
Example ex_conditional : new_operands ex_c (mkentry true [9; 4; 1; 1852399981; 23]) = Done [9; 4; 1; 1852399981; 20; 21].
Proof. vm_compute. reflexivity. Qed.
Lemma one_valid id vars e : e_function e = id -> forall var v14, valid (mkmodule [mkfunc id [mkinst OtherOp vars vars]] [e] [] var v14).
Proof.
  intros E var v. constructor; cbn [m_funcs m_entries map f_id].
  - constructor; [intros []|constructor].
  - intros f i [<-|[]] [<-|[]]. constructor.
  - intros f i g [<-|[]] [<-|[]] C. inversion C.
  - intros e' [<-|[]]. left. symmetry. exact E.
Qed.
Example ex_conditional_ok : valid ex_c /\ ~ listed ex_c 1852399981.
Proof. split; [apply one_valid; reflexivity|]. intros (c & K & _). discriminate. Qed.

(** ** What is not true *)
(** The name of a conditional entry point is taken for a variable (the linker makes such entry points and runs the pass on them, linker.cpp:974): a variable that is used, 97, is not added to the interface because the name is the letter a. *)
Definition ex_name : module := mkmodule [mkfunc 1 [mkinst OtherOp [97] [97]]] [mkentry true [9; 4; 1; 97]] [] (fun x => if x =? 97 then Some 1 else None) true.
Lemma ex_name_valid : valid ex_name.
Proof. apply one_valid. reflexivity. Qed.
Theorem interface_exact_refuted : ~ forall m e, valid m -> In e (m_entries m) -> ((if e_cond e then 4 else 3) <= length (e_ops e))%nat ->
  forall ops, new_operands m e = Done ops -> forall x, listed m x /\ uses m e x -> In x (e_interface (mkentry (e_cond e) ops)).
Proof.
  intros H. refine (H ex_name (mkentry true [9; 4; 1; 97]) ex_name_valid (or_introl eq_refl) (le_n _) [9; 4; 1; 97] eq_refl 97 _).
  split; [exists 1; split; [reflexivity|split; [discriminate|auto]]|]. exists (mkfunc 1 [mkinst OtherOp [97] [97]]), (mkinst OtherOp [97] [97]). split; [constructor|]. split; [left; reflexivity|]. split; left; reflexivity.
Qed.
(** A function that is only mentioned, not called, is removed although a function that is left mentions it (an instruction of an extension that takes functions, such as OpEnqueueKernel). *)
Definition ex_mention : module := mkmodule [mkfunc 1 [mkinst OtherOp [30; 2] [30; 2]]; mkfunc 2 [void_inst]] [mkentry false [6; 1; 1852399981]] [] ex_var true.
Lemma ex_mention_valid : valid ex_mention.
Proof.
  constructor; cbn [ex_mention m_funcs m_entries map f_id].
  - repeat (constructor; [cbn; intuition discriminate|]). constructor.
  - intros f i [<-|[<-|[]]] [<-|[]]; unfold void_inst; constructor.
  - intros f i g [<-|[<-|[]]] [<-|[]] C; inversion C.
  - intros e [<-|[]]. left. reflexivity.
Qed.
Theorem live_functions_mentioned_refuted : ~ forall m, valid m -> (forall e, In e (m_entries m) -> e_cond e = false) -> forall l, live_functions m = Done l ->
  forall f i g, In f l -> In i (f_insts f) -> In g (ids i) -> In g (map f_id (m_funcs m)) -> In g (map f_id l).
Proof.
  intros H. assert (NC : forall e, In e (m_entries ex_mention) -> e_cond e = false) by (intros e [<-|[]]; reflexivity).
  specialize (H ex_mention ex_mention_valid NC [mkfunc 1 [mkinst OtherOp [30; 2] [30; 2]]] eq_refl _ _ 2 (or_introl eq_refl) (or_introl eq_refl)). cbn in H. destruct H as [H|[]]; [tauto|tauto|discriminate].
Qed.

Print Assumptions live_functions_exact.
Print Assumptions live_functions_closed.
Print Assumptions interface_exact_partial.
Print Assumptions interface_stays_partial.
Print Assumptions interface_exact_refuted.
Print Assumptions live_functions_mentioned_refuted.
