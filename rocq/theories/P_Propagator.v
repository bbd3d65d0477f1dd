(** C35: sparse propagation terminates, and the constants conditional constant propagation finds are the values in every execution. *)
From Verif Require Import Base Propagator PropagatorSpec PropagatorProofs PropagatorProofs2 PropagatorProofs3 PropagatorProofs4 PropagatorProofs5 PropagatorProofs6.
Local Open Scope N_scope.

(** *** Termination *)
(** Whatever the client does with each instruction, the engine stops: the number of rounds is bounded by the sizes of the function alone.
    The only condition on the client is that a branch it resolves goes to a block of the function. *)
Theorem propagation_terminates U (visit : U -> (N -> N -> bool) -> inst -> visited U) f u fuel : well_formed f ->
  (forall u X i st d u', In i (all_insts f) -> visit u X i = Visited st (Some d) u' -> In d (labels f)) ->
  (2 + S (length f) * length f + 3 * (length (all_insts f) * length (all_insts f)) <= fuel)%nat ->
  run U visit f fuel u <> OutOfFuel.
Proof. intros W H Hf. apply (run_terminates_general U visit f W); [exact H|exact Hf]. Qed.

(** An engine that fails does so because the client did. *)
Lemma sim_inst_failure U visit f i su : sim_inst U visit f i su = Failure -> exists u X, visit u X i = VisitFailed.
Proof.
  unfold sim_inst. destruct (dns (fst su) (uid i)); [discriminate|]. destruct (visit (snd su) (executable (fst su)) i) as [st d u'| |] eqn:E; try discriminate; [|eauto].
  unfold set_status, bind. destruct (statuses (fst su) (uid i)); [destruct (Nat.leb _ _); [destruct (status_eqb _ _)|]|]; destruct st; discriminate.
Qed.
Lemma sim_insts_failure U visit f is : forall su, sim_insts U visit f is su = Failure -> exists i u X, In i is /\ visit u X i = VisitFailed.
Proof.
  induction is as [|i is IH]; intro su; cbn [sim_insts]; [discriminate|]. destruct (sim_inst U visit f i su) as [r| | |] eqn:E; try discriminate; cbn [bind].
  - destruct (sim_insts U visit f is (snd r)) eqn:E2; try discriminate. intros _. destruct (IH _ E2) as (j & u & X & Hj & K). exists j, u, X. split; [right; exact Hj|exact K].
  - intros _. destruct (sim_inst_failure U visit f i su E) as (u & X & K). exists i, u, X. split; [left; reflexivity|exact K].
Qed.
Lemma run_loop_failure U visit f fuel : forall c su, run_loop U visit f fuel c su = Failure -> exists i u X, visit u X i = VisitFailed.
Proof.
  induction fuel as [|fuel IH]; intros c su; [discriminate|]. cbn [run_loop]. destruct (blocksQ (fst su)) as [|l q].
  - destruct (ssaQ (fst su)) as [|i q]; [discriminate|]. destruct (sim_inst U visit f i _) as [r| | |] eqn:E; try discriminate; cbn [bind]; [apply IH|].
    intros _. destruct (sim_inst_failure U visit f i _ E) as (u & X & K). eauto.
  - destruct (sim_block U visit f l _) as [r| | |] eqn:E; try discriminate; cbn [bind]; [apply IH|]. intros _.
    unfold sim_block in E. destruct (get_block f l) as [b|]; [|discriminate].
    destruct (sim_insts U visit f (leading_phis (insts b)) _) as [r1| | |] eqn:E1; try discriminate; cbn [bind] in E.
    + destruct (simulated (fst (snd r1)) l); [discriminate|]. destruct (sim_insts U visit f (block_insts b) (snd r1)) as [r2| | |] eqn:E2; try discriminate.
      destruct (sim_insts_failure U visit f _ _ E2) as (i & u & X & _ & K). eauto.
    + destruct (sim_insts_failure U visit f _ _ E1) as (i & u & X & _ & K). eauto.
Qed.

(** *** Constant propagation always ends: with values, or with a failure because the ids ran out.  No assertion of it fails. *)
Theorem constant_propagation_total consts fold_inst M sem ty f V0 r0 fuel :
  well_formed f -> well_typed ty consts f -> @folds_right M consts sem ty f fold_inst -> folds_more consts f fold_inst -> starts_right consts ty f V0 r0 ->
  defs_dominate f -> uses_defined f V0 ->
  (2 + S (length f) * length f + 3 * (length (all_insts f) * length (all_insts f)) <= fuel)%nat ->
  (exists changed s V n, propagate consts fold_inst f fuel V0 = Ok (changed, (s, (V, n)))) \/
  (propagate consts fold_inst f fuel V0 = Failure /\ exists n i m, fold_inst n i m = FOverflow).
Proof.
  intros W WT FR FM SR DD UD Hf. destruct (propagate consts fold_inst f fuel V0) as [[c [s [V n]]]| | |] eqn:E.
  - left. eauto.
  - right. split; [reflexivity|]. assert (E' : run_loop _ (visit_instruction consts fold_inst f) f fuel false (initial_state f, (V0, 0%nat)) = Failure).
    { unfold propagate, run in E. destruct (run_loop _ _ f fuel false _); try discriminate; [|reflexivity]. cbn [bind] in E. destruct (forallb _ _); discriminate. }
    destruct (run_loop_failure _ _ f fuel _ _ E') as (i & u & X & K). exists (snd u), i, (value_map (fst u)).
    unfold visit_instruction, visit_phi, visit_assignment, visit_branch, mark_varying, assign in K.
    destruct (kind i); repeat match type of K with context [match ?x with _ => _ end] => destruct x eqn:?; try discriminate end; auto.
  - destruct (propagate_not_asserted consts fold_inst M sem ty f V0 r0 W WT FR FM SR fuel DD UD E).
  - destruct (propagate_terminates consts fold_inst f V0 W fuel Hf E).
Qed.

(** *** The values found are right *)
(** In every execution of a function whose switches are on one-word selectors: whenever an id has a value and the pass found a constant for
    it, the value is that constant; the pass has a value for every id the execution defines; and the execution only enters blocks the pass
    considered executable. *)
Theorem constants_right_partial consts fold_inst M sem ty f V0 r0 m0 fuel changed s V n :
  well_formed f -> well_typed ty consts f -> narrow_switches ty f -> @folds_right M consts sem ty f fold_inst -> folds_more consts f fold_inst ->
  starts_right consts ty f V0 r0 -> propagate consts fold_inst f fuel V0 = Ok (changed, (s, (V, n))) ->
  forall l is r m, reachable M consts sem f r0 m0 (at_point l is r m) ->
    simulated s l = true /\
    forall id v, r id = Some v -> exists c, V id = Some c /\ forall k, consts c = Some k -> v = cvalue k.
Proof.
  intros W WT NS FR FM SR E l is r m H. destruct (values_end consts fold_inst M sem ty f V0 r0 W WT FR FM SR fuel changed s V n E) as (I & QB & QS).
  destruct (reachable_ok consts fold_inst M sem ty f V0 r0 m0 W WT NS FR FM SR s V I QB QS _ H) as (b & pre & _ & _ & _ & Hs & R & _). auto.
Qed.
(** The constants are never mistaken for the mark of a varying value, and have the type of what they stand for. *)
Theorem constants_typed consts fold_inst M sem ty f V0 r0 fuel changed s V n :
  well_formed f -> well_typed ty consts f -> @folds_right M consts sem ty f fold_inst -> folds_more consts f fold_inst ->
  starts_right consts ty f V0 r0 -> propagate consts fold_inst f fuel V0 = Ok (changed, (s, (V, n))) ->
  forall id c, V id = Some c -> c = varying_id \/ exists k, consts c = Some k /\ ty c = ty id.
Proof.
  intros W WT FR FM SR E id c Ec. destruct (values_end consts fold_inst M sem ty f V0 r0 W WT FR FM SR fuel changed s V n E) as (I & _).
  destruct (N.eq_dec c varying_id) as [|Hc]; [auto|]. right. apply (j_typed _ _ _ _ _ _ _ _ _ _ _ _ I id c Ec Hc).
Qed.

(** *** Replacing the uses changes no execution *)
(** The points the new function reaches are those of the old one, with the same values and the same memory; and the instruction about to
    execute reads the same operands. *)
Definition replaced_point {M} (V : values) (x : state M) : state M :=
  match x with at_point l is r m => at_point l (map (replace_inst V) is) r m end.
Theorem replacement_changes_nothing_partial consts fold_inst M sem ty f V0 r0 m0 fuel changed s V n :
  well_formed f -> well_typed ty consts f -> narrow_switches ty f -> defs_dominate f ->
  @folds_right M consts sem ty f fold_inst -> folds_more consts f fold_inst ->
  starts_right consts ty f V0 r0 -> propagate consts fold_inst f fuel V0 = Ok (changed, (s, (V, n))) ->
  (forall x', reachable M consts sem (replace_values V f) r0 m0 x' <-> exists x, x' = replaced_point V x /\ reachable M consts sem f r0 m0 x) /\
  (forall l i is r m, reachable M consts sem f r0 m0 (at_point l (i :: is) r m) -> is_phi i = false ->
     forall id, In id (in_ids i) -> look consts r (value_map V id) = look consts r id).
Proof.
  intros W WT NS DD FR FM SR E. destruct (values_end consts fold_inst M sem ty f V0 r0 W WT FR FM SR fuel changed s V n E) as (I & QB & QS). split.
  - intro x'. apply (reachable_rep consts fold_inst M sem ty f V0 r0 m0 W WT NS FR FM SR s V I QB QS DD).
  - intros l i is r m H Hp id Hid. apply (operands_same consts fold_inst M sem ty f V0 r0 m0 W WT NS FR FM SR s V I QB QS DD l i is r m); auto.
    apply (reachable_ok consts fold_inst M sem ty f V0 r0 m0 W WT NS FR FM SR s V I QB QS _ H).
Qed.

(** *** A checker for the conditions, for the examples *)
Lemma path_last f p l : path f p l -> In l p.
Proof. intros []; left; reflexivity. Qed.

(** **** A loop.
<<
   %10: branch %11
   %11: %20 = phi (%1 from %10) (%21 from %11);  %21 = %20 + 0;  %22 = %20 < 7;  branch %22 ? %11 : %12
   %12: %23 = load ... ; return
>>
   with %1 = 5, %2 = true and %3 = false. *)
Definition ex_consts (id : N) : option constant := if id =? 1 then Some (CInt [5]) else if id =? 2 then Some (CBool true) else if id =? 3 then Some (CBool false) else None.
Definition ex_fold (n : nat) (i : inst) (m : N -> N) : folded :=
  match kind i with KFoldable op _ => if m 20 =? 1 then FConst (if op =? 1 then 1 else 2) else FNone | _ => FNone end.
Definition ex_sem (u : nat) (vs : list (option value)) (m : unit) (v : value) (m' : unit) : Prop :=
  match u, vs with
  | 4%nat, [Some (VInt [x])] => v = VInt [x]
  | 5%nat, [Some (VInt [x])] => v = VBool (x <? 7)
  | _, _ => True
  end.
Definition ex_func : func :=
  [ mkBlock (mkInst 0 10 10 KLabel) [mkInst 1 0 10 (KBranch 11)];
    mkBlock (mkInst 2 11 11 KLabel) [mkInst 3 20 11 (KPhi [(1, 10); (21, 11)]); mkInst 4 21 11 (KFoldable 1 [20]); mkInst 5 22 11 (KFoldable 2 [20]); mkInst 6 0 11 (KCond 22 11 12)];
    mkBlock (mkInst 7 12 12 KLabel) [mkInst 8 23 12 (KOther 3 []); mkInst 9 0 12 (KReturn 0 [])] ].
Definition ex_ty (id : N) : vtype := if existsb (N.eqb id) [1; 20; 21] then TInt 1 else if existsb (N.eqb id) [2; 3; 22] then TBool else TOther.
Definition ex_V0 : values := initial_values [1; 2; 3] [].

Ltac split_at := repeat match goal with
  | E : _ :: _ = ?is ++ _ :: _ |- _ => destruct is as [|? is]; cbn [app] in E; injection E; clear E; intros; subst
  | E : [] = ?is ++ _ :: _ |- _ => destruct is; discriminate E
  end.
Lemma ex_well_formed : well_formed ex_func.
Proof.
  split.
  - cbv. repeat constructor; cbn [In]; intuition discriminate.
  - intros i j Hi Hj. cbv in Hi, Hj. decompose [or] Hi; clear Hi; decompose [or] Hj; clear Hj; subst; try contradiction; cbn; intros; congruence.
  - intros b Hb. cbv in Hb. decompose [or] Hb; clear Hb; subst; try contradiction; cbn; repeat split; try discriminate; repeat constructor; discriminate.
  - intros b i Hb Hi. cbv in Hb. decompose [or] Hb; clear Hb; subst; try contradiction; cbv in Hi; decompose [or] Hi; clear Hi; subst; try contradiction; reflexivity.
  - intros b i Hb Hi Hp. cbv in Hb. decompose [or] Hb; clear Hb; subst; try contradiction; cbv in Hi; decompose [or] Hi; clear Hi; subst; try contradiction; try discriminate; cbn; auto.
  - intros b f' E. inversion E; subst. reflexivity.
  - intros b Hb. cbv in Hb. decompose [or] Hb; clear Hb; subst; try contradiction; cbn [insts].
    + exists [], (mkInst 1 0 10 (KBranch 11)). repeat constructor.
    + exists [mkInst 3 20 11 (KPhi [(1, 10); (21, 11)]); mkInst 4 21 11 (KFoldable 1 [20]); mkInst 5 22 11 (KFoldable 2 [20])], (mkInst 6 0 11 (KCond 22 11 12)). repeat constructor.
    + exists [mkInst 8 23 12 (KOther 3 [])], (mkInst 9 0 12 (KReturn 0 [])). repeat constructor.
  - intros i l Hi Hl. cbv in Hi. decompose [or] Hi; clear Hi; subst; try contradiction; cbv in Hl; decompose [or] Hl; clear Hl; try contradiction; try discriminate;
      match goal with H : Some _ = Some _ |- _ => inversion H; subst end; cbv; auto.
  - intros i Hi. cbv in Hi. decompose [or] Hi; clear Hi; subst; try contradiction; cbn [kind is_terminator res]; first [exact I | unfold is_terminator; cbn [kind]; split; intro K; first [reflexivity | discriminate K]].
  - intros b is i js j Hb E Hp Hj Hr Hid. assert (Hi : In i (insts b)) by (rewrite E; apply in_or_app; right; left; reflexivity).
    cbv in Hb. decompose [or] Hb; clear Hb; subst; try contradiction; cbn [insts] in *;
      split_at;
      try discriminate; cbv in Hj; decompose [or] Hj; clear Hj; subst; try contradiction; cbv in Hid; try contradiction; decompose [or] Hid; clear Hid; try contradiction; try discriminate; cbn in Hr; try congruence.
  - intros i args a l j Hi Ek Ha Hj Er Hr. cbv in Hi. decompose [or] Hi; clear Hi; subst; try contradiction; try discriminate. cbn [kind] in Ek. inversion Ek; subst. cbv in Ha.
    decompose [or] Ha; clear Ha; try contradiction; match goal with H : (_, _) = (_, _) |- _ => inversion H; subst end; cbv in Hj; decompose [or] Hj; clear Hj; subst; try contradiction; try discriminate.
    intros p Hp. apply (path_last _ _ _ Hp).
Qed.
Lemma ex_well_typed : well_typed ex_ty ex_consts ex_func.
Proof.
  split.
  - intros c k. unfold ex_consts. destruct (N.eqb_spec c 1) as [->|_]; [intros [= <-]; cbn; split; [discriminate|reflexivity]|].
    destruct (N.eqb_spec c 2) as [->|_]; [intros [= <-]; cbn; auto|]. destruct (N.eqb_spec c 3) as [->|_]; [intros [= <-]; cbn; auto|discriminate].
  - reflexivity.
  - reflexivity.
  - intros i Hi. cbv in Hi. decompose [or] Hi; clear Hi; subst; try contradiction; cbn [kind]; auto; repeat constructor.
Qed.
Lemma ex_narrow : narrow_switches ex_ty ex_func.
Proof. intros i s d cases Hi Ek. cbv in Hi. decompose [or] Hi; clear Hi; subst; try contradiction; discriminate. Qed.
Lemma ex_folds_right : folds_right ex_consts ex_sem ex_ty ex_func ex_fold.
Proof.
  intros n i op ids m c Hi Ek E. unfold ex_fold in E. rewrite Ek in E. destruct (N.eqb_spec (m 20) 1) as [Em|_]; [|discriminate].
  cbv in Hi. decompose [or] Hi; clear Hi; subst; try contradiction; try discriminate; cbn [kind] in Ek; inversion Ek; subst; cbn in E; inversion E; subst.
  - exists (CInt [5]). split; [reflexivity|]. split; [reflexivity|]. intros vs mem v mem' H. inversion H as [|? ? ? ? H1 H2]; subst. inversion H2; subst. rewrite (H1 (CInt [5])) by (rewrite Em; reflexivity). auto.
  - exists (CBool true). split; [reflexivity|]. split; [reflexivity|]. intros vs mem v mem' H. inversion H as [|? ? ? ? H1 H2]; subst. inversion H2; subst. rewrite (H1 (CInt [5])) by (rewrite Em; reflexivity). auto.
Qed.
Lemma ex_folds_more : folds_more ex_consts ex_func ex_fold.
Proof.
  intros n n' i op ids m m' Hi Ek H E. unfold ex_fold in *. rewrite Ek in *. destruct (N.eqb_spec (m 20) 1) as [Em|_]; [|contradiction].
  rewrite (H 20); [rewrite Em; discriminate| |rewrite Em; discriminate]. cbv in Hi. decompose [or] Hi; clear Hi; subst; try contradiction; try discriminate; inversion Ek; subst; left; reflexivity.
Qed.
Lemma ex_starts : starts_right ex_consts ex_ty ex_func ex_V0 (fun _ => None).
Proof.
  split.
  - intros i Hi _. cbv in Hi. decompose [or] Hi; clear Hi; subst; try contradiction; auto.
  - intros i id k _ _. unfold ex_consts, ex_V0, initial_values. destruct (N.eqb_spec id 1) as [->|_]; [reflexivity|]. destruct (N.eqb_spec id 2) as [->|_]; [reflexivity|]. destruct (N.eqb_spec id 3) as [->|_]; [reflexivity|discriminate].
  - intros id c E _. unfold ex_V0, initial_values in E. cbn [existsb] in E. rewrite orb_false_r in E.
    destruct (N.eqb_spec 1 id) as [<-|_]; [inversion E; subst; eexists; split; reflexivity|]. destruct (N.eqb_spec 2 id) as [<-|_]; [inversion E; subst; eexists; split; reflexivity|].
    destruct (N.eqb_spec 3 id) as [<-|_]; [inversion E; subst; eexists; split; reflexivity|discriminate].
  - intros i id c _ _ E _. unfold ex_V0, initial_values in E. cbn [existsb] in E. rewrite orb_false_r in E.
    destruct (N.eqb_spec 1 id) as [<-|_]; [discriminate|]. destruct (N.eqb_spec 2 id) as [<-|_]; [discriminate|]. destruct (N.eqb_spec 3 id) as [<-|_]; discriminate.
  - discriminate.
Qed.
Lemma ex_defs_dominate : defs_dominate ex_func.
Proof.
  intros b is i js j Hb E Hp Hj Hr Hk Hid. assert (Hi : In i (insts b)) by (rewrite E; apply in_or_app; right; left; reflexivity).
  cbv in Hb. decompose [or] Hb; clear Hb; subst; try contradiction; cbn [insts] in *;
    split_at; try discriminate;
    cbv in Hid; try contradiction; decompose [or] Hid; clear Hid; try contradiction;
    cbv in Hj; decompose [or] Hj; clear Hj; subst; try contradiction; try discriminate; cbn [kind] in Hk; try contradiction; left; cbn [In]; auto.
Qed.
Lemma ex_uses_defined : uses_defined ex_func ex_V0.
Proof.
  split.
  - intros l b i args Hsu Hb Hi Ek. cbv in Hb. decompose [or] Hb; clear Hb; subst; try contradiction; cbv in Hi; decompose [or] Hi; clear Hi; subst; try contradiction; try discriminate.
    injection Ek as <-. unfold succs, get_block in Hsu. cbn [find ex_func label res blabel] in Hsu. destruct (N.eqb_spec 10 l) as [El|_]; [subst l; exists 1; left; reflexivity|].
    destruct (N.eqb_spec 11 l) as [El|_]; [subst l; exists 21; right; left; reflexivity|]. destruct (12 =? l); cbn in Hsu; [destruct Hsu as [Hsu|[]]; discriminate Hsu|destruct Hsu].
  - intros i id Hi Hid. cbv in Hi. decompose [or] Hi; clear Hi; subst; try contradiction; cbv in Hid; try contradiction; decompose [or] Hid; clear Hid; try contradiction; subst; try (left; vm_compute; discriminate).
    + right. exists (mkInst 4 21 11 (KFoldable 1 [20])). cbv. repeat split; auto 20; discriminate.
    + right. exists (mkInst 3 20 11 (KPhi [(1, 10); (21, 11)])). cbv. repeat split; auto 20; discriminate.
    + right. exists (mkInst 3 20 11 (KPhi [(1, 10); (21, 11)])). cbv. repeat split; auto 20; discriminate.
Qed.
(** All the conditions hold together, the pass finds that %20 and %21 are 5, that %22 is true and that %12 is never entered, and the
    execution that goes round the loop once reaches a point where %21 has a value. *)
Example constant_propagation_example :
  well_formed ex_func /\ well_typed ex_ty ex_consts ex_func /\ narrow_switches ex_ty ex_func /\ defs_dominate ex_func /\ uses_defined ex_func ex_V0 /\
  folds_right ex_consts ex_sem ex_ty ex_func ex_fold /\ folds_more ex_consts ex_func ex_fold /\ starts_right ex_consts ex_ty ex_func ex_V0 (fun _ => None) /\
  (exists s V n, propagate ex_consts ex_fold ex_func 400 ex_V0 = Ok (true, (s, (V, n))) /\
    (V 20, V 21, V 22, V 23) = (Some 1, Some 1, Some 2, None) /\ (simulated s 11, simulated s 12) = (true, false)) /\
  exists is r, reachable unit ex_consts ex_sem ex_func (fun _ => None) tt (at_point 11 is r tt) /\ r 21 = Some (VInt [5]).
Proof.
  split; [exact ex_well_formed|]. split; [exact ex_well_typed|]. split; [exact ex_narrow|]. split; [exact ex_defs_dominate|]. split; [exact ex_uses_defined|].
  split; [exact ex_folds_right|]. split; [exact ex_folds_more|]. split; [exact ex_starts|]. split.
  - eexists; eexists; eexists. split; [vm_compute; reflexivity|]. split; reflexivity.
  - eexists; eexists. split.
    + eapply R_step; [eapply R_step; [eapply R_start; reflexivity|]|].
      * cbn [insts]. eapply S_jump; [apply G_branch; reflexivity|right; left; reflexivity|reflexivity|].
        cbn [insts leading_phis is_phi kind]. eapply P_cons; [reflexivity|left; reflexivity|reflexivity|apply P_nil].
      * cbn [after_phis insts leading_phis is_phi kind length skipn label res blabel]. eapply S_inst. eapply (E_foldable _ _ _ _ _ _ 1 [20] (VInt [5]) tt); [reflexivity| |].
        -- repeat constructor. cbv. discriminate.
        -- cbv. reflexivity.
    + reflexivity.
Qed.

(** *** A switch on a 64-bit selector goes the wrong way *)
(** %1 is the 64-bit 2^32 + 5, and the switch has a case for 5.  The pass takes it (ccp_pass.cpp:246-250 asks for the width of the selector's
    id, not of its value, and 267 and 277 compare first words), so it believes that %20 is %2 where it is %3. *)
Definition sw_consts (id : N) : option constant := if id =? 1 then Some (CInt [5; 1]) else if id =? 2 then Some (CBool true) else if id =? 3 then Some (CBool false) else None.
Definition sw_fold (n : nat) (i : inst) (m : N -> N) : folded := FNone.
Definition sw_sem (u : nat) (vs : list (option value)) (m : unit) (v : value) (m' : unit) : Prop := True.
Definition sw_func : func :=
  [ mkBlock (mkInst 0 10 10 KLabel) [mkInst 1 0 10 (KSwitch 1 12 [([5; 0], 11)])];
    mkBlock (mkInst 2 11 11 KLabel) [mkInst 3 0 11 (KBranch 13)];
    mkBlock (mkInst 4 12 12 KLabel) [mkInst 5 0 12 (KBranch 13)];
    mkBlock (mkInst 6 13 13 KLabel) [mkInst 7 20 13 (KPhi [(2, 11); (3, 12)]); mkInst 8 0 13 (KReturn 0 [20])] ].
Definition sw_ty (id : N) : vtype := if id =? 1 then TInt 2 else if existsb (N.eqb id) [2; 3; 20] then TBool else TOther.
Definition sw_V0 : values := initial_values [1; 2; 3] [].
Theorem constants_right_refuted : exists consts fold_inst M sem ty f V0 r0 m0 fuel changed s V n l is r m id v c k,
  well_formed f /\ well_typed ty consts f /\ @folds_right M consts sem ty f fold_inst /\ folds_more consts f fold_inst /\ starts_right consts ty f V0 r0 /\
  propagate consts fold_inst f fuel V0 = Ok (changed, (s, (V, n))) /\
  reachable M consts sem f r0 m0 (at_point l is r m) /\ r id = Some v /\ V id = Some c /\ consts c = Some k /\ v <> cvalue k.
Proof.
  exists sw_consts, sw_fold, unit, sw_sem, sw_ty, sw_func, sw_V0, (fun _ => None), tt, 400%nat. eexists; eexists; eexists; eexists.
  exists 13, [mkInst 8 0 13 (KReturn 0 [20])]. eexists. exists tt, 20. eexists; eexists; eexists.
  split; [|split; [|split; [|split; [|split; [|split; [vm_compute; reflexivity|split]]]]]].
  - split.
    + cbv. repeat constructor; cbn [In]; intuition discriminate.
    + intros i j Hi Hj. cbv in Hi, Hj. decompose [or] Hi; clear Hi; decompose [or] Hj; clear Hj; subst; try contradiction; cbn; intros; congruence.
    + intros b Hb. cbv in Hb. decompose [or] Hb; clear Hb; subst; try contradiction; cbn; repeat split; try discriminate; repeat constructor; discriminate.
    + intros b i Hb Hi. cbv in Hb. decompose [or] Hb; clear Hb; subst; try contradiction; cbv in Hi; decompose [or] Hi; clear Hi; subst; try contradiction; reflexivity.
    + intros b i Hb Hi Hp. cbv in Hb. decompose [or] Hb; clear Hb; subst; try contradiction; cbv in Hi; decompose [or] Hi; clear Hi; subst; try contradiction; try discriminate; cbn; auto.
    + intros b f' E. inversion E; subst. reflexivity.
    + intros b Hb. cbv in Hb. decompose [or] Hb; clear Hb; subst; try contradiction; cbn [insts].
      * exists [], (mkInst 1 0 10 (KSwitch 1 12 [([5; 0], 11)])). repeat constructor.
      * exists [], (mkInst 3 0 11 (KBranch 13)). repeat constructor.
      * exists [], (mkInst 5 0 12 (KBranch 13)). repeat constructor.
      * exists [mkInst 7 20 13 (KPhi [(2, 11); (3, 12)])], (mkInst 8 0 13 (KReturn 0 [20])). repeat constructor.
    + intros i l Hi Hl. cbv in Hi. decompose [or] Hi; clear Hi; subst; try contradiction; cbv in Hl; decompose [or] Hl; clear Hl; try contradiction; try discriminate;
        match goal with H : Some _ = Some _ |- _ => inversion H; subst end; cbv; auto.
    + intros i Hi. cbv in Hi. decompose [or] Hi; clear Hi; subst; try contradiction; cbn [kind is_terminator res]; first [exact I | unfold is_terminator; cbn [kind]; split; intro K; first [reflexivity | discriminate K]].
    + intros b is i js j Hb E Hp Hj Hr Hid. assert (Hi : In i (insts b)) by (rewrite E; apply in_or_app; right; left; reflexivity).
      cbv in Hb. decompose [or] Hb; clear Hb; subst; try contradiction; cbn [insts] in *;
        split_at;
        try discriminate; cbv in Hj; decompose [or] Hj; clear Hj; subst; try contradiction; cbv in Hid; try contradiction; decompose [or] Hid; clear Hid; try contradiction; try discriminate; cbn in Hr; try congruence.
    + intros i args a l j Hi Ek Ha Hj Er Hr. cbv in Hi. decompose [or] Hi; clear Hi; subst; try contradiction; try discriminate. cbn [kind] in Ek. inversion Ek; subst. cbv in Ha.
      decompose [or] Ha; clear Ha; try contradiction; match goal with H : (_, _) = (_, _) |- _ => inversion H; subst end; cbv in Hj; decompose [or] Hj; clear Hj; subst; try contradiction; try discriminate.
  - split.
    + intros c k. unfold sw_consts. destruct (N.eqb_spec c 1) as [->|_]; [intros [= <-]; cbn; split; [discriminate|reflexivity]|].
      destruct (N.eqb_spec c 2) as [->|_]; [intros [= <-]; cbn; auto|]. destruct (N.eqb_spec c 3) as [->|_]; [intros [= <-]; cbn; auto|discriminate].
    + reflexivity.
    + reflexivity.
    + intros i Hi. cbv in Hi. decompose [or] Hi; clear Hi; subst; try contradiction; cbn [kind]; auto; try (repeat constructor; fail). exists 2%nat. split; [reflexivity|repeat constructor].
  - intros ? i op ids m c Hi Ek E. discriminate E.
  - intros ? ? i op ids m m' Hi Ek H E. destruct (E eq_refl).
  - split.
    + intros i Hi _. cbv in Hi. decompose [or] Hi; clear Hi; subst; try contradiction; auto.
    + intros i id k _ _. unfold sw_consts, sw_V0, initial_values. destruct (N.eqb_spec id 1) as [->|_]; [reflexivity|]. destruct (N.eqb_spec id 2) as [->|_]; [reflexivity|]. destruct (N.eqb_spec id 3) as [->|_]; [reflexivity|discriminate].
    + intros id c E _. unfold sw_V0, initial_values in E. cbn [existsb] in E. rewrite orb_false_r in E.
      destruct (N.eqb_spec 1 id) as [<-|_]; [inversion E; subst; eexists; split; reflexivity|]. destruct (N.eqb_spec 2 id) as [<-|_]; [inversion E; subst; eexists; split; reflexivity|].
      destruct (N.eqb_spec 3 id) as [<-|_]; [inversion E; subst; eexists; split; reflexivity|discriminate].
    + intros i id c _ _ E _. unfold sw_V0, initial_values in E. cbn [existsb] in E. rewrite orb_false_r in E.
      destruct (N.eqb_spec 1 id) as [<-|_]; [discriminate|]. destruct (N.eqb_spec 2 id) as [<-|_]; [discriminate|]. destruct (N.eqb_spec 3 id) as [<-|_]; discriminate.
    + discriminate.
  - eapply R_step; [eapply R_step; [eapply R_start; reflexivity|]|].
    + cbn [insts]. eapply S_jump; [eapply (G_switch _ _ _ 1 12 [([5; 0], 11)] [5; 1]); reflexivity|right; right; left; reflexivity|reflexivity|apply P_nil].
    + cbn. eapply (S_jump _ _ _ _ 12 _ _ _ 13 (mkBlock (mkInst 6 13 13 KLabel) [mkInst 7 20 13 (KPhi [(2, 11); (3, 12)]); mkInst 8 0 13 (KReturn 0 [20])]));
        [apply G_branch; reflexivity|right; right; right; left; reflexivity|reflexivity|].
      cbn [insts leading_phis is_phi kind]. eapply P_cons; [reflexivity|right; left; reflexivity|reflexivity|apply P_nil].
  - split; [reflexivity|]. split; [reflexivity|]. split; [reflexivity|]. discriminate.
Qed.

Print Assumptions propagation_terminates.
Print Assumptions constant_propagation_total.
Print Assumptions constants_right_partial.
Print Assumptions constants_typed.
Print Assumptions replacement_changes_nothing_partial.
Print Assumptions constants_right_refuted.
