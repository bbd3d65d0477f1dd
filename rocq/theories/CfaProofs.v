(** Proofs about the depth-first traversal of cfa.h. *)
From Verif Require Import Base NamedIds NamedIdsProofs Cfa GraphSpec DfsSpec.

Section Dfs.
Variable succ : N -> list N.
Variable terminal : N -> bool.
Variable backedge : bool.

(** Big-step description of the traversal. *)
Inductive visit : list N -> list N -> N -> list event -> list N -> nat -> Prop :=
| v_term stk P n : terminal n = true -> visit stk P n [Pre n; Post n] (n :: P) 1
| v_node stk P n tr P' k : terminal n = false -> children stk n (n :: P) (succ n) tr P' k ->
    visit stk P n (Pre n :: tr ++ [Post n]) P' (S k)
with children : list N -> N -> list N -> list N -> list event -> list N -> nat -> Prop :=
| ch_nil stk n P : children stk n P [] [] P 0
| ch_old stk n P c cs tr P' k : In c P -> children stk n P cs tr P' k ->
    children stk n P (c :: cs)
      ((if backedge && mem c (n :: stk) then [Back n c] else []) ++ tr) P' (S k)
| ch_new stk n P c cs tr1 P1 k1 tr2 P2 k2 : ~ In c P -> visit (n :: stk) P c tr1 P1 k1 ->
    children stk n P1 cs tr2 P2 k2 -> children stk n P (c :: cs) (tr1 ++ tr2) P2 (S (k1 + k2)).

Scheme visit_ind2 := Induction for visit Sort Prop
with children_ind2 := Induction for children Sort Prop.
Combined Scheme visit_children_ind from visit_ind2, children_ind2.

Lemma find_mem work c : find_in_work_list work c = mem c (map fst work).
Proof.
  unfold find_in_work_list, mem. induction work as [|[a l] w IH]; simpl; auto.
  rewrite IH, N.eqb_sym. auto.
Qed.

Lemma option_map_app {A} (a b : list A) o :
  option_map (app a) (option_map (app b) o) = option_map (app (a ++ b)) o.
Proof. destruct o; simpl; auto. rewrite app_assoc; auto. Qed.

Lemma option_map_cons {A} (x : A) o : option_map (cons x) o = option_map (app [x]) o.
Proof. reflexivity. Qed.

Lemma option_map_nil {A} (o : option (list A)) : option_map (app []) o = o.
Proof. destruct o; auto. Qed.

(** The loop follows the big-step description. *)
Lemma loop_follows :
  (forall stk P n tr P' k, visit stk P n tr P' k ->
     incl stk P -> ~ In n P ->
     forall below fuel, map fst below = stk ->
     option_map (cons (Pre n)) (dfs_loop succ terminal backedge (k + fuel) (n :: P) ((n, succ n) :: below))
     = option_map (app tr) (dfs_loop succ terminal backedge fuel P' below)) /\
  (forall stk n P cs tr P' k, children stk n P cs tr P' k ->
     terminal n = false -> incl (n :: stk) P ->
     forall below fuel, map fst below = stk ->
     dfs_loop succ terminal backedge (k + fuel) P ((n, cs) :: below)
     = option_map (app tr) (dfs_loop succ terminal backedge fuel P' ((n, []) :: below))).
Proof.
  apply visit_children_ind.
  - intros stk P n T I Nin below fuel E. cbn [Nat.add dfs_loop]. rewrite T.
    rewrite !option_map_cons, option_map_app. reflexivity.
  - intros stk P n tr P' k T C IH I Nin below fuel E. 
    change (S k + fuel) with (S (k + fuel)).
    assert (I2 : incl (n :: stk) (n :: P)).
    { intros x [->|Hx]; [left|right]; auto. }
    specialize (IH T I2 below (S fuel) E).
    replace (S (k + fuel)) with (k + S fuel) by lia.
    rewrite IH. cbn [dfs_loop]. rewrite T.
    rewrite !option_map_cons, !option_map_app. reflexivity.
  - intros stk n P T I below fuel E. cbn [Nat.add]. rewrite option_map_nil; auto.
  - intros stk n P c cs tr P' k Hin C IH T I below fuel E.
    change (S k + fuel) with (S (k + fuel)). cbn [dfs_loop]. rewrite T.
    rewrite find_mem. cbn [map fst]. rewrite E.
    assert (M : mem c P = true) by (apply mem_In; auto). rewrite M.
    rewrite (IH T I below fuel E), option_map_app. reflexivity.
  - intros stk n P c cs tr1 P1 k1 tr2 P2 k2 Nin V IHv C IHc T I below fuel E.
    replace (S (k1 + k2) + fuel) with (S (k1 + (k2 + fuel))) by lia. cbn [dfs_loop]. rewrite T.
    rewrite find_mem. cbn [map fst]. rewrite E.
    assert (M : mem c P = false) by (apply mem_false; auto). rewrite M.
    assert (M2 : mem c (n :: stk) = false) by (apply mem_false; intro; apply Nin, I; auto).
    rewrite M2, andb_false_r.
    assert (PI : incl P P1 /\ True).
    { split; auto. clear -V.
      assert (G : (forall stk P n tr P' k, visit stk P n tr P' k -> incl P P') /\
                  (forall stk n P cs tr P' k, children stk n P cs tr P' k -> incl P P')).
      { apply visit_children_ind; intros; try (intros x; simpl; tauto).
        - intros x Hx. apply H. right; auto.
        - auto.
        - intros x Hx; auto. }
      destruct G as [G _]. exact (G _ _ _ _ _ _ V). }
    destruct PI as [PI _].
    specialize (IHv I Nin ((n, cs) :: below) (k2 + fuel)). cbn [map fst] in IHv. rewrite E in IHv.
    specialize (IHv eq_refl). 
    etransitivity; [exact IHv|].
    assert (I2 : incl (n :: stk) P1) by (intros x Hx; auto).
    rewrite (IHc T I2 below fuel E), option_map_app. reflexivity.
Qed.

Lemma processed_grows :
  (forall stk P n tr P' k, visit stk P n tr P' k -> exists new, P' = new ++ n :: P) /\
  (forall stk n P cs tr P' k, children stk n P cs tr P' k -> exists new, P' = new ++ P).
Proof.
  apply visit_children_ind; intros.
  - exists []; auto.
  - destruct H as [new ->]. exists new; auto.
  - exists []; auto.
  - auto.
  - destruct H as [n1 ->]. destruct H0 as [n2 ->]. exists (n2 ++ n1 ++ [c]). rewrite <- !app_assoc. auto.
Qed.

Lemma visit_incl stk P n tr P' k : visit stk P n tr P' k -> incl (n :: P) P'.
Proof.
  intros V x Hx. destruct (proj1 processed_grows _ _ _ _ _ _ V) as [new ->].
  apply in_or_app; auto.
Qed.
Lemma children_incl stk n P cs tr P' k : children stk n P cs tr P' k -> incl P P'.
Proof.
  intros V x Hx. destruct (proj2 processed_grows _ _ _ _ _ _ _ V) as [new ->].
  apply in_or_app; auto.
Qed.

(** Number of steps. *)
Definition cost (b : N) : nat := 2 + length (succ b).
Lemma steps_bound :
  (forall stk P n tr P' k, visit stk P n tr P' k ->
     exists new, P' = new ++ P /\ k <= list_sum (map cost new)) /\
  (forall stk n P cs tr P' k, children stk n P cs tr P' k ->
     exists new, P' = new ++ P /\ k <= length cs + list_sum (map cost new)).
Proof.
  apply visit_children_ind; intros.
  - exists [n]; split; auto. simpl; lia.
  - destruct H as [new [-> B]]. exists (new ++ [n]). rewrite <- app_assoc. split; auto.
    rewrite map_app, list_sum_app. simpl. fold cost. change (cost n) with (2 + length (succ n)). lia.
  - exists []; auto.
  - destruct H as [new [-> B]]. exists new; split; auto. simpl; lia.
  - destruct H as [n1 [-> B1]]. destruct H0 as [n2 [-> B2]].
    exists (n2 ++ n1). rewrite app_assoc. split; auto.
    rewrite map_app, list_sum_app. simpl. lia.
Qed.

Lemma nodup_grows :
  (forall stk P n tr P' k, visit stk P n tr P' k -> ~ In n P -> NoDup P -> NoDup P') /\
  (forall stk n P cs tr P' k, children stk n P cs tr P' k -> NoDup P -> NoDup P').
Proof.
  apply visit_children_ind; intros; auto.
  - constructor; auto.
  - apply H. constructor; auto.
Qed.

(** Existence of the big-step run on a finite graph. *)
Definition remaining (V P : list N) : nat := length (filter (fun v => negb (mem v P)) V).

Lemma remaining_le V P P' : incl P P' -> remaining V P' <= remaining V P.
Proof.
  intros I. unfold remaining. induction V as [|v V IH]; simpl; auto.
  destruct (mem v P) eqn:A.
  - assert (mem v P' = true) as -> by (apply mem_In, I, mem_In; auto). auto.
  - destruct (mem v P'); simpl; lia.
Qed.

Lemma remaining_lt V P n : In n V -> ~ In n P -> remaining V (n :: P) < remaining V P.
Proof.
  intros Hin Nin. unfold remaining. induction V as [|v V IH]; [contradiction|].
  assert (LE : remaining V (n :: P) <= remaining V P) by (apply remaining_le; right; auto).
  unfold remaining in LE. cbn [filter].
  destruct (N.eq_dec v n) as [->|ne].
  - assert (mem n (n :: P) = true) as -> by (apply mem_In; left; auto).
    assert (mem n P = false) as -> by (apply mem_false; auto). cbn [negb length]. lia.
  - destruct Hin as [->|Hin]; [congruence|]. specialize (IH Hin).
    assert (mem v (n :: P) = mem v P) as ->.
    { unfold mem; simpl. replace (N.eqb v n) with false by (symmetry; apply N.eqb_neq; auto). auto. }
    destruct (mem v P); cbn [negb length]; lia.
Qed.

Lemma run_exists V : closed_graph succ V ->
  forall m stk P n, remaining V P <= m -> In n V -> ~ In n P ->
  exists tr P' k, visit stk P n tr P' k.
Proof.
  intros Cl. induction m as [|m IH]; intros stk P n R Hin Nin.
  - pose proof (remaining_lt V P n Hin Nin). lia.
  - destruct (terminal n) eqn:T; [do 3 eexists; apply v_term; auto|].
    assert (G : forall cs P0, remaining V P0 <= m -> incl cs V -> 
      exists tr P' k, children stk n P0 cs tr P' k).
    { induction cs as [|c cs IHc]; intros P0 R0 I.
      - do 3 eexists; apply ch_nil.
      - assert (Ic : incl cs V) by (intros x Hx; apply I; right; auto).
        destruct (in_dec N.eq_dec c P0) as [Hc|Hc].
        + destruct (IHc P0 R0 Ic) as [tr [P' [k C]]]. do 3 eexists. apply ch_old; eauto.
        + destruct (IH (n :: stk) P0 c R0 (I c (or_introl eq_refl)) Hc) as [tr1 [P1 [k1 V1]]].
          assert (R1 : remaining V P1 <= m).
          { etransitivity; [|exact R0]. apply remaining_le. intros x Hx.
            apply (visit_incl _ _ _ _ _ _ V1). right; auto. }
          destruct (IHc P1 R1 Ic) as [tr2 [P2 [k2 C2]]].
          do 3 eexists. eapply ch_new; eauto. }
    destruct (G (succ n) (n :: P)) as [tr [P' [k C]]].
    + pose proof (remaining_lt V P n Hin Nin). lia.
    + intros c Hc. eapply Cl; eauto.
    + do 3 eexists. apply v_node; eauto.
Qed.

(** All visited blocks stay inside the graph. *)
Lemma processed_closed V : closed_graph succ V ->
  (forall stk P n tr P' k, visit stk P n tr P' k -> In n V -> incl P V -> incl P' V) /\
  (forall stk n P cs tr P' k, children stk n P cs tr P' k -> incl cs V -> incl P V -> incl P' V).
Proof.
  intros Cl. apply visit_children_ind; intros.
  - intros x [->|Hx]; auto.
  - apply H; auto. intros x Hx. eapply Cl; eauto. intros x [->|Hx]; auto.
  - auto.
  - apply H; auto. intros x Hx; apply H0; right; auto.
  - apply H0. intros x Hx; apply H1; right; auto. apply H; auto. apply H1; left; auto.
Qed.

Lemma list_sum_incl (f : N -> nat) (l V : list N) : NoDup l -> incl l V ->
  list_sum (map f l) <= list_sum (map f V).
Proof.
  revert V. induction l as [|x l IH]; intros V ND I; simpl; [lia|].
  inversion ND; subst.
  destruct (in_split x V (I x (or_introl eq_refl))) as [V1 [V2 ->]].
  rewrite map_app, list_sum_app. simpl.
  assert (incl l (V1 ++ V2)).
  { intros y Hy. assert (Hy' := I y (or_intror Hy)). apply in_app_or in Hy'. apply in_or_app.
    destruct Hy' as [|[->|]]; auto. contradiction. }
  specialize (IH _ H2 H). rewrite map_app, list_sum_app in IH. lia.
Qed.

Lemma traversal_run V entry : closed_graph succ V -> In entry V ->
  exists tr P k, visit [] [] entry tr P k /\
    depth_first_traversal succ terminal backedge (dfs_fuel succ V) entry = Some tr.
Proof.
  intros Cl Hin.
  destruct (run_exists V Cl _ [] [] entry (le_n _) Hin (fun x => x)) as [tr [P' [k R]]].
  exists tr, P', k. split; auto. unfold depth_first_traversal.
  assert (B : k <= list_sum (map cost V)).
  { destruct (proj1 steps_bound _ _ _ _ _ _ R) as [new [E B]]. rewrite app_nil_r in E; subst new.
    etransitivity; [exact B|]. apply list_sum_incl.
    - eapply (proj1 nodup_grows); eauto. constructor.
    - eapply (proj1 (processed_closed V Cl)); eauto. intros x []. }
  unfold dfs_fuel. fold cost. change (fun b => 2 + length (succ b)) with cost.
  assert (F : exists f, 2 + list_sum (map cost V) = k + S f).
  { exists (1 + list_sum (map cost V) - k). lia. }
  destruct F as [f ->].
  rewrite (proj1 loop_follows _ _ _ _ _ _ R (fun x H => match H with end) (fun x => x) [] (S f) eq_refl).
  simpl. rewrite app_nil_r. auto.
Qed.

(** Which blocks are reported. *)
Lemma pre_app a b : pre_blocks (a ++ b) = pre_blocks a ++ pre_blocks b.
Proof. unfold pre_blocks. apply flat_map_app. Qed.
Lemma post_app a b : post_blocks (a ++ b) = post_blocks a ++ post_blocks b.
Proof. unfold post_blocks. apply flat_map_app. Qed.
Lemma back_app x a b : back_targets x (a ++ b) = back_targets x a ++ back_targets x b.
Proof. unfold back_targets. apply flat_map_app. Qed.

Ltac backif := match goal with |- context [if backedge && ?x then _ else _] => destruct (backedge && x) eqn:? end.

Lemma blocks_reported :
  (forall stk P n tr P' k, visit stk P n tr P' k -> ~ In n P ->
     (forall x, In x (pre_blocks tr) <-> In x P' /\ ~ In x P) /\
     (forall x, In x (post_blocks tr) <-> In x P' /\ ~ In x P)) /\
  (forall stk n P cs tr P' k, children stk n P cs tr P' k ->
     (forall x, In x (pre_blocks tr) <-> In x P' /\ ~ In x P) /\
     (forall x, In x (post_blocks tr) <-> In x P' /\ ~ In x P)).
Proof.
  apply visit_children_ind.
  - intros stk P n T Nin. split; intros x; simpl; split.
    + intros [->|[]]; auto.
    + intros [[->|] ?]; tauto.
    + intros [->|[]]; auto.
    + intros [[->|] ?]; tauto.
  - intros stk P n tr P' k T C [IH1 IH2] Nin. 
    assert (I := children_incl _ _ _ _ _ _ _ C).
    split; intros x.
    + change (Pre n :: tr ++ [Post n]) with ([Pre n] ++ tr ++ [Post n]). rewrite !pre_app. simpl.
      rewrite app_nil_r. rewrite IH1. simpl. split.
      * intros [->|[A B]]; [|tauto]. split; auto. apply I; left; auto.
      * intros [A B]. destruct (N.eq_dec n x); auto. tauto.
    + change (Pre n :: tr ++ [Post n]) with ([Pre n] ++ tr ++ [Post n]). rewrite !post_app. simpl.
      rewrite in_app_iff, IH2. simpl. split.
      * intros [[A B]|[->|[]]]; [tauto|]. split; auto. apply I; left; auto.
      * intros [A B]. destruct (N.eq_dec n x); auto. left. tauto.
  - intros. split; intros; simpl; tauto.
  - intros stk n P c cs tr P' k Hin C [IH1 IH2]. backif; simpl; auto.
  - intros stk n P c cs tr1 P1 k1 tr2 P2 k2 Nin V IHv C [IH3 IH4].
    destruct (IHv Nin) as [IH1 IH2].
    assert (I1 := visit_incl _ _ _ _ _ _ V). assert (I2 := children_incl _ _ _ _ _ _ _ C).
    split; intros x; [rewrite pre_app, in_app_iff, IH1, IH3|rewrite post_app, in_app_iff, IH2, IH4].
    + split; [intros [[A B]|[A B]]; split; auto|]. 
      { intro; apply B, I1; right; auto. }
      intros [A B]. destruct (in_dec N.eq_dec x P1); auto.
    + split; [intros [[A B]|[A B]]; split; auto|]. 
      { intro; apply B, I1; right; auto. }
      intros [A B]. destruct (in_dec N.eq_dec x P1); auto.
Qed.

Lemma NoDup_app {A} (a b : list A) : NoDup a -> NoDup b -> (forall x, In x a -> ~ In x b) -> NoDup (a ++ b).
Proof.
  induction a as [|x a IH]; simpl; auto. intros Ha Hb D. inversion Ha; subst. constructor.
  - rewrite in_app_iff. intros [|]; auto. eapply D; eauto.
  - apply IH; auto.
Qed.

Lemma reported_once :
  (forall stk P n tr P' k, visit stk P n tr P' k -> ~ In n P ->
     NoDup (pre_blocks tr) /\ NoDup (post_blocks tr)) /\
  (forall stk n P cs tr P' k, children stk n P cs tr P' k -> 
     NoDup (pre_blocks tr) /\ NoDup (post_blocks tr)).
Proof.
  apply visit_children_ind.
  - intros. split; repeat constructor; auto.
  - intros stk P n tr P' k T C [IH1 IH2] Nin.
    destruct (proj2 blocks_reported _ _ _ _ _ _ _ C) as [B1 B2].
    change (Pre n :: tr ++ [Post n]) with ([Pre n] ++ tr ++ [Post n]). rewrite !pre_app, !post_app. simpl.
    rewrite app_nil_r. split.
    + constructor; auto. rewrite B1. simpl; tauto.
    + apply NoDup_app; auto. repeat constructor; auto. intros x Hx [->|[]]. rewrite B2 in Hx. simpl in Hx; tauto.
  - intros; split; constructor.
  - intros stk n P c cs tr P' k Hin C [IH1 IH2]. backif; simpl; auto.
  - intros stk n P c cs tr1 P1 k1 tr2 P2 k2 Nin V IHv C [IH3 IH4].
    destruct (IHv Nin) as [IH1 IH2].
    destruct (proj2 blocks_reported _ _ _ _ _ _ _ C) as [B1 B2].
    destruct (proj1 blocks_reported _ _ _ _ _ _ V Nin) as [B3 B4].
    rewrite pre_app, post_app. split; apply NoDup_app; auto; intros x Hx Hy.
    + rewrite B3 in Hx; rewrite B1 in Hy; tauto.
    + rewrite B4 in Hx; rewrite B2 in Hy; tauto.
Qed.

(** Reported blocks are reachable. *)
Lemma reported_reachable entry :
  (forall stk P n tr P' k, visit stk P n tr P' k ->
     reachable_until succ terminal entry n -> (forall x, In x P -> reachable_until succ terminal entry x) ->
     forall x, In x P' -> reachable_until succ terminal entry x) /\
  (forall stk n P cs tr P' k, children stk n P cs tr P' k ->
     (forall x, In x cs -> reachable_until succ terminal entry x) ->
     (forall x, In x P -> reachable_until succ terminal entry x) ->
     forall x, In x P' -> reachable_until succ terminal entry x).
Proof.
  apply visit_children_ind.
  - intros stk P n T R H x [->|Hx]; auto.
  - intros stk P n tr P' k T C IH R H x Hx. apply IH; auto.
    + intros c Hc. eapply ru_step; eauto.
    + intros y [->|Hy]; auto.
  - auto.
  - intros stk n P c cs tr P' k Hin C IH H1 H2. apply IH; auto. intros; apply H1; right; auto.
  - intros stk n P c cs tr1 P1 k1 tr2 P2 k2 Nin V IHv C IHc H1 H2. apply IHc.
    + intros; apply H1; right; auto.
    + apply IHv; auto. apply H1; left; auto.
Qed.

(** Every successor of a newly processed, non-terminal block is processed. *)
Lemma children_in stk n P cs tr P' k : children stk n P cs tr P' k -> incl cs P'.
Proof.
  revert stk n P tr P' k. induction cs as [|c cs IH]; intros stk n P tr P' k C x Hx; [contradiction|].
  inversion C; subst.
  - destruct Hx as [->|Hx]; [eapply children_incl; eauto | eapply IH; eauto].
  - destruct Hx as [->|Hx]; [|eapply IH; eauto].
    eapply children_incl; eauto. eapply visit_incl; eauto. left; auto.
Qed.

Lemma processed_saturated :
  (forall stk P n tr P' k, visit stk P n tr P' k ->
     forall x, In x P' -> ~ In x P -> terminal x = false -> incl (succ x) P') /\
  (forall stk n P cs tr P' k, children stk n P cs tr P' k ->
     forall x, In x P' -> ~ In x P -> terminal x = false -> incl (succ x) P').
Proof.
  apply visit_children_ind.
  - intros stk P n T x [->|Hx] Nx Tx; congruence || contradiction.
  - intros stk P n tr P' k T C IH x Hx Nx Tx.
    destruct (N.eq_dec n x) as [->|ne]; [eapply children_in; eauto|].
    apply IH; auto. intros [|]; auto.
  - intros; contradiction.
  - auto.
  - intros stk n P c cs tr1 P1 k1 tr2 P2 k2 Nin V IHv C IHc x Hx Nx Tx.
    destruct (in_dec N.eq_dec x P1) as [H1|H1]; [|apply IHc; auto].
    intros y Hy. eapply children_incl; eauto. eapply IHv; eauto.
Qed.

Lemma reachable_reported entry tr P k : visit [] [] entry tr P k ->
  forall x, reachable_until succ terminal entry x -> In x P.
Proof.
  intros V x R. induction R as [|b c R IH T Hc].
  - eapply visit_incl; eauto. left; auto.
  - eapply (proj1 processed_saturated); eauto.
Qed.

(** Stack discipline. *)
Lemma stack_app stk a b : stack_after stk (a ++ b) =
  match stack_after stk a with Some s => stack_after s b | None => None end.
Proof.
  revert stk. induction a as [|e a IH]; intros stk; simpl; auto.
  destruct e; simpl; auto. destruct stk; auto. destruct (N.eqb n b0); auto.
Qed.

Lemma stack_ok :
  (forall stk P n tr P' k, visit stk P n tr P' k -> stack_after stk tr = Some stk) /\
  (forall stk n P cs tr P' k, children stk n P cs tr P' k -> stack_after (n :: stk) tr = Some (n :: stk)).
Proof.
  apply visit_children_ind.
  - intros; simpl. rewrite N.eqb_refl. auto.
  - intros. simpl. rewrite stack_app, H. simpl. rewrite N.eqb_refl. auto.
  - auto.
  - intros. backif; simpl; auto.
  - intros. rewrite stack_app, H. auto.
Qed.

(** A property of every event in context: [Q l e] where [l] is the stack before it and
    the calls before it in the run. *)
Lemma app_split {A} (a b l r : list A) e : a ++ b = l ++ e :: r ->
  (exists r', a = l ++ e :: r' /\ r = r' ++ b) \/ (exists l', l = a ++ l' /\ b = l' ++ e :: r).
Proof.
  revert l. induction a as [|x a IH]; intros l H; simpl in *.
  - right. exists l; auto.
  - destruct l as [|y l]; simpl in *.
    + injection H as -> E. left. exists a. auto.
    + injection H as -> E. destruct (IH l E) as [[r' [-> ->]]|[l' [-> ->]]].
      * left. exists r'; auto.
      * right. exists l'; auto.
Qed.

Lemma if_singleton_split {A} (b : bool) (x : A) tr l e r :
  (if b then [x] else []) ++ tr = l ++ e :: r ->
  (b = true /\ l = [] /\ e = x /\ r = tr) \/
  (exists l', l = (if b then [x] else []) ++ l' /\ tr = l' ++ e :: r).
Proof.
  intros H. destruct b; simpl in *; [|right; eauto].
  destruct l; simpl in *; injection H as -> E; [left; auto|right; eauto].
Qed.

(** Every block but the entry is discovered along an edge from the innermost open block. *)
Lemma tree_edges :
  (forall stk P n tr P' k, visit stk P n tr P' k -> incl (stk) P ->
     forall l b r, tr = l ++ Pre b :: r ->
     exists s, stack_after stk l = Some s /\
     ((l = [] /\ b = n) \/ exists p s', s = p :: s' /\ terminal p = false /\ In b (succ p))) /\
  (forall stk n P cs tr P' k, children stk n P cs tr P' k -> terminal n = false -> incl cs (succ n) ->
     incl (n :: stk) P ->
     forall l b r, tr = l ++ Pre b :: r ->
     exists p s', stack_after (n :: stk) l = Some (p :: s') /\ terminal p = false /\ In b (succ p)).
Proof.
  apply visit_children_ind.
  - intros stk P n T I l b r E. destruct l as [|? [|? l]]; simpl in E; try discriminate.
    + injection E as <- _. exists stk; auto.
    + injection E as _ _ E. destruct l; discriminate.
  - intros stk P n tr P' k T C IH I l b r E. destruct l as [|e l]; simpl in E.
    + injection E as <- _. exists stk; auto.
    + injection E as <- E.
      destruct (app_split _ _ _ _ _ E) as [[r' [E1 E2]]|[l' [E1 E2]]].
      * destruct (IH T (incl_refl _)) with (l := l) (b := b) (r := r') as [p [s' [A [B D]]]]; auto.
        { intros x [->|Hx]; [left|right]; auto. }
        exists (p :: s'). split; auto. right. eauto.
      * destruct l' as [|? [|]]; discriminate.
  - intros. destruct l; discriminate.
  - intros stk n P c cs tr P' k Hin C IH T I1 I2 l b r E.
    apply if_singleton_split in E. destruct E as [[_ [_ [E _]]]|[l' [-> E]]]; [discriminate|].
    destruct (IH T) with (l := l') (b := b) (r := r) as [p [s' [A B]]]; auto.
    { intros x Hx; apply I1; right; auto. }
    exists p, s'. split; auto. rewrite stack_app. backif; simpl; auto.
  - intros stk n P c cs tr1 P1 k1 tr2 P2 k2 Nin V IHv C IHc T I1 I2 l b r E.
    destruct (app_split _ _ _ _ _ E) as [[r' [E1 E2]]|[l' [E1 E2]]].
    + destruct (IHv I2 l b r' E1) as [s [A [[-> ->]|[p [s' [-> B]]]]]].
      * exists n, stk. simpl. split; auto. split; auto. apply I1; left; auto.
      * exists p, s'. auto.
    + subst l. destruct (IHc T) with (l := l') (b := b) (r := r) as [p [s' [A B]]]; auto.
      { intros x Hx; apply I1; right; auto. }
      { intros x Hx; eapply visit_incl; eauto. right; auto. }
      exists p, s'. split; auto. rewrite stack_app, (proj1 stack_ok _ _ _ _ _ _ V). auto.
Qed.

(** During a visit the stack below stays in place. *)
Lemma stack_shape :
  (forall stk P n tr P' k, visit stk P n tr P' k ->
     forall l r, tr = l ++ r -> exists s, stack_after stk l = Some (s ++ stk)) /\
  (forall stk n P cs tr P' k, children stk n P cs tr P' k ->
     forall l r, tr = l ++ r -> exists s, stack_after (n :: stk) l = Some (s ++ n :: stk)).
Proof.
  assert (SP : forall (A : Type) (a b l r : list A), a ++ b = l ++ r ->
     (exists r', a = l ++ r') \/ (exists l', l = a ++ l' /\ b = l' ++ r)).
  { intros A a. induction a as [|x a IH]; intros b l r E; simpl in *.
    - right. exists l; auto.
    - destruct l as [|y l]; simpl in *; [left; eauto|]. injection E as -> E.
      destruct (IH _ _ _ E) as [[r' ->]|[l' [-> ->]]]; [left; eauto|right; exists l'; auto]. }
  apply visit_children_ind.
  - intros stk P n T l r E. destruct l as [|e1 l]; [exists []; auto|].
    injection E as <- E. destruct l as [|e2 l]; [exists [n]; auto|].
    injection E as <- E. destruct l; [|discriminate]. exists []. simpl. rewrite N.eqb_refl. auto.
  - intros stk P n tr P' k T C IH l r E. destruct l as [|e1 l]; [exists []; auto|].
    injection E as <- E. simpl. destruct (SP _ _ _ _ _ E) as [[r' E1]|[l' [-> E2]]].
    + destruct (IH l r' E1) as [s S]. exists (s ++ [n]). rewrite S, <- app_assoc. auto.
    + rewrite stack_app, (proj2 stack_ok _ _ _ _ _ _ _ C).
      destruct l' as [|e2 l']; [exists [n]; auto|]. injection E2 as <- E2.
      destruct l'; [|discriminate]. exists []. simpl. rewrite N.eqb_refl. auto.
  - intros. destruct l; [|discriminate]. exists []; auto.
  - intros stk n P c cs tr P' k Hin C IH l r E.
    destruct (backedge && mem c (n :: stk)); simpl in E; [|eapply IH; eauto].
    destruct l as [|e l]; [exists []; auto|]. injection E as <- E. simpl. eapply IH; eauto.
  - intros stk n P c cs tr1 P1 k1 tr2 P2 k2 Nin V IHv C IHc l r E.
    destruct (SP _ _ _ _ _ E) as [[r' E1]|[l' [-> E2]]].
    + eapply IHv; eauto.
    + rewrite stack_app, (proj1 stack_ok _ _ _ _ _ _ V). eapply IHc; eauto.
Qed.

(** When a block is finished it is the innermost open one, and each of its successors
    has been finished or is still open. *)
Lemma successors_done :
  (forall stk P n tr P' k, visit stk P n tr P' k -> ~ In n P ->
     forall l b r, tr = l ++ Post b :: r -> terminal b = false ->
     forall c, In c (succ b) ->
     In c (post_blocks l) \/ (exists s, stack_after stk l = Some s /\ In c s) \/ In c P) /\
  (forall stk n P cs tr P' k, children stk n P cs tr P' k ->
     (forall l b r, tr = l ++ Post b :: r -> terminal b = false ->
     forall c, In c (succ b) ->
     In c (post_blocks l) \/ (exists s, stack_after (n :: stk) l = Some s /\ In c s) \/ In c P)).
Proof.
  apply visit_children_ind.
  - intros stk P n T Nin l b r E Tb c Hc. destruct l as [|? [|? l]]; simpl in E; try discriminate.
    + injection E as _ <- _. congruence.
    + injection E as _ _ E. destruct l; discriminate.
  - intros stk P n tr P' k T C IH Nin l b r E Tb c Hc. destruct l as [|e l]; simpl in E; [discriminate|].
    injection E as <- E.
    destruct (app_split _ _ _ _ _ E) as [[r' [E1 E2]]|[l' [E1 E2]]].
    + destruct (IH l b r' E1 Tb c Hc) as [|[[s [A B]]|[<-|H]]]; auto.
      * right; left. exists s; auto.
      * right; left. destruct (proj2 stack_shape _ _ _ _ _ _ _ C _ _ E1) as [s S].
        exists (s ++ n :: stk). split; auto. apply in_or_app; right; left; auto.
    + destruct l' as [|? [|]]; try discriminate. simpl in E2. injection E2 as <- _.
      rewrite app_nil_r in E1. subst l.
      assert (Hc' := children_in _ _ _ _ _ _ _ C c Hc).
      destruct (in_dec N.eq_dec c (n :: P)) as [[<-|H]|H]; auto.
      * right; left. exists (n :: stk). simpl. rewrite (proj2 stack_ok _ _ _ _ _ _ _ C). split; auto; left; auto.
      * left. simpl. apply (proj2 blocks_reported _ _ _ _ _ _ _ C). auto.
  - intros. destruct l; discriminate.
  - intros stk n P c cs tr P' k Hin C IH l b r E Tb d Hd.
    apply if_singleton_split in E. destruct E as [[_ [_ [E _]]]|[l' [-> E]]]; [discriminate|].
    destruct (IH l' b r E Tb d Hd) as [H|[[s [A B]]|H]]; auto.
    + left. rewrite post_app, in_app_iff. auto.
    + right; left. exists s. split; auto. rewrite stack_app. backif; simpl; auto.
  - intros stk n P c cs tr1 P1 k1 tr2 P2 k2 Nin V IHv C IHc l b r E Tb d Hd.
    destruct (app_split _ _ _ _ _ E) as [[r' [E1 E2]]|[l' [-> E2]]].
    + apply (IHv Nin l b r' E1 Tb d Hd).
    + destruct (IHc l' b r E2 Tb d Hd) as [H|[[s [A B]]|H]].
      * left. rewrite post_app, in_app_iff. auto.
      * right; left. exists s. split; auto. rewrite stack_app, (proj1 stack_ok _ _ _ _ _ _ V). auto.
      * destruct (in_dec N.eq_dec d P) as [|Np]; auto.
        left. rewrite post_app, in_app_iff. left. apply (proj1 blocks_reported _ _ _ _ _ _ V Nin). auto.
Qed.

(** Back edges. *)
Lemma back_targets_other :
  (forall stk P n tr P' k, visit stk P n tr P' k -> ~ In n P -> forall x, In x P -> back_targets x tr = []) /\
  (forall stk n P cs tr P' k, children stk n P cs tr P' k -> forall x, In x P -> x <> n -> back_targets x tr = []).
Proof.
  apply visit_children_ind.
  - auto.
  - intros stk P n tr P' k T C IH Nin x Hx.
    change (Pre n :: tr ++ [Post n]) with ([Pre n] ++ tr ++ [Post n]). rewrite !back_app. simpl.
    rewrite IH; auto. right; auto. intros ->; auto.
  - auto.
  - intros stk n P c cs tr P' k Hin C IH x Hx ne. rewrite back_app, IH; auto.
    backif; simpl; auto. replace (N.eqb n x) with false; auto. symmetry; apply N.eqb_neq; auto.
  - intros stk n P c cs tr1 P1 k1 tr2 P2 k2 Nin V IHv C IHc x Hx ne.
    rewrite back_app, IHv, IHc; auto. eapply visit_incl; eauto. right; auto.
Qed.

Lemma filter_none {A} (f : A -> bool) l : (forall x, In x l -> f x = false) -> filter f l = [].
Proof. induction l; simpl; intros H; auto. rewrite H; auto. Qed.

Lemma back_targets_own :
  (forall stk P n tr P' k, visit stk P n tr P' k -> ~ In n P -> incl stk P ->
     back_targets n tr = (if terminal n then [] else filter (fun c => backedge && mem c (n :: stk)) (succ n))) /\
  (forall stk n P cs tr P' k, children stk n P cs tr P' k -> incl (n :: stk) P ->
     back_targets n tr = filter (fun c => backedge && mem c (n :: stk)) cs).
Proof.
  apply visit_children_ind.
  - intros stk P n T Nin I. rewrite T. auto.
  - intros stk P n tr P' k T C IH Nin I. rewrite T.
    change (Pre n :: tr ++ [Post n]) with ([Pre n] ++ tr ++ [Post n]). rewrite !back_app. simpl.
    rewrite app_nil_r, IH; auto. intros x [->|Hx]; [left|right]; auto.
  - auto.
  - intros stk n P c cs tr P' k Hin C IH I. rewrite back_app, IH; auto. cbn [filter].
    destruct (backedge && mem c (n :: stk)); simpl; auto. rewrite N.eqb_refl; auto.
  - intros stk n P c cs tr1 P1 k1 tr2 P2 k2 Nin V IHv C IHc I.
    rewrite back_app, (proj1 back_targets_other _ _ _ _ _ _ V Nin); [|apply I; left; auto].
    cbn [app filter]; assert (mem c (n :: stk) = false) as -> by (apply mem_false; intro; apply Nin, I; auto).
    rewrite andb_false_r. apply IHc. intros x Hx. eapply visit_incl; eauto. right; auto.
Qed.

Lemma pre_in_pre b l r : In b (pre_blocks (l ++ Pre b :: r)).
Proof. rewrite pre_app. apply in_or_app. right. simpl; auto. Qed.

Lemma back_targets_exact :
  (forall stk P n tr P' k, visit stk P n tr P' k -> ~ In n P -> incl stk P ->
     forall l a r, tr = l ++ Pre a :: r ->
     exists s, stack_after stk l = Some s /\
     back_targets a tr = if terminal a then [] else filter (fun c => backedge && mem c (a :: s)) (succ a)) /\
  (forall stk n P cs tr P' k, children stk n P cs tr P' k -> incl (n :: stk) P ->
     forall l a r, tr = l ++ Pre a :: r ->
     exists s, stack_after (n :: stk) l = Some s /\
     back_targets a tr = if terminal a then [] else filter (fun c => backedge && mem c (a :: s)) (succ a)).
Proof.
  apply visit_children_ind.
  - intros stk P n T Nin I l a r E. destruct l as [|? [|? l]]; simpl in E; try discriminate.
    + injection E as <- _. exists stk. rewrite T. auto.
    + injection E as _ _ E. destruct l; discriminate.
  - intros stk P n tr P' k T C IH Nin I l a r E.
    assert (V : visit stk P n (Pre n :: tr ++ [Post n]) P' (S k)) by (apply v_node; auto).
    destruct l as [|e l]; simpl in E.
    + injection E as <- _. exists stk. split; auto. apply (proj1 back_targets_own _ _ _ _ _ _ V); auto.
    + injection E as <- E.
      destruct (app_split _ _ _ _ _ E) as [[r' [E1 E2]]|[l' [E1 E2]]].
      * destruct (IH) with (l := l) (a := a) (r := r') as [s [A B]]; auto.
        { intros x [->|Hx]; [left|right]; auto. }
        exists s. split; auto.
        change (Pre n :: tr ++ [Post n]) with ([Pre n] ++ tr ++ [Post n]). rewrite !back_app. simpl.
        rewrite app_nil_r. auto.
      * destruct l' as [|? [|]]; discriminate.
  - intros. destruct l; discriminate.
  - intros stk n P c cs tr P' k Hin C IH I l a r E.
    assert (E0 := E).
    apply if_singleton_split in E. destruct E as [[_ [_ [E _]]]|[l' [El E]]]; [discriminate|].
    destruct (IH I l' a r E) as [s [A B]]. exists s. split.
    + subst l. rewrite stack_app. backif; simpl; auto.
    + rewrite back_app, B. backif; simpl; auto.
      replace (N.eqb n a) with false; auto. symmetry. apply N.eqb_neq. intros <-.
      assert (Hn : In n (pre_blocks tr)) by (rewrite E; apply pre_in_pre).
      apply (proj2 blocks_reported _ _ _ _ _ _ _ C) in Hn. apply (proj2 Hn), I. left; auto.
  - intros stk n P c cs tr1 P1 k1 tr2 P2 k2 Nin V IHv C IHc I l a r E.
    destruct (app_split _ _ _ _ _ E) as [[r' [E1 E2]]|[l' [-> E2]]].
    + destruct (IHv Nin I l a r' E1) as [s [A B]]. exists s. split; auto.
      rewrite back_app, B.
      assert (Ha : In a (pre_blocks tr1)) by (rewrite E1; apply pre_in_pre).
      apply (proj1 blocks_reported _ _ _ _ _ _ V Nin) in Ha.
      rewrite (proj2 back_targets_other _ _ _ _ _ _ _ C); [apply app_nil_r|tauto|].
      intros ->. apply (proj2 Ha), I. left; auto.
    + assert (I1 : incl (n :: stk) P1) by (intros x Hx; eapply visit_incl; eauto; right; auto).
      destruct (IHc I1 l' a r E2) as [s [A B]]. exists s. split.
      * rewrite stack_app, (proj1 stack_ok _ _ _ _ _ _ V). auto.
      * rewrite back_app, B.
        assert (Ha : In a (pre_blocks tr2)) by (rewrite E2; apply pre_in_pre).
        apply (proj2 blocks_reported _ _ _ _ _ _ _ C) in Ha.
        assert (back_targets a tr1 = []) as ->; [|reflexivity].
        assert (NB : forall x tr0, In x (back_targets a tr0) -> exists l1 r1, tr0 = l1 ++ Back a x :: r1).
        { intros x tr0. induction tr0 as [|e tr0 IH]; simpl; [intros []|].
          intros Hx. apply in_app_or in Hx. destruct Hx as [Hx|Hx].
          - destruct e as [?|?|e1 e2]; try contradiction.
            destruct (N.eqb e1 a) eqn:Q; [|contradiction]. apply N.eqb_eq in Q. subst.
            destruct Hx as [<-|[]]. exists [], tr0; auto.
          - destruct (IH Hx) as [l1 [r1 ->]]. exists (e :: l1), r1; auto. }
        assert (BS : (forall stk P n tr P' k, visit stk P n tr P' k -> forall x y, In (Back x y) tr -> In x P') /\
                     (forall stk n P cs tr P' k, children stk n P cs tr P' k -> In n P -> forall x y, In (Back x y) tr -> In x P')).
        { apply visit_children_ind.
          - intros ? ? ? ? ? ? [|[|[]]]; discriminate.
          - intros ? ? ? ? ? ? ? ? IH0 x y [|Hx]; [discriminate|]. apply in_app_or in Hx.
            destruct Hx as [|[|[]]]; [|discriminate]. eapply IH0; eauto. left; auto.
          - intros ? ? ? ? ? ? [].
          - intros stk0 n0 P0 c0 cs0 tr0 P0' k0 Hin0 C0 IH0 Hn x y Hx. apply in_app_or in Hx.
            destruct Hx as [Hx|Hx]; [|eapply IH0; eauto].
            destruct (backedge && mem c0 (n0 :: stk0)); [destruct Hx as [Hx|[]]|destruct Hx].
            injection Hx as <- _. eapply children_incl; eauto.
          - intros stk0 n0 P0 c0 cs0 tr01 P01 k01 tr02 P02 k02 Nin0 V0 IHv0 C0 IHc0 Hn x y Hx.
            apply in_app_or in Hx. destruct Hx as [Hx|Hx].
            + eapply children_incl; eauto.
            + eapply IHc0; eauto. eapply visit_incl; eauto. right; auto. }
        destruct (back_targets a tr1) as [|y ys] eqn:Q; auto. exfalso.
        destruct (NB y tr1) as [l1 [r1 E1]]; [rewrite Q; left; auto|].
        apply (proj2 Ha). eapply (proj1 BS); [exact V|]. rewrite E1. apply in_or_app; right; left; auto.
Qed.
End Dfs.
