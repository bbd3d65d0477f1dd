(** Proofs about the loop dependence tests: the bounds of a loop, and the tests over one loop. *)
From Verif Require Import Base Scev ScevSpec ScevProofs ScevProofs2 LoopDep LoopDepSpec LoopDepProofs.
From Coq Require Import Permutation Lia ZArith.
Local Open Scope Z_scope.
Set Default Proof Using "Type".

(** * Executed iterations *)
Definition last_of (r : loop_run) : Z :=
  match r_op r with
  | C_lt => r_limit r - 1
  | C_gt => r_limit r + 1
  | _ => r_limit r
  end.
Lemma executes_bounds r k : counts r -> executes r k ->
  0 <= k /\ ((r_step r = 1 /\ r_init r + k <= last_of r) \/ (r_step r = -1 /\ last_of r <= r_init r - k)).
Proof.
  intros C [K H]. specialize (H k ltac:(lia)). split; auto. unfold last_of, holds in *.
  destruct C as [[S [E|E]] | [S [E|E]]]; rewrite S, E in *; [left | left | right | right]; split; auto; lia.
Qed.

Lemma const_of_some n v : const_of n = Some v -> n = NConst v.
Proof. destruct n; try discriminate. cbn. intros [= ->]. reflexivity. Qed.

Section Order.
Variables (uid addr : node -> N) (laddr : N -> N) (f : nat).
Notation simp := (simplify uid addr laddr (S (S f))).

(** An expression known to be [v]. *)
Definition is_val (env : N -> Z) (n : node) (v : Z) : Prop := lin n /\ forall it, val env it n = v.
Lemma is_val_const env v w : is_val env (NConst v) w <-> v = w.
Proof. clear. split; [intros [_ H]; apply (H (fun _ => 0)) | intros ->; split; [apply lin_const | reflexivity]]. Qed.
Lemma is_val_const_of env n v w : is_val env n v -> const_of n = Some w -> w = v.
Proof. clear. intros H E. apply const_of_some in E. subst. apply is_val_const in H. auto. Qed.
Lemma is_val_simp env n v : is_val env n v -> exists m, simp n = SOk m /\ is_val env m v.
Proof.
  intros [L V]. destruct (simplify_linear uid addr laddr (S f) n L) as (m & S1 & Lm & Vm).
  exists m. split; auto. split; auto. intros it. rewrite <- Vm. auto.
Qed.
Lemma is_val_sub env a b v w : is_val env a v -> is_val env b w ->
  exists m, simp (create_subtraction uid a b) = SOk m /\ is_val env m (v - w).
Proof.
  intros [L V] [L' V']. apply is_val_simp. split; [apply lin_subtraction; auto|].
  intros it. rewrite val_subtraction; [|apply L | apply L']. rewrite V, V'. reflexivity.
Qed.
Lemma is_val_add env a b v w : is_val env a v -> is_val env b w ->
  exists m, simp (create_add uid a b) = SOk m /\ is_val env m (v + w).
Proof.
  intros [L V] [L' V']. apply is_val_simp. split; [apply lin_add; auto|].
  intros it. rewrite val_create_add; [|apply L | apply L']. rewrite V, V'. reflexivity.
Qed.

Variables (env : N -> Z) (d : loop_desc) (r : loop_run).
Hypothesis D : described env d r.

Lemma lower_right : exists o, lower_bound uid addr laddr (S (S f)) d = SOk o /\
  (forall n, o = Some n -> is_val env n (r_init r)).
Proof using D.
  unfold lower_bound. destruct (ld_cond d) as [[[op [lo|]] up]|] eqn:E.
  - destruct (de_cond _ _ _ D _ _ _ E) as (_ & _ & H). specialize (H _ eq_refl). apply linear_value_lin in H.
    destruct (is_val_simp _ _ _ H) as (m & -> & Hm). cbn [sbind]. eexists. split; [reflexivity|]. intros n [= <-]. auto.
  - exists None. split; auto. discriminate.
  - exists None. split; auto. discriminate.
Qed.
Lemma upper_right : exists o, upper_bound uid addr laddr (S (S f)) d = SOk o /\
  (forall n, o = Some n -> is_val env n (last_of r)).
Proof using D.
  unfold upper_bound, last_of. destruct (ld_cond d) as [[[op lo] up]|] eqn:E.
  2:{ exists None. split; auto. discriminate. }
  destruct (de_cond _ _ _ D _ _ _ E) as (-> & H & _). apply linear_value_lin in H.
  destruct (r_op r).
  - destruct (is_val_sub env up (NConst 1) _ 1 H) as (m & -> & Hm); [apply is_val_const; auto|].
    cbn [sbind]. eexists. split; [reflexivity|]. intros n [= <-]. auto.
  - destruct (is_val_add env up (NConst 1) _ 1 H) as (m & -> & Hm); [apply is_val_const; auto|].
    cbn [sbind]. eexists. split; [reflexivity|]. intros n [= <-]. auto.
  - destruct (is_val_simp _ _ _ H) as (m & -> & Hm). cbn [sbind]. eexists. split; [reflexivity|]. intros n [= <-]. auto.
  - destruct (is_val_simp _ _ _ H) as (m & -> & Hm). cbn [sbind]. eexists. split; [reflexivity|]. intros n [= <-]. auto.
Qed.
Lemma constant_right n v : is_val env n v ->
  exists o, constant_term uid addr laddr (S (S f)) d n = SOk o /\
  (forall n, o = Some n -> is_val env n (v - r_init r)) /\
  (forall lo, lower_bound uid addr laddr (S (S f)) d = SOk (Some lo) -> o <> None) /\
  (forall c lo, n = NConst c -> lower_bound uid addr laddr (S (S f)) d = SOk (Some (NConst lo)) -> o = Some (NConst (c - lo))).
Proof using D.
  intros H. unfold constant_term. destruct lower_right as (o & L & Ho). rewrite L. cbn [sbind].
  destruct o as [lo|].
  - destruct (is_val_sub env n lo v (r_init r) H (Ho _ eq_refl)) as (m & Sm & Hm). rewrite Sm. cbn [sbind].
    eexists. split; [reflexivity|]. split; [intros ? [= <-]; auto|]. split; [intros; discriminate|].
    intros c lo' -> [= ->]. cbn in Sm. congruence.
  - exists None. split; auto. split; [discriminate|]. split; [discriminate|]. discriminate.
Qed.

(** * The symbolic strong test *)
Lemma outside_right dist c v : is_val env dist v -> (c = r_step r) -> counts r ->
  exists b, outside_of_bounds uid addr laddr (S (S f)) d dist (NConst c) = SOk b /\
  (b = true -> forall k k', executes r k -> executes r k' -> v <> c * (k' - k)).
Proof using D.
  intros Hd -> C. unfold outside_of_bounds. cbn [const_of].
  destruct lower_right as (lo & -> & Hl). destruct upper_right as (up & -> & Hu). cbn [sbind].
  destruct lo as [lo|]; [|exists false; split; [auto|discriminate]].
  destruct up as [up|]; [|exists false; split; [auto|discriminate]].
  specialize (Hl _ eq_refl). specialize (Hu _ eq_refl).
  assert (B : exists m, (if 0 <=? r_step r then simp (create_subtraction uid up lo)
                         else simp (create_subtraction uid lo up)) = SOk m /\
     is_val env m (if 0 <=? r_step r then last_of r - r_init r else r_init r - last_of r)).
  { destruct (0 <=? r_step r); apply is_val_sub; auto. }
  destruct B as (bd & -> & Hb). cbn [sbind].
  destruct (is_val_sub env dist bd _ _ Hd Hb) as (m & -> & Hm). cbn [sbind].
  destruct (const_of m) as [w|] eqn:Em; [|exists false; split; [auto|discriminate]].
  apply (is_val_const_of _ _ _ _ Hm) in Em. subst w.
  eexists. split; [reflexivity|]. intros P k k' K K'. apply Z.ltb_lt in P.
  destruct (executes_bounds r k C K) as (K0 & K1). destruct (executes_bounds r k' C K') as (K0' & K1').
  destruct C as [[S _]|[S _]]; rewrite S in *; cbn [Z.leb Z.compare] in P; lia.
Qed.
End Order.
