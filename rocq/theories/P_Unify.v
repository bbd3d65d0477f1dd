(** C60: unifying constants. *)
From Verif Require Import Base Unify UnifySpec UnifyProofs.
Local Open Scope N_scope.

(** An id is only replaced by one with the same value, whatever constants mean. *)
Theorem unify_values : forall deco l s gone, valid l -> unify deco l = (s, gone) -> forall V (sem : opcode -> V -> list (V + N) -> V) v, consistent sem v l -> forall x, v (s x) = v x.
Proof. intros deco l s gone Vl E. destruct (unify_ok deco l Vl) as (t & I). rewrite E in I. exact (in_values _ _ _ _ _ _ I). Qed.
(** What is removed is a constant without decorations; nothing else is replaced, and nothing is replaced by something that is removed. *)
Theorem unify_removes : forall deco l s gone, valid l -> unify deco l = (s, gone) ->
  (forall x, In x gone -> exists i, In i l /\ res i = x /\ may deco i) /\ (forall x, s x <> x -> In x gone) /\ forall x, ~ In (s x) gone.
Proof.
  intros deco l s gone Vl E. destruct (unify_ok deco l Vl) as (t & I). rewrite E in I. cbn [fst snd] in I. split; [intros x H; destruct (in_gone _ _ _ _ _ _ I x H) as (i & A & B & C); eauto|]. split; [|exact (in_not _ _ _ _ _ _ I)].
  intros x H. destruct (in_from _ _ _ _ _ _ I x) as [K|[K _]]; [contradiction|exact K].
Qed.
(** What is left: the other instructions, in order, with the ids replaced. *)
Theorem unify_result : forall deco l s gone, unify deco l = (s, gone) -> exists p, result deco l = map (rename s) (filter p l) /\ forall i, p i = true <-> ~ In (res i) gone.
Proof.
  intros deco l s gone E. unfold result. rewrite E. eexists. split; [reflexivity|]. intros i. cbn beta. rewrite negb_true_iff. split.
  - intros H K. assert (T : existsb (N.eqb (res i)) gone = true) by (apply existsb_exists; exists (res i); split; [exact K|apply N.eqb_refl]). congruence.
  - intros H. destruct (existsb (N.eqb (res i)) gone) eqn:T; [|reflexivity]. apply existsb_exists in T. destruct T as (x & Hx & Ex). apply N.eqb_eq in Ex. subst x. contradiction.
Qed.
(** No constant is left twice: two that are left, without decorations, differ in opcode, type or operands. *)
Theorem unify_all : forall deco l, valid l -> forall i j, In i (result deco l) -> In j (result deco l) -> may deco i -> may deco j -> op i = op j -> ty i = ty j -> ops i = ops j -> i = j.
Proof.
  intros deco l Vl i j Hi Hj Mi Mj Eo Et Es. destruct (unify deco l) as [s gone] eqn:E. destruct (unify_result deco l s gone E) as (p & R & P). destruct (unify_ok deco l Vl) as (t & I). rewrite E in I. cbn [fst snd] in I.
  rewrite R in Hi, Hj. apply in_map_iff in Hi. destruct Hi as (i' & <- & Hi). apply in_map_iff in Hj. destruct Hj as (j' & <- & Hj). apply filter_In in Hi. destruct Hi as [Hi Pi]. apply filter_In in Hj. destruct Hj as [Hj Pj]. apply P in Pi. apply P in Pj.
  pose proof (in_all _ _ _ _ _ _ I i' Hi Mi Pi) as Ti. pose proof (in_all _ _ _ _ _ _ I j' Hj Mj Pj) as Tj. assert (K : key (rename s i') = key (rename s j')) by (unfold key; rewrite Eo, Et, Es; reflexivity). rewrite K in Ti.
  pose proof (in_keys _ _ _ _ _ _ I _ _ _ Ti Tj) as Er. unfold rename in *. cbn [op ty ops] in *. congruence.
Qed.
(** All constants keep their values, and their uses with them. *)
Theorem unify_consistent : forall deco l, valid l -> forall V (sem : opcode -> V -> list (V + N) -> V) v, consistent sem v l -> consistent sem v (result deco l).
Proof.
  intros deco l Vl V sem v C i Hi U. destruct (unify deco l) as [s gone] eqn:E. pose proof (unify_values deco l s gone Vl E V sem v C) as W. destruct (unify_result deco l s gone E) as (p & R & P). rewrite R in Hi. apply in_map_iff in Hi. destruct Hi as (j & <- & Hj). apply filter_In in Hj. destruct Hj as [Hj _].
  cbn [rename op ty ops res] in *. rewrite (C j Hj U), W, map_map. f_equal. apply map_ext. intros [x|w]; cbn; [rewrite W|]; reflexivity.
Qed.

(** ** Example: two equal constants, composites of them, a decorated one, and a sum *)
Definition ex_l := [mkinst (Other 21) 0 1 [Lit 32; Lit 0]; mkinst (Other 23) 0 2 [Id 1; Lit 2]; mkinst Constant 1 3 [Lit 7]; mkinst Constant 1 4 [Lit 7]; mkinst Constant 1 5 [Lit 7]; mkinst Composite 2 6 [Id 3; Id 4]; mkinst Composite 2 7 [Id 4; Id 3];
  mkinst SpecComposite 2 8 [Id 4; Id 3]; mkinst (SpecOp 128) 1 9 [Id 3; Id 5]; mkinst (SpecOp 128) 1 10 [Id 4; Id 5]; mkinst (SpecOp 132) 1 11 [Id 4; Id 5]; mkinst (Other 28) 0 12 [Id 2; Id 4]].
Definition ex_deco (x : N) : bool := x =? 5.
Example ex_result : result ex_deco ex_l = [mkinst (Other 21) 0 1 [Lit 32; Lit 0]; mkinst (Other 23) 0 2 [Id 1; Lit 2]; mkinst Constant 1 3 [Lit 7]; mkinst Constant 1 5 [Lit 7]; mkinst Composite 2 6 [Id 3; Id 3];
  mkinst SpecComposite 2 8 [Id 3; Id 3]; mkinst (SpecOp 128) 1 9 [Id 3; Id 5]; mkinst (SpecOp 132) 1 11 [Id 3; Id 5]; mkinst (Other 28) 0 12 [Id 2; Id 3]].
Proof. reflexivity. Qed.
Fixpoint check (a l : list inst) : Prop := match l with [] => True | i :: b => (constant (op i) = true -> (res i <> 0 /\ ~ In (res i) (map res a) /\ ~ In (res i) (map res b)) /\ Forall (fun x => ~ In x (map res (i :: b))) (ids i)) /\ check (a ++ [i]) b end.
Lemma check_ok : forall l c, check c l -> forall a i b, l = a ++ i :: b -> constant (op i) = true -> (res i <> 0 /\ ~ In (res i) (map res (c ++ a)) /\ ~ In (res i) (map res b)) /\ Forall (fun x => ~ In x (map res (i :: b))) (ids i).
Proof.
  induction l as [|k l IH]; intros c H a i b E U; [destruct a; discriminate|]. destruct H as [H1 H2]. destruct a as [|k' a]; injection E as -> E.
  - subst l. rewrite app_nil_r. exact (H1 U).
  - specialize (IH _ H2 a i b E U). rewrite <- app_assoc in IH. exact IH.
Qed.
Example ex_valid : valid ex_l.
Proof.
  assert (C : check [] ex_l) by (cbn; repeat split; try discriminate; repeat constructor; cbn; intuition discriminate). constructor.
  - intros a i b E U. exact (proj1 (check_ok ex_l [] C a i b E U)).
  - intros a i b x E U H. exact (proj1 (Forall_forall _ _) (proj2 (check_ok ex_l [] C a i b E U)) x H).
  - assert (A : Forall (fun i => Forall (fun j => constant (op i) = true -> op i = op j -> length (ops i) = length (ops j) -> kinds i = kinds j) ex_l) ex_l) by (unfold ex_l; repeat constructor; cbn; congruence).
    intros i j Hi Hj. exact (proj1 (Forall_forall _ _) (proj1 (Forall_forall _ _) A i Hi) j Hj).
Qed.
(** numbers as values: a meaning of constants for which the example is consistent *)
Example ex_consistent : exists (sem : opcode -> N -> list (N + N) -> N) v, consistent sem v ex_l /\ v 3 <> v 11.
Proof.
  exists (fun o _ k => match o, k with Constant, [inr w] => w | SpecOp 128, [inl a; inl b] => a + b | SpecOp 132, [inl a; inl b] => a * b | _, _ => 0 end), (fun x => if x =? 9 then 14 else if x =? 10 then 14 else if x =? 11 then 49 else if x <=? 2 then 1 else if x <=? 5 then 7 else 0).
  split; [|discriminate]. intros i Hi U. cbn in Hi. repeat (destruct Hi as [<-|Hi]; [first [discriminate U|reflexivity]|]). destruct Hi.
Qed.

Print Assumptions unify_values.
Print Assumptions unify_removes.
Print Assumptions unify_result.
Print Assumptions unify_all.
Print Assumptions unify_consistent.
