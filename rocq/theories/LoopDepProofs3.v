(** Proofs about the loop dependence tests: what each test over one loop concludes. *)
From Verif Require Import Base Scev ScevSpec ScevProofs ScevProofs2 LoopDep LoopDepSpec LoopDepProofs LoopDepProofs2.
From Coq Require Import Permutation Lia ZArith.
Local Open Scope Z_scope.
Set Default Proof Using "Type".

Definition fresh (e : entry) : Prop :=
  e_info e <> I_distance /\ e_info e <> I_direction /\ e_peel_first e = false /\ e_peel_last e = false.

(** What is known about iterations [k] of the source and [k'] of the destination. *)
Definition reported (r : loop_run) (e : entry) (k k' : Z) : Prop :=
  (e_info e = I_distance -> e_dist e = k - k') /\
  (e_info e = I_distance \/ e_info e = I_direction -> direction_of (e_dir e) (k - k')) /\
  (e_peel_first e = true -> k = 0 \/ k' = 0) /\
  (e_peel_last e = true -> ~ executes r (k + 1) \/ ~ executes r (k' + 1)).
Lemma fresh_reported r e k k' : fresh e -> reported r e k k'.
Proof. intros (A & B & C & D). repeat split; try tauto; try congruence. Qed.

Section Order.
Variables (uid addr : node -> N) (laddr : N -> N) (f : nat).
Variable loops : N -> loop_desc.
Variables (env : N -> Z) (l : N) (r : loop_run).
Hypothesis D : described env (loops l) r.
Hypothesis C : counts r.
Notation simp := (simplify uid addr laddr (S (S f))).

Lemma strong_right n n' x x' c e :
  is_val env n x -> is_val env n' x' -> c <> 0 ->
  has_unknown (NRec l n (NConst c)) = false -> has_unknown (NRec l n' (NConst c)) = false ->
  exists b e', strong_siv uid addr laddr (S (S f)) loops l (NRec l n (NConst c)) (NRec l n' (NConst c)) (NConst c) e = SOk (b, e') /\
  (forall k k', executes r k -> executes r k' -> x + c * k = x' + c * k' -> b = false /\ (fresh e -> reported r e' k k')).
Proof using D C.
  intros Hn Hn' Hc U U'. unfold strong_siv. rewrite U, U'. cbn [orb as_rec const_of].
  destruct (constant_right uid addr laddr f env (loops l) r D n x Hn) as (o & -> & Ho & _).
  destruct (constant_right uid addr laddr f env (loops l) r D n' x' Hn') as (o' & -> & Ho' & _). cbn [sbind].
  destruct o as [o|]. 2:{ exists false, e. split; auto. intros. split; auto. intros Fe. apply fresh_reported; auto. }
  destruct o' as [o'|]. 2:{ exists false, e. split; auto. intros. split; auto. intros Fe. apply fresh_reported; auto. }
  specialize (Ho _ eq_refl). specialize (Ho' _ eq_refl).
  destruct (is_val_sub uid addr laddr f env o' o _ _ Ho' Ho) as (m & -> & Hm). cbn [sbind].
  destruct (const_of m) as [dl|] eqn:Em.
  2:{ eexists false, _. split; [reflexivity|]. intros. split; auto. intros Fe. apply fresh_reported. destruct Fe as (?&?&?&?). repeat split; auto. }
  apply (is_val_const_of _ _ _ _ Hm) in Em.
  destruct (Z.eqb_spec c 0) as [|_]; [contradiction|].
  destruct (Z.eqb_spec (Z.rem dl c) 0) as [Er|Er]; cbn [negb].
  2:{ eexists true, _. split; [reflexivity|]. intros k k' K K' E. exfalso. apply Er.
      replace dl with ((k - k') * c) by (subst dl; lia). apply Z.rem_mul; auto. }
  destruct (lower_right uid addr laddr f env (loops l) r D) as (lo & -> & Hl).
  destruct (upper_right uid addr laddr f env (loops l) r D) as (up & -> & Hu). cbn [sbind].
  set (dist := Z.quot dl c).
  assert (Hd : forall k k', x + c * k = x' + c * k' -> dist = k - k').
  { intros k k' E. unfold dist. replace dl with ((k - k') * c) by (subst dl; lia). apply Z.quot_mul; auto. }
  assert (B : exists b, match lo, up with
            | Some lower, Some upper =>
                dos bounds <- simp (create_subtraction uid upper lower);
                match const_of bounds with
                | Some b => SOk (Z.ltb (Z.abs b) (Z.abs dist))
                | None => SOk false
                end
            | _, _ => SOk false
            end = SOk b /\ (b = true -> Z.abs (last_of r - r_init r) < Z.abs dist)).
  { destruct lo as [lo|]; [|exists false; split; [auto|discriminate]].
    destruct up as [up|]; [|exists false; split; [auto|discriminate]].
    destruct (is_val_sub uid addr laddr f env up lo _ _ (Hu _ eq_refl) (Hl _ eq_refl)) as (bd & -> & Hb). cbn [sbind].
    destruct (const_of bd) as [w|] eqn:Ew; [|exists false; split; [auto|discriminate]].
    apply (is_val_const_of _ _ _ _ Hb) in Ew. subst w. eexists. split; [reflexivity|]. intros E. apply Z.ltb_lt in E. auto. }
  destruct B as (b & -> & Hb). cbn [sbind].
  destruct b.
  { eexists true, _. split; [reflexivity|]. intros k k' K K' E. exfalso. specialize (Hb eq_refl).
    rewrite (Hd _ _ E) in Hb.
    destruct (executes_bounds r k C K) as (K0 & K1). destruct (executes_bounds r k' C K') as (K0' & K1').
    lia. }
  destruct (Z.ltb_spec 0 dist); [|destruct (Z.eqb_spec dist 0)]; eexists false, _; (split; [reflexivity|]);
    intros k k' K K' E; (split; [reflexivity|]); intros (F1 & F2 & F3 & F4); specialize (Hd _ _ E);
    unfold set_distance, reported; cbn [e_info e_dir e_dist e_peel_first e_peel_last direction_of];
    rewrite ?F3, ?F4; repeat split; try discriminate; lia.
Qed.

Lemma symbolic_right n n' x x' e :
  is_val env n x -> is_val env n' x' ->
  exists b e', symbolic_strong_siv uid addr laddr (S (S f)) loops l (NRec l n (NConst (r_step r))) (NRec l n' (NConst (r_step r))) (NConst (r_step r)) e = SOk (b, e') /\
  (forall k k', executes r k -> executes r k' -> x + r_step r * k = x' + r_step r * k' -> b = false /\ (fresh e -> reported r e' k k')).
Proof using D C.
  intros Hn Hn'. unfold symbolic_strong_siv.
  destruct (rec_difference uid addr laddr f l n n' (r_step r)) as (m & -> & Lm & Vm); [apply Hn | apply Hn' |]. cbn [sbind].
  assert (Hm : is_val env m (x - x')).
  { split; auto. intros it. rewrite Vm. destruct Hn as [_ ->]. destruct Hn' as [_ ->]. reflexivity. }
  destruct (outside_right uid addr laddr f env (loops l) r D m (r_step r) _ Hm eq_refl C) as (b & -> & Hb). cbn [sbind].
  destruct b.
  - eexists true, _. split; [reflexivity|]. intros k k' K K' E. exfalso. apply (Hb eq_refl k k' K K'). lia.
  - eexists false, _. split; [reflexivity|]. intros. split; auto. intros Fe.
    apply fresh_reported. destruct Fe as (?&?&?&?). repeat split; auto.
Qed.

Lemma crossing_right half n n' x x' c e :
  (forall x, x <> 0 -> half x (2 * x) = true) ->
  is_val env n x -> is_val env n' x' -> c <> 0 ->
  exists b e', weak_crossing_siv uid addr laddr (S (S f)) half (NRec l n (NConst c)) (NRec l n' (NConst (- c))) (NConst c) e = SOk (b, e') /\
  (forall k k', executes r k -> executes r k' -> x + c * k = x' - c * k' ->
     b = false /\ (e_info e <> I_distance -> e_info e' = I_distance -> Z.abs (k - k') <= 1 /\ e_dist e' = 0)) /\
  e_peel_first e' = e_peel_first e /\ e_peel_last e' = e_peel_last e.
Proof.
  intros Hhalf Hn Hn' Hc. unfold weak_crossing_siv. cbn [as_rec const_of].
  destruct (is_val_sub uid addr laddr f env n' n _ _ Hn' Hn) as (m & -> & Hm). cbn [sbind].
  destruct (const_of m) as [dl|] eqn:Em.
  2:{ eexists false, _. split; [reflexivity|]. split; auto. intros. split; auto. intros F. cbn. congruence. }
  apply (is_val_const_of _ _ _ _ Hm) in Em.
  destruct (Z.eqb_spec c 0) as [|_]; [contradiction|].
  assert (X : forall k k', executes r k -> executes r k' -> x + c * k = x' - c * k' ->
            0 <= k /\ 0 <= k' /\ dl = c * (k + k')).
  { intros k k' [K _] [K' _] E. repeat split; auto. subst dl. lia. }
  destruct (negb (Z.eqb (Z.rem dl (2 * c)) 0) && negb (half (Z.rem dl (2 * c)) (2 * c))) eqn:E0.
  - eexists true, _. split; [reflexivity|]. split; auto. intros k k' K K' E. exfalso.
    destruct (X _ _ K K' E) as (K0 & K0' & Edl).
    apply andb_true_iff in E0. destruct E0 as [E1 E2]. apply negb_true_iff in E1, E2. apply Z.eqb_neq in E1.
    rewrite Edl in E1, E2. rewrite (Z.mul_comm 2 c) in E1. rewrite (Z.mul_comm 2 c) in E2 at 1.
    rewrite Z.mul_rem_distr_l in E1, E2 by lia.
    rewrite Z.rem_mod_nonneg in E1, E2 by lia.
    assert (M : (k + k') mod 2 = 1).
    { pose proof (Z.mod_pos_bound (k + k') 2 ltac:(lia)). assert ((k + k') mod 2 <> 0); [|lia].
      intros Z0. rewrite Z0 in E1. lia. }
    rewrite M, Z.mul_1_r in E2. rewrite Hhalf in E2; auto. discriminate.
  - destruct (Z.eqb_spec (Z.quot dl (2 * c)) 0) as [E1|E1].
    + eexists false, _. split; [reflexivity|]. split; auto. intros k k' K K' E. split; auto. intros _ _.
      destruct (X _ _ K K' E) as (K0 & K0' & Edl). split; [|reflexivity].
      rewrite Edl, (Z.mul_comm 2 c), Z.quot_mul_cancel_l, Z.quot_div_nonneg in E1 by lia.
      apply Z.div_small_iff in E1; lia.
    + eexists false, _. split; [reflexivity|]. split; auto. intros k k' K K' E. split; auto. intros F. cbn. congruence.
Qed.

Lemma within_right v a b : within_bounds v a b = true <-> Z.min a b <= v <= Z.max a b.
Proof. clear laddr.
  unfold within_bounds. destruct (Z.ltb_spec a b); [|destruct (Z.ltb_spec b a)];
    rewrite ?andb_true_iff, ?Z.leb_le, ?Z.eqb_eq; lia.
Qed.

Definition zero_case (c : Z) : Prop := (r_init r = 0 /\ r_step r = 1) \/ (c = r_step r /\ stays_nonnegative r).

Lemma weak_zero_right dbg s o c e b e' : c <> 0 -> zero_case c ->
  weak_zero uid addr laddr (S (S f)) loops dbg l (NConst s) (NConst o) (NConst c) e = SOk (b, e') ->
  forall k, executes r k -> s = o + c * k ->
    b = false /\ (fresh e -> e_info e' <> I_distance /\ e_info e' <> I_direction /\
    (e_peel_first e' = true -> k = 0) /\
    (e_peel_last e' = true -> ~ executes r (k + 1))).
Proof using D C.
  intros Hc Z0. unfold weak_zero.
  destruct (constant_right uid addr laddr f env (loops l) r D (NConst o) o) as (ct & -> & Hct & _ & Hcc);
    [apply is_val_const; auto|]. cbn [sbind].
  destruct ct as [ct|]; [|discriminate]. cbn [deref]. specialize (Hct _ eq_refl).
  destruct (is_val_sub uid addr laddr f env (NConst s) ct s (o - r_init r)) as (dl & Sdl & Hdl); [apply is_val_const; auto | exact Hct |].
  rewrite Sdl. cbn [sbind const_of].
  destruct (Z.eqb_spec c 0) as [|_]; [contradiction|].
  intros E k K Ek.
  destruct (executes_bounds r k C K) as (K0 & K1).
  assert (Dq : forall w, const_of dl = Some w -> w = c * k + r_init r).
  { intros w W. apply (is_val_const_of _ _ _ _ Hdl) in W. lia. }
  destruct (lower_right uid addr laddr f env (loops l) r D) as (lo & El & Hl).
  destruct (upper_right uid addr laddr f env (loops l) r D) as (up & Eu & Hu).
  rewrite El, Eu in E. cbn [sbind] in E.
  assert (R : exists dist, (match const_of dl with
              | Some d0 => if negb (Z.eqb (Z.rem d0 c) 0) then SOk None else SOk (Some (Z.quot d0 c))
              | None => SOk (Some 0) end) = SOk (Some dist) /\
              forall lo' up', lo = Some lo' -> up = Some up' ->
              match const_of lo', const_of up' with
              | Some lo, Some up => negb (within_bounds (Z.abs dist) lo up)
              | _, _ => false
              end = false).
  { assert (Q : exists q, c * k + r_init r = q * c /\
                Z.min (r_init r) (last_of r) <= Z.abs q <= Z.max (r_init r) (last_of r)).
    { destruct Z0 as [[I0 S1]|[Cs Nn]].
      - exists k. split; [lia|]. lia.
      - exists (k + c * r_init r). specialize (Nn k K). subst c.
        destruct C as [[S _]|[S _]]; rewrite S in *; split; lia. }
    destruct Q as (q & Q1 & Q2).
    destruct (const_of dl) as [w|] eqn:Ew.
    - rewrite (Dq w eq_refl), Q1. exists q. rewrite Z.rem_mul, Z.quot_mul by auto. split; [reflexivity|].
      intros lo' up' -> ->. specialize (Hl _ eq_refl). specialize (Hu _ eq_refl).
      destruct (const_of lo') as [a|] eqn:Ea; auto. destruct (const_of up') as [b0|] eqn:Eb; auto.
      apply (is_val_const_of _ _ _ _ Hl) in Ea. apply (is_val_const_of _ _ _ _ Hu) in Eb. subst.
      apply negb_false_iff, within_right. auto.
    - exists 0. split; auto. intros lo' up' -> ->. destruct (const_of lo') as [a|] eqn:Ea; auto.
      apply const_of_some in Ea. subst lo'. specialize (Hcc o a eq_refl El). injection Hcc as ->.
      cbn in Sdl. injection Sdl as <-. discriminate. }
  destruct R as (dist & R & Esc). rewrite R in E. cbn [sbind] in E. clear R.
  destruct lo as [lo|]; [|discriminate]. cbn [deref] in E.
  destruct up as [up|]; [|discriminate]. cbn [deref] in E.
  rewrite (Esc lo up eq_refl eq_refl) in E.
  unfold final_trip, first_trip in E.
  destruct (ld_init (loops l)) as [v|] eqn:Ei; [|discriminate]. rewrite simplify_const in E. cbn [sbind deref] in E.
  pose proof (de_init _ _ _ D _ Ei) as Ev.
  destruct (is_val_add uid addr laddr f env (NConst v) ct v (o - r_init r)) as (fn & Efn & Hfn); [apply is_val_const; auto | exact Hct |].
  rewrite Efn in E. cbn [sbind] in E.
  destruct (node_eqb (NConst s) fn) eqn:Eq.
  { injection E as <- <-. apply node_eqb_eq in Eq. subst fn. apply is_val_const in Hfn.
    split; auto. intros (F1 & F2 & F3 & F4). cbn. repeat split; try discriminate; [|congruence]. intros _. nia. }
  destruct (ld_trip (loops l)) as [t|] eqn:Et; [|discriminate]. cbn [deref] in E.
  cbn [create_subtraction] in E. rewrite simplify_const in E. cbn [sbind create_multiply] in E.
  cbn [create_add] in E. rewrite simplify_const in E. cbn [sbind deref] in E.
  destruct (is_val_add uid addr laddr f env (NConst (v + (t - 1) * c)) ct (v + (t - 1) * c) (o - r_init r)) as (gn & Egn & Hgn);
    [apply is_val_const; auto | exact Hct |].
  rewrite Egn in E. cbn [sbind] in E.
  assert (E2 : (if node_eqb (NConst s) gn then SOk (false, set_peel_last e) else SOk (false, set_dir e D_all)) = SOk (b, e')).
  { destruct (const_of (if dbg then fn else gn)), (const_of gn); auto; discriminate. }
  clear E. destruct (node_eqb (NConst s) gn) eqn:Eg.
  - injection E2 as <- <-. apply node_eqb_eq in Eg. subst gn. apply is_val_const in Hgn.
    split; auto. intros (F1 & F2 & F3 & F4). cbn. repeat split; try discriminate; [congruence|]. intros _ K2.
    apply (de_trip _ _ _ D _ Et) in K2. assert (k = t - 1) by nia. lia.
  - injection E2 as <- <-. split; auto. intros (F1 & F2 & F3 & F4). cbn. repeat split; auto; congruence.
Qed.

Lemma weak_zero_defined dbg s o c e op a up v t : c <> 0 ->
  ld_cond (loops l) = Some (op, Some (NConst a), up) -> ld_init (loops l) = Some v -> ld_trip (loops l) = Some t ->
  exists b e', weak_zero uid addr laddr (S (S f)) loops dbg l (NConst s) (NConst o) (NConst c) e = SOk (b, e').
Proof using D C.
  intros Hc Ec Ei Et. unfold weak_zero.
  assert (El : lower_bound uid addr laddr (S (S f)) (loops l) = SOk (Some (NConst a))).
  { unfold lower_bound. rewrite Ec, simplify_const. reflexivity. }
  unfold constant_term. rewrite El. cbn [sbind create_subtraction]. rewrite simplify_const. cbn [sbind deref create_subtraction].
  rewrite simplify_const. cbn [sbind const_of]. destruct (Z.eqb_spec c 0) as [|_]; [contradiction|].
  destruct (negb _) eqn:En; cbn [sbind]; [eauto|].
  destruct (upper_right uid addr laddr f env (loops l) r D) as (u & Eu & Hu).
  assert (exists u', u = Some u') as [u' ->].
  { unfold upper_bound in Eu. rewrite Ec in Eu. destruct u; eauto. destruct op; destruct (simplify _ _ _ _ _); discriminate. }
  rewrite Eu. cbn [sbind deref].
  destruct (match const_of u' with Some _ => _ | None => _ end); [eauto|].
  unfold final_trip, first_trip. rewrite Ei, Et, simplify_const. cbn [sbind deref create_add create_subtraction create_multiply].
  rewrite !simplify_const. cbn [sbind deref create_add create_subtraction create_multiply].
  destruct (node_eqb _ _); [eauto|].
  rewrite !simplify_const. cbn [sbind deref create_add create_subtraction create_multiply].
  rewrite !simplify_const. cbn [sbind deref create_add create_subtraction create_multiply].
  destruct dbg; cbn [const_of]; destruct (node_eqb _ _); eauto.
Qed.
End Order.
