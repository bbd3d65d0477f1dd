From Verif Require Import Base StructPack StructPackSpec.
Local Open Scope N_scope.

Lemma pow2_pos a : pow2 a -> 0 < a.
Proof. intros (k & ->). apply N.neq_0_lt_0, N.pow_nonzero. discriminate. Qed.
Lemma pow2_max a b : pow2 a -> pow2 b -> pow2 (N.max a b).
Proof. intros A B. destruct (N.max_spec a b) as [(_ & ->)|(_ & ->)]; assumption. Qed.
Lemma pow2_le_divide a b : pow2 a -> pow2 b -> a <= b -> (a | b).
Proof.
  intros (j & ->) (k & ->) L. apply N.pow_le_mono_r_iff in L; [|reflexivity].
  exists (2 ^ (k - j)). rewrite <- N.pow_add_r. f_equal. lia.
Qed.
Lemma pow2_1 : pow2 1. Proof. exists 0. reflexivity. Qed.
Lemma pow2_16 : pow2 16. Proof. exists 4. reflexivity. Qed.
Lemma pow2_mul2 b : pow2 b -> pow2 (b * 2).
Proof. intros (k & ->). exists (k + 1). rewrite N.pow_add_r. reflexivity. Qed.
Lemma pow2_mul4 b : pow2 b -> pow2 (b * 4).
Proof. intros (k & ->). exists (k + 2). rewrite N.pow_add_r. reflexivity. Qed.

Lemma align_next v a : pow2 a -> next v a (align v a).
Proof.
  intros P. pose proof (pow2_pos a P) as Q. destruct P as (k & E). unfold align.
  replace (a - 1) with (N.ones k) by (rewrite N.ones_equiv, E; lia).
  rewrite N.ldiff_ones_r, N.shiftl_mul_pow2, N.shiftr_div_pow2, <- E.
  split; [eexists; reflexivity|].
  pose proof (N.div_mod (v + a - 1) a ltac:(lia)) as D.
  pose proof (N.mod_lt (v + a - 1) a ltac:(lia)) as M. nia.
Qed.
Lemma align_ge v a : pow2 a -> v <= align v a.
Proof. intros P. apply (align_next v a P). Qed.
Lemma next_unique v a x y : 0 < a -> next v a x -> next v a y -> x = y.
Proof. intros A ((i & ->) & X) ((j & ->) & Y). assert (i = j) by nia. subst. reflexivity. Qed.

Section ByTy.
  Variable P : ty -> Prop.
  Hypothesis HN : forall b, P (Num b).
  Hypothesis HV : forall n b, P (Vec n b).
  Hypothesis HM : forall c r b w s, P (Mat c r b w s).
  Hypothesis HA : forall e n, P e -> P (Arr e n).
  Hypothesis HS : forall l, (forall t, In t l -> P t) -> P (Struct l).
  Fixpoint ty_all (t : ty) : P t :=
    match t with
    | Num b => HN b | Vec n b => HV n b | Mat c r b w s => HM c r b w s
    | Arr e n => HA e n (ty_all e)
    | Struct l => HS l ((fix go (l : list ty) : forall t, In t l -> P t :=
        match l with
        | [] => fun t H => match H with end
        | x :: l' => fun t H => match H with or_introl E => eq_ind x P (ty_all x) t E | or_intror H' => go l' t H' end
        end) l)
    end.
End ByTy.

Lemma fold_max_pow2 r l a : pow2 a -> (forall t, In t l -> pow2 (alignment r t)) -> pow2 (fold_left (fun a m => N.max a (alignment r m)) l a).
Proof.
  revert a. induction l as [|x l IH]; intros a A H; [exact A|]. cbn [fold_left]. apply IH.
  - apply pow2_max; [exact A|apply H; left; reflexivity].
  - intros t T. apply H. right. exact T.
Qed.
Lemma fold_max_ge r l a : a <= fold_left (fun a m => N.max a (alignment r m)) l a /\ forall t, In t l -> alignment r t <= fold_left (fun a m => N.max a (alignment r m)) l a.
Proof.
  revert a. induction l as [|x l IH]; intros a; cbn [fold_left]; [split; [lia|intros t []]|].
  destruct (IH (N.max a (alignment r x))) as (A & B). split; [lia|]. intros t [->|T]; [lia|apply B, T].
Qed.
Lemma alignment_pow2 r t : good r t -> pow2 (alignment r t).
Proof.
  induction t as [b|n b|c rw b w s|e n IH|l IH] using ty_all; intros G; inversion G; subst; cbn [alignment].
  - assumption.
  - destruct (is_scalar r); [assumption|].
    assert (n = 1 \/ n = 2 \/ n = 3 \/ n = 4) as [-> | [-> | [-> | ->]]] by lia; cbn; auto using pow2_mul2, pow2_mul4.
  - destruct (is_scalar r); [assumption|]. destruct (vec4_padded r); cbn [orb]; [auto using pow2_mul4|].
    assert (c = 2 \/ c = 3 \/ c = 4) as [-> | [-> | ->]] by lia; cbn; auto using pow2_mul2, pow2_mul4.
  - apply pow2_max; [destruct (vec4_padded r); auto using pow2_1, pow2_16|auto].
  - cbv zeta. assert (Q : pow2 (fold_left (fun a m => N.max a (alignment r m)) l 1)) by (apply fold_max_pow2; [apply pow2_1|auto]).
    destruct (vec4_padded r); [apply pow2_max; [exact Q|apply pow2_16]|exact Q].
Qed.
Lemma alignment_member r l t : In t l -> alignment r t <= alignment r (Struct l).
Proof.
  intros T. cbn [alignment]. cbv zeta. pose proof (proj2 (fold_max_ge r l 1) t T). destruct (vec4_padded r); lia.
Qed.

Definition pads (r : rules) (t : ty) : N := pad t (alignment r t).
Lemma pads_pow2 r t : good r t -> pow2 (pads r t).
Proof. intros G. unfold pads. destruct t; cbn [pad]; try apply pow2_1. apply alignment_pow2, G. Qed.
Lemma pads_eq r t : match t with Struct _ => alignment r t | _ => 1 end = pads r t.
Proof. destruct t; reflexivity. Qed.

Definition step r (st : N * N) (m : ty) : N * N := (align (fst st) (N.max (alignment r m) (snd st)) + size r m, pad m (alignment r m)).
Lemma fold_ge r l c p : pow2 p -> (forall t, In t l -> good r t) -> c <= fst (fold_left (step r) l (c, p)).
Proof.
  revert c p. induction l as [|x l IH]; intros c p P G; cbn [fold_left]; [cbn; lia|].
  assert (X : good r x) by (apply G; left; reflexivity).
  pose proof (align_ge c (N.max (alignment r x) p) (pow2_max _ _ (alignment_pow2 r x X) P)).
  specialize (IH (align c (N.max (alignment r x) p) + size r x) (pads r x) (pads_pow2 r x X) (fun t T => G t (or_intror T))).
  unfold step at 2. cbn [fst snd]. fold (pads r x). lia.
Qed.
(** a laid out member lies within the sum, and is aligned *)
Lemma laid_out_fits r c p l k : laid_out r c p l k -> pow2 p -> (forall t, In t l -> good r t) ->
  forall i t o, nth_error l i = Some t -> nth_error k i = Some o -> o + size r t <= fst (fold_left (step r) l (c, p)) /\ (alignment r t | o).
Proof.
  induction 1 as [c p|c p x l o k N L IH]; intros P G i t q T Q; [destruct i; discriminate|].
  assert (X : good r x) by (apply G; left; reflexivity).
  assert (M : pow2 (N.max (alignment r x) p)) by (apply pow2_max; [apply alignment_pow2, X|exact P]).
  assert (E : o = align c (N.max (alignment r x) p)) by (apply (next_unique c (N.max (alignment r x) p)); [apply pow2_pos, M|exact N|apply align_next, M]).
  change (fold_left (step r) (x :: l) (c, p)) with (fold_left (step r) l (align c (N.max (alignment r x) p) + size r x, pads r x)).
  rewrite <- E. rewrite pads_eq in *.
  destruct i as [|i]; cbn [nth_error] in T, Q.
  - injection T as <-. injection Q as <-. split.
    + apply fold_ge; [apply pads_pow2, X|intros t T; apply G; right; exact T].
    + destruct N as ((z & ->) & _). apply N.divide_mul_r, pow2_le_divide; [apply alignment_pow2, X|exact M|lia].
  - apply (IH (pads_pow2 r x X) (fun t T => G t (or_intror T)) i t q T Q).
Qed.

Lemma own_size r u j : r <> Hlsl -> good r u -> own u j -> j < size r u.
Proof.
  intros H G O. assert (HH : is_hlsl r = false) by (destruct r; try reflexivity; congruence).
  inversion O; subst; cbn [size]; try assumption; inversion G; subst; cbn [alignment] in *;
    rewrite HH; (destruct (is_scalar r) eqn:Sc; [destruct r; try discriminate Sc; congruence|]); cbv zeta.
  - assert (c = 2 \/ c = 3 \/ c = 4) as [-> | [-> | ->]] by lia; destruct (vec4_padded r); cbn [orb N.eqb Pos.eqb] in *; nia.
  - match goal with Q : _ \/ _ |- _ => destruct Q as [Q|Q]; [discriminate|subst] end.
    match goal with Q : 2 <= ?x <= 4 |- _ => assert (x = 2 \/ x = 3 \/ x = 4) as [-> | [-> | ->]] by lia end; destruct (vec4_padded r); cbn [orb N.eqb Pos.eqb] in *; nia.
Qed.
Lemma stride_ge r e n : good r e -> size r e <= stride r e n /\ (alignment r e | stride r e n).
Proof.
  intros G. assert (A : pow2 (alignment r (Arr e n))) by (apply alignment_pow2; constructor; exact G).
  unfold stride. destruct (align_next (size r e) _ A) as ((z & E) & L & _). split; [exact L|].
  rewrite E. apply N.divide_mul_r, pow2_le_divide; [apply alignment_pow2, G|exact A|cbn [alignment]; lia].
Qed.
Lemma inside_good r t o u : inside r t o u -> good r t -> good r u.
Proof.
  induction 1 as [t|e n i o u L I IH|l k i t p o u L T P I IH]; intros G; [exact G| |]; inversion G; subst; apply IH; [assumption|].
  match goal with Q : forall t, In t l -> _ |- _ => apply Q end. eapply nth_error_In, T.
Qed.
Lemma inside_fits r t o u : r <> Hlsl -> inside r t o u -> good r t -> o + size r u <= size r t.
Proof.
  intros H. assert (HH : is_hlsl r = false) by (destruct r; try reflexivity; congruence).
  induction 1 as [t|e n i o u L I IH|l k i t p o u L T P I IH]; intros G; [lia| |]; inversion G as [| | |? ? Ge|? Gl]; subst.
  - specialize (IH Ge). pose proof (proj1 (stride_ge r e n Ge)) as S. cbn [size]. rewrite HH. cbn [andb]. fold (stride r e n). cbv zeta. nia.
  - specialize (IH (Gl t (nth_error_In _ _ T))).
    destruct (laid_out_fits r 0 1 l k L pow2_1 Gl i t p T P) as (F & _). cbn [size]. unfold step in F. lia.
Qed.
Lemma inside_aligned r t o u : inside r t o u -> good r t -> (alignment r u | o) /\ (alignment r u | alignment r t).
Proof.
  induction 1 as [t|e n i o u L I IH|l k i t p o u L T P I IH]; intros G.
  - split; [apply N.divide_0_r|apply N.divide_refl].
  - inversion G as [| | |? ? Ge|]; subst. destruct (IH Ge) as (A & B). split.
    + apply N.divide_add_r; [|exact A]. apply N.divide_mul_r. eapply N.divide_trans; [exact B|apply (stride_ge r e n Ge)].
    + eapply N.divide_trans; [exact B|]. apply pow2_le_divide; [apply alignment_pow2, Ge|apply alignment_pow2, G|cbn [alignment]; lia].
  - inversion G as [| | | |? Gl]; subst. pose proof (Gl t (nth_error_In _ _ T)) as Gt. destruct (IH Gt) as (A & B). split.
    + apply N.divide_add_r; [|exact A]. eapply N.divide_trans; [exact B|]. apply (laid_out_fits r 0 1 l k L pow2_1 Gl i t p T P).
    + eapply N.divide_trans; [exact B|]. apply pow2_le_divide; [apply alignment_pow2, Gt|apply alignment_pow2, G|apply alignment_member; eapply nth_error_In, T].
Qed.
Lemma natural_alignment r t : good r t -> (natural r t | alignment r t).
Proof.
  intros G. pose proof (alignment_pow2 r t G) as P.
  destruct t as [b|n b|c rw b w s|e n|l].
  - destruct r; apply N.divide_refl.
  - inversion G; subst. assert (n = 1 \/ n = 2 \/ n = 3 \/ n = 4) as [-> | [-> | [-> | ->]]] by lia; destruct r; cbn [natural alignment is_scalar N.eqb Pos.eqb]; try apply N.divide_refl; rewrite (N.mul_comm b); apply N.divide_refl.
  - inversion G; subst. assert (c = 2 \/ c = 3 \/ c = 4) as [-> | [-> | ->]] by lia; destruct r; cbn [natural alignment is_scalar vec4_padded orb N.eqb Pos.eqb]; try apply N.divide_refl; rewrite (N.mul_comm b); apply N.divide_refl.
  - destruct r; cbn [natural]; try apply N.divide_1_l.
    apply pow2_le_divide; [apply pow2_16|exact P|cbn [alignment vec4_padded]; lia].
  - destruct r; cbn [natural]; try apply N.divide_1_l.
    apply pow2_le_divide; [apply pow2_16|exact P|cbn [alignment vec4_padded]; cbv zeta; lia].
Qed.

Lemma assign_aligned r types : (forall t, In t types -> good r t) -> forall l prev c p out, pow2 p -> assign r types prev c p l = Done out ->
  forall i n o, nth_error out i = Some (n, o) -> exists t, nth_error types n = Some t /\ (alignment r t | o).
Proof.
  intros G. induction l as [|(m & old) l IH]; intros prev c p out P E; cbn [assign] in E.
  { injection E as <-. intros i n o Q; destruct i; discriminate. }
  destruct (Nat.ltb m prev); [discriminate|]. destruct (nth_error types m) as [t|] eqn:T; [|discriminate]. cbv zeta in E.
  pose proof (G t (nth_error_In _ _ T)) as Gt. pose proof (alignment_pow2 r t Gt) as At.
  set (a := if is_hlsl r then _ else _) in E.
  assert (A : pow2 a /\ alignment r t <= a).
  { subst a. destruct (is_hlsl r); [destruct (_ =? _)|]; split; try exact At; try lia. apply pow2_max; [exact At|apply pow2_16]. }
  destruct A as (A & AL). clearbody a.
  assert (M : pow2 (N.max a p)) by (apply pow2_max; [exact A|exact P]).
  destruct (align_next c _ M) as ((z & EZ) & _). set (o := align c (N.max a p)) in *.
  destruct (old <? o); [discriminate|].
  destruct (assign r types m (o + size r t) (pad t a) l) as [k| |] eqn:K; [|discriminate|discriminate].
  injection E as <-. intros [|i] n q Q; cbn [nth_error] in Q.
  - injection Q as <- <-. exists t. split; [exact T|]. rewrite EZ. apply N.divide_mul_r, pow2_le_divide; [exact At|exact M|lia].
  - apply (IH m (o + size r t) (pad t a) k) with (i := i); [destruct t; cbn [pad]; try apply pow2_1; exact A|exact K|exact Q].
Qed.

Lemma assign_spec r types : r <> Hlsl -> (forall t, In t types -> good r t) -> forall l prev c p out, pow2 p -> assign r types prev c p l = Done out ->
  map fst out = map fst l /\
  (forall i n o, nth_error out i = Some (n, o) -> c <= o /\ (exists old, nth_error l i = Some (n, old) /\ o <= old) /\ exists t, nth_error types n = Some t /\ (alignment r t | o)) /\
  (forall i j n o n' o' t, (i < j)%nat -> nth_error out i = Some (n, o) -> nth_error out j = Some (n', o') -> nth_error types n = Some t -> o + size r t <= o').
Proof.
  intros H G. assert (HH : is_hlsl r = false) by (destruct r; try reflexivity; congruence).
  induction l as [|(m & old) l IH]; intros prev c p out P E; cbn [assign] in E.
  { injection E as <-. split; [reflexivity|split]; [intros i n o Q|intros i j n o n' o' t _ Q]; destruct i; discriminate. }
  destruct (Nat.ltb m prev); [discriminate|]. destruct (nth_error types m) as [t|] eqn:T; [|discriminate]. rewrite HH in E. cbv zeta in E.
  destruct (N.ltb_spec old (align c (N.max (alignment r t) p))) as [|OL]; [discriminate|].
  pose proof (G t (nth_error_In _ _ T)) as Gt.
  assert (M : pow2 (N.max (alignment r t) p)) by (apply pow2_max; [apply alignment_pow2, Gt|exact P]).
  destruct (align_next c _ M) as ((z & EZ) & GE & _). set (o := align c (N.max (alignment r t) p)) in *.
  destruct (assign r types m (o + size r t) (pad t (alignment r t)) l) as [k| |] eqn:K; [|discriminate|discriminate].
  injection E as <-. destruct (IH m (o + size r t) (pads r t) k (pads_pow2 r t Gt) K) as (A & B & C).
  split; [cbn [map fst]; rewrite A; reflexivity|split].
  - intros [|i] n q Q; cbn [nth_error] in Q |- *.
    + injection Q as <- <-. split; [exact GE|]. split; [exists old; split; [reflexivity|exact OL]|].
      exists t. split; [exact T|]. rewrite EZ. apply N.divide_mul_r, pow2_le_divide; [apply alignment_pow2, Gt|exact M|lia].
    + destruct (B i n q Q) as (B1 & B2). split; [lia|exact B2].
  - intros i j n q n' q' t' L Q Q' T'. destruct j as [|j]; [lia|]. destruct i as [|i]; cbn [nth_error] in Q, Q'.
    + injection Q as <- <-. rewrite T in T'. injection T' as <-. apply (B j n' q' Q').
    + apply (C i j n q n' q' t'); [lia|assumption..].
Qed.

Lemma fold_max_attained r l a : fold_left (fun a m => N.max a (alignment r m)) l a = a \/ exists t, In t l /\ fold_left (fun a m => N.max a (alignment r m)) l a = alignment r t.
Proof.
  revert a. induction l as [|x l IH]; intros a; cbn [fold_left]; [left; reflexivity|].
  destruct (IH (N.max a (alignment r x))) as [E|(t & T & E)]; [|right; exists t; split; [right; exact T|exact E]].
  rewrite E. destruct (N.max_spec a (alignment r x)) as [(_ & ->)|(_ & ->)]; [right; exists x; split; [left|]; reflexivity|left; reflexivity].
Qed.
Lemma natural_leaf r t : r <> Hlsl -> good r t -> match t with Arr _ _ | Struct _ => False | _ => True end -> alignment r t = natural r t.
Proof.
  intros H G L. destruct t as [b|n b|c rw b w s|e n|l]; try contradiction.
  - destruct r; reflexivity.
  - inversion G; subst. assert (n = 1 \/ n = 2 \/ n = 3 \/ n = 4) as [-> | [-> | [-> | ->]]] by lia; destruct r; try congruence; cbn [natural alignment is_scalar N.eqb Pos.eqb]; lia.
  - inversion G; subst. assert (c = 2 \/ c = 3 \/ c = 4) as [-> | [-> | ->]] by lia; destruct r; try congruence; cbn [natural alignment is_scalar vec4_padded orb N.eqb Pos.eqb]; lia.
Qed.
Lemma part_good r t u : part t u -> good r t -> good r u.
Proof. induction 1 as [t|e n u P IH|l t u I P IH]; intros G; [exact G| |]; inversion G; subst; auto. Qed.
Lemma part_le r t u : part t u -> alignment r u <= alignment r t.
Proof.
  induction 1 as [t|e n u P IH|l t u I P IH]; [lia|cbn [alignment]; lia|].
  pose proof (alignment_member r l t I). lia.
Qed.
Lemma alignment_attained r t : r <> Hlsl -> good r t -> exists u, part t u /\ alignment r t = natural r u.
Proof.
  intros H. induction t as [b|n b|c rw b w s|e n IH|l IH] using ty_all; intros G.
  1,2,3: eexists; split; [apply Pa_self|apply natural_leaf; [exact H|exact G|exact I]].
  - inversion G as [| | |? ? Ge|]; subst. destruct (IH Ge) as (u & P & E). cbn [alignment].
    destruct (N.max_spec (if vec4_padded r then 16 else 1) (alignment r e)) as [(_ & ->)|(_ & ->)].
    + exists u. split; [apply Pa_arr, P|exact E].
    + exists (Arr e n). split; [apply Pa_self|]. destruct r; try congruence; reflexivity.
  - inversion G as [| | | |? Gl]; subst. cbn [alignment]. cbv zeta.
    assert (S : natural r (Struct l) = if vec4_padded r then 16 else 1) by (destruct r; try congruence; reflexivity).
    destruct (fold_max_attained r l 1) as [E|(t & T & E)]; rewrite E.
    + exists (Struct l). split; [apply Pa_self|]. rewrite S. destruct (vec4_padded r); reflexivity.
    + destruct (IH t T (Gl t T)) as (u & P & Q). destruct (vec4_padded r).
      * destruct (N.max_spec (alignment r t) 16) as [(_ & ->)|(_ & ->)]; [exists (Struct l); split; [apply Pa_self|congruence]|exists u; split; [eapply Pa_struct; eassumption|exact Q]].
      * exists u. split; [eapply Pa_struct; eassumption|exact Q].
Qed.
Lemma laid_out_last r c p l k : laid_out r c p l k -> pow2 p -> (forall t, In t l -> good r t) ->
  l <> [] -> fst (fold_left (step r) l (c, p)) = last k 0 + size r (last l (Num 1)).
Proof.
  induction 1 as [c p|c p x l o k N L IH]; intros P G Z; [congruence|].
  assert (X : good r x) by (apply G; left; reflexivity).
  assert (M : pow2 (N.max (alignment r x) p)) by (apply pow2_max; [apply alignment_pow2, X|exact P]).
  assert (E : o = align c (N.max (alignment r x) p)) by (apply (next_unique c (N.max (alignment r x) p)); [apply pow2_pos, M|exact N|apply align_next, M]).
  change (fold_left (step r) (x :: l) (c, p)) with (fold_left (step r) l (align c (N.max (alignment r x) p) + size r x, pads r x)).
  rewrite <- E. rewrite pads_eq in *.
  destruct l as [|y l]; destruct k as [|o' k]; try (exfalso; inversion L; fail); [reflexivity|].
  change (last (o :: o' :: k) 0) with (last (o' :: k) 0). change (last (x :: y :: l) (Num 1)) with (last (y :: l) (Num 1)).
  apply IH; [apply pads_pow2, X|intros t T; apply G; right; exact T|discriminate].
Qed.
