(** Proofs about the model of constant folding: from components to instructions. *)
From Verif Require Import Base Fold FoldSpec FoldProofs.
Local Open Scope Z_scope.

(** *** Components of constants *)
Definition comps (c : fconst) : list sconst :=
  match c with CScalar s => [s] | CVector _ l => l | CNullVector e n => repeat (SCNull e) n end.
Definition shaped (t : fty) (c : fconst) : Prop :=
  match t, c with
  | TScalar _, CScalar _ => True
  | TVector _ n, CVector _ l => length l = n
  | TVector _ n, CNullVector _ n' => n = n'
  | _, _ => False
  end.

Lemma const_value_comps c : const_value c = map sconst_value (comps c).
Proof.
  destruct c as [s|e l|e n]; cbn; auto. induction n; cbn; [auto|]. f_equal. exact IHn.
Qed.
Lemma const_value_nth c d s : nth_error (comps c) d = Some s -> nth d (const_value c) 0 = sconst_value s.
Proof.
  rewrite const_value_comps. intros H. apply nth_error_nth.
  rewrite nth_error_map, H. reflexivity.
Qed.
Lemma const_ok_comps t c : const_ok t c ->
  shaped t c /\ length (comps c) = dims t /\ Forall (sconst_ok (elem t)) (comps c).
Proof.
  destruct t as [e|e n], c as [s|e' l|e' n']; cbn; try contradiction.
  - intros H. repeat split; auto.
  - intros (-> & H & F). auto.
  - intros (-> & ->). split; [auto|]. rewrite repeat_length. split; [auto|].
    apply Forall_forall. intros x Hx%repeat_spec. subst x. reflexivity.
Qed.
Lemma shaped_length t c : shaped t c -> length (comps c) = dims t.
Proof.
  destruct t as [e|e n], c as [s|e' l|e' n']; cbn; try contradiction; auto.
  intros ->. apply repeat_length.
Qed.
Lemma shaped_same t t' c : same_shape t t' -> shaped t' c -> shaped t c.
Proof. destruct t, t', c; cbn; try contradiction; auto; congruence. Qed.
Lemma same_shape_dims t t' : same_shape t t' -> dims t' = dims t.
Proof. destruct t, t'; cbn; try contradiction; auto. Qed.
Lemma same_shape_refl t : same_shape t t.
Proof. destruct t; cbn; auto. Qed.

Lemma component_nth n v d : length v = n -> (d < n)%nat -> component d v = nth d v 0.
Proof.
  intros <- H. destruct v as [|x [|y v']]; cbn in *; auto.
  destruct d; [auto|lia].
Qed.

(** *** The lifting of scalar rules *)
Lemma mk_vector_inv e l c : mk_vector e l = FSome c -> c = CVector e l.
Proof.
  unfold mk_vector. destruct l as [|x l']; [discriminate|].
  destruct (forallb _ _); [|discriminate]. intros E. injection E as <-. reflexivity.
Qed.
Lemma map_rule1_nth r l res : map_rule1 r l = FSome res ->
  length res = length l /\
  forall d a, nth_error l d = Some a -> exists c, nth_error res d = Some c /\ r a = FSome c.
Proof.
  revert res. induction l as [|a l IH]; cbn; intros res E.
  - injection E as <-. split; auto. intros [|d] a H; discriminate.
  - destruct (r a) as [| |c] eqn:R; try discriminate. cbn in E.
    destruct (map_rule1 r l) as [| |cs]; try discriminate. cbn in E. injection E as <-.
    destruct (IH cs eq_refl) as (L & N). split; [cbn; lia|].
    intros [|d] x H; cbn in *; [injection H as <-; eauto|apply N; auto].
Qed.
Lemma map_rule2_nth r l m res : map_rule2 r l m = FSome res ->
  length res = length l /\
  forall d a b, nth_error l d = Some a -> nth_error m d = Some b ->
    exists c, nth_error res d = Some c /\ r a b = FSome c.
Proof.
  revert m res. induction l as [|a l IH]; cbn; intros m res E.
  - injection E as <-. split; auto. intros [|d] a b H; discriminate.
  - destruct m as [|b m]; [discriminate|].
    destruct (r a b) as [| |c] eqn:R; try discriminate. cbn in E.
    destruct (map_rule2 r l m) as [| |cs] eqn:M; try discriminate. cbn in E. injection E as <-.
    destruct (IH m cs M) as (L & N). split; [cbn; lia|].
    intros [|d] x y H K; cbn in *; [injection H as <-; injection K as <-; eauto|eapply N; eauto].
Qed.
Lemma vector_components_comps c e n : shaped (TVector e n) c -> vector_components c = FSome (comps c).
Proof. destruct c; cbn; try contradiction; auto. Qed.
Lemma nth_error_in_range {A} (l : list A) d : (d < length l)%nat -> exists x, nth_error l d = Some x.
Proof. intros H. destruct (nth_error l d) eqn:E; eauto. apply nth_error_None in E. lia. Qed.

Lemma fold_unary_comps rule t a c : fold_unary_op rule t (Some a) = FSome c -> shaped t a ->
  shaped t c /\ forall d, (d < dims t)%nat -> exists sa sc,
    nth_error (comps a) d = Some sa /\ nth_error (comps c) d = Some sc /\ rule (elem t) sa = FSome sc.
Proof.
  intros E Ha. unfold fold_unary_op in E. destruct t as [e|e n].
  - destruct a as [s| |]; try contradiction. cbn in E. destruct (rule e s) as [| |r] eqn:R; try discriminate.
    cbn in E. injection E as <-. split; [exact I|]. intros d Hd. cbn in Hd. destruct d; [|lia].
    cbn. eauto.
  - rewrite (vector_components_comps a e n Ha) in E. cbn [fbind] in E.
    destruct (map_rule1 (rule e) (comps a)) as [| |r] eqn:M; try discriminate. cbn [fbind] in E.
    apply mk_vector_inv in E. subst c. apply map_rule1_nth in M. destruct M as (L & N).
    pose proof (shaped_length _ _ Ha) as La. cbn [dims] in La.
    split; [cbn; lia|]. intros d Hd. cbn [dims] in Hd.
    destruct (nth_error_in_range (comps a) d) as (sa & Ea); [lia|].
    destruct (N d sa Ea) as (sc & Es & R). exists sa, sc. auto.
Qed.
Lemma fold_binary_comps rule t a b c : fold_binary_op rule t (Some a) (Some b) = FSome c ->
  shaped t a -> shaped t b ->
  shaped t c /\ forall d, (d < dims t)%nat -> exists sa sb sc,
    nth_error (comps a) d = Some sa /\ nth_error (comps b) d = Some sb /\
    nth_error (comps c) d = Some sc /\ rule (elem t) sa sb = FSome sc.
Proof.
  intros E Ha Hb. unfold fold_binary_op in E. destruct t as [e|e n].
  - destruct a as [s| |]; try contradiction. destruct b as [s'| |]; try contradiction. cbn in E.
    destruct (rule e s s') as [| |r] eqn:R; try discriminate.
    cbn in E. injection E as <-. split; [exact I|]. intros d Hd. cbn in Hd. destruct d; [|lia].
    cbn. exists s, s', r. auto.
  - rewrite (vector_components_comps a e n Ha), (vector_components_comps b e n Hb) in E. cbn [fbind] in E.
    destruct (map_rule2 (rule e) (comps a) (comps b)) as [| |r] eqn:M; try discriminate. cbn [fbind] in E.
    apply mk_vector_inv in E. subst c. apply map_rule2_nth in M. destruct M as (L & N).
    pose proof (shaped_length _ _ Ha) as La. cbn [dims] in La.
    pose proof (shaped_length _ _ Hb) as Lb. cbn [dims] in Lb.
    split; [cbn; lia|]. intros d Hd. cbn [dims] in Hd.
    destruct (nth_error_in_range (comps a) d) as (sa & Ea); [lia|].
    destruct (nth_error_in_range (comps b) d) as (sb & Eb); [lia|].
    destruct (N d sa sb Ea Eb) as (sc & Es & R). exists sa, sb, sc. auto.
Qed.

Lemma Forall_nth_error {A} (P : A -> Prop) l d x : Forall P l -> nth_error l d = Some x -> P x.
Proof. intros F E. rewrite Forall_forall in F. apply F. eapply nth_error_In; eauto. Qed.

(** *** Unary rules *)
Definition rule1_of (o : fop) : option (ety -> sconst -> fres sconst) :=
  match o with
  | FSNegate => Some negate_int_const
  | FSConvert => Some scalar_sconvert
  | FUConvert => Some scalar_uconvert
  | _ => None
  end.
Lemma rule1_sound o rule w s wa sa a c v :
  rule1_of o = Some rule -> width_ok w -> width_ok wa -> sconst_ok (EInt wa sa) a ->
  (o = FSNegate -> wa = w) ->
  ~ known_deviation o s [(wa, sa, sconst_value a)] ->
  rule (EInt w s) a = FSome c ->
  component_value o w [(wa, sconst_value a)] = Some v ->
  sconst_value c = v.
Proof.
  intros Hr H Hw Ha Hn Hd Hc Hv.
  assert (U64 : forall z, 0 <= u64 z < 2 ^ 64) by apply u64_range.
  destruct o; try discriminate; injection Hr as <-; cbn [component_value] in Hv; injection Hv as <-.
  - (* SNegate *)
    rewrite (Hn eq_refl) in *. unfold negate_int_const in Hc.
    destruct (sconst_int w sa a H Ha) as [[-> E0]|(v & Hv & -> & E0)].
    + injection Hc as <-. rewrite E0. symmetry. apply Z.mod_0_l. clear -H. widths; discriminate.
    + destruct (get_sext_ok w sa _ H Ha) as (x & Ex & Hx & Mx & _). rewrite Ex in Hc. cbn [fbind] in Hc.
      destruct (x =? - 2 ^ 63); [discriminate|]. injection Hc as <-.
      destruct (get_int_const_ok w s (u64 (- x)) H (U64 _)) as (_ & ->).
      rewrite u64_mod by auto. apply opp_congr. exact Mx.
  - (* SConvert *)
    destruct (get_sext_ok wa sa _ Hw Ha) as (x & Ex & Hx & Mx & Zx & _).
    unfold scalar_sconvert in Hc. rewrite Ex in Hc. cbn [fbind] in Hc.
    apply gen_int_inv in Hc; auto. destruct Hc as (_ & ->). rewrite u64_mod by auto.
    rewrite Zx; [reflexivity|]. apply not_high_unsigned. intros K. apply Hd. cbn. left. exact K.
  - (* UConvert *)
    destruct (get_zext_ok wa sa _ Hw Ha) as (x & Ex & Hx & Mx & _).
    unfold scalar_uconvert in Hc. rewrite (sconst_ok_type _ _ Ha), Ex in Hc. cbn [fbind] in Hc.
    apply gen_int_inv in Hc; auto.
    + destruct Hc as (_ & ->). rewrite Mx. reflexivity.
    + rewrite Mx. pose proof (sconst_value_range (EInt wa sa) a Hw Ha) as R. cbn [ewidth] in R.
      assert (2 ^ wa <= 2 ^ 64) by (apply Z.pow_le_mono_r; [lia|apply width_pos in Hw; lia]). lia.
Qed.

(** *** Widths of results *)
Lemma gen_int_type w s r c : gen_int w s r = FSome c -> sconst_type c = EInt w s.
Proof.
  unfold gen_int. destruct (w =? 64); [intros E; injection E as <-; reflexivity|].
  destruct (w <=? 32); [|discriminate]. intros E; injection E as <-; reflexivity.
Qed.
Lemma rule1_type o rule w s wa sa a c : rule1_of o = Some rule -> sconst_ok (EInt wa sa) a ->
  (o = FSNegate -> wa = w) -> rule (EInt w s) a = FSome c -> ewidth (sconst_type c) = w.
Proof.
  intros Hr Ha Hn Hc. destruct o; try discriminate; injection Hr as <-.
  - rewrite (Hn eq_refl) in *. unfold negate_int_const in Hc. destruct a as [b|w' s' ws|e].
    + discriminate.
    + destruct (get_sext _) as [| |x]; try discriminate. cbn [fbind] in Hc.
      destruct (x =? _); [discriminate|]. injection Hc as <-. unfold get_int_const.
      destruct (w <=? 32); reflexivity.
    + injection Hc as <-. cbn in Ha. subst e. reflexivity.
  - unfold scalar_sconvert in Hc. destruct (get_sext a); try discriminate. apply gen_int_type in Hc.
    rewrite Hc. reflexivity.
  - unfold scalar_uconvert in Hc. rewrite (sconst_ok_type _ _ Ha) in Hc.
    destruct (get_zext a); try discriminate. apply gen_int_type in Hc. rewrite Hc. reflexivity.
Qed.
Lemma binary_integer_type b op w s x y c : binary_integer b op (EInt w s) x y = FSome c ->
  sconst_type c = EInt w s.
Proof.
  unfold binary_integer. destruct (sconst_type x); [discriminate|]. destruct (sconst_type y); [discriminate|].
  destruct (_ && _); [|discriminate]. destruct (if b then _ else _) as [| |ia]; try discriminate. cbn [fbind].
  destruct (if b then _ else _) as [| |ib]; try discriminate. cbn [fbind].
  destruct (op ia ib) as [| |r]; try discriminate. cbn [fbind]. apply gen_int_type.
Qed.
Lemma rule2_type o rule w s a b c : rule2_of o = Some rule ->
  ewidth (sconst_type a) = w -> ewidth (sconst_type b) = w ->
  rule (EInt w s) a b = FSome c -> ewidth (sconst_type c) = w.
Proof.
  intros Hr Ha Hb Hc. destruct o; try discriminate; injection Hr as <-;
  try (apply binary_integer_type in Hc; rewrite Hc; reflexivity);
  unfold scalar_min, scalar_max in Hc;
  destruct (minmax_value w s a) as [| |va]; try discriminate;
  destruct (minmax_value w s b) as [| |vb]; try discriminate;
  cbn [fbind] in Hc; injection Hc as <-; ifs; auto.
Qed.

Lemma retype_value t c : shaped t c ->
  Forall (fun s => ewidth (sconst_type s) = ewidth (elem t)) (comps c) ->
  const_value (retype t c) = const_value c.
Proof.
  destruct t as [[|w s]|e n], c as [[b|w' s' ws|e']|e' l|e' n']; cbn; try contradiction; auto.
  intros _ F. apply Forall_inv in F. cbn in F. subst w'. reflexivity.
Qed.

(** *** Equality of constants *)
Lemma ety_eqb_eq a b : ety_eqb a b = true -> a = b.
Proof.
  destruct a, b; cbn; try discriminate; auto. intros H. apply andb_prop in H. destruct H as (H & K).
  apply Bool.eqb_prop in K. f_equal; [lia|auto].
Qed.
Lemma zlist_eqb_eq a : forall b, zlist_eqb a b = true -> a = b.
Proof.
  induction a as [|x a IH]; destruct b as [|y b]; cbn; try discriminate; auto.
  intros H. apply andb_prop in H. destruct H as (H & K). f_equal; [lia|auto].
Qed.
Lemma sconst_eqb_eq a b : sconst_eqb a b = true -> a = b.
Proof.
  destruct a, b; cbn; try discriminate; intros H.
  - f_equal. apply Bool.eqb_prop. exact H.
  - apply andb_prop in H. destruct H as (H & L). apply andb_prop in H. destruct H as (H & K).
    apply Bool.eqb_prop in K. apply zlist_eqb_eq in L. f_equal; auto. lia.
  - f_equal. apply ety_eqb_eq. exact H.
Qed.
Lemma sconsts_eqb_eq a : forall b, sconsts_eqb a b = true -> a = b.
Proof.
  induction a as [|x a IH]; destruct b as [|y b]; cbn; try discriminate; auto.
  intros H. apply andb_prop in H. destruct H as (H & K). f_equal; [apply sconst_eqb_eq; exact H|auto].
Qed.
Lemma fconst_eqb_eq a b : fconst_eqb a b = true -> a = b.
Proof.
  destruct a, b; cbn; try discriminate; intros H.
  - f_equal. apply sconst_eqb_eq. exact H.
  - apply andb_prop in H. destruct H as (H & L). f_equal; [apply ety_eqb_eq|apply sconsts_eqb_eq]; auto.
  - apply andb_prop in H. destruct H as (H & L). f_equal; [apply ety_eqb_eq; auto|apply Nat.eqb_eq; auto].
Qed.

Lemma sconst_zero_value e c : ety_ok e -> sconst_ok e c -> sconst_is_zero c = true -> sconst_value c = 0.
Proof.
  intros He Hc Hz. destruct c as [b|w s ws|e']; cbn in *.
  - destruct b; [discriminate|reflexivity].
  - destruct Hc as (-> & v & Hv & ->). cbn in He. unfold encode in *. destruct (w <=? 32); cbn in *.
    + rewrite andb_true_r in Hz. apply Z.eqb_eq in Hz. rewrite Hz. apply Z.mod_0_l. clear -He; widths; discriminate.
    + rewrite andb_true_r in Hz. apply andb_prop in Hz. destruct Hz as (Z1 & Z2).
      apply Z.eqb_eq in Z1. apply Z.eqb_eq in Z2. rewrite Z1, Z2. apply Z.mod_0_l. clear -He; widths; discriminate.
  - reflexivity.
Qed.
Lemma const_zero_value t c : fty_ok t -> const_ok t c -> fconst_is_zero c = true ->
  forall d, nth d (const_value c) 0 = 0.
Proof.
  intros (He & _) Hc Hz d. destruct (const_ok_comps t c Hc) as (_ & _ & F).
  assert (Z0 : Forall (fun s => sconst_is_zero s = true) (comps c)).
  { destruct c as [s|e l|e n]; cbn in *.
    - auto.
    - apply Forall_forall. rewrite forallb_forall in Hz. exact Hz.
    - apply Forall_forall. intros x Hx%repeat_spec. subst x. reflexivity. }
  destruct (nth_error (comps c) d) as [s|] eqn:E.
  - rewrite (const_value_nth c d s E). apply (sconst_zero_value (elem t)); auto.
    + eapply Forall_nth_error; eauto.
    + exact (Forall_nth_error _ _ _ _ Z0 E).
  - apply nth_overflow. rewrite const_value_comps, map_length. apply nth_error_None. exact E.
Qed.

(** *** Clamp, one component *)
Definition minmax_ok (signed_op : bool) (w : Z) (c : sconst) : Prop :=
  exists s, sconst_ok (EInt w s) c /\ (s = signed_op \/ 32 <= w \/ sconst_value c < 2 ^ (w - 1)).
Definition order_value (signed_op : bool) (w : Z) (v : Z) : Z := if signed_op then sval w v else v.
Lemma minmax_value_ok sg w c : width_ok w -> minmax_ok sg w c ->
  minmax_value w sg c = FSome (order_value sg w (sconst_value c)).
Proof.
  intros H (s & Hc & Hs). destruct sg; cbn [order_value].
  - apply (minmax_signed w s); auto.
  - apply (minmax_unsigned w s); auto.
Qed.
Lemma scalar_max_ok sg w a b c : width_ok w -> minmax_ok sg w a -> minmax_ok sg w b ->
  scalar_max (EInt w sg) a b = FSome c ->
  c = if order_value sg w (sconst_value b) <? order_value sg w (sconst_value a) then a else b.
Proof.
  intros H Ha Hb. unfold scalar_max. rewrite (minmax_value_ok sg w a), (minmax_value_ok sg w b) by auto.
  cbn [fbind]. congruence.
Qed.
Lemma scalar_min_ok sg w a b c : width_ok w -> minmax_ok sg w a -> minmax_ok sg w b ->
  scalar_min (EInt w sg) a b = FSome c ->
  c = if order_value sg w (sconst_value a) <? order_value sg w (sconst_value b) then a else b.
Proof.
  intros H Ha Hb. unfold scalar_min. rewrite (minmax_value_ok sg w a), (minmax_value_ok sg w b) by auto.
  cbn [fbind]. congruence.
Qed.
Lemma order_value_inj sg w a b : 0 <= a < 2 ^ w -> 0 <= b < 2 ^ w ->
  order_value sg w a = order_value sg w b -> a = b.
Proof. destruct sg; cbn; auto. apply sval_inj. Qed.

(** The value of a clamp in terms of [order_value]. *)
Definition clamp_op (sg : bool) : fop := if sg then FSClamp else FUClamp.
Lemma clamp_value sg wr w w1 w2 x lo hi v :
  component_value (clamp_op sg) wr [(w, x); (w1, lo); (w2, hi)] = Some v ->
  0 <= x < 2 ^ w -> 0 <= lo < 2 ^ w -> 0 <= hi < 2 ^ w ->
  order_value sg w lo <= order_value sg w hi /\
  ((order_value sg w x <= order_value sg w lo -> v = lo) /\
   (order_value sg w hi <= order_value sg w x -> v = hi) /\
   (order_value sg w lo <= order_value sg w x <= order_value sg w hi -> v = x)).
Proof.
  intros E Hx Hl Hh. destruct sg; cbn [clamp_op component_value order_value] in *.
  - destruct (sval w lo <=? sval w hi) eqn:L; [|discriminate]. injection E as <-.
    split; [lia|].
    split; [|split]; intros K; ifs; auto; try lia; try (apply (sval_inj w); auto; lia).
  - destruct (lo <=? hi) eqn:L; [|discriminate]. injection E as <-. lia.
Qed.
