(** Proofs about the rewriting rules: constants. *)
From Verif Require Import Base Fold FoldSpec FoldProofs FoldProofs2 FoldRules FoldRulesSpec.
Local Open Scope Z_scope.

Lemma scalar_32 s v : 0 <= v < 2 ^ 32 ->
  sconst_ok (EInt 32 s) (SCInt 32 s [v]) /\ sconst_value (SCInt 32 s [v]) = v.
Proof.
  intros H. split.
  - split; [reflexivity|]. exists v. split; [exact H|]. unfold encode. cbn [Z.leb Z.compare Pos.compare Pos.compare_cont].
    destruct (s && _); f_equal. change (2 ^ 32 - 2 ^ 32) with 0. lia.
  - cbn [sconst_value]. apply Z.mod_small. exact H.
Qed.
Lemma scalar_64 s v : 0 <= v < 2 ^ 64 ->
  sconst_ok (EInt 64 s) (SCInt 64 s (extract_ints v)) /\ sconst_value (SCInt 64 s (extract_ints v)) = v.
Proof.
  intros H. assert (E : extract_ints v = encode 64 s v).
  { unfold extract_ints, encode, u32. cbn [Z.leb Z.compare Pos.compare Pos.compare_cont].
    f_equal. f_equal. apply Z.mod_small. change (2 ^ 64) with (2 ^ 32 * 2 ^ 32) in H. split.
    - apply Z.div_pos; [lia|reflexivity].
    - apply Z.div_lt_upper_bound; [reflexivity|lia]. }
  rewrite E. split.
  - split; [reflexivity|]. exists v. auto.
  - apply value_of_encode; [unfold width_ok; auto|exact H].
Qed.
Lemma get_u32c_ok s c : sconst_ok (EInt 32 s) c -> get_u32c c = FSome (sconst_value c).
Proof.
  destruct c as [b|w s' ws|e]; [discriminate| |intros <-; reflexivity].
  intros [E (v & Hv & ->)]. injection E as <- <-. rewrite value_of_encode by (unfold width_ok; auto).
  unfold encode, get_u32c. change (32 =? 32) with true. change (32 <=? 32) with true. cbv iota.
  cbn [get_u32_words]. f_equal. destruct (s && _); change (2 ^ 32 - 2 ^ 32) with 0; lia.
Qed.
Lemma get_u64c_ok s c : sconst_ok (EInt 64 s) c -> get_u64c c = FSome (sconst_value c).
Proof.
  destruct c as [b|w s' ws|e]; [discriminate| |intros <-; reflexivity].
  intros [E (v & Hv & ->)]. injection E as <- <-. rewrite value_of_encode by (unfold width_ok; auto).
  unfold encode, get_u64c. change (64 =? 64) with true. change (64 <=? 32) with false. cbv iota.
  cbn [get_u64_words]. f_equal.
  pose proof (Z.div_mod v (2 ^ 32) ltac:(discriminate)). lia.
Qed.

(** Widths the constant operations accept. *)
Definition wide (w : Z) : Prop := w = 32 \/ w = 64.
Lemma wide_ok w : wide w -> width_ok w.
Proof. unfold wide, width_ok. tauto. Qed.

Definition six (o : fop) : Prop :=
  match o with FIMul | FIAdd | FISub | FXor | FOr | FAnd => True | _ => False end.

Lemma log2_lt_pow v w : 0 < w -> 0 <= v < 2 ^ w -> Z.log2 v < w.
Proof.
  intros Hw [H0 H1]. destruct (Z.eq_dec v 0) as [->|].
  - exact Hw.
  - apply Z.log2_lt_pow2; lia.
Qed.
Lemma log2_lt_inv v w : 0 <= v -> 0 < w -> Z.log2 v < w -> v < 2 ^ w.
Proof.
  intros H0 Hw H. destruct (Z.eq_dec v 0) as [->|].
  - apply Z.pow_pos_nonneg; lia.
  - apply Z.log2_lt_pow2; lia.
Qed.
Lemma lor_range a b w : 0 < w -> 0 <= a < 2 ^ w -> 0 <= b < 2 ^ w -> 0 <= Z.lor a b < 2 ^ w.
Proof.
  intros Hw Ha Hb. assert (0 <= Z.lor a b) by (apply Z.lor_nonneg; lia). split; [assumption|].
  apply log2_lt_inv; auto. rewrite Z.log2_lor by lia.
  pose proof (log2_lt_pow a w Hw Ha). pose proof (log2_lt_pow b w Hw Hb). lia.
Qed.
Lemma land_range a b w : 0 < w -> 0 <= a < 2 ^ w -> 0 <= b -> 0 <= Z.land a b < 2 ^ w.
Proof.
  intros Hw Ha Hb. assert (0 <= Z.land a b) by (apply Z.land_nonneg; lia). split; [assumption|].
  apply log2_lt_inv; auto. pose proof (Z.log2_land a b ltac:(lia) ltac:(lia)).
  pose proof (log2_lt_pow a w Hw Ha). lia.
Qed.
Lemma lxor_range a b w : 0 < w -> 0 <= a < 2 ^ w -> 0 <= b < 2 ^ w -> 0 <= Z.lxor a b < 2 ^ w.
Proof.
  intros Hw Ha Hb. assert (0 <= Z.lxor a b) by (apply Z.lxor_nonneg; lia). split; [assumption|].
  apply log2_lt_inv; auto. pose proof (Z.log2_lxor a b ltac:(lia) ltac:(lia)).
  pose proof (log2_lt_pow a w Hw Ha). pose proof (log2_lt_pow b w Hw Hb). lia.
Qed.
Lemma word_operation_ok o w a b : six o -> wide w -> 0 <= a < 2 ^ w -> 0 <= b < 2 ^ w ->
  exists v, word_operation o (2 ^ w) a b = FSome v /\ 0 <= v < 2 ^ w /\
            forall wa wb, component_value o w [(wa, a); (wb, b)] = Some v.
Proof.
  intros Ho Hw Ha Hb. assert (W : 0 < w) by (unfold wide in Hw; lia).
  assert (P : 0 < 2 ^ w) by (apply Z.pow_pos_nonneg; lia).
  destruct o; try contradiction; cbn [word_operation]; eexists; (split; [reflexivity|split; [|reflexivity]]).
  1-3: apply Z.mod_pos_bound; exact P.
  - apply lor_range; auto.
  - apply land_range; auto; lia.
  - apply lxor_range; auto.
Qed.
Lemma perform_int_ok o w s s' a b : six o -> wide w ->
  sconst_ok (EInt w s) a -> sconst_ok (EInt w s') b ->
  exists c, perform_int o a b = FSome c /\ sconst_ok (EInt w s) c /\
    forall wa wb, component_value o w [(wa, sconst_value a); (wb, sconst_value b)] = Some (sconst_value c).
Proof.
  intros Ho Hw Ha Hb. pose proof (wide_ok w Hw) as Hok.
  pose proof (sconst_value_range (EInt w s) a Hok Ha) as Ra. cbn [ewidth] in Ra.
  pose proof (sconst_value_range (EInt w s') b Hok Hb) as Rb. cbn [ewidth] in Rb.
  destruct (word_operation_ok o w _ _ Ho Hw Ra Rb) as (v & E & Rv & V).
  unfold perform_int. rewrite (sconst_ok_type _ _ Ha).
  destruct Hw as [-> | ->]; cbn [Z.eqb Pos.eqb].
  - rewrite (get_u32c_ok _ _ Ha), (get_u32c_ok _ _ Hb). cbn [fbind]. rewrite E. cbn [fbind].
    destruct (scalar_32 s v Rv) as [O S]. eexists. split; [reflexivity|]. rewrite S. auto.
  - rewrite (get_u64c_ok _ _ Ha), (get_u64c_ok _ _ Hb). cbn [fbind]. rewrite E. cbn [fbind].
    destruct (scalar_64 s v Rv) as [O S]. eexists. split; [reflexivity|]. rewrite S. auto.
Qed.
Lemma negate_int_ok w s a : wide w -> sconst_ok (EInt w s) a ->
  exists c, negate_int a = FSome c /\ sconst_ok (EInt w s) c /\
            sconst_value c = (- sconst_value a) mod 2 ^ w.
Proof.
  intros Hw Ha. unfold negate_int. rewrite (sconst_ok_type _ _ Ha).
  destruct Hw as [-> | ->]; cbn [Z.eqb Pos.eqb].
  - rewrite (get_u32c_ok _ _ Ha). cbn [fbind]. eexists. split; [reflexivity|]. unfold u32.
    replace (0 - sconst_value a) with (- sconst_value a) by lia.
    apply scalar_32. apply Z.mod_pos_bound. reflexivity.
  - rewrite (get_u64c_ok _ _ Ha). cbn [fbind]. eexists. split; [reflexivity|]. unfold u64.
    replace (0 - sconst_value a) with (- sconst_value a) by lia.
    apply scalar_64. apply Z.mod_pos_bound. reflexivity.
Qed.

(** Vectors. *)
Lemma mk_vector_ok e l : ety_ok e -> l <> [] -> Forall (sconst_ok e) l -> mk_vector e l = FSome (CVector e l).
Proof.
  intros He Hl F. destruct l as [|c l]; [contradiction|]. cbn [mk_vector].
  replace (forallb _ (c :: l)) with true; [reflexivity|]. symmetry. apply forallb_forall.
  intros x Hx. rewrite Forall_forall in F. rewrite (sconst_ok_type _ _ (F x Hx)).
  rewrite (sconst_ok_type _ _ (F c (or_introl eq_refl))).
  destruct e; cbn; [reflexivity|]. rewrite Z.eqb_refl. destruct signed; reflexivity.
Qed.

Lemma fconst_type_ok t c : const_ok t c -> fconst_type c = t.
Proof.
  destruct t as [e|e n], c as [s|e' l|e' n']; cbn; try contradiction.
  - intros H. f_equal. apply sconst_ok_type. exact H.
  - intros (-> & <- & _). reflexivity.
  - intros (-> & ->). reflexivity.
Qed.
Lemma component_const t c d : fty_ok t -> const_ok t c -> (d < dims t)%nat ->
  exists s, nth_error (comps c) d = Some s /\ sconst_ok (elem t) s /\
            component d (const_value c) = sconst_value s.
Proof.
  intros Ht Hc Hd. destruct (const_ok_comps t c Hc) as (Hs & _ & F).
  destruct (nth_error_in_range (comps c) d) as [s Es].
  { rewrite (shaped_length t c Hs). exact Hd. }
  exists s. split; [exact Es|]. split; [exact (Forall_nth_error _ _ _ _ F Es)|].
  rewrite (component_nth (dims t)); [|rewrite const_value_comps, map_length; apply (shaped_length t c Hs)|exact Hd].
  apply const_value_nth. exact Es.
Qed.
Lemma comp_at_comps c d s e n : const_ok (TVector e n) c -> nth_error (comps c) d = Some s ->
  comp_at c d = FSome s.
Proof.
  destruct c as [x|e' l|e' n']; cbn [const_ok comps comp_at]; [contradiction| |].
  - intros _ ->. reflexivity.
  - intros (-> & ->) H. f_equal. apply nth_error_In in H. symmetry. eapply repeat_spec. exact H.
Qed.

(** The loop over the components of two constants. *)
Lemma comp_pairs_ok {A} (f : sconst -> sconst -> fres A) (P : sconst -> sconst -> A -> Prop) a b e e' n :
  const_ok (TVector e n) a -> const_ok (TVector e' n) b -> ety_ok e -> ety_ok e' ->
  (forall x y, sconst_ok e x -> sconst_ok e' y -> exists r, f x y = FSome r /\ P x y r) ->
  forall count start, (start + count = n)%nat ->
  exists l, comp_pairs f a b start count = FSome l /\ length l = count /\
    forall k r, nth_error l k = Some r ->
      exists x y, nth_error (comps a) (start + k) = Some x /\ nth_error (comps b) (start + k) = Some y /\
        sconst_ok e x /\ sconst_ok e' y /\ P x y r.
Proof.
  intros Ha Hb He He' Hf. induction count as [|count IH]; intros start Hn.
  - exists []. repeat split. intros [|k] r; discriminate.
  - destruct (const_ok_comps _ _ Ha) as (Sa & _ & Fa). destruct (const_ok_comps _ _ Hb) as (Sb & _ & Fb).
    destruct (nth_error_in_range (comps a) start) as [x Ex].
    { rewrite (shaped_length _ _ Sa). cbn. lia. }
    destruct (nth_error_in_range (comps b) start) as [y Ey].
    { rewrite (shaped_length _ _ Sb). cbn. lia. }
    pose proof (Forall_nth_error _ _ _ _ Fa Ex) as Ox. pose proof (Forall_nth_error _ _ _ _ Fb Ey) as Oy.
    destruct (Hf x y Ox Oy) as (r & Er & Pr).
    destruct (IH (S start) ltac:(lia)) as (l & El & Ll & Hl).
    exists (r :: l). cbn [comp_pairs]. rewrite (comp_at_comps _ _ _ _ _ Ha Ex), (comp_at_comps _ _ _ _ _ Hb Ey).
    cbn [fbind]. rewrite Er. cbn [fbind]. rewrite El. cbn [fbind]. split; [reflexivity|].
    split; [cbn; lia|]. intros [|k] r' Hr.
    + injection Hr as <-. exists x, y. rewrite Nat.add_0_r. auto.
    + cbn [nth_error] in Hr. destruct (Hl k r' Hr) as (x' & y' & H).
      exists x', y'. replace (start + S k)%nat with (S start + k)%nat by lia. exact H.
Qed.

Lemma perform_op_ok o a b ta tb w : six o -> wide w -> ewidth (elem ta) = w -> like ta tb ->
  fty_ok ta -> fty_ok tb -> const_ok ta a -> const_ok tb b ->
  exists c, perform_op o a b = FSome c /\ const_ok ta c /\
    forall d wa wb, (d < dims ta)%nat ->
      component_value o w [(wa, component d (const_value a)); (wb, component d (const_value b))]
      = Some (component d (const_value c)).
Proof.
  intros Ho Hw Ew (Ia & Ib & Sh & Eq) Fa Fb Ca Cb. unfold perform_op.
  rewrite (fconst_type_ok _ _ Ca).
  destruct ta as [e|e n], tb as [e'|e' n']; cbn in Sh; try contradiction.
  - cbn [elem] in *. destruct e as [|wa sa]; [contradiction|]. destruct e' as [|wb sb]; [contradiction|].
    cbn [ewidth elem] in *. subst w wb.
    destruct a as [x| |]; cbn in Ca; try contradiction. destruct b as [y| |]; cbn in Cb; try contradiction.
    destruct (perform_int_ok o wa sa sb x y Ho Hw Ca Cb) as (c & E & O & V).
    rewrite E. cbn [fbind]. exists (CScalar c). split; [reflexivity|]. split; [exact O|].
    intros d wa' wb' _. cbn. apply V.
  - subst n'. cbn [elem dims] in *. destruct e as [|wa sa]; [contradiction|]. destruct e' as [|wb sb]; [contradiction|].
    cbn [ewidth elem is_int] in *. subst w wb.
    destruct Fa as [Fa Fn]. destruct Fb as [Fb _]. cbn [elem] in *.
    destruct (comp_pairs_ok (perform_int o)
      (fun x y r => sconst_ok (EInt wa sa) r /\
         forall u v, component_value o wa [(u, sconst_value x); (v, sconst_value y)] = Some (sconst_value r))
      a b (EInt wa sa) (EInt wa sb) n Ca Cb Fa Fb) with (count := n) (start := O) as (l & El & Ll & Hl).
    { intros x y Hx Hy. destruct (perform_int_ok o wa sa sb x y Ho Hw Hx Hy) as (r & E & O & V). eauto. }
    { lia. }
    rewrite El. cbn [fbind].
    assert (F : Forall (sconst_ok (EInt wa sa)) l).
    { apply Forall_forall. intros r Hr. apply In_nth_error in Hr. destruct Hr as [k Hk].
      destruct (Hl k r Hk) as (x & y & _ & _ & _ & _ & O & _). exact O. }
    rewrite mk_vector_ok; auto; [|destruct l; [cbn in Ll; lia|discriminate]].
    exists (CVector (EInt wa sa) l). cbn [built]. split; [reflexivity|].
    assert (Hc : const_ok (TVector (EInt wa sa) n) (CVector (EInt wa sa) l)) by (cbn; auto).
    split; [exact Hc|].
    intros d u v Hd.
    assert (FT : forall s, fty_ok (TVector (EInt wa s) n)) by (intros s; split; [exact Fa|exact Fn]).
    destruct (component_const (TVector (EInt wa sa) n) a d (FT sa) Ca Hd) as (x & Ex & _ & ->).
    destruct (component_const (TVector (EInt wa sb) n) b d (FT sb) Cb Hd) as (y & Ey & _ & ->).
    destruct (component_const (TVector (EInt wa sa) n) _ d (FT sa) Hc Hd) as (r & Er & _ & ->).
    cbn [comps] in Er. destruct (Hl d r Er) as (x' & y' & Ex' & Ey' & _ & _ & _ & V).
    cbn [Nat.add] in *. assert (x' = x) by congruence. assert (y' = y) by congruence. subst. apply V.
Qed.

Lemma mapf_nth {A B} (f : A -> fres B) l r : mapf f l = FSome r ->
  length r = length l /\ forall k x, nth_error l k = Some x -> exists y, nth_error r k = Some y /\ f x = FSome y.
Proof.
  revert r. induction l as [|a l IH]; intros r; cbn.
  - intros E. injection E as <-. split; [reflexivity|]. intros [|k]; discriminate.
  - destruct (f a) as [| |b] eqn:Ea; try discriminate. cbn [fbind].
    destruct (mapf f l) as [| |bs] eqn:El; try discriminate. cbn [fbind].
    intros E. injection E as <-. destruct (IH bs eq_refl) as [L H]. split; [cbn; lia|].
    intros [|k] x Hx; cbn in *; [injection Hx as <-; eauto|apply H; exact Hx].
Qed.
Lemma mapf_total {A B} (f : A -> fres B) (P : A -> B -> Prop) l :
  (forall x, In x l -> exists y, f x = FSome y /\ P x y) ->
  exists r, mapf f l = FSome r /\ Forall2 P l r.
Proof.
  induction l as [|a l IH]; intros H; cbn.
  - exists []. auto.
  - destruct (H a (or_introl eq_refl)) as (b & Eb & Pb). destruct IH as (r & Er & F).
    { intros x Hx. apply H. right. exact Hx. }
    rewrite Eb. cbn [fbind]. rewrite Er. cbn [fbind]. exists (b :: r). auto.
Qed.
Lemma negate_const_ok c t w : wide w -> ewidth (elem t) = w -> is_int t -> fty_ok t -> const_ok t c ->
  exists c', negate_const c = FSome c' /\ const_ok t c' /\
    forall d, (d < dims t)%nat ->
      component d (const_value c') = (- component d (const_value c)) mod 2 ^ w.
Proof.
  intros Hw Ew Hi Ft Hc. unfold is_int in Hi.
  destruct t as [e|e n]; destruct c as [x|e' l|e' n']; cbn in Hc; try contradiction.
  - cbn [elem] in *. destruct e as [|we s]; [contradiction|]. cbn in Ew. subst we.
    destruct (negate_int_ok w s x Hw Hc) as (c' & E & O & V). cbn [negate_const]. rewrite E. cbn [fbind].
    exists (CScalar c'). split; [reflexivity|]. split; [exact O|]. intros d _. cbn [const_value component]. exact V.
  - cbn [elem] in *. destruct e as [|we s]; [contradiction|]. cbn in Ew. subst we.
    destruct Hc as (<- & L & F). cbn [negate_const].
    destruct (mapf_total negate_int (fun x y => sconst_ok (EInt w s) y /\ sconst_value y = (- sconst_value x) mod 2 ^ w) l)
      as (r & Er & F2).
    { intros x Hx. rewrite Forall_forall in F. exact (negate_int_ok w s x Hw (F x Hx)). }
    rewrite Er. cbn [fbind].
    assert (Lr : length r = n) by (rewrite (proj1 (mapf_nth _ _ _ Er)); exact L).
    assert (Fr : Forall (sconst_ok (EInt w s)) r).
    { clear -F2. induction F2; constructor; tauto. }
    destruct Ft as [Fe Fn]. cbn [elem] in Fe.
    rewrite mk_vector_ok; auto; [|destruct r; [cbn in Lr; lia|discriminate]].
    cbn [built]. exists (CVector (EInt w s) r). split; [reflexivity|].
    assert (Hr : const_ok (TVector (EInt w s) n) (CVector (EInt w s) r)) by (cbn; auto).
    split; [exact Hr|]. intros d Hd.
    assert (FT : fty_ok (TVector (EInt w s) n)) by (split; assumption).
    assert (Hl : const_ok (TVector (EInt w s) n) (CVector (EInt w s) l)) by (cbn; auto).
    destruct (component_const _ _ d FT Hl Hd) as (x & Ex & _ & ->).
    destruct (component_const _ _ d FT Hr Hd) as (y & Ey & _ & ->).
    cbn [comps] in *. destruct (mapf_nth _ _ _ Er) as [_ H]. destruct (H d x Ex) as (y' & Ey' & Ey2).
    assert (y' = y) by congruence. subst y'.
    rewrite Forall_forall in F. destruct (negate_int_ok w s x Hw (F x (nth_error_In _ _ Ex))) as (z & Ez & _ & V).
    assert (z = y) by congruence. subst z. exact V.
  - destruct Hc as (<- & <-). cbn [negate_const]. exists (CNullVector e n). split; [reflexivity|].
    split; [cbn; auto|]. intros d Hd.
    assert (Hl : const_ok (TVector e n) (CNullVector e n)) by (cbn; auto).
    destruct (component_const _ _ d Ft Hl Hd) as (x & Ex & _ & ->).
    cbn [comps] in Ex. apply nth_error_In, repeat_spec in Ex. subst x. reflexivity.
Qed.
