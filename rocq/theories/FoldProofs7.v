(** Proofs about the model of constant folding: no undefined operation. *)
From Verif Require Import Base Fold FoldSpec FoldProofs FoldProofs2 FoldProofs3 FoldProofs4 FoldProofs5 FoldProofs6.
Local Open Scope Z_scope.

Definition total {A} (r : fres A) : Prop := exists x, r = FSome x.
Definition safe {A} (r : fres A) : Prop := r <> FBad.
Lemma total_safe {A} (r : fres A) : total r -> safe r.
Proof. intros (x & ->). discriminate. Qed.

(** *** Scalar rules *)
Definition one_word (c : sconst) : Prop :=
  match c with SCInt _ _ [_] => True | SCNull _ => True | _ => False end.
Lemma ok_one_word w s c : width_ok w -> w <= 32 -> sconst_ok (EInt w s) c -> one_word c.
Proof.
  intros W L Ok. destruct c as [b|w' s' ws|e]; cbn in Ok; [discriminate| |exact I].
  destruct Ok as (E & v & _ & ->). injection E as <- <-. unfold encode. replace (w <=? 32) with true by lia. exact I.
Qed.
Lemma minmax_total w s c : w <= 32 -> one_word c -> total (minmax_value w s c).
Proof.
  intros L O. unfold minmax_value. replace (w <=? 32) with true by lia.
  destruct c as [b|w' s' [|x [|y ws]]|e]; try contradiction; destruct s; cbn; eexists; reflexivity.
Qed.
Lemma scalar_minmax_total rule w s a b : rule = scalar_min \/ rule = scalar_max -> w <= 32 ->
  one_word a -> one_word b -> exists c, rule (EInt w s) a b = FSome c /\ one_word c.
Proof.
  intros H L A B. destruct (minmax_total w s a L A) as (va & Ea). destruct (minmax_total w s b L B) as (vb & Eb).
  destruct H as [-> | ->]; unfold scalar_min, scalar_max; rewrite Ea, Eb; cbn [fbind]; eexists; (split; [reflexivity|ifs; auto]).
Qed.
Definition arith (o : fop) : bool :=
  match o with FIAdd | FISub | FIMul | FUDiv | FUMod | FSDiv | FSRem | FSMod => true | _ => false end.
Lemma u64_small x : 0 <= u64 x < 2 ^ 64.
Proof. unfold u64. apply Z.mod_pos_bound. reflexivity. Qed.
Lemma no_overflow x y : - 2 ^ 63 < x < 2 ^ 63 -> overflows (s64 (u64 x)) (s64 (u64 y)) = false.
Proof. intros H. unfold overflows. rewrite s64_u64 by lia. replace (x =? - 2 ^ 63) with false by lia. reflexivity. Qed.
Lemma arith_total o rule w s sa sb a b : rule2_of o = Some rule -> arith o = true ->
  width_ok w -> w <= 32 -> sconst_ok (EInt w sa) a -> sconst_ok (EInt w sb) b ->
  exists c, rule (EInt w s) a b = FSome c /\ sconst_type c = EInt w s.
Proof.
  intros Hr Ho W L Ha Hb.
  assert (G : forall sg op, (forall x y, - 2 ^ 63 < x < 2 ^ 63 -> total (op (u64 x) (u64 y))) ->
                (sg = false -> forall x y, total (op x y)) ->
                total (binary_integer sg op (EInt w s) a b)).
  { intros sg op T1 T0. unfold binary_integer. rewrite (sconst_ok_type _ _ Ha), (sconst_ok_type _ _ Hb).
    rewrite Z.eqb_refl. cbn [andb].
    destruct (get_sext_ok w sa a W Ha) as (x & Ex & Rx & _ & _ & Nx). destruct (get_sext_ok w sb b W Hb) as (y & Ey & _).
    destruct (get_zext_ok w sa a W Ha) as (x' & Ex' & _). destruct (get_zext_ok w sb b W Hb) as (y' & Ey' & _).
    assert (GI : forall r, total (gen_int w s r)).
    { intros r. unfold gen_int. destruct (w =? 64); [eexists; reflexivity|].
      replace (w <=? 32) with true by lia. eexists; reflexivity. }
    destruct sg.
    - rewrite Ex, Ey. cbn [fbind]. destruct (T1 x y) as (r & Er).
      { split; [|lia]. assert (x <> - 2 ^ 63); [|lia]. intros K. apply Nx in K. lia. }
      rewrite Er. cbn [fbind]. apply GI.
    - rewrite Ex', Ey'. cbn [fbind]. destruct (T0 eq_refl x' y') as (r & Er). rewrite Er. cbn [fbind]. apply GI. }
  assert (K : total (rule (EInt w s) a b)).
  { destruct o; try discriminate; injection Hr as <-; apply G; try discriminate; intros;
      unfold rule_add, rule_sub, rule_mul, rule_udiv, rule_umod, rule_sdiv, rule_srem, rule_smod;
      try (eexists; reflexivity);
      (destruct (_ =? 0); [eexists; reflexivity|]); rewrite no_overflow by assumption; eexists; reflexivity. }
  destruct K as (c & Ec). exists c. split; [exact Ec|].
  destruct o; try discriminate; injection Hr as <-; exact (binary_integer_type _ _ _ _ _ _ _ Ec).
Qed.
Lemma negate_total w s sa a : width_ok w -> w <= 32 -> sconst_ok (EInt w sa) a ->
  exists c, negate_int_const (EInt w s) a = FSome c /\
            (sconst_type c = match a with SCNull e => e | _ => EInt w s end).
Proof.
  intros W L Ha. unfold negate_int_const. destruct (get_sext_ok w sa a W Ha) as (x & Ex & Rx & _ & _ & Nx).
  destruct a as [b|w' s' ws|e]; [cbn in Ha; discriminate| |eexists; split; reflexivity].
  rewrite Ex. cbn [fbind]. replace (x =? - 2 ^ 63) with false.
  - eexists; split; [reflexivity|]. unfold get_int_const. destruct (w <=? 32); reflexivity.
  - symmetry. apply Z.eqb_neq. intros K. apply Nx in K. lia.
Qed.
Lemma convert_total rule w s wa sa a : rule = scalar_sconvert \/ rule = scalar_uconvert -> width_ok w -> width_ok wa ->
  sconst_ok (EInt wa sa) a -> exists c, rule (EInt w s) a = FSome c /\ sconst_type c = EInt w s.
Proof.
  intros H W Wa Ha. destruct (get_sext_ok wa sa a Wa Ha) as (x & Ex & _).
  destruct (get_zext_ok wa sa a Wa Ha) as (x' & Ex' & _).
  assert (GI : forall r, exists c, gen_int w s r = FSome c /\ sconst_type c = EInt w s).
  { intros r. unfold gen_int. destruct (w =? 64) eqn:E; [eexists; split; reflexivity|].
    replace (w <=? 32) with true; [eexists; split; reflexivity|]. apply Z.eqb_neq in E.
    destruct W as [-> |[-> |[-> | ->]]]; auto. congruence. }
  destruct H as [-> | ->]; unfold scalar_sconvert, scalar_uconvert.
  - rewrite Ex. cbn [fbind]. apply GI.
  - rewrite (sconst_ok_type _ _ Ha), Ex'. cbn [fbind]. apply GI.
Qed.

(** *** Lifting *)
Lemma map_rule1_total r l e0 : (forall x, In x l -> exists c, r x = FSome c /\ sconst_type c = e0) ->
  exists cs, map_rule1 r l = FSome cs /\ Forall (fun c => sconst_type c = e0) cs /\ length cs = length l.
Proof.
  induction l as [|x l IH]; intros H; cbn.
  - exists []. auto.
  - destruct (H x (or_introl eq_refl)) as (c & -> & Tc). destruct IH as (cs & -> & F & L); [intros; apply H; right; auto|].
    cbn [fbind]. exists (c :: cs). cbn. auto.
Qed.
Lemma map_rule2_total (P : sconst -> Prop) r l : forall k, length l = length k ->
  (forall x y, In x l -> In y k -> exists c, r x y = FSome c /\ P c) ->
  exists cs, map_rule2 r l k = FSome cs /\ Forall P cs /\ length cs = length l.
Proof.
  induction l as [|x l IH]; intros [|y k] L H; try discriminate; cbn.
  - exists []. auto.
  - destruct (H x y (or_introl eq_refl) (or_introl eq_refl)) as (c & -> & Tc).
    destruct (IH k) as (cs & -> & F & L'); [cbn in L; lia|intros; apply H; right; auto|].
    cbn [fbind]. exists (c :: cs). cbn. auto.
Qed.
Lemma mk_vector_total e l e0 : l <> [] -> Forall (fun c => sconst_type c = e0) l -> total (mk_vector e l).
Proof.
  intros N F. destruct l as [|c l]; [congruence|]. unfold mk_vector.
  replace (forallb _ _) with true; [eexists; reflexivity|]. symmetry. apply forallb_forall. intros x Hx.
  rewrite Forall_forall in F. rewrite (F x Hx), (F c (or_introl eq_refl)).
  destruct e0 as [|w []]; cbn; rewrite ?Z.eqb_refl; reflexivity.
Qed.
Lemma mk_vector_safe e l : safe (mk_vector e l).
Proof. unfold safe, mk_vector. destruct l; [discriminate|]. destruct (forallb _ _); discriminate. Qed.

Lemma unary_total rule t a e0 : fty_ok t -> shaped t a ->
  (forall x, In x (comps a) -> exists c, rule (elem t) x = FSome c /\ sconst_type c = e0) ->
  total (fold_unary_op rule t (Some a)).
Proof.
  intros (_ & Dm) Sh H. unfold fold_unary_op. pose proof (shaped_length _ _ Sh) as L. destruct t as [e|e n].
  - destruct a as [s| |]; try contradiction. cbn. destruct (H s (or_introl eq_refl)) as (c & Ec & _). cbn in Ec.
    rewrite Ec. cbn [fbind]. eexists; reflexivity.
  - rewrite (vector_components_comps a e n Sh). cbn [fbind].
    destruct (map_rule1_total (rule e) (comps a) e0 H) as (cs & -> & F & L'). cbn [fbind].
    apply (mk_vector_total e cs e0); auto. intros ->. cbn in L', L. lia.
Qed.
Lemma binary_total (P : sconst -> Prop) rule t a b : shaped t a -> shaped t b ->
  (forall x y, In x (comps a) -> In y (comps b) -> exists c, rule (elem t) x y = FSome c /\ P c) ->
  safe (fold_binary_op rule t (Some a) (Some b)) /\
  (forall c, fold_binary_op rule t (Some a) (Some b) = FSome c -> shaped t c /\ Forall P (comps c)) /\
  (forall e0, fty_ok t -> (forall c, P c -> sconst_type c = e0) -> total (fold_binary_op rule t (Some a) (Some b))).
Proof.
  intros Sa Sb H. unfold fold_binary_op. pose proof (shaped_length _ _ Sa) as La. pose proof (shaped_length _ _ Sb) as Lb.
  destruct t as [e|e n].
  - destruct a as [s| |]; try contradiction. destruct b as [s'| |]; try contradiction. cbn [as_scalar fbind].
    destruct (H s s' (or_introl eq_refl) (or_introl eq_refl)) as (c & Ec & Pc). cbn in Ec. rewrite Ec. cbn [fbind].
    split; [discriminate|]. split; [|eexists; reflexivity]. intros c' E. injection E as <-. cbn. auto.
  - rewrite (vector_components_comps a e n Sa), (vector_components_comps b e n Sb). cbn [fbind].
    destruct (map_rule2_total P (rule e) (comps a) (comps b)) as (cs & -> & F & L'); [congruence|exact H|]. cbn [fbind].
    split; [apply mk_vector_safe|]. split.
    + intros c E. apply mk_vector_inv in E. subst c. cbn. split; [cbn in La; congruence|exact F].
    + intros e0 (_ & Dm) Te. apply (mk_vector_total e cs e0).
      * intros ->. cbn in L', La, Dm. lia.
      * eapply Forall_impl; [|exact F]. exact Te.
Qed.

Lemma mapf_total {A B} (f : A -> fres B) l : (forall x, In x l -> total (f x)) -> total (mapf f l).
Proof.
  induction l as [|a l IH]; intros H; cbn; [eexists; reflexivity|].
  destruct (H a (or_introl eq_refl)) as (y & ->). destruct IH as (ys & ->); [intros; apply H; right; auto|].
  eexists; reflexivity.
Qed.
Lemma mapf_length {A B} (f : A -> fres B) l r : mapf f l = FSome r -> length r = length l.
Proof. intros E. apply mapf_nth in E. tauto. Qed.
Lemma word_total e s : foldable_scalar_ety e = true -> sconst_ok e s -> total (scalar_word s).
Proof.
  intros F Ok. destruct s as [b|w' s' ws|e']; cbn; try (eexists; reflexivity).
  cbn in Ok. destruct Ok as (-> & v & R & ->). cbn in F. apply Z.eqb_eq in F. subst w'. unfold encode. cbn. eexists; reflexivity.
Qed.

(** What the folder computes on words when the rules do not apply. *)
Definition word_op (o : fop) : bool :=
  match o with
  | FNot | FLogNot | FSConvert | FUConvert | FSNegate | FShrL | FShrA | FShl | FOr | FAnd | FXor
  | FLogEq | FLogNe | FLogOr | FLogAnd | FIEq | FINe | FULt | FSLt | FUGt | FSGt | FULe | FSLe | FUGe | FSGe
  | FSelect => true
  | _ => false
  end.
Lemma word_op_total o r ts ws : well_typed o r ts -> word_op o = true -> length ws = length ts -> total (operate_words o ws).
Proof.
  intros Wt Wo L. destruct o; try discriminate;
    (destruct ts as [|t1 [|t2 [|t3 [|t4 ts]]]]; try contradiction);
    (destruct ws as [|a [|b [|c [|e ws]]]]; try discriminate); cbn; eexists; reflexivity.
Qed.

Section Safe.
Variables (m : fmodule) (id_map : N -> N).
Hypothesis Hm : module_ok m.
Hypothesis Hid : id_map_ok m id_map.

Lemma comp_ok id t c x : fm_type m id = Some t -> fm_const m (id_map id) = Some c -> In x (comps c) ->
  fty_ok t /\ sconst_ok (elem t) x.
Proof.
  intros T C I0. destruct (arg_const m id_map Hm Hid id t c T C) as (Ft & Ok). split; [exact Ft|].
  apply const_ok_comps in Ok. destruct Ok as (_ & _ & F). rewrite Forall_forall in F. auto.
Qed.
Lemma arg_shape id t r c : fm_type m id = Some t -> fm_const m (id_map id) = Some c -> same_shape r t -> shaped r c.
Proof.
  intros T C Sh. destruct (arg_const m id_map Hm Hid id t c T C) as (_ & Ok).
  apply const_ok_comps in Ok. exact (shaped_same _ _ _ Sh (proj1 Ok)).
Qed.

Lemma arith_rule o rule r x y tx ty : rule2_of o = Some rule -> arith o = true -> fty_ok r -> narrow_type r ->
  like r tx -> like r ty -> fm_type m x = Some tx -> fm_type m y = Some ty ->
  match fm_const m (id_map x), fm_const m (id_map y) with
  | Some a, Some b => total (fold_binary_op rule r (Some a) (Some b))
  | a, b => fold_binary_op rule r a b = FNone
  end.
Proof.
  intros Hr Ho Fr Nr Lx Ly Tx Ty.
  destruct (fm_const m (id_map x)) as [a|] eqn:Ca; [|reflexivity].
  destruct (fm_const m (id_map y)) as [b|] eqn:Cb; [|reflexivity].
  destruct (like_inv _ _ Lx) as (w & s & sx & Et & Ex & Sx). destruct (like_inv _ _ Ly) as (w' & s' & sy & Et' & Ey & Sy).
  rewrite Et in Et'. injection Et' as <- <-.
  assert (W : width_ok w) by (destruct Fr as (K & _); rewrite Et in K; exact K).
  assert (L : w <= 32) by (unfold narrow_type in Nr; rewrite Et in Nr; exact Nr).
  destruct (binary_total (fun c => sconst_type c = EInt w s) rule r a b) as (_ & _ & T).
  - exact (arg_shape _ _ _ _ Tx Ca Sx).
  - exact (arg_shape _ _ _ _ Ty Cb Sy).
  - intros u v Hu Hv. destruct (comp_ok _ _ _ _ Tx Ca Hu) as (_ & Ou). destruct (comp_ok _ _ _ _ Ty Cb Hv) as (_ & Ov).
    rewrite Ex in Ou. rewrite Ey in Ov. rewrite Et. exact (arith_total o rule w s sx sy u v Hr Ho W L Ou Ov).
  - apply (T (EInt w s)); auto.
Qed.

Lemma minmax_rule rule r (ca cb : option fconst) : rule = scalar_min \/ rule = scalar_max -> narrow_type r -> is_int r ->
  (forall a, ca = Some a -> shaped r a /\ Forall one_word (comps a)) ->
  (forall b, cb = Some b -> shaped r b /\ Forall one_word (comps b)) ->
  safe (fold_binary_op rule r ca cb) /\
  (forall c, fold_binary_op rule r ca cb = FSome c -> shaped r c /\ Forall one_word (comps c)).
Proof.
  intros Hr N I0 Ha Hb. destruct ca as [a|]; [|split; discriminate]. destruct cb as [b|]; [|split; discriminate].
  destruct (Ha a eq_refl) as (Sa & Fa). destruct (Hb b eq_refl) as (Sb & Fb).
  destruct (is_int_inv _ I0) as (w & s & Et).
  destruct (binary_total one_word rule r a b Sa Sb) as (Q & Q' & _); [|auto].
  intros x y Hx Hy. rewrite Forall_forall in Fa, Fb. rewrite Et.
  apply scalar_minmax_total; auto. unfold narrow_type in N. rewrite Et in N. exact N.
Qed.
Lemma like_one_word r x tx a : like r tx -> narrow_type r -> fm_type m x = Some tx -> fm_const m (id_map x) = Some a ->
  shaped r a /\ Forall one_word (comps a).
Proof.
  intros L N T C. destruct (like_inv _ _ L) as (w & s & sx & Et & Ex & Sx). split; [exact (arg_shape _ _ _ _ T C Sx)|].
  apply Forall_forall. intros u Hu. destruct (comp_ok _ _ _ _ T C Hu) as (Ft & Ok). rewrite Ex in Ok.
  destruct Ft as (K & _). rewrite Ex in K. unfold narrow_type in N. rewrite Et in N. exact (ok_one_word w sx u K N Ok).
Qed.

Lemma clamp_safe r x y z tx ty tz : like r tx -> like r ty -> like r tz -> narrow_type r ->
  fm_type m x = Some tx -> fm_type m y = Some ty -> fm_type m z = Some tz ->
  safe (forelse (fold_clamp1 r (fm_const m (id_map x)) (fm_const m (id_map y)) (fm_const m (id_map z)))
    (forelse (fold_clamp2 r (fm_const m (id_map x)) (fm_const m (id_map y)))
             (fold_clamp3 r (fm_const m (id_map x)) (fm_const m (id_map z))))).
Proof.
  intros Lx Ly Lz N Tx Ty Tz. assert (I0 : is_int r) by apply Lx.
  pose proof (fun a E => like_one_word r x tx a Lx N Tx E) as Wx.
  pose proof (fun a E => like_one_word r y ty a Ly N Ty E) as Wy.
  pose proof (fun a E => like_one_word r z tz a Lz N Tz E) as Wz.
  destruct (minmax_rule scalar_max r _ _ (or_intror eq_refl) N I0 Wx Wy) as (S1 & P1).
  destruct (minmax_rule scalar_min r _ _ (or_introl eq_refl) N I0 Wx Wz) as (S2 & _).
  generalize dependent (fm_const m (id_map x)). generalize dependent (fm_const m (id_map y)).
  generalize dependent (fm_const m (id_map z)). intros oz Wz oy Wy [cx|] Wx S1 P1 S2; [|discriminate].
  assert (A3 : safe (fold_clamp3 r (Some cx) oz)).
  { unfold safe, fold_clamp3 in *. destruct oz as [cz|]; [|discriminate].
    destruct (fold_binary_op scalar_min r (Some cx) (Some cz)) eqn:?; try discriminate; [congruence|]. destruct (fconst_eqb _ _); discriminate. }
  destruct oy as [cy|]; [|exact A3].
  assert (A2 : safe (fold_clamp2 r (Some cx) (Some cy))).
  { unfold safe, fold_clamp2 in *. destruct (fold_binary_op scalar_max r (Some cx) (Some cy)) eqn:?; try discriminate; [congruence|]. destruct (fconst_eqb _ _); discriminate. }
  assert (A23 : safe (forelse (fold_clamp2 r (Some cx) (Some cy)) (fold_clamp3 r (Some cx) oz))).
  { unfold safe, forelse in *. destruct (fold_clamp2 _ _ _); auto. }
  assert (A1 : safe (fold_clamp1 r (Some cx) (Some cy) oz)).
  { unfold safe, fold_clamp1 in *. destruct oz as [cz|]; [|discriminate].
    destruct (fold_binary_op scalar_max _ _ _) as [| |temp] eqn:E; cbn [fbind]; try discriminate; [congruence|].
    apply (minmax_rule scalar_min r (Some temp) (Some cz) (or_introl eq_refl) N I0); auto.
    intros a Ea. injection Ea as <-. auto. }
  unfold safe, forelse in *. destruct (fold_clamp1 _ _ _ _); auto.
Qed.

Lemma uniform_total r v : fty_ok r -> is_int r -> total (uniform_value r v).
Proof.
  intros (E & Dm) I0. destruct (is_int_inv _ I0) as (w & s & Et). rewrite Et in E. cbn in E.
  assert (G : total (gen_int w s v)).
  { unfold gen_int. destruct E as [-> |[-> |[-> | ->]]]; cbn; eexists; reflexivity. }
  destruct G as (c & Ec). destruct r as [e|e n]; cbn in Et; subst e; cbn [uniform_value]; rewrite Ec; cbn [fbind].
  - eexists; reflexivity.
  - apply (mk_vector_total _ _ (sconst_type c)).
    + destruct n; [cbn in Dm; lia|discriminate].
    + apply Forall_forall. intros x Hx. apply repeat_spec in Hx. subst x. reflexivity.
Qed.

Lemma negate_safe r x tx : fty_ok r -> narrow_type r -> like r tx -> fm_type m x = Some tx ->
  safe (fold_unary_op negate_int_const r (fm_const m (id_map x))).
Proof.
  intros Fr N L T. destruct (fm_const m (id_map x)) as [a|] eqn:C; [|discriminate].
  destruct (like_inv _ _ L) as (w & s & sx & Et & Ex & Sx).
  assert (W : width_ok w) by (destruct Fr as (K & _); rewrite Et in K; exact K).
  assert (Lw : w <= 32) by (unfold narrow_type in N; rewrite Et in N; exact N).
  pose proof (arg_shape _ _ _ _ T C Sx) as Sa.
  assert (G : forall u, In u (comps a) -> exists c, negate_int_const (elem r) u = FSome c).
  { intros u Hu. destruct (comp_ok _ _ _ _ T C Hu) as (_ & Ok). rewrite Ex in Ok. rewrite Et.
    destruct (negate_total w s sx u W Lw Ok) as (c & Ec & _). eauto. }
  unfold fold_unary_op. destruct r as [e|e n].
  - destruct a as [u| |]; try contradiction. destruct (G u (or_introl eq_refl)) as (c & Ec). cbn in Ec |- *.
    rewrite Ec. discriminate.
  - rewrite (vector_components_comps a e n Sa). cbn [fbind]. cbn [elem] in G.
    assert (M : total (map_rule1 (negate_int_const e) (comps a))).
    { clear -G. induction (comps a) as [|u l IH]; cbn; [eexists; reflexivity|].
      destruct (G u (or_introl eq_refl)) as (c & ->). destruct IH as (cs & ->); [intros; apply G; right; auto|].
      eexists; reflexivity. }
    destruct M as (cs & ->). cbn [fbind]. apply mk_vector_safe.
Qed.
Lemma convert_safe rule r x tx : rule = scalar_sconvert \/ rule = scalar_uconvert -> fty_ok r -> is_int r -> is_int tx ->
  same_shape r tx -> fm_type m x = Some tx -> safe (fold_unary_op rule r (fm_const m (id_map x))).
Proof.
  intros Hr Fr I1 I2 Sh T. destruct (fm_const m (id_map x)) as [a|] eqn:C; [|discriminate].
  destruct (is_int_inv _ I1) as (w & s & Et). destruct (is_int_inv _ I2) as (wx & sx & Ex).
  apply total_safe, (unary_total rule r a (EInt w s) Fr (arg_shape _ _ _ _ T C Sh)).
  intros u Hu. destruct (comp_ok _ _ _ _ T C Hu) as (Ft & Ok). rewrite Ex in Ok. rewrite Et.
  apply (convert_total rule w s wx sx u Hr); auto.
  - destruct Fr as (K & _). rewrite Et in K. exact K.
  - destruct Ft as (K & _). rewrite Ex in K. exact K.
Qed.

Lemma const_rules_safe i : inst_ok m i -> narrow_type (fi_type i) ->
  safe (const_rules m i (consts_of m id_map i)) /\
  (const_rules m i (consts_of m id_map i) = FNone -> arith (fi_op i) = true ->
   all_some (consts_of m id_map i) = None).
Proof.
  intros (Ft & ts & Fts & Wt) N. unfold const_rules, consts_of. cbv zeta.
  destruct i as [o r args fp]. cbn [fi_op fi_type fi_args fi_fp_allowed] in *.
  assert (Un : forall r0, is_unsigned r0 -> like r0 r0).
  { intros r0 U. destruct (is_unsigned_inv _ U) as (w & E). unfold like, is_int. rewrite E. auto using same_shape_refl. }
  destruct o; try (split; [discriminate|discriminate]);
    (destruct ts as [|t1 [|t2 [|t3 [|t4 ts]]]]; try contradiction); cbn [well_typed] in Wt;
    args_inv Fts; cbn [map arg_at nth all_some arith].
  Ltac arith_case o L1 L2 T T0 Ft N :=
    let A := fresh "A" in
    pose proof (arith_rule o _ _ _ _ _ _ eq_refl eq_refl Ft N L1 L2 T T0) as A;
    match type of T with fm_type _ ?x = _ => destruct (fm_const m (id_map x)) as [?|] eqn:? end;
    [match type of T0 with fm_type _ ?y = _ => destruct (fm_const m (id_map y)) as [?|] eqn:? end|];
    [destruct A as (? & ->); split; [discriminate|discriminate]
    |rewrite ?A; cbn [forelse]
    |rewrite ?A; cbn [forelse]].
  - destruct Wt as (L1 & L2). arith_case FIAdd L1 L2 T T0 Ft N; split; try discriminate; reflexivity.
  - destruct Wt as (L1 & L2). arith_case FISub L1 L2 T T0 Ft N; unfold fold_redundant_sub; cbn [fi_args];
      destruct (N.eqb _ _); split; try discriminate; reflexivity.
  - destruct Wt as (L1 & L2). arith_case FIMul L1 L2 T T0 Ft N; split; try discriminate; reflexivity.
  - destruct Wt as (-> & -> & U). pose proof (Un _ U) as L. arith_case FUDiv L L T T0 Ft N;
      unfold fold_redundant_div; cbn [fi_args fi_op fi_type]; try (split; [discriminate|reflexivity]).
    split; [|reflexivity]. destruct (fm_const m (id_map x0)); [discriminate|].
    destruct (N.eqb _ _); [|discriminate]. apply total_safe, uniform_total; [exact Ft|apply L].
  - destruct Wt as (L1 & L2). arith_case FSDiv L1 L2 T T0 Ft N;
      unfold fold_redundant_div; cbn [fi_args fi_op fi_type]; try (split; [discriminate|reflexivity]).
    split; [|reflexivity]. destruct (fm_const m (id_map x0)); [discriminate|].
    pose proof (fun v => uniform_total r v Ft (proj1 L1)) as U.
    destruct (N.eqb _ _); [apply total_safe, U|].
    destruct (match fm_snegate m x with Some _ => _ | None => _ end); [apply total_safe, U|].
    destruct (match fm_snegate m x0 with Some _ => _ | None => _ end); [apply total_safe, U|discriminate].
  - destruct Wt as (-> & -> & U). pose proof (Un _ U) as L. arith_case FUMod L L T T0 Ft N; split; try discriminate; reflexivity.
  - destruct Wt as (L1 & L2). arith_case FSRem L1 L2 T T0 Ft N; split; try discriminate; reflexivity.
  - destruct Wt as (L1 & L2). arith_case FSMod L1 L2 T T0 Ft N; split; try discriminate; reflexivity.
  - split; [|discriminate]. exact (negate_safe _ _ _ Ft N Wt T).
  - split; [|discriminate]. unfold fold_invariant_select.
    destruct (fm_const m (id_map x0)); [|discriminate]. destruct (fm_const m (id_map x1)); [|discriminate].
    destruct (fconst_eqb _ _); [discriminate|]. destruct (_ && _); discriminate.
  - split; [|discriminate]. destruct Wt as (I1 & I2 & Sx). exact (convert_safe _ _ _ _ (or_introl eq_refl) Ft I1 I2 Sx T).
  - split; [|discriminate]. destruct Wt as (I1 & I2 & Sx & _). exact (convert_safe _ _ _ _ (or_intror eq_refl) Ft I1 I2 Sx T).
  - split; [|discriminate]. destruct Wt as (L1 & L2). destruct fp; [|discriminate].
    apply (minmax_rule scalar_min); [auto|exact N|apply L1| |]; intros ? Ea; first [exact (like_one_word _ _ _ _ L1 N T Ea)|exact (like_one_word _ _ _ _ L2 N T0 Ea)].
  - split; [|discriminate]. destruct Wt as (L1 & L2). destruct fp; [|discriminate].
    apply (minmax_rule scalar_min); [auto|exact N|apply L1| |]; intros ? Ea; first [exact (like_one_word _ _ _ _ L1 N T Ea)|exact (like_one_word _ _ _ _ L2 N T0 Ea)].
  - split; [|discriminate]. destruct Wt as (L1 & L2). destruct fp; [|discriminate].
    apply (minmax_rule scalar_max); [auto|exact N|apply L1| |]; intros ? Ea; first [exact (like_one_word _ _ _ _ L1 N T Ea)|exact (like_one_word _ _ _ _ L2 N T0 Ea)].
  - split; [|discriminate]. destruct Wt as (L1 & L2). destruct fp; [|discriminate].
    apply (minmax_rule scalar_max); [auto|exact N|apply L1| |]; intros ? Ea; first [exact (like_one_word _ _ _ _ L1 N T Ea)|exact (like_one_word _ _ _ _ L2 N T0 Ea)].
  - split; [|discriminate]. destruct Wt as (L1 & L2 & L3). exact (clamp_safe _ _ _ _ _ _ _ L1 L2 L3 N T T0 T1).
  - split; [|discriminate]. destruct Wt as (L1 & L2 & L3). exact (clamp_safe _ _ _ _ _ _ _ L1 L2 L3 N T T0 T1).
Qed.

Lemma test_safe f p k e : (f = get_u32_words \/ f = get_s32_words) ->
  foldable_scalar_ety e = true -> (forall c, k = Some c -> const_ok (TScalar e) c) -> safe (words_test f p (int_words k)).
Proof.
  intros Hf Fe Ok. destruct k as [[[|w s ws|]| |]|]; cbn; try discriminate.
  specialize (Ok _ eq_refl). cbn in Ok. destruct Ok as (-> & v & _ & ->). cbn in Fe. apply Z.eqb_eq in Fe. subst w.
  destruct Hf as [-> | ->]; cbn; discriminate.
Qed.
Lemma either_safe t0 t1 v : safe t0 -> safe t1 -> safe (either t0 t1 v).
Proof.
  unfold either, safe. intros A B. destruct t0 as [| |[]]; cbn [fbind]; try discriminate; [congruence|].
  destruct t1 as [| |[]]; cbn [fbind]; try discriminate. congruence.
Qed.
Lemma integer_op_safe o cs ts : Forall2 (fun k t => forall c, k = Some c -> const_ok t c) cs ts ->
  Forall (fun t => foldable_scalar_type t = true) ts -> safe (fold_integer_op o cs).
Proof.
  intros F Fs. unfold fold_integer_op.
  destruct cs as [|k0 [|k1 [|k2 ks]]]; try discriminate.
  inversion F as [|? t0 ? ? K0 F1]; subst. inversion F1 as [|? t1 ? ? K1 F2]; subst. inversion F2; subst.
  inversion Fs as [|? ? S0 Fs']; subst. inversion Fs' as [|? ? S1 _]; subst.
  destruct t0 as [e0|]; [|discriminate]. destruct t1 as [e1|]; [|discriminate].
  pose proof (fun f p H => test_safe f p k0 e0 H S0 K0) as T0. pose proof (fun f p H => test_safe f p k1 e1 H S1 K1) as T1.
  assert (B : safe (fold_binary_boolean o k0 k1)).
  { unfold fold_binary_boolean. destruct o; try discriminate; destruct (_ || _); discriminate. }
  assert (A : safe (fold_binary_integer o k0 k1)).
  { unfold fold_binary_integer. cbv zeta. destruct o; try discriminate;
      try (destruct (_ || _); discriminate); try (apply either_safe; auto; discriminate).
    - intros E. specialize (T1 get_u32_words (fun x => 32 <=? x) (or_introl eq_refl)).
      destruct (words_test _ _ (int_words k1)) as [| |[]] eqn:W; cbn [fbind] in E; try discriminate. exact (T1 eq_refl).
    - intros E. specialize (T1 get_u32_words (fun x => 32 <=? x) (or_introl eq_refl)).
      destruct (words_test _ _ (int_words k1)) as [| |[]] eqn:W; cbn [fbind] in E; try discriminate. exact (T1 eq_refl). }
  unfold safe, forelse in *. destruct (fold_binary_integer o k0 k1); auto; discriminate.
Qed.

Lemma all_some_in {A} (l : list (option A)) : forall r, all_some l = Some r -> map Some r = l.
Proof.
  induction l as [|[a|] l IH]; cbn; intros r E; try discriminate.
  - injection E as <-. reflexivity.
  - destruct (all_some l) as [r'|]; [|discriminate]. injection E as <-. cbn. f_equal. auto.
Qed.

Theorem fold_to_constant_safe i : inst_ok m i -> narrow_inst m id_map i -> safe (fold_to_constant m id_map i).
Proof.
  intros Ok (N & Na & Np). destruct (const_rules_safe i Ok N) as (S1 & A1).
  unfold fold_to_constant. cbv zeta. unfold consts_of in S1, A1.
  destruct (const_rules m i _) as [| |c']; [|congruence|discriminate]. specialize (A1 eq_refl).
  destruct Ok as (Ft & ts & Fts & Wt).
  assert (Ko : Forall2 (fun k t => forall c, k = Some c -> const_ok t c)
                 (map (fun id => fm_const m (id_map id)) (fi_args i)) ts).
  { clear -Fts Hm Hid. induction Fts as [|id t args ts' T F IH]; cbn; constructor; auto.
    intros c C. destruct (arg_const m id_map Hm Hid _ _ _ T C) as (_ & K). exact K. }
  assert (Wo : forall l, all_some (map (fun id => fm_const m (id_map id)) (fi_args i)) = Some l ->
               foldable_opcode (fi_op i) = true -> word_op (fi_op i) = true).
  { intros l El Fo. rewrite El in A1. destruct (fi_op i); try reflexivity; try discriminate; specialize (A1 eq_refl); discriminate. }
  destruct (foldable_by_scalar m i) eqn:FS.
  - unfold foldable_by_scalar in FS. apply andb_prop in FS. destruct FS as (FS & Sa). apply andb_prop in FS. destruct FS as (Fo & Fr).
    pose proof (satisfy_types m _ _ _ Sa Fts) as St.
    destruct (fi_type i) as [e|] eqn:Ty; [|discriminate].
    destruct (all_some _) as [l|] eqn:A.
    + specialize (Wo l eq_refl Fo). unfold fold_scalars. pose proof (all_some_in _ _ A) as Al.
      assert (L : length l = length ts).
      { rewrite <- (map_length Some l), Al, map_length. clear -Fts. induction Fts; cbn; congruence. }
      rewrite <- Al in Ko. clear Al A.
      assert (M : total (mapf (fun c => match c with CScalar s => scalar_word s | CNullVector _ _ => FSome 0 | CVector _ _ => FBad end) l)).
      { apply mapf_total. clear -Ko St. revert ts Ko St. induction l as [|c l IH]; intros ts Ko St x Hx; [destruct Hx|].
        cbn [map] in Ko. inversion Ko as [|? t ? ? K Ko']; subst. inversion St as [|? ? F St']; subst.
        destruct Hx as [<- |Hx]; [|exact (IH _ Ko' St' x Hx)].
        specialize (K _ eq_refl). destruct t as [e|]; [|discriminate]. destruct c as [s| |]; try contradiction.
        exact (word_total e s F K). }
      destruct M as (ws & M). rewrite M. cbn [fbind].
      destruct (word_op_total (fi_op i) (TScalar e) ts ws Wt Wo) as (u & ->); [rewrite (mapf_length _ _ _ M); exact L|].
      discriminate.
    + pose proof (integer_op_safe (fi_op i) _ ts Ko St) as Q. unfold safe in *.
      destruct (fold_integer_op _ _); cbn [fbind]; [discriminate|congruence|discriminate].
  - clear FS. destruct (foldable_by_vector m i) eqn:FV; [|discriminate].
    unfold foldable_by_vector in FV. apply andb_prop in FV. destruct FV as (FV & Sa). apply andb_prop in FV. destruct FV as (Fo & Fr).
    pose proof (satisfy_types m _ _ _ Sa Fts) as St.
    destruct (all_some _) as [l|] eqn:A; [|discriminate].
    destruct (fi_type i) as [|e n] eqn:Ty; [discriminate|].
    specialize (Wo l eq_refl Fo). pose proof (all_some_in _ _ A) as Al.
    assert (L : length l = length ts).
    { rewrite <- (map_length Some l), Al, map_length. clear -Fts. induction Fts; cbn; congruence. }
    assert (Pl : Forall plain_const l).
    { apply Forall_forall. intros c Hc. apply (in_map Some) in Hc. rewrite Al in Hc. apply in_map_iff in Hc.
      destruct Hc as (id & E & Hin). exact (Np id c Hin E). }
    rewrite <- Al in Ko. clear Al A.
    pose proof (well_typed_dims _ _ _ Wt Fr St) as Ds.
    assert (M : total (fold_vectors (fi_op i) n l)).
    { apply mapf_total. intros d Hd. apply in_seq in Hd.
      assert (M : total (mapf (vector_word d) l)).
      { apply mapf_total. cbn [dims] in Ds. clear -Ko St Pl Ds Hd. revert ts Ko St Ds. induction l as [|c l IH]; intros ts Ko St Ds x Hx; [destruct Hx|].
        cbn [map] in Ko. inversion Ko as [|? t ? ? K Ko']; subst. inversion St as [|? ? F St']; subst.
        inversion Ds as [|? ? D Ds']; subst. inversion Pl as [|? ? P0 Pl']; subst.
        destruct Hx as [<- |Hx]; [|exact (IH Pl' _ Ko' St' Ds' x Hx)].
        specialize (K _ eq_refl). destruct t as [|e k]; [discriminate|]. destruct c as [s|e' cs|e' k']; try contradiction; cbn.
        - destruct K as (-> & Lc & Fc). destruct (nth_error_in_range cs d) as (s & Es); [cbn in *; lia|]. rewrite Es.
          pose proof (word_total e' s F (Forall_nth_error _ _ _ _ Fc Es)) as W.
          destruct s as [b|w s ws|en]; cbn in W |- *; auto.
          apply nth_error_In in Es. destruct (P0 en Es).
        - eexists; reflexivity. }
      destruct M as (ws & M). rewrite M. cbn [fbind].
      apply (word_op_total (fi_op i) (TVector e n) ts ws Wt Wo). rewrite (mapf_length _ _ _ M). exact L. }
    destruct M as (vs & ->). cbn [fbind]. apply mk_vector_safe.
Qed.
End Safe.
