(** Proofs about the rewriting rules: selections and booleans, and all the rules together. *)
From Verif Require Import Base Fold FoldSpec FoldProofs FoldProofs2 FoldRules FoldRulesSpec FoldRulesProofs
  FoldRulesProofs2 FoldRulesProofs3.
Local Open Scope Z_scope.

(** Instructions that may be moved into the branches of a selection. *)
Definition selectable (o : fop) : Prop :=
  match o with
  | FOr | FXor | FAnd | FShrL | FShrA | FShl | FIAdd | FISub | FIMul | FSDiv | FUDiv
  | FLogAnd | FLogOr | FLogEq | FLogNe
  | FIEq | FINe | FULt | FSLt | FUGt | FSGt | FULe | FSLe | FUGe | FSGe => True
  | _ => False
  end.
Lemma fty_eqb_eq a b : fty_eqb a b = true -> a = b.
Proof.
  destruct a, b; cbn; try discriminate.
  - intros H. f_equal. apply ety_eqb_eq. exact H.
  - intros H. apply andb_prop in H. destruct H as [H1 H2]. f_equal; [apply ety_eqb_eq; exact H1|apply Nat.eqb_eq; exact H2].
Qed.
Lemma bool_const s : sconst_ok EBool s -> exists b, bool_value s = FSome b /\ sconst_value s = (if b then 1 else 0).
Proof.
  destruct s as [b|w s ws|e]; cbn.
  - intros _. exists b. auto.
  - intros [H _]. discriminate.
  - intros _. exists false. auto.
Qed.
Lemma sbool_kind_value s b : sbool_kind s = Some b -> sconst_value s = if b then 1 else 0.
Proof. destruct s; cbn; intros [= <-]; reflexivity. Qed.
Lemma bool_kind_value t c b d : const_ok t c -> (d < dims t)%nat -> bool_kind c = Some b ->
  component d (const_value c) = if b then 1 else 0.
Proof.
  intros C Hd H. destruct t as [e|e n], c as [s|e' l|e' n']; cbn in C; try contradiction.
  - cbn in *. apply sbool_kind_value. exact H.
  - destruct C as (_ & L & _). cbn [dims] in Hd. destruct l as [|s l]; [discriminate|]. cbn [bool_kind] in H.
    destruct (sbool_kind s) as [b'|] eqn:E; [|discriminate].
    destruct (forallb _ l) eqn:Fl; [|discriminate]. injection H as ->.
    assert (A : forall x, In x (s :: l) -> sconst_value x = if b then 1 else 0).
    { intros x [<-|H]; [apply sbool_kind_value; exact E|]. rewrite forallb_forall in Fl. specialize (Fl x H).
      apply sbool_kind_value. destruct (sbool_kind x) as [bx|]; [|discriminate]. cbn in Fl.
      apply Bool.eqb_prop in Fl. congruence. }
    rewrite (component_nth n) by (cbn [const_value]; rewrite ?map_length; auto). cbn [const_value].
    rewrite nth_indep with (d' := sconst_value s) by (rewrite map_length; lia).
    rewrite map_nth. apply A. apply nth_In. lia.
  - destruct C as (<- & <-). injection H as <-. apply (null_const_component (TVector e n)).
Qed.

Section Rules.
Variable m : rmodule.
Hypothesis Hm : rmodule_ok m.

Lemma typed_two o i : selectable o -> typed_args m i o ->
  exists a b ta tb, ri_args i = [a; b] /\ rtype m a = Some ta /\ rtype m b = Some tb /\
    well_typed o (ri_type i) [ta; tb] /\ same_shape (ri_type i) ta /\ same_shape (ri_type i) tb.
Proof using Type.
  intros Ho (ts & F & W).
  assert (G : exists ta tb, ts = [ta; tb] /\ same_shape (ri_type i) ta /\ same_shape (ri_type i) tb).
  { destruct o; cbn in Ho; try contradiction; destruct ts as [|ta [|tb [|? ?]]]; try contradiction;
      exists ta, tb; (split; [reflexivity|]); cbn in W;
      first [ destruct W as [La Lb]; split; [apply La|apply Lb]
            | destruct W as (La & _ & Sb); split; [apply La|exact Sb]
            | destruct W as (-> & -> & _); split; apply same_shape_refl
            | destruct W as (_ & _ & Sa & Lb); split; [exact Sa|eapply same_shape_trans; [exact Sa|apply Lb]] ]. }
  destruct G as (ta & tb & -> & Sa & Sb).
  inversion F as [|a ? l ? Ea F1 E1]; subst. inversion F1 as [|b ? l' ? Eb F2]; subst. inversion F2; subst.
  exists a, b, ta, tb. auto 8.
Qed.
Lemma typed_select i : typed_args m i FSelect ->
  exists c x y tc, ri_args i = [c; x; y] /\ rtype m c = Some tc /\ rtype m x = Some (ri_type i) /\
    rtype m y = Some (ri_type i) /\ is_bool tc /\ (same_shape (ri_type i) tc \/ tc = TScalar EBool).
Proof using Type.
  intros (ts & F & W). destruct ts as [|tc [|tx [|ty [|? ?]]]]; try contradiction. destruct W as (-> & -> & B & S).
  inversion F as [|c ? l ? Ec F1]; subst. inversion F1 as [|x ? l' ? Ex F2]; subst.
  inversion F2 as [|y ? l'' ? Ey F3]; subst. inversion F3; subst. exists c, x, y, tc. auto 8.
Qed.
Lemma typed_same i o : typed_args m i o -> o = FLogEq \/ o = FLogNe \/ o = FLogOr \/ o = FLogAnd ->
  exists a b, ri_args i = [a; b] /\ rtype m a = Some (ri_type i) /\ rtype m b = Some (ri_type i) /\ is_bool (ri_type i).
Proof using Type.
  intros (ts & F & W) Ho. destruct Ho as [-> |[-> |[-> | ->]]];
  (destruct ts as [|ta [|tb [|? ?]]]; try contradiction; destruct W as (-> & -> & B);
   inversion F as [|a ? l ? Ea F1]; subst; inversion F1 as [|b ? l' ? Eb F2]; subst; inversion F2; subst; exists a, b; auto).
Qed.
Lemma typed_not i : typed_args m i FLogNot ->
  exists a, ri_args i = [a] /\ rtype m a = Some (ri_type i) /\ is_bool (ri_type i).
Proof using Type.
  intros (ts & F & W). destruct ts as [|ta [|? ?]]; try contradiction. destruct W as (-> & B).
  inversion F as [|a ? l ? Ea F1]; subst. inversion F1; subst. exists a. auto.
Qed.
Lemma rtype_def x t : rtype m x = Some t -> exists ix, rm_def m x = Some ix /\ ri_type ix = t.
Proof using Type. unfold rtype. destruct (rm_def m x) as [ix|]; [|discriminate]. intros [= <-]. exists ix. auto. Qed.

(** *** MergeBinaryOpSelect *)
Lemma good_merge_binary_op_select i o : rinst_ok m i -> ri_op i = ROp o -> selectable o ->
  good m i (merge_binary_op_select o m i).
Proof using Hm.
  intros Hi Ho So. destruct Hi as [_ T].
  destruct (typed_two o i So (T o Ho)) as (a & b & ta & tb & Ea & Ta & Tb & W & Sa & Sb).
  unfold merge_binary_op_select. destruct (const_input m i) as [k|] eqn:Ek; [|exact I].
  assert (G : forall (first : bool) p q tp tq, (if first then a = q /\ b = p /\ ta = tq /\ tb = tp
                                    else a = p /\ b = q /\ ta = tp /\ tb = tq) ->
     cst m i 0 = (if first then Some k else None) -> non_const_input m i = FSome p ->
     good m i (merge_binary_op_select o m i)).
  { intros first p q tp tq Efirst C0 Np.
    assert (Tp : rtype m p = Some tp) by (destruct first; destruct Efirst as (? & ? & ? & ?); subst; assumption).
    assert (Tq : rtype m q = Some tq) by (destruct first; destruct Efirst as (? & ? & ? & ?); subst; assumption).
    assert (Sp : same_shape (ri_type i) tp) by (destruct first; destruct Efirst as (? & ? & ? & ?); subst; assumption).
    unfold merge_binary_op_select. rewrite Ek, Np, C0. cbn [fbind].
    destruct (rtype_def p tp Tp) as (sel & D & Es). unfold get_def at 1. rewrite D. cbn [fbind].
    destruct (rop_is sel FSelect) eqn:R; cbn [negb]; [|exact I]. apply rop_is_eq in R.
    destruct (Hm p sel D) as (_ & _ & Tsel).
    destruct (typed_select sel (Tsel _ R)) as (c & x & y & tc & Eargs & Tc & Tx & Ty & B & S). rewrite Es in Tx, Ty, S.
    unfold cst. rewrite Eargs. cbn [nth_error].
    destruct (rm_const m x); [|exact I]. destruct (rm_const m y); [|exact I].
    unfold in_op. rewrite Eargs, Ea. cbn [nth_error fbind].
    destruct (rtype_def c tc Tc) as (cond & Dc & Etc). unfold get_def. rewrite Dc. cbn [fbind].
    destruct (_ && negb (rm_version_1_4 m)); [exact I|].
    assert (Vsel : forall env d, rexecution m env -> (d < dims (ri_type i))%nat ->
      component d (env p) = if component d (env c) =? 0 then component d (env y) else component d (env x)).
    { intros env d (_ & _ & X) Hd. specialize (X p sel FSelect d D R). rewrite Es, (same_shape_dims _ _ Sp) in X.
      specialize (X Hd). unfold inst_value in X. rewrite R, Eargs in X. cbn in X. injection X as X. symmetry. exact X. }
    assert (Wp : width_of m p = ewidth (elem tp)) by (unfold width_of; rewrite Tp; reflexivity).
    assert (Wx : width_of m x = ewidth (elem tp)) by (unfold width_of; rewrite Tx; reflexivity).
    assert (Wy : width_of m y = ewidth (elem tp)) by (unfold width_of; rewrite Ty; reflexivity).
    assert (Typed : forall u v, arg_ok m u -> arg_ok m v -> arg_type m u = Some (ri_type i) -> arg_type m v = Some (ri_type i) ->
      new_well_typed false m (ri_type i) (mkRNew (ROp FSelect) [AId c; u; v])).
    { intros u v Au Av Eu Ev. split; [repeat constructor; assumption|]. exists [tc; ri_type i; ri_type i].
      split; [repeat constructor; assumption|]. cbn. split; [reflexivity|]. split; [reflexivity|]. split; [exact B|].
      destruct S as [S|S]; [left; eapply same_shape_trans; eauto|right; exact S]. }
    destruct first; destruct Efirst as (-> & -> & -> & ->); cbn [fbind good].
    - split.
      + apply Typed; try reflexivity; cbn; [exists tq, tp|exists tq, tp]; auto.
      + intros env d v X Hd _ Hv. unfold inst_value in Hv. rewrite Ho, Ea in Hv. cbn [map] in Hv.
        rewrite (Vsel env d X Hd), Wp in Hv. cbn [new_value rn_op rn_args arg_value].
        destruct (component d (env c) =? 0); cbn [arg_value]; rewrite ?Wx, ?Wy, Hv; reflexivity.
    - split.
      + apply Typed; try reflexivity; cbn; [exists tp, tq|exists tp, tq]; auto.
      + intros env d v X Hd _ Hv. unfold inst_value in Hv. rewrite Ho, Ea in Hv. cbn [map] in Hv.
        rewrite (Vsel env d X Hd), Wp in Hv. cbn [new_value rn_op rn_args arg_value].
        destruct (component d (env c) =? 0); cbn [arg_value]; rewrite ?Wx, ?Wy, Hv; reflexivity. }
  fold (merge_binary_op_select o m i).
  destruct (const_split m i a b k Ea Ek) as [(C0 & Cx & N0 & J)|(C0 & Cx & N0 & J)].
  - specialize (G true b a tb ta). unfold merge_binary_op_select in G. rewrite Ek in G. apply G; auto.
  - specialize (G false a b ta tb). unfold merge_binary_op_select in G. rewrite Ek in G. apply G; auto.
Qed.

(** *** OpSelect *)
Lemma typed_copy i x : rtype m x = Some (ri_type i) -> new_well_typed false m (ri_type i) (mkRNew RCopy [AId x]).
Proof using Type.
  intros E. split; [repeat constructor|]. exists [ri_type i]. split; [repeat constructor; exact E|]. cbn. auto.
Qed.
Lemma good_copy i x : rtype m x = Some (ri_type i) ->
  (forall env d v, rexecution m env -> (d < dims (ri_type i))%nat -> inst_value m env i d = Some v ->
     v = component d (env x)) -> good_new m i (mkRNew RCopy [AId x]).
Proof using Type.
  intros T V. split; [apply typed_copy; exact T|]. intros env d v X Hd _ Hv. cbn. f_equal. symmetry. auto.
Qed.
Lemma good_not i x : rtype m x = Some (ri_type i) -> is_bool (ri_type i) ->
  (forall env d v, rexecution m env -> (d < dims (ri_type i))%nat -> inst_value m env i d = Some v ->
     v = 1 - component d (env x)) -> good_new m i (mkRNew (ROp FLogNot) [AId x]).
Proof using Type.
  intros T B V. split.
  - split; [repeat constructor|]. exists [ri_type i]. split; [repeat constructor; exact T|]. cbn. auto.
  - intros env d v X Hd _ Hv. cbn. f_equal. symmetry. auto.
Qed.
Lemma select_value i c x y : ri_op i = ROp FSelect -> ri_args i = [c; x; y] -> forall env d v,
  inst_value m env i d = Some v ->
  v = if component d (env c) =? 0 then component d (env y) else component d (env x).
Proof using Type.
  intros Ho Ea env d v. unfold inst_value. rewrite Ho, Ea. cbn. congruence.
Qed.
Lemma combine_seq_nth (bs : list bool) : forall start d b, nth_error bs d = Some b ->
  nth_error (combine bs (seq start (length bs))) d = Some (b, (start + d)%nat).
Proof using Type.
  induction bs as [|b' bs IH]; intros start [|d] b; cbn [nth_error length seq combine]; try discriminate.
  - intros [= <-]. do 2 f_equal. lia.
  - intros H. rewrite (IH (S start) d b H). do 2 f_equal. lia.
Qed.
Lemma good_redundant_select i : rinst_ok m i -> ri_op i = ROp FSelect -> good m i (redundant_select m i).
Proof using Hm.
  intros [Fi T] Ho. destruct (typed_select i (T _ Ho)) as (c & x & y & tc & Ea & Tc & Tx & Ty & B & S).
  pose proof (select_value i c x y Ho Ea) as V.
  unfold redundant_select, in_op, cst. rewrite Ea. cbn [nth_error fbind].
  destruct (N.eqb x y) eqn:E.
  - apply N.eqb_eq in E. subst y. apply good_copy; [exact Tx|]. intros env d v X Hd Hv. rewrite (V env d v Hv).
    destruct (_ =? 0); reflexivity.
  - destruct (rm_const m c) as [k|] eqn:Ek; [|exact I].
    destruct (typed_const m Hm c tc k Tc Ek) as (Fc & Ck). unfold is_bool in B.
    destruct k as [s|e l|e n].
    + destruct tc as [e|e n]; [|contradiction]. cbn in B, Ck. subst e. destruct (bool_const s Ck) as (b & -> & Eb). cbn [fbind good].
      apply good_copy; [destruct b; assumption|]. intros env d v X Hd Hv. rewrite (V env d v Hv).
      rewrite (const_value_env m env c _ X Ek). cbn [const_value component]. rewrite Eb. destruct b; reflexivity.
    + destruct tc as [e'|e' n]; [contradiction|]. cbn in B, Ck. subst e'. destruct Ck as (<- & Ll & Fl).
      destruct (mapf_total bool_value (fun s b => sconst_value s = if b then 1 else 0) l) as (bs & Eb & Fb).
      { intros s Hs. rewrite Forall_forall in Fl. destruct (bool_const s (Fl s Hs)) as (b & H1 & H2). exists b. auto. }
      destruct (mapf_nth _ _ _ Eb) as (Lb & Hb). rewrite Eb. cbn [fbind]. cbv zeta.
      assert (Et : exists e, ri_type i = TVector e n).
      { destruct S as [S|S]; [|discriminate]. destruct (ri_type i) as [e|e n']; [contradiction|]. cbn in S. subst n'. eauto. }
      destruct Et as (e & Et). cbn [good]. split.
      * split; [repeat constructor|]. exists [ri_type i; ri_type i]. split; [repeat constructor; assumption|].
        cbn [rn_op]. exists e, n. split; [exact Et|]. split; [reflexivity|]. split; [reflexivity|]. split.
        -- rewrite map_length, combine_length, seq_length, Lb. lia.
        -- apply Forall_forall. intros z Hz. apply in_map_iff in Hz. destruct Hz as ([b k] & <- & Hin).
           apply in_combine_r in Hin. apply in_seq in Hin. destruct b; lia.
      * intros env d v X Hd _ Hv. rewrite Et in Hd. cbn [dims] in Hd. cbn [new_value rn_op rn_args].
        destruct (nth_error_in_range l d) as [s Hs]; [lia|]. destruct (Hb d s Hs) as (b & Hbd & Ebv).
        rewrite <- Lb, (map_nth_error _ d _ (combine_seq_nth bs 0 d b Hbd)). rewrite Lb.
        assert (Ec : component d (env c) = if b then 1 else 0).
        { rewrite (const_value_env m env c _ X Ek).
          rewrite (component_nth n); [|cbn [const_value]; rewrite map_length; exact Ll|exact Hd].
          rewrite (const_value_nth _ d s) by (cbn [comps]; exact Hs).
          assert (Hsk : sconst_ok EBool s) by (rewrite Forall_forall in Fl; apply Fl; eapply nth_error_In; exact Hs).
          destruct (bool_const s Hsk) as (b' & E1 & E2). assert (b' = b) by congruence. subst b'. exact E2. }
        rewrite (V env d v Hv), Ec. cbn [arg_dims]. rewrite Tx, Et. cbn [dims Nat.add].
        destruct b.
        -- replace (d <? n)%nat with true by (symmetry; apply Nat.ltb_lt; exact Hd). reflexivity.
        -- replace (d + length l <? n)%nat with false by (symmetry; apply Nat.ltb_ge; lia).
           replace (d + length l - n)%nat with d by lia. reflexivity.
    + apply good_copy; [exact Ty|]. intros env d v X Hd Hv. rewrite (V env d v Hv), (const_value_env m env c _ X Ek).
      rewrite (null_const_component (TVector e n)). reflexivity.
Qed.
Lemma bool_range x t env d : rtype m x = Some t -> is_bool t -> rexecution m env -> (d < dims t)%nat ->
  component d (env x) = 0 \/ component d (env x) = 1.
Proof using Hm.
  intros T B X Hd. pose proof (typed_range m Hm x t env d T X Hd) as R. unfold is_bool in B. rewrite B in R. cbn in R. lia.
Qed.
Lemma good_constant_boolean_select i : rinst_ok m i -> ri_op i = ROp FSelect -> good m i (constant_boolean_select m i).
Proof using Hm.
  intros [Fi T] Ho. destruct (typed_select i (T _ Ho)) as (c & x & y & tc & Ea & Tc & Tx & Ty & B & S).
  pose proof (select_value i c x y Ho Ea) as V.
  unfold constant_boolean_select, in_op, cst. rewrite Ea. cbn [nth_error fbind].
  destruct (rm_const m x) as [c1|] eqn:E1; [|exact I]. destruct (rm_const m y) as [c2|] eqn:E2; [|exact I].
  destruct (rtype_def c tc Tc) as (cond & D & Et). unfold get_def. rewrite D. cbn [fbind].
  destruct (fty_eqb (ri_type i) (ri_type cond)) eqn:Q; cbn [negb]; [|exact I]. apply fty_eqb_eq in Q.
  assert (Ei : tc = ri_type i) by congruence. subst tc. rewrite Ei in Tc, B.
  destruct (typed_const m Hm x _ c1 Tx E1) as (_ & C1). destruct (typed_const m Hm y _ c2 Ty E2) as (_ & C2).
  destruct (bool_kind c1) as [b1|] eqn:K1; [|exact I]. destruct (bool_kind c2) as [b2|] eqn:K2; [|destruct b1; exact I].
  assert (V' : forall env d v, rexecution m env -> (d < dims (ri_type i))%nat -> inst_value m env i d = Some v ->
    v = if component d (env c) =? 0 then (if b2 then 1 else 0) else if b1 then 1 else 0).
  { intros env d v X Hd Hv. rewrite (V env d v Hv), (const_value_env m env x c1 X E1), (const_value_env m env y c2 X E2).
    rewrite (bool_kind_value _ c1 b1 d C1 Hd K1), (bool_kind_value _ c2 b2 d C2 Hd K2). reflexivity. }
  destruct b1, b2; try exact I.
  - apply good_copy; [exact Tc|]. intros env d v X Hd Hv. rewrite (V' env d v X Hd Hv).
    destruct (bool_range c _ env d Tc B X Hd) as [-> | ->]; reflexivity.
  - apply good_not; [exact Tc|exact B|]. intros env d v X Hd Hv. rewrite (V' env d v X Hd Hv).
    destruct (bool_range c _ env d Tc B X Hd) as [-> | ->]; reflexivity.
Qed.

(** *** Logical instructions *)
Lemma logical_operands i o c : rinst_ok m i -> ri_op i = ROp o -> o = FLogEq \/ o = FLogNe \/ o = FLogOr \/ o = FLogAnd ->
  const_input m i = Some c ->
  exists p, non_const_input m i = FSome p /\ rtype m p = Some (ri_type i) /\ is_bool (ri_type i) /\
    const_ok (ri_type i) c /\ (exists a, in_op i 0 = FSome a /\ rtype m a = Some (ri_type i)) /\
    forall env d v, rexecution m env -> inst_value m env i d = Some v ->
      component_value o (ewidth (elem (ri_type i)))
        [(0, component d (env p)); (0, component d (const_value c))] = Some v.
Proof using Hm.
  intros [_ T] Ho Hor Ec. destruct (typed_same i o (T _ Ho) Hor) as (a & b & Ea & Ta & Tb & B).
  assert (Comm : forall w x y v, component_value o w [x; y] = Some v -> component_value o w [(0, snd y); (0, snd x)] = Some v).
  { intros w [? x] [? y] v. destruct Hor as [-> |[-> |[-> | ->]]]; cbn; rewrite ?(Z.eqb_sym y x), ?(Z.max_comm y x), ?(Z.min_comm y x); auto. }
  assert (Drop : forall w x y v, component_value o w [x; y] = Some v -> component_value o w [(0, snd x); (0, snd y)] = Some v).
  { intros w [? x] [? y] v. destruct Hor as [-> |[-> |[-> | ->]]]; cbn; auto. }
  assert (I0 : in_op i 0 = FSome a) by (unfold in_op; rewrite Ea; reflexivity).
  destruct (const_split m i a b c Ea Ec) as [(C0 & Cx & N0 & J)|(C0 & Cx & N0 & J)].
  - exists b. split; [exact N0|]. split; [exact Tb|]. split; [exact B|].
    split; [apply (typed_const m Hm a _ c Ta Cx)|]. split; [exists a; auto|].
    intros env d v X Hv. unfold inst_value in Hv. rewrite Ho, Ea in Hv. cbn [map] in Hv. apply Comm in Hv. cbn [snd] in Hv.
    rewrite <- (const_value_env m env a c X Cx). exact Hv.
  - exists a. split; [exact N0|]. split; [exact Ta|]. split; [exact B|].
    split; [apply (typed_const m Hm b _ c Tb Cx)|]. split; [exists a; auto|].
    intros env d v X Hv. unfold inst_value in Hv. rewrite Ho, Ea in Hv. cbn [map] in Hv. apply Drop in Hv. cbn [snd] in Hv.
    rewrite <- (const_value_env m env b c X Cx). exact Hv.
Qed.
Lemma good_redundant_logical i (neutral : bool) : rinst_ok m i -> ri_op i = ROp (if neutral then FLogAnd else FLogOr) ->
  good m i (redundant_logical neutral m i).
Proof using Hm.
  intros Hi Ho. unfold redundant_logical. destruct (const_input m i) as [c|] eqn:Ec; [|exact I].
  destruct (logical_operands i _ c Hi Ho) as (p & Np & Tp & B & C & _ & V); [destruct neutral; auto|exact Ec|].
  cbn [obool_kind]. destruct (bool_kind c) as [b|] eqn:K; cbn [obool_eqb]; [|exact I].
  destruct (Bool.eqb b neutral) eqn:Q; [|exact I]. apply Bool.eqb_prop in Q. subst b.
  rewrite Np. cbn [fbind good]. apply good_copy; [exact Tp|]. intros env d v X Hd Hv.
  specialize (V env d v X Hv). rewrite (bool_kind_value _ c _ d C Hd K) in V.
  pose proof (bool_range p _ env d Tp B X Hd) as R.
  destruct neutral; cbn in V; injection V as <-; destruct R as [-> | ->]; reflexivity.
Qed.
Lemma good_redundant_logical_equal i (equal : bool) : rinst_ok m i -> ri_op i = ROp (if equal then FLogEq else FLogNe) ->
  good m i (redundant_logical_equal equal m i).
Proof using Hm.
  intros Hi Ho. unfold redundant_logical_equal. destruct (const_input m i) as [c|] eqn:Ec; [|exact I].
  destruct (logical_operands i _ c Hi Ho) as (p & Np & Tp & B & C & (a & Ia & Ta) & V); [destruct equal; auto|exact Ec|].
  rewrite Ia. cbn [fbind]. destruct (rtype_def a _ Ta) as (ia & D & Et). unfold get_def. rewrite D. cbn [fbind].
  destruct (negb _); [exact I|]. destruct (bool_kind c) as [b|] eqn:K; [|exact I]. rewrite Np. cbn [fbind good].
  assert (V' : forall env d v, rexecution m env -> (d < dims (ri_type i))%nat -> inst_value m env i d = Some v ->
    v = if Bool.eqb equal b then component d (env p) else 1 - component d (env p)).
  { intros env d v X Hd Hv. specialize (V env d v X Hv). rewrite (bool_kind_value _ c _ d C Hd K) in V.
    pose proof (bool_range p _ env d Tp B X Hd) as R.
    destruct equal, b; cbn in V; injection V as <-; destruct R as [-> | ->]; reflexivity. }
  destruct equal, b; cbn [negb];
    first [ apply good_copy; [exact Tp|]; intros env d v X Hd Hv; apply (V' env d v X Hd Hv)
          | apply good_not; [exact Tp|exact B|]; intros env d v X Hd Hv; apply (V' env d v X Hd Hv) ].
Qed.
Lemma not_value i a : ri_op i = ROp FLogNot -> ri_args i = [a] -> forall env d v,
  inst_value m env i d = Some v -> v = 1 - component d (env a).
Proof using Type. intros Ho Ea env d v. unfold inst_value. rewrite Ho, Ea. cbn. congruence. Qed.
Lemma good_redundant_logical_not i : rinst_ok m i -> ri_op i = ROp FLogNot -> good m i (redundant_logical_not m i).
Proof using Hm.
  intros [_ T] Ho. destruct (typed_not i (T _ Ho)) as (a & Ea & Ta & B). pose proof (not_value i a Ho Ea) as V.
  unfold redundant_logical_not, in_op. rewrite Ea. cbn [nth_error fbind].
  destruct (rtype_def a _ Ta) as (ia & D & Et). unfold get_def. rewrite D. cbn [fbind].
  destruct (rop_is ia FLogNot) eqn:R; [|exact I]. apply rop_is_eq in R. destruct (Hm a ia D) as (_ & _ & Tia).
  destruct (typed_not ia (Tia _ R)) as (x & Ex & Tx & _). rewrite Ex. cbn [nth_error fbind good]. rewrite Et in Tx.
  apply good_copy; [exact Tx|]. intros env d v X Hd Hv. rewrite (V env d v Hv).
  destruct X as (_ & _ & X). specialize (X a ia FLogNot d D R). rewrite Et in X. specialize (X Hd).
  apply (not_value ia x R Ex env d) in X. rewrite X. lia.
Qed.
Lemma opposite_typed o o' t a b : opposite o = Some o' -> well_typed o t [a; b] -> well_typed o' t [a; b].
Proof using Type. destruct o; cbn; try discriminate; intros [= <-]; auto. Qed.
Lemma opposite_two o o' t ts : opposite o = Some o' -> well_typed o t ts -> exists a b, ts = [a; b].
Proof using Type.
  destruct o; try discriminate; intros _; destruct ts as [|a [|b [|? ?]]]; try contradiction; eauto.
Qed.
Lemma opposite_value o o' w x y v : opposite o = Some o' -> component_value o w [x; y] = Some v ->
  component_value o' w [x; y] = Some (1 - v).
Proof using Type.
  destruct x as [wx x], y as [wy y]. destruct o; try discriminate; intros [= <-]; cbn; intros [= <-]; f_equal;
    repeat match goal with |- context [if ?b then _ else _] => destruct b eqn:? end; lia.
Qed.
Lemma good_logical_not_comparison i : rinst_ok m i -> ri_op i = ROp FLogNot -> good m i (logical_not_comparison m i).
Proof using Hm.
  intros [_ T] Ho. destruct (typed_not i (T _ Ho)) as (a & Ea & Ta & B). pose proof (not_value i a Ho Ea) as V.
  unfold logical_not_comparison, in_op. rewrite Ea. cbn [nth_error fbind].
  destruct (rtype_def a _ Ta) as (ia & D & Et). unfold get_def. rewrite D. cbn [fbind].
  destruct (1 <? rm_uses m a)%nat; [exact I|]. destruct (ri_op ia) as [o| | | |] eqn:R; try exact I.
  destruct (opposite o) as [o'|] eqn:Op; [|exact I]. destruct (Hm a ia D) as (_ & _ & Tia).
  destruct (Tia o R) as (ts & F & W). destruct (opposite_two o o' _ ts Op W) as (tx & ty & ->).
  inversion F as [|x ? l ? Tx F1 E1]; subst. inversion F1 as [|y ? l' ? Ty F2]; subst. inversion F2; subst.
  cbn [nth_error fbind good]. rewrite Et in W. split.
  - split; [repeat constructor|]. exists [tx; ty]. split; [repeat constructor; assumption|]. cbn [rn_op].
    eapply opposite_typed; eauto.
  - intros env d v X Hd _ Hv. rewrite (V env d v Hv).
    destruct X as (_ & _ & X). specialize (X a ia o d D R). rewrite Et in X. specialize (X Hd).
    unfold inst_value in X. rewrite R, <- E1 in X. cbn [map] in X. rewrite Et in X.
    apply (opposite_value o o' _ _ _ _ Op) in X.
    destruct o; try discriminate; injection Op as <-; exact X.
Qed.

(** *** All the rules *)
Lemma good_first l i : (forall r, In r l -> good m i (r m i)) -> good m i (first_rule l m i).
Proof using Type.
  induction l as [|r l IH]; intros H; cbn [first_rule]; [exact I|].
  apply good_forelse; [apply H; left; reflexivity|apply IH; intros r' Hr; apply H; right; exact Hr].
Qed.
Theorem good_apply_rules i : rinst_ok m i -> good m i (apply_rules m i).
Proof using Hm.
  intros Hi. unfold apply_rules. destruct (ri_op i) as [o| | | |] eqn:Ho; try exact I.
  assert (Sel : selectable o -> good m i (merge_binary_op_select o m i)) by (intros; apply good_merge_binary_op_select; assumption).
  apply good_first. intros r Hr.
  destruct o; cbn [rules_of In] in Hr;
    repeat (destruct Hr as [<-|Hr]; [first
      [ apply Sel; exact I
      | apply good_zero_right; solve [auto]
      | apply good_zero_left; solve [auto]
      | eapply good_zero_shift; solve [eauto | unfold shift; auto]
      | eapply good_zero_shifted; solve [eauto | unfold shift; auto]
      | apply good_zero_divided; solve [auto]
      | apply good_reassociate_commutative; solve [auto]
      | apply good_reassociate_nested; solve [auto]
      | apply good_redundant_and_or_xor; solve [auto]
      | apply good_redundant_and_add_sub; solve [auto]
      | apply good_redundant_and_shift; solve [auto]
      | apply good_merge_add_negate; solve [auto]
      | apply good_merge_add_add; solve [auto]
      | apply good_merge_add_sub; solve [auto]
      | apply good_merge_generic_add_sub; solve [auto]
      | apply good_reassociate_add_sub; solve [auto]
      | apply good_factor_add_sub_muls; solve [auto]
      | apply good_merge_sub_negate; solve [auto]
      | apply good_merge_sub_add; solve [auto]
      | apply good_merge_sub_sub; solve [auto]
      | apply good_int_multiple_by_1; solve [auto]
      | apply good_merge_mul_mul; solve [auto]
      | apply good_merge_mul_negate; solve [auto]
      | apply good_merge_double_negative_mul; solve [auto]
      | apply good_merge_double_negative_div; solve [auto]
      | apply good_redundant_div; solve [auto]
      | apply good_redundant_mod; solve [auto]
      | apply good_merge_negate; solve [auto]
      | apply good_merge_negate_mul_div; solve [auto]
      | apply good_merge_negate_add_sub; solve [auto]
      | apply good_redundant_select; solve [auto]
      | apply good_constant_boolean_select; solve [auto]
      | apply good_redundant_logical; solve [auto]
      | apply good_redundant_logical_not; solve [auto]
      | apply good_logical_not_comparison; solve [auto]
      | apply good_redundant_logical_equal; solve [auto] ]|]); try contradiction.
Qed.
End Rules.
