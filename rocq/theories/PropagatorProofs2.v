(** Proofs about constant propagation: what visiting one instruction does to the values. *)
From Verif Require Import Base Propagator PropagatorSpec PropagatorProofs.
Local Open Scope N_scope.
Set Default Proof Using "All".

Section CCP.
Variable consts : N -> option constant.
Variable fold_inst : nat -> inst -> (N -> N) -> folded.
Variable M : Type.
Variable sem : nat -> list (option value) -> M -> value -> M -> Prop.
Variable ty : N -> vtype.
Variable f : func.
Hypothesis W : well_formed f.
Hypothesis WT : well_typed ty consts f.
Hypothesis FR : folds_right consts sem ty f fold_inst.
Hypothesis FM : folds_more consts f fold_inst.

Definition vary (V : values) (id : N) : Prop := V id = Some varying_id.
Definition consistent (V : values) (ids : list N) (vs : list (option value)) : Prop :=
  Forall2 (fun id ov => forall k', consts (value_map V id) = Some k' -> ov = Some (cvalue k')) ids vs.
Definition cond_target (k : constant) (t e : N) : option N := match k with CNull _ => Some e | CBool b => Some (if b then t else e) | _ => None end.
Definition sel_target (k : constant) (d : N) (cases : list (list N * N)) : option N :=
  match k with CInt ws => Some (switch_target (hd 0 ws) d cases) | CNull _ => Some (switch_target 0 d cases) | _ => None end.
Definition all_succs (X : N -> N -> bool) (i : inst) : Prop := forall l, In (Some l) (inst_succs i) -> X (blk i) l = true.

(** The value of an instruction is justified by those of its operands, and the edges a terminator may take are executable. *)
Definition upto (V : values) (X : N -> N -> bool) (i : inst) : Prop :=
  match kind i with
  | KLabel => vary V (res i)
  | KPhi args => forall a l, In (a, l) args -> X l (blk i) = true -> V a = None \/ vary V (res i) \/ V (res i) = V a
  | KCopy s => V s = None \/ vary V (res i) \/ V (res i) = V s
  | KFoldable _ ids => vary V (res i) \/ (V (res i) = None /\ exists id, In id ids /\ V id = None) \/
      (exists c k, V (res i) = Some c /\ consts c = Some k /\ forall vs mem v mem', consistent V ids vs -> sem (uid i) vs mem v mem' -> v = cvalue k)
  | KOther _ _ => res i = 0 \/ vary V (res i)
  | KReturn _ _ => True
  | KBranch l => X (blk i) l = true
  | KCond c t e => all_succs X i \/ exists v k l, V c = Some v /\ consts v = Some k /\ cond_target k t e = Some l /\ X (blk i) l = true
  | KSwitch s d cases => all_succs X i \/ exists v k l, V s = Some v /\ consts v = Some k /\ sel_target k d cases = Some l /\ X (blk i) l = true
  end.
(** A constant once found is kept or becomes varying. *)
Definition persists (V : values) (X : N -> N -> bool) (i : inst) : Prop :=
  forall c, V (res i) = Some c -> c <> varying_id ->
  match kind i with
  | KPhi args => exists a l, In (a, l) args /\ X l (blk i) = true /\ (V a = Some c \/ vary V a)
  | KCopy s => V s = Some c \/ vary V s
  | KFoldable _ ids => (exists id, In id ids /\ vary V id) \/ forall n, fold_inst n i (value_map V) <> FNone
  | KLabel => False
  | _ => True
  end.
Definition typed (V : values) : Prop := forall id c, V id = Some c -> c <> varying_id -> exists k, consts c = Some k /\ ty c = ty id.
(** The status recorded for an instruction tells its value. *)
Definition status_of (o : option status) (V : values) (id : N) : Prop :=
  match o with
  | None | Some NotInteresting => V id = None
  | Some Interesting => exists c, V id = Some c /\ c <> varying_id
  | Some Varying => vary V id
  end.
Definition const_ids_known (V : values) : Prop := forall i id k, In i (all_insts f) -> In id (in_ids i) -> consts id = Some k -> V id = Some id.

(** What a visit guarantees. *)
Record visit_good (V : values) (X : N -> N -> bool) (i : inst) (old : option status) (st : status) (dest : option N) (V' : values) : Prop := {
  vg_frame : forall id, id <> res i \/ res i = 0 -> V' id = V id;
  vg_up : V (res i) = None \/ V' (res i) = V (res i) \/ vary V' (res i);
  vg_status : res i <> 0 -> status_of (Some st) V' (res i);
  vg_no_drop : old = Some Interesting -> st <> NotInteresting;
  vg_changes : res i <> 0 -> V' (res i) <> V (res i) -> old <> Some st;
  vg_upto : forall X', (forall p q, X p q = true -> X' p q = true) -> (is_terminator i = false -> forall p q, X' p q = X p q) ->
    (forall d, dest = Some d -> X' (blk i) d = true) -> (st = Varying -> is_terminator i = true -> all_succs X' i) -> upto V' X' i;
  vg_persists : persists V' X i;
  vg_typed : typed V';
  vg_dest : forall d, dest = Some d -> is_terminator i = true /\ In (Some d) (inst_succs i) /\ st = Interesting }.

Lemma put_same id v V : put_value id v V id = Some v.
Proof using Type. clear. unfold put_value. rewrite N.eqb_refl. reflexivity. Qed.
Lemma put_other id v V x : x <> id -> put_value id v V x = V x.
Proof using Type. clear. intro H. unfold put_value. destruct (N.eqb_spec x id); [contradiction|reflexivity]. Qed.
Lemma not_self i : In i (all_insts f) -> is_phi i = false -> res i <> 0 -> ~ In (res i) (in_ids i).
Proof using W.
  clear - W. intros Hi Hp Hr. apply in_all_insts_inv in Hi as (b & Hb & [<-|Hi]).
  - destruct (wf_label f W b Hb) as (E & _). unfold in_ids. rewrite E. intros [].
  - apply in_split in Hi as (is & js & E). apply (wf_uses f W b is i js i Hb E Hp (or_introl eq_refl) Hr).
Qed.
Lemma value_map_const V id c : V id = Some c -> c <> varying_id -> value_map V id = c.
Proof using Type. clear. intros E H. unfold value_map. rewrite E. destruct (N.eqb_spec c varying_id); [contradiction|reflexivity]. Qed.
Lemma value_map_same V V' id : V' id = V id -> value_map V' id = value_map V id.
Proof using Type. clear. intro E. unfold value_map. rewrite E. reflexivity. Qed.
Lemma const_not_varying c k : consts c = Some k -> c <> varying_id.
Proof using WT. clear - WT. intros E ->. rewrite (wt_varying _ _ _ WT) in E. discriminate. Qed.
Lemma const_not_zero c k : consts c = Some k -> c <> 0.
Proof using WT. clear - WT. intros E ->. rewrite (wt_zero _ _ _ WT) in E. discriminate. Qed.
Lemma typed_put V id c : typed V -> (c <> varying_id -> exists k, consts c = Some k /\ ty c = ty id) -> typed (put_value id c V).
Proof using Type.
  clear. intros T H x d E Hd. destruct (N.eq_dec x id) as [->|N].
  - rewrite put_same in E. inversion E; subst. auto.
  - rewrite put_other in E by exact N. eauto.
Qed.
Lemma typed_nonzero V id c : typed V -> V id = Some c -> c <> 0.
Proof.
  intros T E ->. destruct (T id 0 E ltac:(discriminate)) as (k & Ek & _). rewrite (wt_zero _ _ _ WT) in Ek. discriminate.
Qed.

(** Marking an instruction varying is right for any kind of instruction with a result. *)
Lemma upto_varying V X i : In i (all_insts f) -> (res i <> 0 -> vary V (res i)) -> (is_terminator i = true -> all_succs X i) -> upto V X i.
Proof using W.
  clear - W. intros Hi Hv Ht. pose proof (wf_has_result f W i Hi) as Hr. unfold upto, is_terminator in *.
  destruct (kind i) eqn:E; auto.
  - apply Hv. intro Z. apply Hr in Z. discriminate.
  - intros a l _ _. right. left. apply Hv. intro Z. apply Hr in Z. discriminate.
  - right. left. apply Hv. intro Z. apply Hr in Z. discriminate.
  - left. apply Hv. intro Z. apply Hr in Z. discriminate.
  - destruct (N.eq_dec (res i) 0); auto.
  - apply (Ht eq_refl). unfold inst_succs. rewrite E. left. reflexivity.
Qed.
Lemma mark_varying_good V X i old st : In i (all_insts f) -> res i <> 0 -> is_terminator i = false -> typed V -> status_of old V (res i) -> old <> Some Varying ->
  st = Varying -> visit_good V X i old st None (put_value (res i) varying_id V).
Proof.
  intros Hi Hr Ht T S O ->. split.
  - intros id [H|H]; [apply put_other; exact H|contradiction].
  - right. right. apply put_same.
  - intros _. apply put_same.
  - discriminate.
  - intros _ _. exact O.
  - intros X' _ _ _ _. apply upto_varying; [exact Hi|intros _; apply put_same|congruence].
  - intros c E Hc. rewrite put_same in E. congruence.
  - apply typed_put; [exact T|congruence].
  - discriminate.
Qed.

Lemma not_interesting_good V X i old : V (res i) = None -> is_terminator i = false -> typed V -> status_of old V (res i) ->
  (forall X', (forall p q, X' p q = X p q) -> upto V X' i) -> visit_good V X i old NotInteresting None V.
Proof using Type.
  intros E Ht T S Hu. split.
  - reflexivity.
  - auto.
  - intros _. exact E.
  - intro Eo. rewrite Eo in S. destruct S as (? & ? & ?). congruence.
  - congruence.
  - intros X' _ HX' _ _. apply Hu. exact (HX' Ht).
  - intros c Ec. congruence.
  - exact T.
  - discriminate.
Qed.

(** Phis *)
Lemma phi_meet_some V X b args : typed V -> forall m0 m, phi_meet V X b args m0 = Some m ->
  (forall a l, In (a, l) args -> X l b = true -> V a = None \/ V a = Some m) /\ (m0 <> 0 -> m = m0) /\
  (m = m0 \/ exists a l, In (a, l) args /\ X l b = true /\ V a = Some m /\ m <> varying_id).
Proof.
  intro T. induction args as [|[a l] args IH]; intros m0 m H; cbn [phi_meet] in H.
  - inversion H; subst. split; [intros ? ? []|]. auto.
  - destruct (X l b) eqn:EX.
    + destruct (V a) as [v|] eqn:Ea.
      * destruct (N.eqb_spec v varying_id) as [|Nv]; [discriminate|]. destruct (N.eqb_spec m0 0) as [->|N0].
        -- destruct (IH v m H) as (A & B & C). pose proof (typed_nonzero V a v T Ea) as Nz. specialize (B Nz). subst m. split; [|split; [congruence|]].
           ++ intros a' l' [E|Hin] HX; [inversion E; subst; right; exact Ea|eauto].
           ++ right. exists a, l. split; [left; reflexivity|]. auto.
        -- destruct (N.eqb_spec v m0) as [->|]; [|discriminate]. destruct (IH m0 m H) as (A & B & C). split; [|split; [exact B|]].
           ++ intros a' l' [E|Hin] HX; [inversion E; subst; right; rewrite (B N0); exact Ea|eauto].
           ++ destruct C as [C|(a' & l' & C1 & C2)]; [left; exact C|right; exists a', l'; split; [right; exact C1|exact C2]].
      * destruct (IH m0 m H) as (A & B & C). split; [|split; [exact B|]].
        -- intros a' l' [E|Hin] HX; [inversion E; subst; left; exact Ea|eauto].
        -- destruct C as [C|(a' & l' & C1 & C2)]; [left; exact C|right; exists a', l'; split; [right; exact C1|exact C2]].
    + destruct (IH m0 m H) as (A & B & C). split; [|split; [exact B|]].
      * intros a' l' [E|Hin] HX; [inversion E; subst; congruence|eauto].
      * destruct C as [C|(a' & l' & C1 & C2)]; [left; exact C|right; exists a', l'; split; [right; exact C1|exact C2]].
Qed.
Lemma phi_meet_vary V X b args a l : In (a, l) args -> X l b = true -> vary V a -> forall m0, phi_meet V X b args m0 = None.
Proof using Type.
  clear. intros Hin HX Hv. induction args as [|[a' l'] args IH]; intro m0; [destruct Hin|]. cbn [phi_meet]. destruct Hin as [E|Hin].
  - inversion E; subst. rewrite HX, Hv, N.eqb_refl. reflexivity.
  - destruct (X l' b); [|auto]. destruct (V a'); [|auto]. destruct (_ =? varying_id); [reflexivity|]. destruct (m0 =? 0); [auto|]. destruct (_ =? m0); auto.
Qed.

Definition visit_result (V : values) (X : N -> N -> bool) (i : inst) (old : option status) (r : visited (values * nat)) : Prop :=
  match r with
  | Visited st dest u => visit_good V X i old st dest (fst u)
  | VisitFailed => True
  | VisitAsserted => False
  end.

Lemma visit_phi_good V X i args old n : In i (all_insts f) -> kind i = KPhi args -> typed V -> persists V X i -> status_of old V (res i) -> old <> Some Varying ->
  visit_result V X i old (visit_phi i args V n X).
Proof.
  intros Hi Hk T Hp S O. assert (Hr : res i <> 0).
  { pose proof (wf_has_result f W i Hi) as Hr. rewrite Hk in Hr. intro Z. apply Hr in Z. unfold is_terminator in Z. rewrite Hk in Z. discriminate. }
  assert (Ht : is_terminator i = false) by (unfold is_terminator; rewrite Hk; reflexivity).
  unfold visit_phi. destruct (phi_meet V X (blk i) args 0) as [m|] eqn:E; [|apply mark_varying_good; auto].
  destruct (phi_meet_some V X (blk i) args T 0 m E) as (A & _ & C).
  assert (Hold : forall c, V (res i) = Some c -> c <> varying_id -> m = c).
  { intros c Ec Hc. specialize (Hp c Ec Hc). rewrite Hk in Hp. destruct Hp as (a & l & Hin & HX & [Ha|Ha]).
    - destruct (A a l Hin HX) as [Z|Z]; congruence.
    - rewrite (phi_meet_vary V X (blk i) args a l Hin HX Ha) in E. discriminate. }
  destruct (N.eqb_spec m 0) as [->|Nm]; cbn [visit_result fst].
  - assert (V (res i) = None).
    { destruct (V (res i)) as [c|] eqn:Ec; [|reflexivity]. destruct (N.eq_dec c varying_id) as [->|Nc].
      - exfalso. destruct old as [[]|]; cbn [status_of] in S; try congruence. destruct S as (? & ? & ?). congruence.
      - pose proof (typed_nonzero V _ c T Ec). rewrite (Hold c eq_refl Nc) in *. congruence. }
    apply not_interesting_good; auto. intros X' HX'. unfold upto. rewrite Hk. intros a l Hin HXl. rewrite HX' in HXl. destruct (A a l Hin HXl) as [Z|Z]; [auto|].
    exfalso. apply (typed_nonzero V a 0 T Z). reflexivity.
  - destruct C as [C|(a & l & Hin & HX & Ha & Hmv)]; [contradiction|].
    split.
    + intros id [H|H]; [apply put_other; exact H|contradiction].
    + destruct (V (res i)) as [c|] eqn:Ec; [|auto]. right. destruct (N.eq_dec c varying_id) as [->|Nc].
      * exfalso. destruct old as [[]|]; cbn [status_of] in S; unfold vary in S; try congruence. destruct S as (? & ? & ?). congruence.
      * left. rewrite (Hold c eq_refl Nc). rewrite put_same. reflexivity.
    + intros _. exists m. split; [apply put_same|exact Hmv].
    + discriminate.
    + intros _ K. rewrite put_same in K. intros ->. destruct S as (c & Ec & Nc). rewrite (Hold c Ec Nc) in K. congruence.
    + intros X' HX1 HX' _ _. unfold upto. rewrite Hk. intros a' l' Hin' HXl. rewrite (HX' Ht) in HXl.
      destruct (N.eq_dec a' (res i)) as [->|Na]; [auto|]. rewrite put_same, put_other by exact Na. destruct (A a' l' Hin' HXl); auto.
    + intros c Ec Hc. rewrite put_same in Ec. inversion Ec; subst c. rewrite Hk. exists a, l. split; [exact Hin|]. split; [exact HX|]. left.
      destruct (N.eq_dec a (res i)) as [->|Na]; [apply put_same|rewrite put_other by exact Na; exact Ha].
    + apply typed_put; [exact T|]. intros _. destruct (T a m Ha Hmv) as (k & Ek & Et). exists k. split; [exact Ek|]. rewrite Et.
      pose proof (wt_inst _ _ _ WT i Hi) as Wi. rewrite Hk in Wi. rewrite Forall_forall in Wi. apply (Wi (a, l) Hin).
    + discriminate.
Qed.

(** Assignments *)
Lemma status_none_or_const old V id : status_of old V id -> old <> Some Varying ->
  (V id = None /\ old <> Some Interesting) \/ (exists c, V id = Some c /\ c <> varying_id /\ old = Some Interesting).
Proof using Type. clear. destruct old as [[]|]; cbn [status_of]; intros S O; try (left; split; [exact S|discriminate]); [|congruence]. right. destruct S as (c & ? & ?). eauto. Qed.
Lemma assign_good V X i old c n : In i (all_insts f) -> res i <> 0 -> is_terminator i = false -> typed V -> status_of old V (res i) -> old <> Some Varying ->
  (exists k, consts c = Some k /\ ty c = ty (res i)) ->
  (forall X', (forall p q, X' p q = X p q) -> upto (put_value (res i) c V) X' i) -> persists (put_value (res i) c V) X i ->
  visit_result V X i old (assign i (lattice_meet i V c) V n).
Proof.
  intros Hi Hr Ht T S O (k & Ek & Et) Hu Hp. pose proof (const_not_varying c k Ek) as Hc.
  assert (L : lattice_meet i V c = c /\ (V (res i) = None /\ old <> Some Interesting \/ V (res i) = Some c /\ old = Some Interesting) \/ lattice_meet i V c = varying_id).
  { unfold lattice_meet. destruct (status_none_or_const old V (res i) S O) as [(-> & O1)|(c0 & -> & Hc0 & O1)]; [left; auto|].
    destruct (N.eqb_spec c0 varying_id); [contradiction|]. destruct (N.eqb_spec c varying_id); [contradiction|].
    destruct (N.eqb_spec c0 c) as [->|]; cbn [negb]; auto. }
  unfold assign. destruct L as [(-> & L)| -> ].
  - destruct (N.eqb_spec c varying_id); [contradiction|]. cbn [visit_result fst]. split.
    + intros id [H|H]; [apply put_other; exact H|contradiction].
    + destruct L as [(L & _)|(L & _)]; [auto|]. right. left. rewrite put_same, L. reflexivity.
    + intros _. exists c. split; [apply put_same|exact Hc].
    + discriminate.
    + intros _ K. rewrite put_same in K. destruct L as [(_ & L)|(L & _)]; [exact L|congruence].
    + intros X' HX HX' _ _. apply Hu. exact (HX' Ht).
    + exact Hp.
    + apply typed_put; [exact T|]. eauto.
    + discriminate.
  - rewrite N.eqb_refl. cbn [visit_result fst]. apply mark_varying_good; auto.
Qed.
Lemma visit_assignment_good V X i old n : In i (all_insts f) -> is_phi i = false -> is_terminator i = false -> res i <> 0 -> typed V -> const_ids_known V ->
  persists V X i -> status_of old V (res i) -> old <> Some Varying ->
  visit_result V X i old (visit_assignment fold_inst i V n).
Proof.
  intros Hi Hph Ht Hr T CK Hp S O. pose proof (not_self i Hi Hph Hr) as Hns. unfold visit_assignment.
  assert (Hmv : visit_result V X i old (mark_varying i V n)) by (apply mark_varying_good; auto).
  destruct (kind i) eqn:Hk; try exact Hmv.
  - (* copy *)
    assert (Hs : src <> res i) by (intros ->; apply Hns; unfold in_ids; rewrite Hk; left; reflexivity).
    destruct (V src) as [v|] eqn:Es.
    + destruct (N.eqb_spec v varying_id) as [->|Nv]; [exact Hmv|]. destruct (T src v Es Nv) as (k & Ek & Et).
      apply assign_good; auto.
      * exists k. split; [exact Ek|]. rewrite Et. pose proof (wt_inst _ _ _ WT i Hi) as Wi. rewrite Hk in Wi. exact Wi.
      * intros X' _. unfold upto. rewrite Hk. rewrite put_same, put_other by exact Hs. auto.
      * intros c Ec Hc. rewrite put_same in Ec. inversion Ec; subst. rewrite Hk, put_other by exact Hs. auto.
    + cbn [visit_result fst]. assert (V (res i) = None).
      { destruct (status_none_or_const old V (res i) S O) as [(E & _)|(c & E & Hc & _)]; [exact E|]. specialize (Hp c E Hc). rewrite Hk in Hp. unfold vary in Hp. destruct Hp; congruence. }
      apply not_interesting_good; auto. intros X' _. unfold upto. rewrite Hk. auto.
  - (* foldable *)
    assert (Hids : forall id, In id ids -> id <> res i) by (intros id Hid ->; apply Hns; unfold in_ids; rewrite Hk; exact Hid).
    assert (HfoldNone : fold_inst n i (value_map V) = FNone -> existsb (is_varying V) ids = false -> V (res i) = None).
    { intros F Hex. destruct (status_none_or_const old V (res i) S O) as [(E & _)|(c & E & Hc & _)]; [exact E|]. specialize (Hp c E Hc). rewrite Hk in Hp.
      destruct Hp as [(id & Hid & Hv)|Hp]; [|exfalso; exact (Hp n F)]. exfalso. assert (existsb (is_varying V) ids = true); [|congruence].
      apply existsb_exists. exists id. split; [exact Hid|]. unfold is_varying. rewrite Hv. reflexivity. }
    destruct (fold_inst n i (value_map V)) as [|c|] eqn:F; [|  |exact I].
    + destruct (existsb (is_varying V) ids) eqn:Ex; [apply mark_varying_good; auto|]. specialize (HfoldNone eq_refl eq_refl).
      destruct (forallb (is_known V) ids) eqn:Ek; cbn [negb]; [apply mark_varying_good; auto|].
      cbn [visit_result fst]. apply not_interesting_good; auto. intros X' _. unfold upto. rewrite Hk. right. left. split; [exact HfoldNone|].
        assert (E : exists id, In id ids /\ is_known V id = false).
        { clear - Ek. induction ids as [|x l IH]; [discriminate|]. cbn [forallb] in Ek. destruct (is_known V x) eqn:Ex; [destruct (IH Ek) as (y & ? & ?); exists y; split; [right|]; auto|exists x; split; [left; reflexivity|exact Ex]]. }
        destruct E as (id & Hid & E). exists id. split; [exact Hid|]. unfold is_known in E. destruct (V id); [discriminate|reflexivity].
    + destruct (FR n i op ids (value_map V) c Hi Hk F) as (k & Ek & Et & Hsem). apply assign_good; auto.
      * eauto.
      * intros X' _. unfold upto. rewrite Hk. right. right. exists c, k. split; [apply put_same|]. split; [exact Ek|].
        intros vs mem v mem' Hcons. apply Hsem. clear - Hcons Hids. unfold consistent in Hcons. revert Hids. induction Hcons as [|id ov ids vs H _ IH]; intro Hids; [constructor|].
        constructor; [|apply IH; intros x Hx; apply Hids; right; exact Hx]. intros k' Ek'. apply H.
        rewrite (value_map_same V); [exact Ek'|]. apply put_other. apply Hids. left. reflexivity.
      * intros c' Ec' Hc'. rewrite Hk. right. intro n'. apply (FM n n' i op ids (value_map V) (value_map (put_value (res i) c V)) Hi Hk); [|congruence].
        intros id Hid _. apply value_map_same. apply put_other. apply Hids. exact Hid.
Qed.

(** Branches *)
Lemma goto_good V X i old l n : In i (all_insts f) -> is_terminator i = true -> res i = 0 -> typed V -> In (Some l) (inst_succs i) -> 
  (forall X', X' (blk i) l = true -> upto V X' i) ->
  visit_result V X i old (match get_block f l with Some _ => Visited Interesting (Some l) (V, n) | None => VisitAsserted end).
Proof.
  intros Hi Ht Hr T Hl Hu. destruct (get_block_some f l (wf_targets f W i l Hi Hl)) as (b & ->). cbn [visit_result fst]. split; auto; try congruence.
  - intros c _ _. unfold is_terminator in Ht. destruct (kind i); auto; discriminate.
  - intros d [= <-]. auto.
Qed.
Lemma branch_varying_good V X i old n : In i (all_insts f) -> is_terminator i = true -> res i = 0 -> typed V -> visit_result V X i old (Visited Varying None (V, n)).
Proof.
  intros Hi Ht Hr T. cbn [visit_result fst]. split; auto; try congruence; try discriminate.
  - intros X' _ _ _ Ha. apply upto_varying; [exact Hi|congruence|auto].
  - intros c _ _. unfold is_terminator in Ht. destruct (kind i); auto; discriminate.
Qed.
Lemma switch_target_succ i s d cases w : kind i = KSwitch s d cases -> In (Some (switch_target w d cases)) (inst_succs i).
Proof using Type.
  clear. intro Hk. unfold inst_succs. rewrite Hk. clear Hk. induction cases as [|[lit l] cases IH]; cbn [switch_target map snd]; [left; reflexivity|].
  destruct (w =? hd 0 lit); [right; left; reflexivity|]. destruct IH as [E|E]; [left; exact E|right; right; exact E].
Qed.
Lemma visit_branch_good V X i old n : In i (all_insts f) -> (match kind i with KBranch _ | KCond _ _ _ | KSwitch _ _ _ => True | _ => False end) -> typed V ->
  visit_result V X i old (visit_branch consts f i V n).
Proof.
  intros Hi Hb T. assert (Ht : is_terminator i = true) by (unfold is_terminator; destruct (kind i); auto; destruct Hb).
  assert (Hr : res i = 0). { pose proof (wf_has_result f W i Hi) as Hr. destruct (kind i); try (destruct Hb); apply Hr; exact Ht. }
  unfold visit_branch. destruct (kind i) eqn:Hk; try (destruct Hb).
  - apply goto_good; auto.
    + unfold inst_succs. rewrite Hk. left. reflexivity.
    + intros X' H. unfold upto. rewrite Hk. exact H.
  - destruct (V c) as [v|] eqn:Ec; [|apply branch_varying_good; auto]. destruct (N.eqb_spec v varying_id) as [->|Nv]; [apply branch_varying_good; auto|].
    destruct (T c v Ec Nv) as (k & Ek & Et). destruct (wt_const _ _ _ WT v k Ek) as (Ok1 & Ok2). pose proof (wt_inst _ _ _ WT i Hi) as Wi. rewrite Hk in Wi. rewrite Et, Wi in Ok2.
    rewrite Ek. assert (G : forall l, cond_target k t f0 = Some l -> In (Some l) (inst_succs i) ->
      visit_result V X i old (match get_block f l with Some _ => Visited Interesting (Some l) (V, n) | None => VisitAsserted end)).
    { intros l El Hl. apply goto_good; auto. intros X' H. unfold upto. rewrite Hk. right. exists v, k, l. auto. }
    destruct k as [b|ws|v0|m]; cbn [cvalue type_of] in Ok2; try discriminate.
    + apply G; [reflexivity|]. unfold inst_succs. rewrite Hk. destruct b; [left|right; left]; reflexivity.
    + apply G; [reflexivity|]. unfold inst_succs. rewrite Hk. right. left. reflexivity.
  - destruct (V sel) as [v|] eqn:Ec; [|apply branch_varying_good; auto]. destruct (N.eqb_spec v varying_id) as [->|Nv]; [apply branch_varying_good; auto|].
    destruct (T sel v Ec Nv) as (k & Ek & Et). destruct (wt_const _ _ _ WT v k Ek) as (Ok1 & Ok2). pose proof (wt_inst _ _ _ WT i Hi) as Wi. rewrite Hk in Wi.
    destruct Wi as (w & Wi & _). rewrite Et, Wi in Ok2.
    rewrite Ek. assert (G : forall l, sel_target k dflt cases = Some l -> In (Some l) (inst_succs i) ->
      visit_result V X i old (match get_block f l with Some _ => Visited Interesting (Some l) (V, n) | None => VisitAsserted end)).
    { intros l El Hl. apply goto_good; auto. intros X' H. unfold upto. rewrite Hk. right. exists v, k, l. auto. }
    destruct k as [b|ws|v0|m]; cbn [cvalue type_of] in Ok2; try discriminate.
    + apply G; [reflexivity|]. apply (switch_target_succ i sel). exact Hk.
    + apply G; [reflexivity|]. apply (switch_target_succ i sel). exact Hk.
Qed.

Lemma visit_instruction_good V X i old n : In i (all_insts f) -> typed V -> const_ids_known V -> persists V X i ->
  (res i <> 0 -> status_of old V (res i)) -> old <> Some Varying ->
  visit_result V X i old (visit_instruction consts fold_inst f (V, n) X i).
Proof.
  intros Hi T CK Hp S O. unfold visit_instruction. cbn [fst snd].
  pose proof (wf_has_result f W i Hi) as Hres.
  assert (Hassign : is_phi i = false -> is_terminator i = false \/ res i = 0 -> (match kind i with KBranch _ | KCond _ _ _ | KSwitch _ _ _ => False | _ => True end) ->
    visit_result V X i old (if negb (res i =? 0) then visit_assignment fold_inst i V n else Visited Varying None (V, n))).
  { intros Hph Ht Hnb. destruct (N.eqb_spec (res i) 0) as [Z|Nz]; cbn [negb].
    - cbn [visit_result fst]. split; auto; try congruence; try discriminate.
      + intros X' HX HX' _ Ha. apply upto_varying; [exact Hi|congruence|auto].
    - apply visit_assignment_good; auto. destruct Ht; [auto|contradiction]. }
  destruct (kind i) eqn:Hk; try (solve [apply Hassign; unfold is_phi, is_terminator; try rewrite Hk; auto]).
  - apply visit_phi_good; auto. apply S. unfold is_terminator in Hres. rewrite Hk in Hres. intro Z. apply Hres in Z. discriminate.
  - apply visit_branch_good; auto. rewrite Hk. exact I.
  - apply visit_branch_good; auto. rewrite Hk. exact I.
  - apply visit_branch_good; auto. rewrite Hk. exact I.
  - apply Hassign; auto; [unfold is_phi; rewrite Hk; reflexivity|]. right. apply Hres. unfold is_terminator. rewrite Hk. reflexivity.
Qed.
End CCP.
