(** Proofs about constant propagation: the values found are right in every execution, and replacing them changes no execution. *)
From Verif Require Import Base Propagator PropagatorSpec PropagatorProofs PropagatorProofs2 PropagatorProofs3 PropagatorProofs4 PropagatorProofs5.
Local Open Scope N_scope.
Set Default Proof Using "All".

Lemma select_one w d : forall cases, Forall (fun c => length (fst c) = 1%nat) cases -> switch_target w d cases = select [w] d cases.
Proof.
  induction cases as [|[lit l] cases IH]; intro H; [reflexivity|]. apply Forall_cons_iff in H as (H1 & H2). cbn [fst] in H1. destruct lit as [|x [|? ?]]; try discriminate.
  cbn [switch_target select hd]. destruct (list_eq_dec N.eq_dec [x] [w]) as [E|E].
  - inversion E. rewrite N.eqb_refl. reflexivity.
  - destruct (N.eqb_spec w x) as [->|]; [contradiction|]. apply IH. exact H2.
Qed.
Lemma select_in ws d : forall cases, select ws d cases = d \/ In (select ws d cases) (map snd cases).
Proof.
  induction cases as [|[lit l] cases IH]; [left; reflexivity|]. cbn [select map snd]. destruct (list_eq_dec N.eq_dec lit ws); [right; left; reflexivity|].
  destruct IH as [->|H]; [left; reflexivity|right; right; exact H].
Qed.

Section CCP.
Variable consts : N -> option constant.
Variable fold_inst : nat -> inst -> (N -> N) -> folded.
Variable M : Type.
Variable sem : nat -> list (option value) -> M -> value -> M -> Prop.
Variable ty : N -> vtype.
Variable f : func.
Variable V0 : values.
Variable r0 : env.
Variable m0 : M.
Hypothesis W : well_formed f.
Hypothesis WT : well_typed ty consts f.
Hypothesis NS : narrow_switches ty f.
Hypothesis FR : folds_right consts sem ty f fold_inst.
Hypothesis FM : folds_more consts f fold_inst.
Hypothesis SR : starts_right consts ty f V0 r0.

Lemma h_own i : In i (all_insts f) -> res i <> 0 -> V0 (res i) = None /\ consts (res i) = None.
Proof using SR. clear - SR. intros Hi Hr. destruct (st_own _ _ _ _ _ SR i Hi Hr) as (A & B & _). auto. Qed.

Local Notation upto := (PropagatorProofs2.upto consts M sem).
Local Notation inv := (PropagatorProofs4.inv consts fold_inst M sem ty f V0).
Local Notation look := (look consts).
Local Notation effect := (effect M consts sem).
Local Notation goes := (goes consts).
Local Notation phis_from := (phis_from consts).
Local Notation step := (step M consts sem).
Local Notation reachable := (reachable M consts sem).
Local Notation vary := PropagatorProofs2.vary.

Theorem values_end fuel c s V n : propagate consts fold_inst f fuel V0 = Ok (c, (s, (V, n))) -> inv none none none s V /\ blocksQ s = [] /\ ssaQ s = [].
Proof using W WT FR FM SR. clear - W WT FR FM SR.
  apply (PropagatorProofs5.propagate_end consts fold_inst M sem ty f V0 W WT FR FM); [exact h_own|apply (st_const _ _ _ _ _ SR)|apply (st_known _ _ _ _ _ SR)].
Qed.
Lemma dest_label u X i st d u' : In i (all_insts f) -> visit_instruction consts fold_inst f u X i = Visited st (Some d) u' -> In d (labels f).
Proof using W.
  clear - W. intros Hi H. unfold visit_instruction in H.
  assert (G : visit_branch consts f i (fst u) (snd u) = Visited st (Some d) u' -> In d (labels f)).
  { unfold visit_branch. intro K. destruct (kind i); try discriminate.
    - destruct (get_block f l) eqn:E; [|discriminate]. inversion K; subst. apply get_block_in in E as (Hb & <-). apply in_map. exact Hb.
    - destruct (fst u c) as [v|]; [|discriminate]. destruct (v =? varying_id); [discriminate|]. destruct (consts v) as [[b| |v'|]|]; try discriminate.
      + destruct (get_block f (if b then t else f0)) eqn:E; [|discriminate]. inversion K; subst. apply get_block_in in E as (Hb & <-). apply in_map. exact Hb.
      + destruct (get_block f f0) eqn:E; [|discriminate]. inversion K; subst. apply get_block_in in E as (Hb & <-). apply in_map. exact Hb.
    - destruct (fst u sel) as [v|]; [|discriminate]. destruct (v =? varying_id); [discriminate|]. destruct (consts v) as [[b|ws|v'|]|]; try discriminate.
      + destruct (get_block f (switch_target (hd 0 ws) dflt cases)) eqn:E; [|discriminate]. inversion K; subst. apply get_block_in in E as (Hb & <-). apply in_map. exact Hb.
      + destruct (get_block f (switch_target 0 dflt cases)) eqn:E; [|discriminate]. inversion K; subst. apply get_block_in in E as (Hb & <-). apply in_map. exact Hb. }
  assert (A : visit_assignment fold_inst i (fst u) (snd u) = Visited st (Some d) u' -> False).
  { unfold visit_assignment, mark_varying, assign. intro K. destruct (kind i); try discriminate.
    - destruct (fst u src) as [v|]; [destruct (v =? varying_id)|]; discriminate.
    - destruct (fold_inst (snd u) i (value_map (fst u))); try discriminate. destruct (existsb (is_varying (fst u)) ids); [discriminate|]. destruct (negb (forallb (is_known (fst u)) ids)); discriminate. }
  destruct (kind i) eqn:Ek; auto; try (destruct (negb (res i =? 0)); [apply A in H; destruct H|inversion H]).
  unfold visit_phi in H. destruct (phi_meet _ _ _ _ _) as [m|]; [destruct (m =? 0)|]; discriminate.
Qed.
Theorem propagate_terminates fuel : (run_bound f <= fuel)%nat -> propagate consts fold_inst f fuel V0 <> OutOfFuel.
Proof using W. clear - W.
  intro H. apply (run_terminates_general _ _ f W); [|exact H]. intros u X i st d u' Hi E. exact (dest_label u X i st d u' Hi E).
Qed.

(** *** Every instruction of a simulated block gets a value *)
Section Decided.
Variable s : pstate.
Variable V : values.
Hypothesis I : inv none none none s V.
Hypothesis QB : blocksQ s = [].
Hypothesis QS : ssaQ s = [].
Hypothesis DD : defs_dominate f.
Hypothesis UD : uses_defined f V0.
Lemma read_valued i id : In i (all_insts f) -> In id (read_ids i) -> (forall j, In j (all_insts f) -> res j = id -> res j <> 0 -> kind j <> KLabel -> V (res j) <> None) -> V id <> None.
Proof using SR I UD.
  clear - SR I UD. intros Hi Hid H. destruct (ud_read f V0 UD i id Hi Hid) as [K|(j & Hj & Ej & Nz & Kj)]; [|rewrite <- Ej; apply H; auto].
  rewrite (j_V0 _ _ _ _ _ _ _ _ _ _ _ _ I id); [exact K|]. intros j Hj Ej. destruct (N.eq_dec id 0) as [|Nz]; [auto|]. rewrite <- Ej in *. destruct (st_own _ _ _ _ _ SR j Hj Nz) as (K1 & _). contradiction.
Qed.
Lemma block_valued b : In b f -> simulated s (label b) = true ->
  (forall j, In j (all_insts f) -> res j <> 0 -> kind j <> KLabel -> blk j <> label b -> dominates f (blk j) (label b) -> V (res j) <> None) ->
  (forall i args, In i (insts b) -> kind i = KPhi args -> exists a l, In (a, l) args /\ executable s l (label b) = true /\ V a <> None) ->
  forall i, In i (insts b) -> res i <> 0 -> V (res i) <> None.
Proof using W SR I QB QS DD UD.
  clear - W SR I QB QS DD UD. intros Hb Hs Prev Hphi.
  assert (G : forall pre js, insts b = pre ++ js -> forall i, In i pre -> res i <> 0 -> V (res i) <> None).
  { induction pre as [|x pre IH] using rev_ind; intros js E i Hi Nz; [destruct Hi|]. rewrite <- app_assoc in E. cbn [app] in E. apply in_app_or in Hi as [Hi|[<-|[]]]; [apply (IH _ E i Hi Nz)|].
    assert (Hx : In x (insts b)) by (rewrite E; apply in_or_app; right; left; reflexivity).
    assert (Hxa : In x (all_insts f)) by (apply (in_all_insts f b); [exact Hb|right; exact Hx]).
    assert (Ebk : blk x = label b) by (apply (wf_blk f W); [exact Hb|right; exact Hx]).
    assert (U : upto V (executable s) x).
    { destruct (j_upto _ _ _ _ _ _ _ _ _ _ _ _ I x Hxa) as [A|[A|[(_ & A)|[]]]]; [rewrite Ebk; exact Hs|exact A|rewrite QS in A; destruct A|rewrite QB in A; destruct A]. }
    assert (Hop : is_phi x = false -> forall id, In id (read_ids x) -> V id <> None).
    { intros Hph id Hid. apply (read_valued x id Hxa Hid). intros j Hj Ej Nj Kj.
      assert (Hin : In (res j) (in_ids x)) by (rewrite Ej; unfold read_ids in Hid; unfold in_ids; unfold is_phi in Hph; destruct (kind x); try discriminate; first [exact Hid | destruct Hid]).
      destruct (DD b pre x js j Hb E Hph Hj Nj Kj Hin) as [K|(K1 & K2)]; [apply (IH _ E j K Nj)|apply (Prev j Hj Nj Kj K1 K2)]. }
    pose proof (wf_has_result f W x Hxa) as Hr. unfold PropagatorProofs2.upto, PropagatorProofs2.vary in U. unfold is_terminator in Hr. unfold is_phi, read_ids in Hop. destruct (kind x) as [|args|sr|op ids|op ids|lb|c t e|sl d cs|op ids] eqn:Ek; try (exfalso; apply Nz; apply Hr; reflexivity).
    - rewrite U. discriminate.
    - destruct (Hphi x args Hx Ek) as (a & l & Ha & HX & Hv). rewrite <- Ebk in HX. destruct (U a l Ha HX) as [K|[K|K]]; [contradiction|rewrite K; discriminate|rewrite K; exact Hv].
    - specialize (Hop eq_refl sr (or_introl eq_refl)). destruct U as [K|[K|K]]; [contradiction|rewrite K; discriminate|rewrite K; exact Hop].
    - destruct U as [K|[(_ & id & Hid & K)|(c & k & K & _)]]; [rewrite K; discriminate|exfalso; apply (Hop eq_refl id Hid K)|rewrite K; discriminate].
    - destruct U as [K|K]; [contradiction|rewrite K; discriminate]. }
  intros i Hi. apply (G (insts b) []); [rewrite app_nil_r; reflexivity|exact Hi].
Qed.
Lemma block_of j : In j (all_insts f) -> kind j <> KLabel -> exists b, In b f /\ In j (insts b) /\ blk j = label b.
Proof using W.
  clear - W. intros Hj Kj. apply in_all_insts_inv in Hj as (b & Hb & Hj). exists b. split; [exact Hb|]. split; [|apply (wf_blk f W b j Hb Hj)].
  destruct Hj as [<-|Hj]; [destruct (wf_label f W b Hb) as (Kl & _); contradiction|exact Hj].
Qed.
Lemma path_valued p l : xpath f (executable s) p l -> (forall x, In x p -> simulated s x = true) -> forall b, In b f -> In (label b) p -> forall i, In i (insts b) -> res i <> 0 -> V (res i) <> None.
Proof using W SR I QB QS DD UD.
  clear - W SR I QB QS DD UD. intro H. induction H as [b0 f' Ef|p l l' H IH Hsu HX]; intros Hsim b Hb Hl.
  - destruct Hl as [El|[]]. assert (b = b0) by (assert (Hb0 : In b0 f) by (rewrite Ef; left; reflexivity); pose proof (get_block_label f W b Hb) as G1; pose proof (get_block_label f W b0 Hb0) as G2; congruence).
    subst b0. apply (block_valued b Hb); [apply Hsim; left; reflexivity| |].
    + intros j _ _ _ Nj Dj. specialize (Dj [label b] (path_entry f b f' Ef)). destruct Dj as [Dj|[]]. congruence.
    + intros i args Hi Ek. pose proof (wf_phis f W b i Hb Hi ltac:(unfold is_phi; rewrite Ek; reflexivity)) as K. rewrite (wf_entry f W b f' Ef) in K. destruct K.
  - specialize (IH (fun x Hx => Hsim x (or_intror Hx))). destruct (in_dec N.eq_dec (label b) p) as [Hp|Hp]; [apply (IH b Hb Hp)|]. destruct Hl as [El|Hl]; [|contradiction]. subst l'.
    assert (Hpp : path f (label b :: p) (label b)) by (apply (path_step f p l (label b)); [apply (xpath_path f (executable s)); exact H|exact Hsu]).
    apply (block_valued b Hb); [apply Hsim; left; reflexivity| |].
    + intros j Hj Nj Kj Nb Dj. specialize (Dj _ Hpp). destruct Dj as [Dj|Dj]; [congruence|]. destruct (block_of j Hj Kj) as (b' & Hb' & Hj' & Eb'). rewrite Eb' in Dj. apply (IH b' Hb' Dj j Hj' Nj).
    + intros i args Hi Ek. destruct (ud_phi f V0 UD l b i args Hsu Hb Hi Ek) as (a & Ha). exists a, l. split; [exact Ha|]. split; [exact HX|].
      assert (Hia : In i (all_insts f)) by (apply (in_all_insts f b); [exact Hb|right; exact Hi]).
      apply (read_valued i a Hia); [unfold read_ids; rewrite Ek; apply (in_map fst) in Ha; exact Ha|]. intros j Hj Ej Nj Kj.
      pose proof (wf_phi_uses f W i args a l j Hia Ek Ha Hj Ej Nj p (xpath_path f _ _ _ H)) as Dj. destruct (block_of j Hj Kj) as (b' & Hb' & Hj' & Eb'). rewrite Eb' in Dj. apply (IH b' Hb' Dj j Hj' Nj).
Qed.
Lemma all_decided : forallb (decided s) (all_insts f) = true.
Proof using W SR I QB QS DD UD.
  clear - W SR I QB QS DD UD. apply forallb_forall. intros i Hi. unfold decided. destruct (statuses s (uid i)) as [[]|] eqn:E; auto. exfalso.
  destruct (j_low _ _ _ _ _ _ _ _ _ _ _ _ I i Hi E) as (Nz & [Hs|[]]). destruct (j_path _ _ _ _ _ _ _ _ _ _ _ _ I (blk i) Hs) as (p & Hp & Hall).
  pose proof (j_status _ _ _ _ _ _ _ _ _ _ _ _ I i Hi Nz) as K. rewrite E in K. cbn [status_of] in K.
  assert (Kl : kind i <> KLabel).
  { intro Ek. pose proof (j_upto _ _ _ _ _ _ _ _ _ _ _ _ I i Hi Hs) as U. rewrite QB, QS in U. destruct U as [U|[[]|[(_ & [])|[]]]]. unfold PropagatorProofs2.upto, PropagatorProofs2.vary in U. rewrite Ek, K in U. discriminate. }
  destruct (block_of i Hi Kl) as (b & Hb & Hib & Eb). assert (Hlp : In (label b) p) by (rewrite <- Eb; destruct Hp; left; reflexivity). exact (path_valued p (blk i) Hp Hall b Hb Hlp i Hib Nz K).
Qed.
End Decided.
Theorem propagate_not_asserted fuel : defs_dominate f -> uses_defined f V0 -> propagate consts fold_inst f fuel V0 <> Asserted.
Proof using W WT FR FM SR.
  clear - W WT FR FM SR. intros DD UD.
  apply (PropagatorProofs5.propagate_no_assert consts fold_inst M sem ty f V0 W WT FR FM h_own (st_const _ _ _ _ _ SR) (st_known _ _ _ _ _ SR)).
  intros c s V n I Q1 Q2 _. apply (all_decided s V I Q1 Q2 DD UD).
Qed.

(** *** Right values *)
Variable s : pstate.
Variable V : values.
Hypothesis I : inv none none none s V.
Hypothesis QB : blocksQ s = [].
Hypothesis QS : ssaQ s = [].
Definition right (r : env) : Prop := forall id v, r id = Some v -> exists c, V id = Some c /\ forall k, consts c = Some k -> v = cvalue k.

Lemma end_upto i : In i (all_insts f) -> simulated s (blk i) = true -> upto V (executable s) i.
Proof. intros Hi Hs. destruct (j_upto _ _ _ _ _ _ _ _ _ _ _ _ I i Hi Hs) as [A|[A|[(_ & A)|[]]]]; [exact A|rewrite QS in A; destruct A|rewrite QB in A; destruct A]. Qed.
Lemma end_edge p q : executable s p q = true -> simulated s q = true.
Proof. intro K. destruct (j_edge _ _ _ _ _ _ _ _ _ _ _ _ I p q K) as [A|[A|[]]]; [exact A|rewrite QB in A; destruct A]. Qed.
Lemma const_known i id k : In i (all_insts f) -> In id (in_ids i) -> consts id = Some k -> V id = Some id.
Proof.
  apply (known_of_inv consts fold_inst M sem ty f V0 W WT FR FM h_own (st_const _ _ _ _ _ SR) (st_known _ _ _ _ _ SR) _ _ _ _ _ I).
Qed.
Lemma look_right r i id v : right r -> In i (all_insts f) -> In id (in_ids i) -> look r id = Some v -> exists c, V id = Some c /\ forall k, consts c = Some k -> v = cvalue k.
Proof.
  intros R Hi Hid E. unfold PropagatorSpec.look in E. destruct (consts id) as [k|] eqn:Ek; [|auto].
  exists id. split; [apply (const_known i id k Hi Hid Ek)|]. intros k' E'. congruence.
Qed.
Lemma right_set r id v c : right r -> V id = Some c -> (forall k, consts c = Some k -> v = cvalue k) -> right (set r id v).
Proof.
  intros R E H x w. unfold set. destruct (N.eqb_spec x id) as [->|]; [|apply R]. intros [= <-]. eauto.
Qed.
Lemma vary_right k : consts varying_id = Some k -> False.
Proof. rewrite (wt_varying _ _ _ WT). discriminate. Qed.
Lemma effect_right i r m r' m' : In i (all_insts f) -> upto V (executable s) i -> right r -> effect i r m r' m' -> right r'.
Proof.
  intros Hi U R E. destruct E as [src v Ek El|op ids v m' Ek Hall Hsem|op ids v m' Ek Hsem]; unfold PropagatorProofs2.upto in U; rewrite Ek in U.
  - destruct (look_right r i src v R Hi ltac:(unfold in_ids; rewrite Ek; left; reflexivity) El) as (c & Ec & Hc). destruct U as [U|[U|U]]; [congruence| |].
    + apply (right_set r _ v varying_id R U). intros k K. destruct (vary_right k K).
    + apply (right_set r _ v c R); [congruence|exact Hc].
  - assert (Hl : forall id, In id ids -> exists w c, look r id = Some w /\ V id = Some c /\ forall k, consts c = Some k -> w = cvalue k).
    { intros id Hid. rewrite Forall_forall in Hall. specialize (Hall id Hid). destruct (look r id) as [w|] eqn:E; [|contradiction].
      destruct (look_right r i id w R Hi ltac:(unfold in_ids; rewrite Ek; exact Hid) E) as (c & Ec & Hc). eauto. }
    destruct U as [U|[(_ & id & Hid & U)|(c & k & Ec & Ekc & U)]].
    + apply (right_set r _ v varying_id R U). intros k K. destruct (vary_right k K).
    + destruct (Hl id Hid) as (w & c & _ & Ec & _). congruence.
    + apply (right_set r _ v c R Ec). intros k' Ek'. rewrite Ekc in Ek'. inversion Ek'; subst. apply (U (map (look r) ids) m v m'); [|exact Hsem].
      unfold consistent. clear - Hl. induction ids as [|id ids IH]; [constructor|]. cbn [map]. constructor; [|apply IH; intros x Hx; apply Hl; right; exact Hx].
      intros k' E. destruct (Hl id (or_introl eq_refl)) as (w & c & El & Ec & Hc). unfold value_map in E. rewrite Ec in E. destruct (c =? varying_id).
      * unfold PropagatorSpec.look. rewrite E. reflexivity.
      * rewrite El. f_equal. apply Hc. exact E.
  - destruct (N.eqb_spec (res i) 0) as [|Nz]; [exact R|]. destruct U as [U|U]; [contradiction|]. apply (right_set r _ v varying_id R U). intros k K. destruct (vary_right k K).
Qed.
Lemma phis_right p r b : forall is r', (forall i, In i is -> In i (all_insts f) /\ blk i = label b /\ upto V (executable s) i) -> executable s p (label b) = true -> right r -> phis_from p r is r' -> right r'.
Proof.
  intros is r' Hall HX R H. induction H as [|i args a v is r' Ek Ha El H IH]; [exact R|]. destruct (Hall i (or_introl eq_refl)) as (Hi & Hb & U).
  specialize (IH (fun j Hj => Hall j (or_intror Hj))). unfold PropagatorProofs2.upto in U. rewrite Ek in U. rewrite <- Hb in HX. specialize (U a p Ha HX).
  assert (Hid : In a (in_ids i)) by (unfold in_ids; rewrite Ek; apply in_flat_map; exists (a, p); split; [exact Ha|left; reflexivity]).
  destruct (look_right r i a v R Hi Hid El) as (c & Ec & Hc). destruct U as [U|[U|U]]; [congruence| |].
  - apply (right_set r' _ v varying_id IH U). intros k K. destruct (vary_right k K).
  - apply (right_set r' _ v c IH); [congruence|exact Hc].
Qed.
Lemma goes_right t r l : In t (all_insts f) -> upto V (executable s) t -> right r -> goes t r l -> executable s (blk t) l = true.
Proof.
  intros Ht U R G. destruct G as [l Ek|c a e b Ek El|sl d cases ws Ek El]; unfold PropagatorProofs2.upto in U; rewrite Ek in U.
  - exact U.
  - destruct U as [U|(v & k & l & Ev & Ekv & Etg & HX)].
    + apply U. unfold inst_succs. rewrite Ek. destruct b; [left|right; left]; reflexivity.
    + destruct (look_right r t c (VBool b) R Ht ltac:(unfold in_ids; rewrite Ek; left; reflexivity) El) as (v' & Ev' & Hv). rewrite Ev in Ev'. inversion Ev'; subst. specialize (Hv k Ekv).
      destruct (wt_const _ _ _ WT v' k Ekv) as (Hok & _). unfold cond_target in Etg. destruct k as [b'|ws|nv|n]; try discriminate; cbn [cvalue constant_ok] in *.
      * inversion Hv; subst. inversion Etg; subst. exact HX.
      * subst nv. subst b. inversion Etg; subst. exact HX.
  - destruct U as [U|(v & k & l & Ev & Ekv & Etg & HX)].
    + apply U. unfold inst_succs. rewrite Ek. destruct (select_in ws d cases) as [->|K]; [left; reflexivity|right]. rewrite <- (map_map snd (@Some N)). apply in_map. exact K.
    + destruct (look_right r t sl (VInt ws) R Ht ltac:(unfold in_ids; rewrite Ek; left; reflexivity) El) as (v' & Ev' & Hv). rewrite Ev in Ev'. inversion Ev'; subst. specialize (Hv k Ekv).
      destruct (wt_const _ _ _ WT v' k Ekv) as (Hok & Hty). pose proof (wt_inst _ _ _ WT t Ht) as Wt. rewrite Ek in Wt. destruct Wt as (w & Hsl & Hcases).
      rewrite (NS t sl d cases Ht Ek) in Hsl. inversion Hsl; subst w.
      destruct (j_typed _ _ _ _ _ _ _ _ _ _ _ _ I sl v' Ev) as (k' & Ek' & Hty'); [intros ->; apply (vary_right k Ekv)|].
      rewrite Hty', (NS t sl d cases Ht Ek) in Hty. rewrite <- Hv in Hty. cbn [type_of] in Hty. assert (Hlen : length ws = 1%nat) by congruence.
      destruct ws as [|w [|? ?]]; try discriminate.
      unfold sel_target in Etg. destruct k as [b'|ws'|nv|n]; try discriminate; cbn [cvalue constant_ok] in *.
      * inversion Hv; subst ws'. cbn [hd] in Etg. injection Etg as <-. rewrite <- (select_one w d cases Hcases). exact HX.
      * subst nv. destruct Hok as (_ & Hz). apply Forall_inv in Hz. subst w. injection Etg as <-. rewrite <- (select_one 0 d cases Hcases). exact HX.
Qed.

(** *** Where an execution can be *)
Definition defined (r : env) (i : inst) : Prop := res i <> 0 -> r (res i) <> None.
Definition point_ok (x : state M) : Prop :=
  match x with
  | at_point l is r m => exists b pre, In b f /\ label b = l /\ insts b = pre ++ is /\ simulated s l = true /\ right r /\ Forall (defined r) pre /\
      exists p, path f p l /\ forall b', In b' f -> In (label b') p -> label b' <> l -> Forall (defined r) (insts b')
  end.
Lemma label_inj b b' : In b f -> In b' f -> label b = label b' -> b = b'.
Proof using W. clear - W. intros Hb Hb' E. pose proof (get_block_label f W b Hb) as G1. pose proof (get_block_label f W b' Hb') as G2. congruence. Qed.
Lemma effect_grows i r m r' m' : effect i r m r' m' -> (forall j, defined r j -> defined r' j) /\ defined r' i.
Proof using Type.
  clear. assert (G : forall id v, (forall j, defined r j -> defined (set r id v) j) /\ (id = res i -> defined (set r id v) i)).
  { intros id v. split; [intros j D Nz|intros -> Nz]; unfold set; [destruct (res j =? id); [discriminate|auto]|rewrite N.eqb_refl; discriminate]. }
  intro E. destruct E; try (split; [apply G|apply (proj2 (G _ _)); reflexivity]).
  destruct (N.eqb_spec (res i) 0) as [Z|]; [split; [auto|intro K; contradiction]|]. split; [apply G|apply (proj2 (G _ _)); reflexivity].
Qed.
Lemma phis_grow p r is r' : phis_from p r is r' -> (forall j, defined r j -> defined r' j) /\ Forall (defined r') is.
Proof using Type.
  clear. intro H. induction H as [|i args a v is r' Ek Ha El H (IH1 & IH2)]; [split; auto|].
  assert (G : forall j, defined r' j -> defined (set r' (res i) v) j) by (intros j D Nz; unfold set; destruct (res j =? res i); [discriminate|auto]).
  split; [auto|]. constructor.
  - intros _. unfold set. rewrite N.eqb_refl. discriminate.
  - revert IH2. apply Forall_impl. exact G.
Qed.
Lemma leading_split is : exists post, is = leading_phis is ++ post.
Proof using Type. clear. induction is as [|i is (post & IH)]; [exists []; reflexivity|]. cbn [leading_phis]. destruct (is_phi i); [exists post; cbn [app]; congruence|exists (i :: is); reflexivity]. Qed.
Lemma after_phis_split b : insts b = leading_phis (insts b) ++ after_phis b.
Proof using Type. clear. unfold after_phis. destruct (leading_split (insts b)) as (post & E). assert (K : skipn (length (leading_phis (insts b))) (insts b) = post) by (rewrite E at 2; rewrite skipn_app, skipn_all, Nat.sub_diag; reflexivity). rewrite K. exact E. Qed.
Lemma step_ok x y : point_ok x -> step f x y -> point_ok y.
Proof.
  intros P H. destruct H as [l i is r m r' m' E|l t r m l' b' r' G Hb' El' H]; destruct P as (b & pre & Hb & El & Ei & Hs & R & D & p & Hp & Dp).
  - assert (Hi : In i (block_insts b)) by (right; rewrite Ei; apply in_or_app; right; left; reflexivity).
    assert (Hia : In i (all_insts f)) by (apply (in_all_insts f b); auto).
    assert (Hbk : blk i = l) by (rewrite <- El; apply (wf_blk f W); auto).
    destruct (effect_grows i r m r' m' E) as (G1 & G2).
    exists b, (pre ++ [i]). split; [exact Hb|]. split; [exact El|]. split; [rewrite Ei, <- app_assoc; reflexivity|]. split; [exact Hs|].
    split; [apply (effect_right i r m r' m' Hia); [apply end_upto; [exact Hia|rewrite Hbk; exact Hs]|exact R|exact E]|].
    split; [apply Forall_app; split; [revert D; apply Forall_impl; exact G1|constructor; [exact G2|constructor]]|].
    exists p. split; [exact Hp|]. intros b' K1 K2 K3. specialize (Dp b' K1 K2 K3). revert Dp. apply Forall_impl. exact G1.
  - assert (Ht : In t (block_insts b)) by (right; rewrite Ei; apply in_or_app; right; left; reflexivity).
    assert (Hta : In t (all_insts f)) by (apply (in_all_insts f b); auto).
    assert (Hbk : blk t = l) by (rewrite <- El; apply (wf_blk f W); auto).
    assert (HX : executable s l l' = true) by (rewrite <- Hbk; apply (goes_right t r l' Hta); [apply end_upto; [exact Hta|rewrite Hbk; exact Hs]|exact R|exact G]).
    pose proof (end_edge l l' HX) as Hs'. destruct (phis_grow l r _ r' H) as (G1 & G2).
    assert (Htt : res t = 0 /\ is_terminator t = true).
    { pose proof (wf_has_result f W t Hta) as K. destruct G as [? Ek|? ? ? ? Ek ?|? ? ? ? Ek ?]; unfold is_terminator in *; rewrite Ek in *; split; [apply K; reflexivity|reflexivity|apply K; reflexivity|reflexivity|apply K; reflexivity|reflexivity]. }
    exists b', (leading_phis (insts b')). split; [exact Hb'|]. split; [exact El'|]. split; [apply after_phis_split|]. split; [exact Hs'|]. split; [|split; [exact G2|]].
    + apply (phis_right l r b' (leading_phis (insts b')) r'); [|rewrite El'; exact HX|exact R|exact H]. intros i Hi. apply leading_phis_in in Hi as (Hi & _).
      assert (Hia : In i (all_insts f)) by (apply (in_all_insts f b'); [exact Hb'|right; exact Hi]). split; [exact Hia|].
      assert (Eb : blk i = label b') by (apply (wf_blk f W); [exact Hb'|right; exact Hi]). split; [exact Eb|]. apply end_upto; [exact Hia|rewrite Eb, El'; exact Hs'].
    + exists (l' :: p). split.
      * apply (path_step f p l l' Hp). destruct (j_flow _ _ _ _ _ _ _ _ _ _ _ _ I l l' HX) as [(K & _)|(K & _)]; [|exact K].
        exfalso. subst l. destruct (wf_label f W b Hb) as (_ & Hz & _). congruence.
      * intros b'' K1 [K2|K2] K3; [congruence|]. destruct (N.eq_dec (label b'') l) as [E|E].
        -- assert (b'' = b) by (apply label_inj; auto; congruence). subst b''. rewrite Ei. apply Forall_app. split.
           ++ revert D. apply Forall_impl. exact G1.
           ++ constructor; [intro K; destruct Htt; contradiction|constructor].
        -- specialize (Dp b'' K1 K2 E). revert Dp. apply Forall_impl. exact G1.
Qed.
Theorem reachable_ok x : reachable f r0 m0 x -> point_ok x.
Proof.
  intro H. induction H as [b f' Ef|x y H IH E]; [|exact (step_ok x y IH E)].
  exists b, []. split; [rewrite Ef; left; reflexivity|]. split; [reflexivity|]. split; [reflexivity|]. split.
  - apply (end_edge 0). apply (j_entry _ _ _ _ _ _ _ _ _ _ _ _ I). exists b, f'. auto.
  - split; [|split; [constructor|]].
    + intros id v E. destruct (st_env _ _ _ _ _ SR id v E) as (c & Ec & Hc). exists c. split; [|exact Hc].
      rewrite (j_V0 _ _ _ _ _ _ _ _ _ _ _ _ I id); [exact Ec|]. intros i Hi Er. destruct (N.eq_dec id 0) as [|Nz]; [auto|]. rewrite <- Er in Nz. destruct (st_own _ _ _ _ _ SR i Hi Nz) as (_ & _ & K). congruence.
    + exists [label b]. split; [apply (path_entry f b f' Ef)|]. intros b' _ [K|[]] K2. congruence.
Qed.

(** *** Replacement *)
Hypothesis DD : defs_dominate f.
Local Notation rep := (replace_inst V).
(** an operand means the same after it is replaced *)
Lemma known_has_value id c : V id = Some c -> c <> varying_id -> (exists i, In i (all_insts f) /\ In id (in_ids i)) ->
  consts id <> None \/ exists j, In j (all_insts f) /\ res j = id /\ res j <> 0 /\ kind j <> KLabel.
Proof.
  intros Ec Hc (i & Hi & Hid). destruct (find (fun j => res j =? id) (all_insts f)) as [j|] eqn:Ef.
  - apply find_some in Ef as (Hj & Ej). apply N.eqb_eq in Ej. destruct (N.eq_dec (res j) 0) as [Z|Nz].
    + left. destruct (j_typed _ _ _ _ _ _ _ _ _ _ _ _ I id c Ec Hc) as (k & Ek & _).
      assert (K : V id = V0 id) by (apply (j_V0 _ _ _ _ _ _ _ _ _ _ _ _ I); intros; congruence). rewrite K in Ec. apply (st_scope _ _ _ _ _ SR i id c Hi Hid Ec Hc).
    + right. exists j. repeat (split; auto). intro Ek. pose proof (j_persists _ _ _ _ _ _ _ _ _ _ _ _ I j Hj c) as P. rewrite Ej, Ek in P. exact (P Ec Hc).
  - left. assert (K : V id = V0 id). { apply (j_V0 _ _ _ _ _ _ _ _ _ _ _ _ I). intros j Hj Ej. pose proof (find_none _ _ Ef j Hj) as K. cbn beta in K. rewrite Ej, N.eqb_refl in K. discriminate. }
    rewrite K in Ec. apply (st_scope _ _ _ _ _ SR i id c Hi Hid Ec Hc).
Qed.
Lemma look_replaced r i id : right r -> In i (all_insts f) -> In id (in_ids i) -> (forall j, In j (all_insts f) -> res j = id -> res j <> 0 -> kind j <> KLabel -> r id <> None) -> look r (value_map V id) = look r id.
Proof.
  intros R Hi Hid D. unfold value_map. destruct (V id) as [c|] eqn:Ec; [|reflexivity]. destruct (N.eqb_spec c varying_id) as [|Hc]; [reflexivity|].
  destruct (consts id) as [k|] eqn:Ek.
  - pose proof (const_known i id k Hi Hid Ek) as K. assert (c = id) by congruence. subst c. reflexivity.
  - destruct (known_has_value id c Ec Hc) as [K|(j & Hj & Ej & Nz & Kj)]; [eauto|contradiction|]. specialize (D j Hj Ej Nz Kj).
    destruct (r id) as [v|] eqn:Er; [|contradiction]. destruct (R id v Er) as (c' & Ec' & Hv). assert (c' = c) by congruence. subst c'.
    destruct (j_typed _ _ _ _ _ _ _ _ _ _ _ _ I id c Ec Hc) as (k & Ekc & _). unfold PropagatorSpec.look. rewrite Ekc, Ek, Er. f_equal. symmetry. apply Hv. exact Ekc.
Qed.
Lemma operands_same l i is r m : point_ok (at_point l (i :: is) r m) -> is_phi i = false -> forall id, In id (in_ids i) -> look r (value_map V id) = look r id.
Proof.
  intros (b & pre & Hb & El & Ei & Hs & R & D & p & Hp & Dp) Hph id Hid.
  assert (Hia : In i (all_insts f)) by (apply (in_all_insts f b); [exact Hb|right; rewrite Ei; apply in_or_app; right; left; reflexivity]).
  apply (look_replaced r i id R Hia Hid). intros j Hj Ej Nz Kj. rewrite <- Ej in Hid.
  destruct (DD b pre i is j Hb Ei Hph Hj Nz Kj Hid) as [K|(K1 & K2)].
  - rewrite Forall_forall in D. rewrite <- Ej. apply (D j K Nz).
  - apply in_all_insts_inv in Hj as (b' & Hb' & Hj'). pose proof (wf_blk f W b' j Hb' Hj') as Ebk. destruct Hj' as [<-|Hj']; [destruct (wf_label f W b' Hb') as (Kl & _); contradiction|].
    rewrite El in K2. specialize (K2 p Hp). rewrite Ebk in *. specialize (Dp b' Hb' K2 ltac:(congruence)). rewrite Forall_forall in Dp. rewrite <- Ej. apply (Dp j Hj' Nz).
Qed.
Lemma phi_operands_same l t r m b' i args a : point_ok (at_point l [t] r m) -> In b' f -> In i (insts b') -> kind i = KPhi args -> In (a, l) args -> res t = 0 -> look r (value_map V a) = look r a.
Proof.
  intros (b & pre & Hb & El & Ei & Hs & R & D & p & Hp & Dp) Hb' Hi Ek Ha Zt.
  assert (Hia : In i (all_insts f)) by (apply (in_all_insts f b'); [exact Hb'|right; exact Hi]).
  assert (Hid : In a (in_ids i)) by (unfold in_ids; rewrite Ek; apply in_flat_map; exists (a, l); split; [exact Ha|left; reflexivity]).
  apply (look_replaced r i a R Hia Hid). intros j Hj Ej Nz Kj. pose proof (wf_phi_uses f W i args a l j Hia Ek Ha Hj Ej Nz p Hp) as K.
  apply in_all_insts_inv in Hj as (b'' & Hb'' & Hj'). pose proof (wf_blk f W b'' j Hb'' Hj') as Ebk. destruct Hj' as [<-|Hj']; [destruct (wf_label f W b'' Hb'') as (Kl & _); contradiction|].
  rewrite Ebk in K. destruct (N.eq_dec (label b'') l) as [E|E].
  - assert (b'' = b) by (apply label_inj; auto; congruence). subst b''. rewrite Ei in Hj'. apply in_app_or in Hj' as [Hj'|[<-|[]]]; [|contradiction].
    rewrite Forall_forall in D. rewrite <- Ej. apply (D j Hj' Nz).
  - specialize (Dp b'' Hb'' K E). rewrite Forall_forall in Dp. rewrite <- Ej. apply (Dp j Hj' Nz).
Qed.
Lemma rep_phi i : is_phi (rep i) = is_phi i.
Proof using Type. clear. unfold is_phi, replace_inst. cbn [kind]. destruct (kind i); reflexivity. Qed.
Lemma rep_leading is : leading_phis (map rep is) = map rep (leading_phis is).
Proof using Type. clear. induction is as [|i is IH]; [reflexivity|]. cbn [map leading_phis]. rewrite rep_phi. destruct (is_phi i); [cbn [map]; rewrite IH|]; reflexivity. Qed.
Definition rep_block (b : block) : block := mkBlock (rep (blabel b)) (map rep (insts b)).
Lemma rep_after b : after_phis (rep_block b) = map rep (after_phis b).
Proof using Type. clear. unfold after_phis, rep_block. cbn [insts]. rewrite rep_leading, map_length. generalize (length (leading_phis (insts b))). intro n. revert n. induction (insts b) as [|i is IH]; intros [|n]; cbn [skipn map]; auto. Qed.
Lemma map_look_rep (r : env) ids : (forall id, In id ids -> look r (value_map V id) = look r id) -> map (look r) (map (value_map V) ids) = map (look r) ids.
Proof using Type. clear. induction ids as [|id ids IH]; intro H; [reflexivity|]. cbn [map]. rewrite (H id (or_introl eq_refl)), IH; [reflexivity|]. intros x Hx. apply H. right. exact Hx. Qed.
Lemma effect_rep i r m r' m' : (forall id, In id (in_ids i) -> look r (value_map V id) = look r id) -> effect i r m r' m' <-> effect (rep i) r m r' m'.
Proof using Type.
  clear. intro H. split; intro E.
  - destruct E as [src v Ek El|op ids v m' Ek Hall Hsem|op ids v m' Ek Hsem]; change (res i) with (res (rep i)); unfold in_ids in H; rewrite Ek in H.
    + apply (E_copy _ _ _ (rep i) r m (value_map V src)); [unfold replace_inst; cbn [kind]; rewrite Ek; reflexivity|]. rewrite H; [exact El|left; reflexivity].
    + apply (E_foldable _ _ _ (rep i) r m op (map (value_map V) ids)); [unfold replace_inst; cbn [kind]; rewrite Ek; reflexivity| |].
      * apply Forall_forall. intros x Hx. apply in_map_iff in Hx as (y & <- & Hy). rewrite H by exact Hy. rewrite Forall_forall in Hall. auto.
      * rewrite map_look_rep by exact H. exact Hsem.
    + apply (E_other _ _ _ (rep i) r m op (map (value_map V) ids)); [unfold replace_inst; cbn [kind]; rewrite Ek; reflexivity|]. rewrite map_look_rep by exact H. exact Hsem.
  - destruct E as [src v Ek El|op ids v m' Ek Hall Hsem|op ids v m' Ek Hsem]; change (res (rep i)) with (res i); unfold replace_inst in Ek; cbn [kind] in Ek; unfold in_ids in H; destruct (kind i) as [| |src0|op0 ids0|op0 ids0| | | |] eqn:Ki; cbn [replace_kind] in Ek; try discriminate; inversion Ek; subst.
    + apply (E_copy _ _ _ i r m src0 v Ki). rewrite H in El; [exact El|left; reflexivity].
    + apply (E_foldable _ _ _ i r m op ids0 v m' Ki); [|rewrite map_look_rep in Hsem by exact H; exact Hsem].
      apply Forall_forall. intros x Hx. rewrite <- H by exact Hx. rewrite Forall_forall in Hall. apply Hall. apply in_map. exact Hx.
    + apply (E_other _ _ _ i r m op ids0 v m' Ki). rewrite map_look_rep in Hsem by exact H. exact Hsem.
Qed.
Lemma goes_rep t r l : (forall id, In id (in_ids t) -> look r (value_map V id) = look r id) -> goes t r l <-> goes (rep t) r l.
Proof using Type.
  clear. intro H. split; intro G.
  - destruct G as [l Ek|c a e b Ek El|sl d cases ws Ek El]; unfold in_ids in H; rewrite Ek in H.
    + apply G_branch. unfold replace_inst. cbn [kind]. rewrite Ek. reflexivity.
    + apply (G_cond _ (rep t) r (value_map V c)); [unfold replace_inst; cbn [kind]; rewrite Ek; reflexivity|]. rewrite H; [exact El|left; reflexivity].
    + apply (G_switch _ (rep t) r (value_map V sl)); [unfold replace_inst; cbn [kind]; rewrite Ek; reflexivity|]. rewrite H; [exact El|left; reflexivity].
  - destruct G as [l Ek|c a e b Ek El|sl d cases ws Ek El]; unfold replace_inst in Ek; cbn [kind] in Ek; unfold in_ids in H; destruct (kind t) eqn:Kt; cbn [replace_kind] in Ek; try discriminate; inversion Ek; subst.
    + apply G_branch. exact Kt.
    + apply (G_cond _ t r c0 _ _ _ Kt). rewrite H in El; [exact El|left; reflexivity].
    + apply (G_switch _ t r sel _ _ _ Kt). rewrite H in El; [exact El|left; reflexivity].
Qed.
Lemma phis_rep p r : forall is r', (forall i args a, In i is -> kind i = KPhi args -> In (a, p) args -> look r (value_map V a) = look r a) -> phis_from p r is r' <-> phis_from p r (map rep is) r'.
Proof using Type.
  clear. induction is as [|i is IH]; intros r' H; cbn [map]; [tauto|]. specialize (fun r' => IH r' (fun j args a Hj => H j args a (or_intror Hj))). split; intro K.
  - inversion K as [|i0 args a v is0 r1 Q1 Q2 Q3 Q4 Q5 Q6]; subst. change (res i) with (res (rep i)). apply (P_cons _ p r (rep i) (map (fun a => (value_map V (fst a), snd a)) args) (value_map V a) v).
    + unfold replace_inst. cbn [kind]. rewrite Q1. reflexivity.
    + apply in_map_iff. exists (a, p). auto.
    + rewrite (H i args a (or_introl eq_refl) Q1 Q2). exact Q3.
    + apply IH. exact Q4.
  - inversion K as [|i0 args a v is0 r1 Q1 Q2 Q3 Q4 Q5 Q6]; subst. change (res (rep i)) with (res i). unfold replace_inst in Q1. cbn [kind] in Q1. destruct (kind i) as [|args0| | | | | | |] eqn:Ek; cbn [replace_kind] in Q1; try discriminate. inversion Q1; subst.
    apply in_map_iff in Q2 as ((a0 & p0) & E & Ha). cbn [fst snd] in E. inversion E; subst. apply (P_cons _ p r i args0 a0 v is r1 Ek Ha).
    + rewrite <- (H i args0 a0 (or_introl eq_refl) Ek Ha). exact Q3.
    + apply IH. exact Q4.
Qed.
Definition rep_state (x : state M) : state M := match x with at_point l is r m => at_point l (map rep is) r m end.
Lemma goes_kind t r l : goes t r l -> is_phi t = false /\ is_terminator t = true.
Proof using Type. clear. intros [? Ek|? ? ? ? Ek _|? ? ? ? Ek _]; unfold is_phi, is_terminator; rewrite Ek; auto. Qed.
Lemma effect_kind i r m r' m' : effect i r m r' m' -> is_phi i = false.
Proof using Type. clear. intros [? ? Ek _|? ? ? ? Ek _ _|? ? ? ? Ek _]; unfold is_phi; rewrite Ek; auto. Qed.
Lemma terminator_res t : In t (all_insts f) -> is_terminator t = true -> res t = 0.
Proof using W. clear - W. intros Ht H. pose proof (wf_has_result f W t Ht) as K. unfold is_terminator in *. destruct (kind t); try discriminate; apply K; reflexivity. Qed.
Lemma point_inst l i is r m : point_ok (at_point l (i :: is) r m) -> In i (all_insts f).
Proof. intros (b & pre & Hb & El & Ei & _). apply (in_all_insts f b); [exact Hb|right; rewrite Ei; apply in_or_app; right; left; reflexivity]. Qed.
Lemma step_rep x y : point_ok x -> step f x y -> step (replace_values V f) (rep_state x) (rep_state y).
Proof.
  intros P H. destruct H as [l i is r m r' m' E|l t r m l' b' r' G Hb' El' H]; cbn [rep_state map].
  - apply S_inst. apply (proj1 (effect_rep i r m r' m' (operands_same l i is r m P (effect_kind i r m r' m' E))) E).
  - rewrite <- rep_after. destruct (goes_kind t r l' G) as (Kp & Kt). apply (S_jump _ _ _ _ l (rep t) r m l' (rep_block b') r').
    + exact (proj1 (goes_rep t r l' (operands_same l t [] r m P Kp)) G).
    + change (replace_values V f) with (map rep_block f). apply in_map. exact Hb'.
    + exact El'.
    + change (insts (rep_block b')) with (map rep (insts b')). rewrite rep_leading. refine (proj1 (phis_rep l r _ r' _) H). intros i args a Hi Ek Ha. apply leading_phis_in in Hi as (Hi & _).
      apply (phi_operands_same l t r m b' i args a P Hb' Hi Ek Ha). apply (terminator_res t (point_inst l t [] r m P) Kt).
Qed.
Lemma step_rep_inv x y' : point_ok x -> step (replace_values V f) (rep_state x) y' -> exists y, y' = rep_state y /\ step f x y.
Proof.
  destruct x as [l is r m]. cbn [rep_state]. intros P H. remember (map rep is) as is' eqn:K1. inversion H as [l0 i0 is0 r1 m1 r' m' E Q1 Q2|l0 t0 r1 m1 l' b0 r' G Hb0 El' Hph Q1 Q2]; match goal with Q : _ :: _ = is' |- _ => rewrite <- Q in K1; clear Q end; subst; destruct is as [|i is]; try discriminate; cbn [map] in *.
  - injection K1 as -> ->. exists (at_point l is r' m'). split; [reflexivity|]. apply S_inst. refine (proj2 (effect_rep i r m r' m' (operands_same l i is r m P _)) E). rewrite <- rep_phi. apply (effect_kind _ r m r' m' E).
  - injection K1 as -> Eis. destruct is as [|? ?]; [|discriminate]. change (replace_values V f) with (map rep_block f) in Hb0. apply in_map_iff in Hb0 as (b' & <- & Hb').
    exists (at_point (label b') (after_phis b') r' m). split; [cbn [rep_state]; rewrite rep_after; reflexivity|]. destruct (goes_kind _ r _ G) as (Kp & Kt).
    assert (Kt' : is_terminator i = true) by (revert Kt; unfold is_terminator, replace_inst; cbn [kind]; destruct (kind i); auto). rewrite rep_phi in Kp.
    apply (S_jump _ _ _ _ l i r m (label b') b' r'); [|exact Hb'|reflexivity|].
    + exact (proj2 (goes_rep i r _ (operands_same l i [] r m P Kp)) G).
    + change (insts (rep_block b')) with (map rep (insts b')) in Hph. rewrite rep_leading in Hph. refine (proj2 (phis_rep l r _ r' _) Hph). intros j args a Hj Ek Ha. apply leading_phis_in in Hj as (Hj & _).
      apply (phi_operands_same l i r m b' j args a P Hb' Hj Ek Ha). apply (terminator_res i (point_inst l i [] r m P) Kt').
Qed.
Theorem reachable_rep x' : reachable (replace_values V f) r0 m0 x' <-> exists x, x' = rep_state x /\ reachable f r0 m0 x.
Proof.
  split.
  - intro H. induction H as [b g Ef|x' y' H (x & -> & IH) E].
    + destruct f as [|b0 f0] eqn:Ef0; [discriminate|]. change (replace_values V (b0 :: f0)) with (rep_block b0 :: map rep_block f0) in Ef. inversion Ef; subst.
      exists (at_point (label b0) (insts b0) r0 m0). split; [reflexivity|]. apply (R_start _ _ _ (b0 :: f0) r0 m0 b0 f0 eq_refl).
    + destruct (step_rep_inv x y' (reachable_ok x IH) E) as (y & -> & Ey). exists y. split; [reflexivity|]. apply (R_step _ _ _ f r0 m0 x y IH Ey).
  - intros (x & -> & H). induction H as [b g Ef|x y H IH E].
    + cbn [rep_state]. change (at_point (label b) (map rep (insts b)) r0 m0) with (at_point (label (rep_block b)) (insts (rep_block b)) r0 m0). apply (R_start _ _ _ _ r0 m0 _ (map rep_block g)). rewrite Ef. reflexivity.
    + apply (R_step _ _ _ _ r0 m0 (rep_state x)); [exact IH|]. apply (step_rep x y (reachable_ok x H) E).
Qed.
End CCP.
