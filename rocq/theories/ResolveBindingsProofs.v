(** Resolving conflicting bindings: proofs. *)
From Coq Require Import Sorting.Sorted.
From Verif Require Import Base NamedIds NamedIdsProofs LocalElimProofs ResolveBindings ResolveBindingsSpec.
Local Open Scope N_scope.

(** ** The order *)
Definition samp (v : var) : N := if v_type v =? SAMPLER then 1 else 0.
Definition key_less (b : bindings) (x y : var) : Prop :=
  b (v_id x) < b (v_id y) \/ (b (v_id x) = b (v_id y) /\ (samp x < samp y \/ (samp x = samp y /\ v_id x < v_id y))).
Lemma less_key b x y : less b x y = true <-> key_less b x y.
Proof.
  unfold less, key_less, samp. destruct (N.ltb_spec (b (v_id x)) (b (v_id y))) as [L|L]; [split; auto|]. destruct (N.ltb_spec (b (v_id y)) (b (v_id x))) as [L'|L']; [split; [discriminate|lia]|].
  destruct (N.eqb_spec (v_type x) (v_type y)) as [E|E].
  - rewrite E. destruct (v_type y =? SAMPLER); rewrite N.ltb_lt; lia.
  - destruct (N.eqb_spec (v_type x) SAMPLER) as [Sx|Sx], (N.eqb_spec (v_type y) SAMPLER) as [Sy|Sy]; [congruence|split; [discriminate|lia]|split; auto; intros _; lia|]. rewrite N.ltb_lt. lia.
Qed.
Lemma before_key b x y : before b x y <-> key_less b x y.
Proof.
  unfold before, key_less, samp. destruct (N.eqb_spec (v_type x) SAMPLER) as [Sx|Sx], (N.eqb_spec (v_type y) SAMPLER) as [Sy|Sy].
  - split; (intros [H|[E H]]; [left; exact H|right; split; [exact E|]]); [destruct H as [[H _]|[_ H]]; [contradiction|right; auto]|destruct H as [H|[_ H]]; [lia|right; tauto]].
  - split; (intros [H|[E H]]; [left; exact H|right; split; [exact E|]]); [destruct H as [[H _]|[H _]]; [contradiction|tauto]|lia].
  - split; (intros [H|[E H]]; [left; exact H|right; split; [exact E|]]); [left; lia|left; auto].
  - split; (intros [H|[E H]]; [left; exact H|right; split; [exact E|]]); [destruct H as [[_ H]|[_ H]]; [contradiction|right; auto]|destruct H as [H|[_ H]]; [lia|right; tauto]].
Qed.
Lemma less_before b x y : less b x y = true <-> before b x y.
Proof. rewrite less_key, before_key. reflexivity. Qed.
Lemma less_irrefl b x : less b x x = false.
Proof. destruct (less b x x) eqn:E; [|reflexivity]. apply less_key in E. unfold key_less in E. lia. Qed.
Lemma less_trans b x y z : less b x y = true -> less b y z = true -> less b x z = true.
Proof. rewrite !less_key. unfold key_less. lia. Qed.
Lemma less_total b x y : v_id x <> v_id y -> less b x y = true \/ less b y x = true.
Proof. rewrite !less_key. unfold key_less. lia. Qed.
Lemma less_not b x y : less b x y = false -> x = y \/ less b y x = true \/ v_id x = v_id y.
Proof. intros H. destruct (N.eq_dec (v_id x) (v_id y)) as [E|E]; [auto|]. destruct (less_total b x y E) as [K|K]; [congruence|auto]. Qed.

(** ** Sorted lists *)
Section Lists.
Variables (b : bindings) (vars : list var).
Hypothesis Nd : NoDup (map v_id vars).
Lemma same_var x y : In x vars -> In y vars -> v_id x = v_id y -> x = y.
Proof using Nd. apply map_inj_nodup, Nd. Qed.
Notation SS := (StronglySorted (fun x y => less b x y = true)).
Notation WS := (StronglySorted (fun x y => less b x y = true \/ x = y)).
Lemma insert_in x l z : In z (insert b x l) <-> z = x \/ In z l.
Proof using. induction l as [|y l IH]; cbn [insert In]; [intuition|]. destruct (less b y x); cbn [In]; [rewrite IH|]; intuition. Qed.
Lemma insert_ss x l : In x vars -> incl l vars -> ~ In x l -> SS l -> SS (insert b x l).
Proof using Nd.
  intros Hx. induction l as [|y l IH]; intros I Ni S; cbn [insert]; [constructor; [constructor|constructor]|]. apply StronglySorted_inv in S. destruct S as [S F]. rewrite Forall_forall in F. destruct (less b y x) eqn:E.
  - constructor; [apply IH; [intros z Hz; apply I; right; exact Hz|intros H; apply Ni; right; exact H|exact S]|]. apply Forall_forall. intros z Hz. apply insert_in in Hz. destruct Hz as [->|Hz]; auto.
  - assert (L : less b x y = true). { destruct (less_total b x y) as [K|K]; [|exact K|congruence]. intros K. apply Ni. left. symmetry. apply same_var; auto. apply I. left. reflexivity. }
    constructor; [constructor; [exact S|apply Forall_forall; exact F]|]. apply Forall_forall. intros z [<-|Hz]; [exact L|]. exact (less_trans _ _ _ _ L (F z Hz)).
Qed.
Lemma sort_in l z : In z (sort b l) <-> In z l.
Proof using. induction l as [|x l IH]; cbn [sort fold_right In]; [tauto|]. rewrite insert_in. unfold sort in IH. rewrite IH. intuition. Qed.
Lemma sort_ss l : incl l vars -> NoDup l -> SS (sort b l).
Proof using Nd.
  induction l as [|x l IH]; intros I D; cbn [sort fold_right]; [constructor|]. inversion D as [|? ? Ni D']; subst. apply insert_ss.
  - apply I. left. reflexivity.
  - intros z Hz. apply (proj1 (sort_in l z)) in Hz. apply I. right. exact Hz.
  - intros H. apply Ni. exact (proj1 (sort_in l x) H).
  - apply IH; [intros z Hz; apply I; right; exact Hz|exact D'].
Qed.
Lemma merge_in l1 : forall l2 z, In z (merge b l1 l2) <-> In z l1 \/ In z l2.
Proof using.
  induction l1 as [|x l1 IH1]; intros l2 z; [destruct l2; cbn [merge In]; tauto|]. induction l2 as [|y l2 IH2]; [cbn [merge In]; tauto|]. cbn [merge]. destruct (less b y x).
  - cbn [In]. cbn [In] in IH2. change (In z ((fix go (l2 : list var) : list var := match l2 with [] => x :: l1 | y0 :: l2' => if less b y0 x then y0 :: go l2' else x :: merge b l1 l2 end) l2)) with (In z (merge b (x :: l1) l2)). rewrite IH2. tauto.
  - cbn [In]. rewrite IH1. cbn [In]. tauto.
Qed.
Lemma merge_ws l1 : forall l2, incl l1 vars -> incl l2 vars -> SS l1 -> SS l2 -> WS (merge b l1 l2).
Proof using Nd.
  assert (W : forall l, SS l -> WS l). { induction 1 as [|z l S IH F]; constructor; [exact IH|]. eapply Forall_impl; [|exact F]. cbn. auto. }
  induction l1 as [|x l1 IH1]; intros l2 I1 I2 S1 S2; [destruct l2; cbn [merge]; apply W; exact S2|]. induction l2 as [|y l2 IH2]; [cbn [merge]; apply W; exact S1|].
  pose proof S1 as S1'. pose proof S2 as S2'. apply StronglySorted_inv in S1', S2'. destruct S1' as [T1 F1], S2' as [T2 F2]. rewrite Forall_forall in F1, F2. cbn [merge]. destruct (less b y x) eqn:E.
  - change ((fix go (l2 : list var) : list var := match l2 with [] => x :: l1 | y0 :: l2' => if less b y0 x then y0 :: go l2' else x :: merge b l1 l2 end) l2) with (merge b (x :: l1) l2).
    constructor; [apply IH2; [intros z Hz; apply I2; right; exact Hz|exact T2]|]. apply Forall_forall. intros z Hz. apply merge_in in Hz. destruct Hz as [[<-|Hz]|Hz]; [auto|left; exact (less_trans _ _ _ _ E (F1 z Hz))|auto].
  - constructor; [apply IH1; auto; intros z Hz; apply I1; right; exact Hz|]. apply Forall_forall. intros z Hz. apply merge_in in Hz. destruct Hz as [Hz|Hz]; [auto|].
    assert (L : x = y \/ less b x y = true). { destruct (N.eq_dec (v_id x) (v_id y)) as [K|K]; [left; apply same_var; auto; [apply I1|apply I2]; left; reflexivity|]. destruct (less_total b x y K) as [J|J]; [auto|congruence]. }
    destruct Hz as [<-|Hz]; [tauto|]. left. destruct L as [->|L]; [auto|exact (less_trans _ _ _ _ L (F2 z Hz))].
Qed.
Lemma unique_in l z : incl l vars -> In z (unique l) <-> In z l.
Proof using Nd.
  induction l as [|x l IH]; intros I; [cbn; tauto|]. assert (I' : incl l vars) by (intros u Hu; apply I; right; exact Hu). specialize (IH I'). cbn [unique]. destruct l as [|y l]; [cbn; tauto|].
  destruct (N.eqb_spec (v_id x) (v_id y)) as [E|E].
  - assert (x = y) as -> by (apply same_var; auto; apply I; [left|right; left]; reflexivity). rewrite IH. cbn [In]. tauto.
  - cbn [In] in IH |- *. rewrite IH. tauto.
Qed.
Lemma unique_ss l : incl l vars -> WS l -> SS (unique l).
Proof using Nd.
  induction l as [|x l IH]; intros I S; [constructor|]. assert (I' : incl l vars) by (intros u Hu; apply I; right; exact Hu). apply StronglySorted_inv in S. destruct S as [S F]. specialize (IH I' S). cbn [unique]. destruct l as [|y l]; [constructor; constructor|].
  destruct (N.eqb_spec (v_id x) (v_id y)) as [E|E]; [exact IH|]. constructor; [exact IH|]. apply Forall_forall. intros z Hz. apply (proj1 (unique_in _ z I')) in Hz. rewrite Forall_forall in F. apply StronglySorted_inv in S. destruct S as [_ G]. rewrite Forall_forall in G.
  assert (L : less b x y = true) by (destruct (F y (or_introl eq_refl)) as [K|K]; [exact K|congruence]). destruct Hz as [<-|Hz]; [exact L|]. destruct (G z Hz) as [K| <-]; [exact (less_trans _ _ _ _ L K)|exact L].
Qed.
End Lists.

(** ** The call graph *)
Section Calls.
Variables (calls : N -> list N) (depth : N -> nat).
Hypothesis Deep : forall f g, In g (calls f) -> (depth g < depth f)%nat.
Fixpoint visit_list (n : nat) (l : list N) (st : list N * list N) : option (list N * list N) := match l with [] => Some st | g :: l' => match visit calls n g st with Some st' => visit_list n l' st' | None => None end end.
Lemma visit_S n f V O : visit calls (S n) f (V, O) = if mem f V then Some (V, O) else match visit_list n (calls f) (f :: V, O) with Some (v, o) => Some (v, o ++ [f]) | None => None end.
Proof using.
  assert (K : forall l st, (fix all (l : list N) (st : list N * list N) : option (list N * list N) := match l with [] => Some st | g :: l' => match visit calls n g st with Some st' => all l' st' | None => None end end) l st = visit_list n l st).
  { induction l as [|g l IH]; intros st; cbn [visit_list]; [reflexivity|]. destruct (visit calls n g st); [apply IH|reflexivity]. }
  cbn [visit]. destruct (mem f V); [reflexivity|]. rewrite K. reflexivity.
Qed.
Definition first (o : list N) : Prop := forall l1 f l2, o = l1 ++ f :: l2 -> incl (calls f) l1.
Lemma first_snoc o f : first o -> incl (calls f) o -> first (o ++ [f]).
Proof using.
  intros H I l1 g l2 E. destruct (exists_last (l := g :: l2)) as (l3 & z & E3); [discriminate|]. rewrite E3, app_assoc in E. apply app_inj_tail in E. destruct E as [E ->]. destruct l3 as [|h l3].
  - cbn [app] in E3. injection E3 as -> ->. rewrite app_nil_r in E. subst o. exact I.
  - cbn [app] in E3. injection E3 as <- ->. exact (H l1 g l3 E).
Qed.
Record state (V O : list N) : Prop := { st_first : first O; st_nodup : NoDup O; st_incl : incl O V }.
Record goes (V O V' O' : list N) : Prop := {
  go_state : state V' O'; go_order : incl O O'; go_visited : incl V V';
  go_open : forall x, In x V' -> In x O' \/ In x V;
  go_new : forall x, In x O' -> In x O \/ ~ In x V }.
Lemma goes_refl V O : state V O -> goes V O V O.
Proof using. intros S. constructor; auto using incl_refl. Qed.
Lemma goes_trans V O V1 O1 V2 O2 : goes V O V1 O1 -> goes V1 O1 V2 O2 -> goes V O V2 O2.
Proof using.
  intros [A1 A2 A3 A4 A5] [B1 B2 B3 B4 B5]. constructor; [exact B1|exact (incl_tran A2 B2)|exact (incl_tran A3 B3)| |].
  - intros x Hx. destruct (B4 x Hx) as [H|H]; [auto|]. destruct (A4 x H) as [K|K]; auto.
  - intros x Hx. destruct (B5 x Hx) as [H|H]; [auto|]. right. intros K. exact (H (A3 x K)).
Qed.
Lemma visit_ok : forall n f V O V' O', visit calls n f (V, O) = Some (V', O') -> state V O -> (forall x, In x V -> In x O \/ (depth f < depth x)%nat) -> goes V O V' O' /\ In f O'.
Proof using Deep.
  induction n as [|n IH]; intros f V O V' O' H S Op.
  - cbn [visit] in H. destruct (mem f V) eqn:M; [|discriminate]. injection H as <- <-. split; [apply goes_refl, S|]. apply mem_In in M. destruct (Op f M) as [K|K]; [exact K|lia].
  - rewrite visit_S in H. destruct (mem f V) eqn:M.
    + injection H as <- <-. split; [apply goes_refl, S|]. apply mem_In in M. destruct (Op f M) as [K|K]; [exact K|lia].
    + assert (Nf : ~ In f V) by (intros K; apply mem_In in K; congruence). destruct (visit_list n (calls f) (f :: V, O)) as [[V1 O1]|] eqn:L; [|discriminate]. injection H as <- <-.
      assert (K : forall l V2 O2, incl l (calls f) -> visit_list n l (V2, O2) = Some (V1, O1) -> state V2 O2 -> (forall x, In x V2 -> In x O2 \/ (depth f <= depth x)%nat) -> goes V2 O2 V1 O1 /\ incl l O1).
      { induction l as [|g l IHl]; intros V2 O2 I H2 S2 Op2; cbn [visit_list] in H2.
        - injection H2 as <- <-. split; [apply goes_refl, S2|intros z Hz; destruct Hz].
        - destruct (visit calls n g (V2, O2)) as [[V3 O3]|] eqn:Eg; [|discriminate]. assert (Dg : (depth g < depth f)%nat) by (apply Deep, I; left; reflexivity).
          destruct (IH g V2 O2 V3 O3 Eg S2) as [G3 Ig]. { intros x Hx. destruct (Op2 x Hx) as [P|P]; [auto|right; lia]. }
          destruct (IHl V3 O3) as [G4 I4]; [intros z Hz; apply I; right; exact Hz|exact H2|exact (go_state _ _ _ _ G3)| |].
          + intros x Hx. destruct (go_open _ _ _ _ G3 x Hx) as [P|P]; [auto|]. destruct (Op2 x P) as [Q|Q]; [left; exact (go_order _ _ _ _ G3 x Q)|auto].
          + split; [exact (goes_trans _ _ _ _ _ _ G3 G4)|]. intros z [<-|Hz]; [exact (go_order _ _ _ _ G4 g Ig)|exact (I4 z Hz)]. }
      destruct (K (calls f) (f :: V) O (incl_refl _) L) as [G I].
      { destruct S as [S1 S2 S3]. constructor; auto. intros x Hx. right. exact (S3 x Hx). }
      { intros x [<-|Hx]; [right; lia|]. destruct (Op x Hx) as [P|P]; [auto|right; lia]. }
      destruct G as [[G1 G2 G3] G4 G5 G6 G7].
      assert (Nf1 : ~ In f O1). { intros P. destruct (G7 f P) as [Q|Q]; [exact (Nf (st_incl _ _ S f Q))|apply Q; left; reflexivity]. }
      split; [|apply in_or_app; right; left; reflexivity]. constructor.
      * constructor; [apply first_snoc; assumption| |].
        -- apply (NoDup_Add (a := f) (l := O1)); [|auto]. replace (O1 ++ [f]) with (O1 ++ f :: []) by reflexivity. rewrite <- (app_nil_r O1) at 1. apply Add_app.
        -- intros x Hx. apply in_app_or in Hx. destruct Hx as [Hx|[<-|[]]]; [exact (G3 x Hx)|apply G5; left; reflexivity].
      * intros x Hx. apply in_or_app. left. exact (G4 x Hx).
      * intros x Hx. apply G5. right. exact Hx.
      * intros x Hx. destruct (G6 x Hx) as [P|[<-|P]]; [left; apply in_or_app; auto|left; apply in_or_app; right; left; reflexivity|auto].
      * intros x Hx. apply in_app_or in Hx. destruct Hx as [Hx|[<-|[]]]; [|auto]. destruct (G7 x Hx) as [P|P]; [auto|right; intros Q; apply P; right; exact Q].
Qed.
Lemma visit_all_ok n : forall l V O V' O', visit_all calls n l (V, O) = Some (V', O') -> state V O -> incl V O -> state V' O' /\ incl V' O' /\ incl l O' /\ incl O O'.
Proof using Deep.
  induction l as [|g l IH]; intros V O V' O' H S I; cbn [visit_all] in H; [injection H as <- <-; split; [exact S|]; split; [exact I|]; split; [intros z Hz; destruct Hz|apply incl_refl]|].
  destruct (visit calls n g (V, O)) as [[V1 O1]|] eqn:E; [|discriminate]. destruct (visit_ok n g V O V1 O1 E S) as [G Ig]; [intros x Hx; left; exact (I x Hx)|].
  assert (I1 : incl V1 O1) by (intros x Hx; destruct (go_open _ _ _ _ G x Hx) as [K|K]; [exact K|exact (go_order _ _ _ _ G x (I x K))]).
  destruct (IH V1 O1 V' O' H (go_state _ _ _ _ G) I1) as (A & B & C & D). split; [exact A|]. split; [exact B|]. split; [intros z [<-|Hz]; [exact (D g Ig)|exact (C z Hz)]|exact (incl_tran (go_order _ _ _ _ G) D)].
Qed.
(** the fuel is enough *)
Variable functions : list N.
Hypothesis Closed : forall f, In f functions -> incl (calls f) functions.
Definition open (V : list N) : nat := length (filter (fun x => negb (mem x V)) functions).
Lemma filter_le {A} (p q : A -> bool) l : (forall x, In x l -> p x = true -> q x = true) -> (length (filter p l) <= length (filter q l))%nat.
Proof using.
  induction l as [|x l IH]; intros H; cbn [filter]; [lia|]. specialize (IH (fun z Hz => H z (or_intror Hz))). pose proof (H x (or_introl eq_refl)) as Hx. destruct (p x), (q x); cbn [length]; try lia; specialize (Hx eq_refl); discriminate.
Qed.
Lemma filter_lt {A} (p q : A -> bool) l z : In z l -> p z = false -> q z = true -> (forall x, In x l -> p x = true -> q x = true) -> (length (filter p l) < length (filter q l))%nat.
Proof using.
  induction l as [|x l IH]; intros Hz Pz Qz H; [destruct Hz|]. cbn [filter]. assert (H' : forall z, In z l -> p z = true -> q z = true) by (intros u Hu; apply H; right; exact Hu). destruct Hz as [->|Hz].
  - rewrite Pz, Qz. cbn [length]. pose proof (filter_le p q l H'). lia.
  - specialize (IH Hz Pz Qz H'). pose proof (H x (or_introl eq_refl)) as Hx. destruct (p x), (q x); cbn [length]; try lia; specialize (Hx eq_refl); discriminate.
Qed.
Lemma open_le V V' : incl V V' -> (open V' <= open V)%nat.
Proof using. intros I. apply filter_le. intros x _ H. apply negb_true_iff in H. apply negb_true_iff. destruct (mem x V) eqn:E; [|reflexivity]. apply mem_In, I, mem_In in E. congruence. Qed.
Lemma open_lt f V : In f functions -> ~ In f V -> (open (f :: V) < open V)%nat.
Proof using.
  intros Hf Nf. apply (filter_lt _ _ _ f Hf).
  - apply negb_false_iff, mem_In. left. reflexivity.
  - apply negb_true_iff. destruct (mem f V) eqn:E; [|reflexivity]. apply mem_In in E. contradiction.
  - intros x _ H. apply negb_true_iff in H. apply negb_true_iff. destruct (mem x V) eqn:E; [|reflexivity]. apply mem_In in E. enough (mem x (f :: V) = true) by congruence. apply mem_In. right. exact E.
Qed.
Lemma visit_ends : forall n f V O, In f functions -> (open V <= n)%nat -> exists V' O', visit calls n f (V, O) = Some (V', O') /\ incl V V'.
Proof using Deep Closed.
  induction n as [|n IH]; intros f V O Hf L.
  - cbn [visit]. destruct (mem f V) eqn:M; [eexists _, _; split; [reflexivity|apply incl_refl]|]. assert (Nf : ~ In f V) by (intros K; apply mem_In in K; congruence). pose proof (open_lt f V Hf Nf). lia.
  - rewrite visit_S. destruct (mem f V) eqn:M; [eexists _, _; split; [reflexivity|apply incl_refl]|]. assert (Nf : ~ In f V) by (intros K; apply mem_In in K; congruence). pose proof (open_lt f V Hf Nf) as Lt.
    assert (K : forall l V2 O2, incl l functions -> (open V2 <= n)%nat -> exists V1 O1, visit_list n l (V2, O2) = Some (V1, O1) /\ incl V2 V1).
    { induction l as [|g l IHl]; intros V2 O2 I L2; cbn [visit_list]; [eexists _, _; split; [reflexivity|apply incl_refl]|].
      destruct (IH g V2 O2 (I g (or_introl eq_refl)) L2) as (V3 & O3 & E3 & I3). rewrite E3. destruct (IHl V3 O3) as (V1 & O1 & E1 & I1); [intros z Hz; apply I; right; exact Hz|pose proof (open_le _ _ I3); lia|].
      exists V1, O1. split; [exact E1|exact (incl_tran I3 I1)]. }
    destruct (K (calls f) (f :: V) O (Closed f Hf)) as (V1 & O1 & E1 & I1); [lia|]. rewrite E1. eexists _, _. split; [reflexivity|]. intros x Hx. apply I1. right. exact Hx.
Qed.
Lemma visit_all_ends n : forall l V O, incl l functions -> (open V <= n)%nat -> exists r, visit_all calls n l (V, O) = Some r.
Proof using Deep Closed.
  induction l as [|g l IH]; intros V O I L; cbn [visit_all]; [eauto|]. destruct (visit_ends n g V O (I g (or_introl eq_refl)) L) as (V1 & O1 & -> & I1). apply IH; [intros z Hz; apply I; right; exact Hz|pose proof (open_le _ _ I1); lia].
Qed.
End Calls.
