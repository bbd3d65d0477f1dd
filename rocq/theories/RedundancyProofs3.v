(** Proofs about the removal of redundant instructions: what the value numbers say, and what is replaced by what. *)
From Coq Require Import Permutation.
From Verif Require Import Base GraphSpec Redundancy RedundancySpec RedundancyProofs RedundancyProofs2.
Local Open Scope N_scope.

(** ** The table *)
Definition rt (tr : N -> tree) (r : ref) : tree := match r with Raw a => LId a | Num v => tr v end.
Definition kt (tr : N -> tree) (k : key) : tree :=
  match k with
  | KPure op l => Node op (map (rt tr) l)
  | KCopy a => rt tr a
  | KPhi l => TPhi (map (fun x => (rt tr (fst x), snd x)) l)
  end.
Definition rbelow (n : N) (r : ref) : Prop := match r with Raw _ => True | Num v => v < n end.
Definition kbelow (n : N) (k : key) : Prop :=
  match k with KPure _ l => forall a, In a l -> rbelow n a | KCopy a => rbelow n a | KPhi l => forall a, In a l -> rbelow n (fst a) end.
Lemma rt_ext tr tr' n r : (forall v, v < n -> tr' v = tr v) -> rbelow n r -> rt tr' r = rt tr r.
Proof. intros H B. destruct r as [a|v]; simpl in *; auto. Qed.
Lemma kt_ext tr tr' n k : (forall v, v < n -> tr' v = tr v) -> kbelow n k -> kt tr' k = kt tr k.
Proof.
  intros H B. destruct k as [op l|a|l]; simpl in *; [|eapply rt_ext; eauto|]; f_equal; apply map_ext_in; intros a Ha.
  - eapply rt_ext; eauto.
  - f_equal. eapply rt_ext; eauto.
Qed.
Lemma rbelow_le n n' r : n <= n' -> rbelow n r -> rbelow n' r.
Proof. destruct r; simpl; [auto|lia]. Qed.
Lemma kbelow_le n n' k : n <= n' -> kbelow n k -> kbelow n' k.
Proof. intros L. destruct k; simpl; [|apply rbelow_le, L|]; intros H a Ha; eapply rbelow_le; eauto. Qed.
Lemma ref_eqb_eq a b : ref_eqb a b = true <-> a = b.
Proof. destruct a, b; simpl; split; intros H; try discriminate; try (apply N.eqb_eq in H; congruence); injection H as ->; apply N.eqb_refl. Qed.
Lemma key_eqb_eq k l : key_eqb k l = true -> k = l.
Proof.
  destruct k, l; simpl; intros H; try discriminate.
  - apply andb_true_iff in H. destruct H as [H1 H2]. apply N.eqb_eq in H1. apply (list_eqb_eq ref_eqb ref_eqb_eq) in H2. congruence.
  - apply ref_eqb_eq in H. congruence.
  - apply list_eqb_eq in H; [congruence|]. intros [a x] [b y]. simpl. rewrite andb_true_iff, ref_eqb_eq, N.eqb_eq. split; [intros [-> ->]; reflexivity|intros E; injection E; auto].
Qed.

Section Table.
Variables (f : func) (dec : N -> N -> bool) (comm : N -> bool).
Hypothesis WF : well_formed f.

Lemma has_once i i' r : has f i -> has f i' -> result i = Some r -> result i' = Some r -> i = i'.
Proof using WF.
  intros [Hp|(c & j & Hc & Hj)] [Hp'|(c' & j' & Hc' & Hj')] R R'.
  - destruct (in_split _ _ Hp) as (l1 & l2 & E). destruct (wf_prelude f WF l1 i l2 r E R) as (_ & N & _).
    destruct (in_split _ _ Hp') as (m1 & m2 & E'). destruct (wf_prelude f WF m1 i' m2 r E' R') as (_ & N' & _).
    rewrite E in Hp'. apply in_app_or in Hp'. destruct Hp' as [Hp'|[->|Hp']]; [|reflexivity|destruct (N _ Hp' R')].
    rewrite E' in E. assert (Hin : In i (m1 ++ i' :: m2)) by (rewrite E; apply in_or_app; right; left; reflexivity).
    apply in_app_or in Hin. destruct Hin as [Hin|[->|Hin]]; [|reflexivity|destruct (N' _ Hin R)].
    exfalso. destruct (in_split _ _ Hp') as (a1 & a2 & Ea). subst l1. rewrite <- app_assoc in E. simpl in E. pose proof E as E2. rewrite <- E' in E2.
    destruct (wf_prelude f WF _ _ _ r E2 R') as (_ & N2 & _). apply (N2 i); [|exact R]. apply in_or_app. right. left. reflexivity.
  - exfalso. destruct (in_split _ _ Hp) as (l1 & l2 & E). destruct (wf_prelude f WF l1 i l2 r E R) as (N & _). apply (N c' (S j')). split; [exact Hc'|eauto].
  - exfalso. destruct (in_split _ _ Hp') as (l1 & l2 & E). destruct (wf_prelude f WF l1 i' l2 r E R') as (N & _). apply (N c (S j)). split; [exact Hc|eauto].
  - assert (D1 : defined_at f r c (S j)) by (split; [exact Hc|eauto]). assert (D2 : defined_at f r c' (S j')) by (split; [exact Hc'|eauto]).
    destruct (wf_once f WF _ _ _ _ _ D1 D2) as [-> E]. injection E as ->. congruence.
Qed.
Lemma has_not_phi i r c p : has f i -> result i = Some r -> In c (blocks f) -> In p (phis c) -> p_res p <> r.
Proof using WF.
  intros H R Hc Hp E. assert (D0 : defined_at f r c 0) by (split; [exact Hc|eauto]). destruct (has_at f WF i r c 0 H R D0) as (j & Ej & _). discriminate Ej.
Qed.

Definition is_own (r : N) : Prop := exists op args, has f (IOwn (Some r) op args).
Record sound (t : table) (tr : N -> tree) : Prop := {
  s_next : 1 <= next t;
  s_num : forall x, num t x <> 0 -> num t x < next t /\ means f comm x (tr (num t x));
  s_known : forall k z, In (k, z) (known t) -> num t z <> 0 /\ kt tr k = tr (num t z) /\ kbelow (next t) k;
  s_own : forall r, is_own r -> num t r <> 0 -> tr (num t r) = LId r }.
Lemma sound_empty : sound empty (fun _ => LId 0).
Proof. constructor; simpl; [lia|congruence|intros k z []|congruence]. Qed.
Lemma ref_means t tr a : sound t tr -> means f comm a (rt tr (ref_of t a)) /\ rbelow (next t) (ref_of t a).
Proof.
  intros S. unfold ref_of. destruct (N.eqb_spec (num t a) 0) as [E|E]; simpl; [split; [constructor|exact I]|]. destruct (s_num _ _ S a E). auto.
Qed.
Lemma same_sound t tr r v : sound t tr -> num t r = 0 -> v <> 0 -> v < next t -> means f comm r (tr v) -> ~ is_own r -> sound (same_as t r v) tr.
Proof.
  intros S Er Hv Lv M No. constructor; simpl; [apply (s_next _ _ S)| | |].
  - intros x. unfold set_num. destruct (N.eqb_spec x r) as [E|E]; [subst x; auto|apply (s_num _ _ S)].
  - intros k z Hin. unfold set_num. destruct (s_known _ _ S k z Hin) as (Nz & Ek & B). destruct (N.eqb_spec z r) as [E|E]; [subst z; congruence|auto].
  - intros x Ox. unfold set_num. destruct (N.eqb_spec x r) as [E|E]; [subst x; contradiction|apply (s_own _ _ S x Ox)].
Qed.
(** a number that has not been used *)
Lemma new_sound t tr r T ks : sound t tr -> num t r = 0 -> means f comm r T -> (is_own r -> T = LId r) ->
  (forall k z, In (k, z) ks -> In (k, z) (known t) \/ (z = r /\ kt tr k = T /\ kbelow (next t) k)) ->
  sound (mktable (next t + 1) (set_num (num t) r (next t)) ks) (fun v => if v =? next t then T else tr v).
Proof.
  intros S Er M Ho Hk. pose proof (s_next _ _ S) as Ln. set (tr' := fun v => if v =? next t then T else tr v).
  assert (Ex : forall v, v < next t -> tr' v = tr v) by (intros v L; unfold tr'; destruct (N.eqb_spec v (next t)); [lia|reflexivity]).
  assert (En : tr' (next t) = T) by (unfold tr'; rewrite N.eqb_refl; reflexivity).
  constructor; simpl; [lia| | |].
  - intros x. unfold set_num. destruct (N.eqb_spec x r) as [E|E]; [subst x; rewrite En; intros _; split; [lia|exact M]|]. intros Nx. destruct (s_num _ _ S x Nx) as [L Mx].
    rewrite (Ex _ L). split; [lia|exact Mx].
  - intros k z Hin. unfold set_num. destruct (Hk k z Hin) as [Hin'|(-> & Ek & B)].
    + destruct (s_known _ _ S k z Hin') as (Nz & Ek & B). destruct (N.eqb_spec z r) as [E|E]; [subst z; congruence|]. split; [exact Nz|].
      rewrite (Ex _ (proj1 (s_num _ _ S z Nz))), <- Ek. split; [eapply kt_ext; eauto|apply (kbelow_le (next t)); [lia|exact B]].
    + rewrite N.eqb_refl. split; [lia|]. rewrite En, <- Ek. split; [eapply kt_ext; eauto|apply (kbelow_le (next t)); [lia|exact B]].
  - intros x Ox. unfold set_num. destruct (N.eqb_spec x r) as [E|E]; [subst x; rewrite En; auto|]. intros Nx. rewrite (Ex _ (proj1 (s_num _ _ S x Nx))). apply (s_own _ _ S x Ox Nx).
Qed.
Lemma by_key_sound t tr k r : sound t tr -> num t r = 0 -> means f comm r (kt tr k) -> kbelow (next t) k -> ~ is_own r -> exists tr', sound (by_key dec t k r) tr'.
Proof.
  intros S Er M B No. unfold by_key. destruct (find _ (known t)) as [[k' z]|] eqn:F.
  - apply find_some in F. destruct F as [Hin F]. simpl in F. apply andb_true_iff in F. destruct F as [F _]. apply key_eqb_eq in F. subst k'.
    destruct (s_known _ _ S k z Hin) as (Nz & Ek & _). exists tr. apply same_sound; auto; [apply (s_num _ _ S z Nz)|rewrite <- Ek; exact M].
  - eexists. apply (new_sound t tr r (kt tr k)); auto; [intros O; contradiction|]. intros k0 z [E|Hin]; [injection E as <- <-; right; auto|left; exact Hin].
Qed.
Lemma not_own i r : has f i -> result i = Some r -> (match i with IOwn _ _ _ => False | _ => True end) -> ~ is_own r.
Proof using WF. intros H R K (op & args & O). rewrite (has_once i _ r H O R eq_refl) in K. exact K. Qed.
Lemma nth_map {A B} (g : A -> B) l : forall n, nth_error (map g l) n = match nth_error l n with Some a => Some (g a) | None => None end.
Proof. induction l as [|a l IH]; intros [|n]; simpl; auto. Qed.
Lemma number_inst_sound t tr i : has f i -> sound t tr -> exists tr', sound (number_inst dec comm t i) tr'.
Proof using WF.
  intros H S. destruct i as [r op args|r a|[r|] op args]; simpl; [| | |exists tr; exact S].
  - destruct (N.eqb_spec (num t r) 0) as [Er|Er]; simpl; [|exists tr; exact S].
    assert (Bs : forall a, In a (map (ref_of t) args) -> rbelow (next t) a) by (intros a Ha; apply in_map_iff in Ha; destruct Ha as (x & <- & _); apply (ref_means t tr x S)).
    assert (M0 : means f comm r (kt tr (KPure op (map (ref_of t) args)))).
    { simpl. apply (M_pure f comm r op args); [exact H|rewrite !map_length; reflexivity|]. intros n a T Ea ET. rewrite !nth_map, Ea in ET. injection ET as <-. apply (ref_means t tr a S). }
    pose proof (not_own _ r H eq_refl I) as No.
    apply (by_key_sound t tr _ r S Er); [| |exact No]; unfold normal; destruct (comm op) eqn:Co; try assumption.
    + destruct args as [|a [|b [|x l]]]; try exact M0. cbn [map]. destruct (ref_ltb (ref_of t b) (ref_of t a)); [|exact M0].
      simpl. apply (M_comm f comm r op a b); auto; apply (ref_means t tr _ S).
    + destruct args as [|a [|b [|x l]]]; try exact Bs. cbn [map]. destruct (ref_ltb (ref_of t b) (ref_of t a)); [|exact Bs].
      simpl in *. intros y [<-|[<-|[]]]; apply Bs; auto.
  - destruct (N.eqb_spec (num t r) 0) as [Er|Er]; simpl; [|exists tr; exact S]. pose proof (not_own _ r H eq_refl I) as No.
    destruct (dec r a && negb (num t a =? 0)) eqn:Q.
    + apply andb_true_iff in Q. destruct Q as [_ Q]. apply negb_true_iff, N.eqb_neq in Q. destruct (s_num _ _ S a Q) as [L M]. exists tr. apply same_sound; auto.
      eapply M_copy; eauto.
    + apply (by_key_sound t tr _ r S Er); [|apply (ref_means t tr a S)|exact No]. simpl. eapply M_copy; [exact H|]. apply (ref_means t tr a S).
  - destruct (N.eqb_spec (num t r) 0) as [Er|Er]; simpl; [|exists tr; exact S]. eexists. apply (new_sound t tr r (LId r)); auto. constructor.
Qed.
Lemma number_phi_sound t tr c p : In c (blocks f) -> In p (phis c) -> sound t tr -> exists tr', sound (number_phi dec t p) tr'.
Proof using WF.
  intros Hc Hp S. unfold number_phi. destruct (N.eqb_spec (num t (p_res p)) 0) as [Er|Er]; simpl; [|exists tr; exact S].
  assert (No : ~ is_own (p_res p)) by (intros (op & args & O); exact (has_not_phi _ _ c p O eq_refl Hc Hp eq_refl)).
  assert (By : exists tr', sound (by_key dec t (KPhi (map (fun a => (ref_of t (fst a), snd a)) (p_args p))) (p_res p)) tr').
  { apply (by_key_sound t tr _ _ S Er); [| |exact No].
    - simpl. apply (M_phi f comm c p); auto; [rewrite !map_map; reflexivity|]. intros n a l T l' Ea ET. rewrite !nth_map, Ea in ET. simpl in ET. injection ET as <- <-. apply (ref_means t tr a S).
    - simpl. intros a Ha. apply in_map_iff in Ha. destruct Ha as (x & <- & _). apply (ref_means t tr (fst x) S). }
  destruct (p_args p) as [|[a l] rest] eqn:Ep; [exact By|].
  destruct (dec (p_res p) a && negb (num t a =? 0) && forallb (fun b => num t (fst b) =? num t a) rest) eqn:Q; [|exact By].
  apply andb_true_iff in Q. destruct Q as [Q Qf]. apply andb_true_iff in Q. destruct Q as [_ Q]. apply negb_true_iff, N.eqb_neq in Q. destruct (s_num _ _ S a Q) as [L M].
  exists tr. apply same_sound; auto. apply (M_same f comm c p); auto. intros x lx Hx. rewrite Ep in Hx. destruct Hx as [E|Hx]; [injection E as <- _; exact M|].
  rewrite forallb_forall in Qf. specialize (Qf _ Hx). simpl in Qf. apply N.eqb_eq in Qf. rewrite <- Qf. apply (s_num _ _ S x). congruence.
Qed.
Lemma fold_sound {A} (g : table -> A -> table) (P : A -> Prop) : (forall t tr a, P a -> sound t tr -> exists tr', sound (g t a) tr') ->
  forall l t tr, (forall a, In a l -> P a) -> sound t tr -> exists tr', sound (fold_left g l t) tr'.
Proof.
  intros H. induction l as [|a l IH]; intros t tr Hl S; simpl; [eauto|]. destruct (H t tr a (Hl a (or_introl eq_refl)) S) as [tr1 S1]. apply (IH _ tr1); auto.
  intros b Hb. apply Hl. right. exact Hb.
Qed.
Lemma number_all_sound : exists tr, sound (number_all dec comm f) tr.
Proof using WF.
  unfold number_all. destruct (fold_sound (number_inst dec comm) (has f) (fun t tr i H S => number_inst_sound t tr i H S) (prelude f) empty _ (fun i H => or_introl H) sound_empty) as [tr S].
  apply (fold_sound (number_block dec comm) (fun b => In b (blocks f))) with tr; auto. clear tr S. intros t tr b Hb S. unfold number_block.
  destruct (fold_sound (number_phi dec) (fun p => In p (phis b)) (fun t tr p H S => number_phi_sound t tr b p Hb H S) (phis b) t tr (fun p H => H) S) as [tr1 S1].
  apply (fold_sound (number_inst dec comm) (has f) (fun t tr i H S => number_inst_sound t tr i H S) (body b) _ tr1); auto.
  intros i Hi. right. destruct (In_nth_error _ _ Hi) as [j Hj]. eauto.
Qed.
End Table.

(** ** What is replaced *)
Section Replace.
Variables (f : func) (t : table).
Hypothesis WF : well_formed f.
Record done (s : progress) : Prop := {
  d_keep : forall y, ~ In y (gone s) -> ren s y = y;
  d_gone : forall y, In y (gone s) -> num t y <> 0 /\ num t (ren s y) = num t y /\ ~ In (ren s y) (gone s) /\
    forall c k, defined_at f y c k -> reach f c -> available f c (S k) (ren s y) }.
Record inv (seen : N -> Prop) (s : progress) : Prop := {
  i_done : done s;
  i_gone : forall y, In y (gone s) -> seen y;
  i_ren : forall y, In y (gone s) -> seen (ren s y) }.
Definition entries (seen : N -> Prop) (s : progress) (m : list (N * N)) (P : N -> Prop) : Prop :=
  forall v x, In (v, x) m -> v <> 0 /\ num t x = v /\ seen x /\ ~ In x (gone s) /\ P x.
Lemma visit_inv seen s m P r m' s' : inv seen s -> entries seen s m P -> ~ seen r ->
  (forall x, P x -> forall c k, defined_at f r c k -> reach f c -> available f c (S k) x) -> visit t (m, s) r = (m', s') ->
  inv (fun y => seen y \/ y = r) s' /\ entries (fun y => seen y \/ y = r) s' m' (fun x => P x \/ x = r) /\ (forall y, In y (gone s') -> In y (gone s) \/ y = r).
Proof.
  intros Iv En Ns Hs H. unfold visit in H. destruct Iv as [[Dk Dg] Ig Ir].
  assert (Nr : ~ In r (gone s)) by (intros G; exact (Ns (Ig _ G))).
  assert (Iv' : inv (fun y => seen y \/ y = r) s) by (constructor; [constructor; auto| |]; intros y Hy; left; auto).
  assert (En' : entries (fun y => seen y \/ y = r) s m (fun x => P x \/ x = r)) by (intros v x Hx; destruct (En v x Hx) as (A & B & C & D & E); auto 10).
  destruct (N.eqb_spec (num t r) 0) as [E0|E0]; [injection H as <- <-; auto|].
  destruct (find (fun x => fst x =? num t r) m) as [[v x]|] eqn:F.
  - injection H as <- <-. apply find_some in F. destruct F as [Hin F]. simpl in F. apply N.eqb_eq in F. destruct (En v x Hin) as (Nv & Ex & Sx & Gx & Px). subst v.
    assert (Nxr : x <> r) by (intros ->; exact (Ns Sx)).
    assert (Rr : replace1 r x (ren s r) = x) by (rewrite (Dk r Nr); unfold replace1; rewrite N.eqb_refl; reflexivity).
    assert (Ro : forall y, y <> r -> replace1 r x (ren s y) = ren s y).
    { intros y Ny. unfold replace1. destruct (N.eqb_spec (ren s y) r) as [E|E]; [|reflexivity]. exfalso. destruct (in_dec N.eq_dec y (gone s)) as [G|G]; [|rewrite (Dk y G) in E; congruence].
      apply Ns. rewrite <- E. apply Ir, G. }
    split; [constructor; [constructor|..]|split]; simpl.
    + intros y Ny. rewrite Ro; [apply Dk; tauto|intros ->; tauto].
    + intros y [<-|G].
      * rewrite Rr. split; [exact E0|]. split; [congruence|]. split; [intros [E|G]; [congruence|tauto]|]. apply Hs, Px.
      * rewrite Ro by (intros ->; tauto). destruct (Dg y G) as (A & B & C & Dd). split; [exact A|]. split; [exact B|]. split; [|exact Dd]. intros [E|G']; [|tauto].
        apply Ns. rewrite E. apply Ir, G.
    + intros y [<-|G]; auto.
    + intros y [<-|G]; [rewrite Rr; auto|]. rewrite Ro by (intros ->; tauto). auto.
    + intros v y Hy. destruct (En v y Hy) as (A & B & C & Dd & E). repeat split; auto. intros [<-|G]; [tauto|tauto].
    + intros y [<-|G]; auto.
  - injection H as <- <-. split; [exact Iv'|]. split; [|auto]. intros v y [E|Hy]; [|apply En', Hy]. injection E as <- <-. auto 10.
Qed.

(** the results of a block, in order *)
Lemma flat_order : forall (l : list inst) l1 r l2 x, flat_map (fun i => match result i with Some r => [r] | None => [] end) l = l1 ++ r :: l2 -> In x l1 ->
  exists j0 j i0 i, nth_error l j0 = Some i0 /\ result i0 = Some x /\ nth_error l j = Some i /\ result i = Some r /\ (j0 < j)%nat.
Proof.
  induction l as [|i l IH]; intros l1 r l2 x E Hx; simpl in E; [destruct l1; discriminate|]. destruct (result i) as [y|] eqn:Ri.
  - destruct l1 as [|z l1]; [destruct Hx|]. simpl in E. injection E as -> E. destruct Hx as [->|Hx].
    + assert (Hr : In r (flat_map (fun i => match result i with Some r => [r] | None => [] end) l)) by (rewrite E; apply in_or_app; right; left; reflexivity).
      apply in_flat_map in Hr. destruct Hr as (i1 & Hi1 & Hr). destruct (result i1) as [r'|] eqn:R1; [|destruct Hr]. destruct Hr as [->|[]].
      destruct (In_nth_error _ _ Hi1) as [j Hj]. exists O, (S j), i, i1. simpl. repeat split; auto. lia.
    + destruct (IH l1 r l2 x E Hx) as (j0 & j & i0 & i1 & A & B & C & Dd & L). exists (S j0), (S j), i0, i1. simpl. repeat split; auto. lia.
  - destruct (IH l1 r l2 x E Hx) as (j0 & j & i0 & i1 & A & B & C & Dd & L). exists (S j0), (S j), i0, i1. simpl. repeat split; auto. lia.
Qed.
Lemma results_place b x : In b (blocks f) -> In x (results b) -> exists k, defined_at f x b k /\ (k <= length (body b))%nat.
Proof.
  intros Hb Hx. unfold results in Hx. apply in_app_or in Hx. destruct Hx as [Hx|Hx].
  - apply in_map_iff in Hx. destruct Hx as (p & E & Hp). exists O. split; [split; [exact Hb|eauto]|lia].
  - apply in_flat_map in Hx. destruct Hx as (i & Hi & Hx). destruct (result i) as [y|] eqn:Ri; [|destruct Hx]. destruct Hx as [->|[]].
    destruct (In_nth_error _ _ Hi) as [j Hj]. exists (S j). split; [split; [exact Hb|eauto]|]. assert (j < length (body b))%nat by (apply nth_error_Some; congruence). lia.
Qed.
Lemma results_order b pre r l x k : In b (blocks f) -> results b = pre ++ r :: l -> In x pre -> defined_at f r b k -> available f b (S k) x.
Proof using WF.
  intros Hb E Hx Dr. assert (exists k0, defined_at f x b k0 /\ (k0 <= k)%nat) as (k0 & D0 & L); [|right; exists b, k0; split; [exact D0|left; split; [reflexivity|lia]]].
  destruct (in_dec N.eq_dec x (map p_res (phis b))) as [Hp|Hp].
  - apply in_map_iff in Hp. destruct Hp as (p & Ep & Hp). exists O. split; [split; [exact Hb|eauto]|lia].
  - unfold results in E. destruct (app_eq_app _ _ _ _ E) as (m0 & [[E1 E2]|[E1 E2]]).
    + exfalso. apply Hp. rewrite E1. apply in_or_app. left. exact Hx.
    + rewrite E1 in Hx. apply in_app_or in Hx. destruct Hx as [Hx|Hx]; [contradiction|]. destruct (flat_order (body b) m0 r l x E2 Hx) as (j0 & j & i0 & i & A & B & C & Dd & L).
      exists (S j0). split; [split; [exact Hb|eauto]|]. assert (D1 : defined_at f r b (S j)) by (split; [exact Hb|eauto]). destruct (wf_once f WF _ _ _ _ _ Dr D1) as [_ ->]. lia.
Qed.
Lemma results_nodup b : In b (blocks f) -> NoDup (results b).
Proof using WF.
  intros Hb. unfold results.
  assert (G : forall l1 l2, NoDup l1 -> NoDup l2 -> (forall x : N, In x l1 -> ~ In x l2) -> NoDup (l1 ++ l2)).
  { induction l1 as [|a l1 IH]; intros l2 N1 N2 Dj; simpl; [exact N2|]. inversion N1; subst. constructor; [|apply IH; auto; intros x Hx; apply Dj; right; exact Hx].
    intros Hin. apply in_app_or in Hin. destruct Hin as [Hin|Hin]; [contradiction|]. exact (Dj a (or_introl eq_refl) Hin). }
  apply G; [apply (wf_phi_once f WF b Hb)| |].
  - assert (Q : forall l1 l2, body b = l1 ++ l2 -> NoDup (flat_map (fun i => match result i with Some r => [r] | None => [] end) l2)).
    { intros l1 l2. revert l1. induction l2 as [|i l2 IH]; intros l1 E; simpl; [constructor|]. specialize (IH (l1 ++ [i])). rewrite <- app_assoc in IH. specialize (IH E).
      destruct (result i) as [r|] eqn:Ri; [|exact IH]. simpl. constructor; [|exact IH]. intros Hin. apply in_flat_map in Hin. destruct Hin as (i1 & Hi1 & Hr).
      destruct (result i1) as [r'|] eqn:R1; [|destruct Hr]. destruct Hr as [->|[]]. destruct (In_nth_error _ _ Hi1) as [j Hj].
      assert (D1 : defined_at f r b (S (length l1))). { split; [exact Hb|]. exists i. split; [|exact Ri]. rewrite E, nth_error_app2, Nat.sub_diag; [reflexivity|lia]. }
      assert (D2 : defined_at f r b (S (length l1 + S j))).
      { split; [exact Hb|]. exists i1. split; [|exact R1]. rewrite E, nth_error_app2 by lia. replace (length l1 + S j - length l1)%nat with (S j) by lia. exact Hj. }
      destruct (wf_once f WF _ _ _ _ _ D1 D2) as [_ E']. lia. }
    apply (Q [] (body b) eq_refl).
  - intros x Hx Hy. apply in_map_iff in Hx. destruct Hx as (p & Ep & Hp). apply in_flat_map in Hy. destruct Hy as (i & Hi & Hy).
    destruct (result i) as [y|] eqn:Ri; [|destruct Hy]. destruct Hy as [->|[]]. destruct (In_nth_error _ _ Hi) as [j Hj].
    assert (D1 : defined_at f x b 0) by (split; [exact Hb|eauto]). assert (D2 : defined_at f x b (S j)) by (split; [exact Hb|eauto]).
    destruct (wf_once f WF _ _ _ _ _ D1 D2) as [_ E']. discriminate E'.
Qed.
Lemma results_apart b b' x : In b (blocks f) -> In b' (blocks f) -> In x (results b) -> In x (results b') -> b = b'.
Proof using WF.
  intros Hb Hb' H H'. destruct (results_place b x Hb H) as (k & D1 & _). destruct (results_place b' x Hb' H') as (k' & D2 & _).
  destruct (wf_once f WF _ _ _ _ _ D1 D2). assumption.
Qed.
Lemma block_fold b : In b (blocks f) -> forall l pre (seen : N -> Prop) m s m' s', results b = pre ++ l -> (forall x, In x l -> ~ seen x) -> inv seen s ->
  entries seen s m (fun x => (reach f b -> available f b 0 x) \/ In x pre) -> fold_left (visit t) l (m, s) = (m', s') ->
  inv (fun y => seen y \/ In y l) s' /\ entries (fun y => seen y \/ In y l) s' m' (fun x => (reach f b -> available f b 0 x) \/ In x (results b)) /\
  (forall y, In y (gone s') -> In y (gone s) \/ In y l).
Proof using WF.
  intros Hb. pose proof (results_nodup b Hb) as Nd. induction l as [|r l IH]; intros pre seen m s m' s' E Ns Iv En H.
  - simpl in H. injection H as <- <-. rewrite app_nil_r in E. rewrite E. split; [|split; [|auto]].
    + destruct Iv as [D0 Ig Ir]. constructor; auto.
    + intros v x Hx. destruct (En v x Hx) as (A & B & C & D0 & P). auto 10.
  - cbn [fold_left] in H. destruct (visit t (m, s) r) as [m1 s1] eqn:V.
    assert (Hs : forall x, (reach f b -> available f b 0 x) \/ In x pre -> forall c k, defined_at f r c k -> reach f c -> available f c (S k) x).
    { intros x Hx c k Dr Rc. assert (Hr : In r (results b)) by (rewrite E; apply in_or_app; right; left; reflexivity).
      destruct (results_place b r Hb Hr) as (k1 & D1 & _). destruct (wf_once f WF _ _ _ _ _ Dr D1) as [-> ->]. destruct Hx as [Hx|Hx]; [|eapply results_order; eauto].
      apply (later_avail f b 0 b (S k1) x Rc); [left; split; [reflexivity|lia]|auto]. }
    destruct (visit_inv seen s m _ r m1 s1 Iv En (Ns r (or_introl eq_refl)) Hs V) as (Iv1 & En1 & G1).
    assert (E1 : results b = (pre ++ [r]) ++ l) by (rewrite <- app_assoc; exact E).
    assert (Nrl : ~ In r l) by (rewrite E in Nd; apply NoDup_remove_2 in Nd; intros Hin; apply Nd, in_or_app; right; exact Hin).
    destruct (IH (pre ++ [r]) (fun y => seen y \/ y = r) m1 s1 m' s' E1) as (Iv2 & En2 & G2); auto.
    + intros x Hx [Sx|Ex]; [|subst x]; [exact (Ns x (or_intror Hx) Sx)|contradiction].
    + intros v x Hx. destruct (En1 v x Hx) as (A & B & C & D0 & P). repeat split; auto. destruct P as [[P|P]|P]; [left; exact P|right|right]; apply in_or_app; simpl; auto.
    + split; [|split].
      * destruct Iv2 as [D0 Ig Ir]. constructor; [exact D0| |]; intros y Hy; [destruct (Ig y Hy) as [[K|K]|K]|destruct (Ir y Hy) as [[K|K]|K]]; simpl; auto.
      * intros v x Hx. destruct (En2 v x Hx) as (A & B & C & D0 & P). repeat split; auto. destruct C as [[K|K]|K]; simpl; auto.
      * intros y Hy. destruct (G2 y Hy) as [K|K]; [destruct (G1 y K) as [K'|K']|]; simpl; auto.
Qed.
Definition visited (ls : list N) : N -> Prop := fun y => exists b, In b (blocks f) /\ In (label b) ls /\ In y (results b).
Lemma block_inv b ls m s m' s' : In b (blocks f) -> ~ In (label b) ls -> inv (visited ls) s -> entries (visited ls) s m (fun x => reach f b -> available f b 0 x) ->
  eliminate_block t b (m, s) = (m', s') ->
  inv (visited (label b :: ls)) s' /\ entries (visited (label b :: ls)) s' m' (fun x => reach f b -> available f b (S (length (body b))) x) /\
  (forall y, In y (gone s') -> In y (gone s) \/ In y (results b)).
Proof using WF.
  intros Hb Nl Iv En H. unfold eliminate_block in H.
  assert (Ns : forall x, In x (results b) -> ~ visited ls x).
  { intros x Hx (b' & Hb' & Hl & Hx'). rewrite (results_apart b b' x Hb Hb' Hx Hx') in Nl. contradiction. }
  destruct (block_fold b Hb (results b) [] (visited ls) m s m' s' eq_refl Ns Iv) as (Iv1 & En1 & G1); auto.
  { intros v x Hx. destruct (En v x Hx) as (A & B & C & D0 & P). auto 10. }
  assert (Sub : forall y, visited ls y \/ In y (results b) -> visited (label b :: ls) y).
  { intros y [(b' & Hb' & Hl & Hy)|Hy]; [exists b'; simpl; auto|exists b; simpl; auto]. }
  split; [|split; [|exact G1]].
  - destruct Iv1 as [D0 Ig Ir]. constructor; auto.
  - intros v x Hx. destruct (En1 v x Hx) as (A & B & C & D0 & P). repeat split; auto. intros R. destruct P as [P|P].
    + apply (later_avail f b 0 b _ x R); [left; split; [reflexivity|lia]|auto].
    + destruct (results_place b x Hb P) as (k & Dx & L). right. exists b, k. split; [exact Dx|]. left. split; [reflexivity|lia].
Qed.
Lemma start_inv : inv (visited []) start.
Proof. constructor; [constructor|..]; simpl; auto; intros y []. Qed.
Lemma local_done : exists ls, inv (visited ls) (fold_left (fun s b => snd (eliminate_block t b ([], s))) (blocks f) start).
Proof using WF.
  assert (G : forall l ls s, (forall b, In b l -> In b (blocks f)) -> NoDup (map label l) -> (forall b, In b l -> ~ In (label b) ls) -> inv (visited ls) s ->
    exists ls', inv (visited ls') (fold_left (fun s b => snd (eliminate_block t b ([], s))) l s)).
  { induction l as [|b l IH]; intros ls s Hl Nd Ns Iv; [exists ls; exact Iv|]. cbn [fold_left]. inversion Nd as [|? ? Nb Nd']; subst.
    destruct (eliminate_block t b ([], s)) as [m' s'] eqn:E. destruct (block_inv b ls [] s m' s') as (Iv1 & _); auto.
    - apply Hl. left. reflexivity.
    - apply Ns. left. reflexivity.
    - intros v x [].
    - simpl. apply (IH (label b :: ls)); auto; [intros c Hc; apply Hl; right; exact Hc|]. intros c Hc [El|Hin]; [|exact (Ns c (or_intror Hc) Hin)].
      apply Nb. rewrite El. apply in_map. exact Hc. }
  apply (G (blocks f) [] start); auto; [apply (wf_labels f WF)|apply start_inv].
Qed.

(** the queue of the pass over the dominator tree *)
Definition waiting (ls : list N) (s : progress) (todo : list (dtree * list (N * N))) : Prop :=
  forall d m, In (d, m) todo -> dominator_tree f d /\ forall b, In b (blocks f) -> label b = root d -> entries (visited ls) s m (fun x => reach f b -> available f b 0 x).
Lemma queue_size (l : list dtree) (m : list (N * N)) : fold_right (fun x n => (size (fst x) + n)%nat) O (map (fun k => (k, m)) l) = fold_right (fun k n => (size k + n)%nat) O l.
Proof. induction l as [|k l IH]; simpl; [reflexivity|]. rewrite IH. reflexivity. Qed.
Lemma sum_app {A} (g : A -> nat) (l l' : list A) : fold_right (fun x n => (g x + n)%nat) O (l ++ l') = (fold_right (fun x n => (g x + n)%nat) O l + fold_right (fun x n => (g x + n)%nat) O l')%nat.
Proof. induction l as [|a l IH]; simpl; [reflexivity|]. rewrite IH. lia. Qed.
Definition pending (todo : list (dtree * list (N * N))) : list N := flat_map (fun x => labels (fst x)) todo.
Lemma pending_app a b : pending (a ++ b) = pending a ++ pending b.
Proof. unfold pending. apply flat_map_app. Qed.
Lemma pending_kids m l : pending (map (fun k => (k, m)) l) = flat_map labels l.
Proof. unfold pending. induction l as [|k l IH]; simpl; [reflexivity|]. rewrite IH. reflexivity. Qed.
Lemma global_done : forall fuel todo ls s, (fold_right (fun x n => (size (fst x) + n)%nat) O todo <= fuel)%nat ->
  NoDup (pending todo) -> (forall l, In l (pending todo) -> ~ In l ls) -> inv (visited ls) s -> waiting ls s todo ->
  exists s' ls', eliminate_from fuel t f todo s = Some s' /\ inv (visited ls') s'.
Proof using WF.
  induction fuel as [|fuel IH]; intros todo ls s Hf Nd Ns Iv Hw.
  - destruct todo as [|[[l kids] m] todo]; [|simpl in Hf; lia]. exists s, ls. auto.
  - destruct todo as [|[[l kids] m] todo]; [exists s, ls; auto|].
    destruct (Hw _ _ (or_introl eq_refl)) as [Dt En]. inversion Dt as [? ? Hl Hk]; subst. apply in_map_iff in Hl. destruct Hl as (b & El & Hb).
    cbn [eliminate_from]. assert (Fb : find (fun b => label b =? l) (blocks f) = Some b) by (rewrite <- El; apply find_block; auto). rewrite Fb.
    destruct (eliminate_block t b (m, s)) as [m' s'] eqn:E.
    assert (Ep : pending ((DNode l kids, m) :: todo) = l :: flat_map labels kids ++ pending todo) by reflexivity. rewrite Ep in Nd, Ns.
    inversion Nd as [|zz0 zz1 Nl Nd' Ez]; subst zz0 zz1.
    destruct (block_inv b ls m s m' s' Hb) as (Iv1 & En1 & G1); auto.
    { rewrite El. apply Ns. left. reflexivity. }
    apply (IH _ (label b :: ls) s').
    + rewrite sum_app, queue_size. simpl in Hf. lia.
    + rewrite pending_app, pending_kids. eapply Permutation_NoDup; [apply Permutation_app_comm|exact Nd'].
    + intros l' Hl' [E'|Hin].
      * apply Nl. rewrite <- El, E'. rewrite pending_app, pending_kids in Hl'. apply in_app_or in Hl'. apply in_or_app. tauto.
      * apply (Ns l'); [|exact Hin]. right. rewrite pending_app, pending_kids in Hl'. apply in_app_or in Hl'. apply in_or_app. tauto.
    + exact Iv1.
    + intros d0 m0 Hd. apply in_app_or in Hd. destruct Hd as [Hd|Hd].
      * destruct (Hw d0 m0 (or_intror Hd)) as [Dt0 En0]. split; [exact Dt0|]. intros b0 Hb0 E0 v x Hx. destruct (En0 b0 Hb0 E0 v x Hx) as (A & B & C & D0 & P).
        repeat split; auto.
        -- destruct C as (b1 & Hb1 & L1 & H1). exists b1. simpl. auto.
        -- intros Hg. destruct (G1 x Hg) as [Hg'|Hg']; [contradiction|]. destruct C as (b1 & Hb1 & L1 & H1). rewrite <- (results_apart b b1 x Hb Hb1 Hg' H1) in L1.
           rewrite El in L1. exact (Ns l (or_introl eq_refl) L1).
      * apply in_map_iff in Hd. destruct Hd as (k & Ek & Hin). injection Ek as -> ->. destruct (Hk d0 Hin) as [Dk Dm]. split; [exact Dk|].
        intros b0 Hb0 E0 v x Hx. destruct (En1 v x Hx) as (A & B & C & D0 & P). repeat split; auto. intros R0.
        assert (Lt : later f b (S (length (body b))) b0 0).
        { right. rewrite El, E0. split; [|exact Dm]. intros Eq. apply Nl. rewrite Eq. apply in_or_app. left. apply in_flat_map. exists d0. split; [exact Hin|]. destruct d0. left. reflexivity. }
        apply (later_avail f b _ b0 0 x R0 Lt). apply P. eapply later_reach; eauto.
Qed.
End Replace.
