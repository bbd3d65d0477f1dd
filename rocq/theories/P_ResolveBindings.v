(** C56: conflicting binding numbers are resolved. *)
From Coq Require Import Sorting.Sorted.
From Verif Require Import Base NamedIds NamedIdsProofs LocalElimProofs ResolveBindings ResolveBindingsSpec ResolveBindingsProofs ResolveBindingsProofs2.
Local Open Scope N_scope.

Lemma ss_pair {A} (R Q : A -> A -> Prop) : (forall x, ~ R x x) -> (forall x y z, R x y -> R y z -> R x z) -> forall l x y, StronglySorted R l -> StronglySorted Q l -> In x l -> In y l -> R x y -> Q x y.
Proof.
  intros Ir Tr. induction l as [|z l IH]; intros x y SR SQ Hx Hy H; [destruct Hx|]. apply StronglySorted_inv in SR, SQ. destruct SR as [SR FR], SQ as [SQ FQ]. rewrite Forall_forall in FR, FQ.
  destruct Hx as [->|Hx], Hy as [->|Hy].
  - destruct (Ir _ H).
  - exact (FQ y Hy).
  - destruct (Ir _ (Tr _ _ _ H (FR x Hx))).
  - exact (IH x y SR SQ Hx Hy H).
Qed.
Lemma ss_impl {A} (R Q : A -> A -> Prop) : forall l, (forall x y, In x l -> In y l -> R x y -> Q x y) -> StronglySorted R l -> StronglySorted Q l.
Proof.
  induction l as [|z l IH]; intros H S; [constructor|]. apply StronglySorted_inv in S. destruct S as [S F]. rewrite Forall_forall in F. constructor.
  - apply IH; [|exact S]. intros x y Hx Hy. apply H; right; assumption.
  - apply Forall_forall. intros y Hy. apply H; [left; reflexivity|right; exact Hy|exact (F y Hy)].
Qed.
Section One.
Variables (m : module) (b : bindings).
Hypotheses (V : valid m).
Lemma needs_wanted e v : needs m e v <-> In v (m_vars m) /\ wanted m e v.
Proof using. reflexivity. Qed.
Lemma lists_in u l : In l (lists m u) <-> exists e v, In e (m_entries m) /\ In v (m_vars m) /\ l = u e (v_set v).
Proof using.
  unfold lists. rewrite in_flat_map. split.
  - intros (e & He & H). apply in_map_iff in H. destruct H as (v & <- & Hv). exists e, v. auto.
  - intros (e & v & He & Hv & ->). exists e. split; [exact He|]. apply in_map_iff. exists v. auto.
Qed.
Lemma used_sorted u : (forall e set, In e (m_entries m) -> exactly m b (u e set) set (wanted m e)) -> forall l, In l (lists m u) -> StronglySorted (fun x y => less b x y = true) l /\ incl l (m_vars m).
Proof using.
  intros E l Hl. apply lists_in in Hl. destruct Hl as (e & v & He & Hv & ->). specialize (E e (v_set v) He). split; [exact (proj1 E)|exact (exactly_incl _ _ _ _ _ E)].
Qed.
Lemma increasing_resolved u c : (forall e set, In e (m_entries m) -> exactly m b (u e set) set (wanted m e)) -> (forall l, In l (lists m u) -> increasing c l) ->
  forall v w, together m v w -> before b v w -> c (v_id v) < c (v_id w).
Proof using.
  intros E I v w (Es & e & He & Nv & Nw) Bf. pose proof Nv as [Hv Wv]. pose proof Nw as [Hw Ww]. specialize (E e (v_set v) He). destruct E as [S X].
  specialize (I (u e (v_set v)) (proj2 (lists_in u _) (ex_intro _ e (ex_intro _ v (conj He (conj Hv eq_refl)))))).
  apply (ss_pair _ _ (fun x K => eq_true_false_abs _ K (less_irrefl b x)) (less_trans b) _ v w S I); [apply X; auto|apply X; auto|]. apply less_before. exact Bf.
Qed.
Lemma resolved_increasing u c : (forall e set, In e (m_entries m) -> exactly m b (u e set) set (wanted m e)) -> resolved m b c -> forall l, In l (lists m u) -> increasing c l.
Proof using.
  intros E [Ro _] l Hl. apply lists_in in Hl. destruct Hl as (e & v & He & Hv & ->). specialize (E e (v_set v) He). destruct E as [S X]. refine (ss_impl _ _ _ _ S). intros x y Hx Hy L.
  apply X in Hx, Hy. destruct Hx as (Hx & Ex & Wx), Hy as (Hy & Ey & Wy). apply Ro; [|apply less_before; exact L]. split; [congruence|]. exists e. split; [exact He|]. split; split; assumption.
Qed.
End One.

(** the result resolves the conflicts, with the smallest numbers that do, and nothing but the variables gets another number *)
Theorem resolve_bindings_resolves fuel m b b' : valid m -> room m b -> resolve_bindings fuel b m = Some b' ->
  resolved m b b' /\ (forall c, resolved m b c -> forall v, In v (m_vars m) -> b' (v_id v) <= c (v_id v)) /\
  (forall y, ~ In y (map v_id (m_vars m)) -> b' y = b y) /\ forall v, In v (m_vars m) -> b' (v_id v) < 4294967296.
Proof.
  intros V Ro H. unfold resolve_bindings in H. destruct (all_used_ok m b V) as (u & Eu & E). rewrite Eu in H. pose proof (used_sorted m b u E) as S.
  destruct (settle_ok (m_vars m) b (lists m u) (va_ids _ V) Ro S fuel b b' (inv_start _ _ _ Ro S) H) as (A & B & C & D). split; [|split; [|split; [exact D|]]].
  - constructor; [exact (increasing_resolved m b u b' E B)|]. intros v Hv. apply A, Hv.
  - intros c Rc. apply C; [exact (resolved_increasing m b u c E Rc)|exact (re_grows _ _ _ Rc)].
  - intros v Hv. destruct (A v Hv) as [_ K]. pose proof (rank_bound (m_vars m) b v Hv). pose proof (Ro v Hv). unfold cap in K. lia.
Qed.
(** variables of one set and one entry point have different numbers *)
Theorem resolve_bindings_no_conflict fuel m b b' : valid m -> room m b -> resolve_bindings fuel b m = Some b' ->
  forall v w, together m v w -> v <> w -> b' (v_id v) <> b' (v_id w).
Proof.
  intros V Ro H v w T Ne. destruct (resolve_bindings_resolves fuel m b b' V Ro H) as ([R _] & _). destruct T as (Es & e & He & Nv & Nw).
  assert (Ni : v_id v <> v_id w) by (intros K; apply Ne; exact (same_var (m_vars m) (va_ids _ V) v w (proj1 Nv) (proj1 Nw) K)).
  destruct (less_total b v w Ni) as [L|L]; apply less_before in L.
  - pose proof (R v w (conj Es (ex_intro _ e (conj He (conj Nv Nw)))) L). lia.
  - pose proof (R w v (conj (eq_sym Es) (ex_intro _ e (conj He (conj Nw Nv)))) L). lia.
Qed.
(** and where there was no conflict nothing changes *)
Theorem resolve_bindings_keeps fuel m b b' : valid m -> room m b -> resolve_bindings fuel b m = Some b' ->
  (forall v w, together m v w -> v <> w -> b (v_id v) <> b (v_id w)) -> forall y, b' y = b y.
Proof.
  intros V Ro H No y. destruct (resolve_bindings_resolves fuel m b b' V Ro H) as ([_ G] & L & O & _). destruct (in_dec N.eq_dec y (map v_id (m_vars m))) as [I|I]; [|exact (O y I)].
  apply in_map_iff in I. destruct I as (v & <- & Hv). assert (K : resolved m b b).
  { constructor; [|intros; apply N.le_refl]. intros x z T B. destruct (N.eq_dec (v_id x) (v_id z)) as [E|E].
    - apply less_before in B. assert (x = z) as -> by (destruct T as (_ & e & _ & [Hx _] & [Hz _]); exact (same_var (m_vars m) (va_ids _ V) x z Hx Hz E)). rewrite less_irrefl in B. discriminate.
    - assert (Ne : x <> z) by congruence. specialize (No x z T Ne). destruct B as [B|(B & _)]; [exact B|contradiction]. }
  specialize (L b K v Hv). specialize (G v Hv). lia.
Qed.
(** the loop comes to an end *)
Theorem resolve_bindings_returns_partial m b : valid m -> room m b -> exists n, forall fuel, (n <= fuel)%nat -> exists b', resolve_bindings fuel b m = Some b'.
Proof.
  intros V Ro. unfold resolve_bindings. destruct (all_used_ok m b V) as (u & Eu & E). rewrite Eu. pose proof (used_sorted m b u E) as S. eexists. intros fuel L.
  apply (settle_ends (m_vars m) b (lists m u) (va_ids _ V) Ro S); [exact (inv_start _ _ _ Ro S)|]. exact L.
Qed.

(** ** The full claim: without room the loop does not end.  Two variables with the largest number: the second gets 0, again and again. *)
Module Endless.
Definition m : module := {| m_vars := [{| v_id := 1; v_set := 0; v_type := 25 |}; {| v_id := 2; v_set := 0; v_type := SAMPLER |}]; m_functions := [10]; m_calls := fun _ => []; m_uses := fun _ _ => true; m_entries := [10] |}.
Definition b : bindings := fun _ => 4294967295.
End Endless.
Theorem resolve_bindings_returns_refuted :
  exists m b, valid m /\ (forall v, In v (m_vars m) -> b (v_id v) < 4294967296) /\ forall fuel, resolve_bindings fuel b m = None.
Proof.
  exists Endless.m, Endless.b. split; [|split].
  - constructor; [|intros x H; exact H|intros f _ x []|exists (fun _ => O); intros f g []]. cbn. repeat constructor; cbn; intuition lia.
  - intros v _. unfold Endless.b. lia.
  - intros fuel. unfold resolve_bindings. replace (all_used Endless.b Endless.m) with (Some (fold_left (add_callees Endless.b Endless.m) [10] (own_vars Endless.b Endless.m))) by reflexivity.
    remember (lists Endless.m (fold_left (add_callees Endless.b Endless.m) [10] (own_vars Endless.b Endless.m))) as ls eqn:El. vm_compute in El. rewrite El. clear El ls.
    assert (forall fuel b, b 1 = 4294967295 -> b 2 <= 4294967295 -> settle fuel b [[{| v_id := 1; v_set := 0; v_type := 25 |}; {| v_id := 2; v_set := 0; v_type := 26 |}]; [{| v_id := 1; v_set := 0; v_type := 25 |}; {| v_id := 2; v_set := 0; v_type := 26 |}]] = None) as K; [|apply K; [reflexivity|unfold Endless.b; lia]].
    clear fuel. induction fuel as [|n IH]; intros b B1 B2; [reflexivity|]. cbn [settle]. unfold resolve_all. cbn [fold_left resolve resolve_after fst snd v_id]. rewrite B1. destruct (N.leb_spec (b 2) 4294967295) as [_|L]; [|lia]. cbn [resolve_after fst snd orb].
    replace ((4294967295 + 1) mod 4294967296) with 0 by reflexivity. unfold upd at 1 2. cbn [N.eqb Pos.eqb]. rewrite B1. cbn [N.leb N.compare resolve_after fst snd orb]. apply IH; unfold upd; cbn [N.eqb Pos.eqb]; [exact B1|cbn; lia].
Qed.

(** ** A module with two entry points: an image, its sampler with the same number, and a buffer used by a called function *)
Module Two.
Definition image : var := {| v_id := 1; v_set := 0; v_type := 25 |}.
Definition sampler : var := {| v_id := 2; v_set := 0; v_type := SAMPLER |}.
Definition buffer : var := {| v_id := 3; v_set := 0; v_type := 30 |}.
Definition other : var := {| v_id := 4; v_set := 1; v_type := 30 |}.
Definition m : module := {| m_vars := [sampler; image; buffer; other]; m_functions := [10; 11; 12];
  m_calls := fun f => if f =? 10 then [12] else []; m_uses := fun f x => ((f =? 10) && ((x =? 1) || (x =? 4))) || ((f =? 12) && (x =? 2)) || ((f =? 11) && ((x =? 2) || (x =? 3))); m_entries := [10; 11] |}.
(** image, sampler: 0; buffer: 1; the variable of the other set: 0 *)
Definition b : bindings := fun x => if x =? 3 then 1 else 0.
Lemma is_valid : valid m.
Proof.
  constructor.
  - cbn. repeat constructor; cbn; intuition lia.
  - intros x [<-|[<-|[]]]; cbn; auto.
  - intros f _ x. cbn [m m_calls]. destruct (f =? 10); [intros [<-|[]]; cbn; auto|intros []].
  - exists (fun f => if f =? 10 then 1%nat else O). intros f g. cbn [m m_calls]. destruct (f =? 10); [intros [<-|[]]; cbn; lia|intros []].
Qed.
Lemma has_room : room m b.
Proof. intros v _. unfold b. cbn [m m_vars length]. destruct (v_id v =? 3); lia. Qed.
(** the sampler moves behind its image, and so the buffer behind the sampler, through the other entry point *)
Example works : option_map (fun c => (c 1, c 2, c 3, c 4)) (resolve_bindings 5 b m) = Some (0, 1, 2, 0).
Proof. vm_compute. reflexivity. Qed.
Example in_conflict : together m image sampler /\ b 1 = b 2.
Proof.
  split; [|reflexivity]. split; [reflexivity|]. exists 10. split; [cbn; auto|]. split; split; [cbn; auto|exists 10; split; [constructor|reflexivity]|cbn; auto|exists 12; split; [apply (R_call _ _ 12); [cbn; auto|constructor]|reflexivity]].
Qed.
Example applies : forall b', resolve_bindings 5 b m = Some b' -> resolved m b b'.
Proof. intros b' H. exact (proj1 (resolve_bindings_resolves 5 m b b' is_valid has_room H)). Qed.
Example not_kept : exists v w, together m v w /\ v <> w /\ b (v_id v) = b (v_id w).
Proof. exists image, sampler. split; [exact (proj1 in_conflict)|]. split; [discriminate|reflexivity]. Qed.
(** no conflict: nothing to do *)
Example kept : option_map (fun c => (c 1, c 2, c 3, c 4)) (resolve_bindings 1 (fun x => 7 * x) m) = Some (7, 14, 21, 28).
Proof. vm_compute. reflexivity. Qed.
End Two.

Print Assumptions resolve_bindings_resolves.
Print Assumptions resolve_bindings_no_conflict.
Print Assumptions resolve_bindings_keeps.
Print Assumptions resolve_bindings_returns_partial.
Print Assumptions resolve_bindings_returns_refuted.
