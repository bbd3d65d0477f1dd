(** Removing unused constants: proofs. *)
From Verif Require Import Base NamedIds NamedIdsProofs LocalElimProofs DeadConst DeadConstSpec.
Local Open Scope N_scope.

Lemma occ_cons x y l : occ x (y :: l) = if x =? y then S (occ x l) else occ x l.
Proof. unfold occ. cbn [filter]. destruct (x =? y); reflexivity. Qed.
Lemma occ_in x l : In x l <-> occ x l <> O.
Proof.
  induction l as [|y l IH]; [split; [intros []|intros K; elim K; reflexivity]|]. rewrite occ_cons. cbn [In]. destruct (N.eqb_spec x y) as [->|Ne]; [split; [discriminate|auto]|]. rewrite <- IH. split; [intros [E|H]; [congruence|exact H]|auto].
Qed.
Definition nz (l : list inst) : list N := filter (fun x => negb (x =? 0)) (map res l).
Lemma nz_in l i : In i l -> res i <> 0 -> In (res i) (nz l).
Proof. intros Hi Ne. apply filter_In. split; [apply in_map, Hi|]. apply negb_true_iff, N.eqb_neq, Ne. Qed.
Lemma nz_cons i l : nz (i :: l) = if res i =? 0 then nz l else res i :: nz l.
Proof. unfold nz. cbn [map filter]. destruct (res i =? 0); reflexivity. Qed.
Lemma res_unique : forall l i j, NoDup (nz l) -> In i l -> In j l -> res i = res j -> res i <> 0 -> i = j.
Proof.
  induction l as [|k l IH]; intros i j D Hi Hj E Ne; [destruct Hi|]. rewrite nz_cons in D. destruct (N.eqb_spec (res k) 0) as [Z|Z].
  - destruct Hi as [->|Hi]; [contradiction|]. destruct Hj as [->|Hj]; [congruence|]. auto.
  - apply NoDup_cons_iff in D. destruct D as [Nk D]. destruct Hi as [->|Hi], Hj as [->|Hj]; [reflexivity| | |auto].
    + destruct Nk. rewrite E. apply nz_in; [exact Hj|congruence].
    + destruct Nk. rewrite <- E. apply nz_in; assumption.
Qed.
(** the uses that are left once the constants of [dead] are gone *)
Definition term (dead : list N) (x : N) (i : inst) : nat := if counts (knd i) && negb (followed (knd i) && mem (res i) dead) then occ x (ids i) else O.
Definition left_ (l : list inst) (dead : list N) (x : N) : nat := fold_right (fun i n => (term dead x i + n)%nat) O l.
Lemma left_start l x : count_uses l x = left_ l [] x.
Proof. induction l as [|i l IH]; [reflexivity|]. cbn [count_uses left_ fold_right]. unfold count_uses in IH. rewrite IH. unfold left_, term. cbn [mem]. rewrite andb_false_r. cbn [negb]. rewrite andb_true_r. reflexivity. Qed.
Lemma left_ext x dead y : forall l, (forall j, In j l -> followed (knd j) = true -> res j <> x) -> left_ l (x :: dead) y = left_ l dead y.
Proof.
  induction l as [|j l IH]; intros H; [reflexivity|]. cbn [left_ fold_right]. unfold left_ in IH. rewrite IH by (intros k Hk; apply H; right; exact Hk). f_equal. unfold term. destruct (followed (knd j)) eqn:F; [|reflexivity].
  specialize (H j (or_introl eq_refl) F). replace (mem (res j) (x :: dead)) with (mem (res j) dead); [reflexivity|]. apply eq_true_iff_eq. rewrite !mem_In. cbn [In]. intuition congruence.
Qed.
Lemma followed_constant k : followed k = true -> is_constant k = true /\ counts k = true.
Proof. destruct k; cbn; auto; discriminate. Qed.
Lemma left_step i dead y : forall l, NoDup (nz l) -> In i l -> res i <> 0 -> followed (knd i) = true -> ~ In (res i) dead -> left_ l dead y = (left_ l (res i :: dead) y + occ y (ids i))%nat.
Proof.
  induction l as [|j l IH]; intros D Hi Ne F Nd; [destruct Hi|]. cbn [left_ fold_right]. destruct (N.eq_dec (res j) (res i)) as [E|E].
  - assert (j = i) as -> by (apply (res_unique (j :: l)); [exact D|left; reflexivity|exact Hi|exact E|congruence]). rewrite nz_cons in D. destruct (N.eqb_spec (res i) 0) as [|_]; [contradiction|]. apply NoDup_cons_iff in D. destruct D as [Ni D].
    pose proof (left_ext (res i) dead y l) as X. unfold left_ in X. rewrite X; [|intros k Hk _ Ek; apply Ni; rewrite <- Ek; apply nz_in; [exact Hk|congruence]]. unfold term. destruct (followed_constant _ F) as [_ C]. rewrite C, F. cbn [andb].
    replace (mem (res i) dead) with false by (symmetry; destruct (mem (res i) dead) eqn:M; [apply mem_In in M; contradiction|reflexivity]). replace (mem (res i) (res i :: dead)) with true by (symmetry; apply mem_In; left; reflexivity). cbn [negb]. lia.
  - destruct Hi as [->|Hi]; [contradiction|]. assert (D' : NoDup (nz l)) by (rewrite nz_cons in D; destruct (res j =? 0); [exact D|apply NoDup_cons_iff in D; tauto]). specialize (IH D' Hi Ne F Nd). unfold left_ in IH. rewrite IH.
    assert (Et : term (res i :: dead) y j = term dead y j). { pose proof (left_ext (res i) dead y [j]) as X. cbn [left_ fold_right] in X. assert (K : forall k, In k [j] -> followed (knd k) = true -> res k <> res i) by (intros k [<-|[]] _; exact E). specialize (X K). lia. } rewrite Et. lia.
Qed.
Lemma left_zero l dead y : left_ l dead y = O <-> forall i, In i l -> counts (knd i) = true -> (followed (knd i) = true /\ In (res i) dead) \/ ~ In y (ids i).
Proof.
  induction l as [|j l IH]; cbn [left_ fold_right]; [split; [intros _ i []|reflexivity]|]. unfold left_ in IH.
  assert (T : term dead y j = O <-> (counts (knd j) = true -> (followed (knd j) = true /\ In (res j) dead) \/ ~ In y (ids j))).
  { unfold term. destruct (counts (knd j)); cbn [andb]; [|split; [intros _ K; discriminate|reflexivity]]. destruct (followed (knd j) && mem (res j) dead) eqn:F; cbn [negb].
    - split; [|reflexivity]. intros _ _. left. apply andb_true_iff in F. destruct F as [F M]. split; [exact F|apply mem_In, M].
    - assert (NF : ~ (followed (knd j) = true /\ In (res j) dead)) by (intros [F1 F2]; apply mem_In in F2; rewrite F1, F2 in F; discriminate). rewrite (occ_in y (ids j)). split; [intros Z _; right; intros K; exact (K Z)|].
      intros H. destruct (H eq_refl) as [K|K]; [contradiction|]. destruct (occ y (ids j)); [reflexivity|]. elim K. discriminate. }
  split.
  - intros H i [<-|Hi]; [apply T; lia|apply IH; [lia|exact Hi]].
  - intros H. assert (A : term dead y j = O) by (apply T; exact (H j (or_introl eq_refl))). assert (B : fold_right (fun i n => (term dead y i + n)%nat) O l = O) by (apply IH; intros i Hi; exact (H i (or_intror Hi))). lia.
Qed.

Section Search.
Variables (pick : list N -> N) (m : list inst).
Hypothesis P : picks pick.
Hypothesis V : valid m.
Lemma const_iff x : is_const m x = true <-> exists i, In i m /\ is_constant (knd i) = true /\ res i = x.
Proof using.
  unfold is_const, constants. rewrite mem_In, in_map_iff. split.
  - intros (i & E & Hi). apply filter_In in Hi. exists i. tauto.
  - intros (i & Hi & C & E). exists i. split; [exact E|]. apply filter_In. tauto.
Qed.
Lemma definition_ok i : In i m -> is_constant (knd i) = true -> definition m (res i) = Some i.
Proof using V.
  intros Hi C. unfold definition. destruct (find (fun j => res j =? res i) m) as [j|] eqn:E.
  - apply find_some in E. destruct E as [Hj E]. apply N.eqb_eq in E. f_equal. symmetry. apply (res_unique m); [exact (va_results _ V)|exact Hi|exact Hj|congruence|exact (va_constants _ V i Hi C)].
  - pose proof (find_none _ _ E i Hi) as K. cbn in K. rewrite N.eqb_refl in K. discriminate.
Qed.
Lemma operands_ok : forall l cnt work, (forall y, is_const m y = true -> (occ y l <= cnt y)%nat) -> NoDup work ->
  exists cnt' work', fold_left (operand m) l (Some (cnt, work)) = Some (cnt', work') /\ (forall y, is_const m y = true -> cnt y = (cnt' y + occ y l)%nat) /\ NoDup work' /\
    forall y, In y work' <-> In y work \/ (is_const m y = true /\ cnt y <> O /\ cnt' y = O).
Proof using.
  induction l as [|y l IH]; intros cnt work H D; cbn [fold_left].
  - exists cnt, work. split; [reflexivity|]. split; [intros y _; unfold occ; cbn; lia|]. split; [exact D|]. intros y. split; [auto|]. intros [K|(_ & K1 & K2)]; [exact K|contradiction].
  - unfold operand at 2. destruct (is_const m y) eqn:C; cbn [negb].
    + pose proof (H y C) as Hy. rewrite occ_cons, N.eqb_refl in Hy. destruct (cnt y) as [|n] eqn:Ey; [lia|]. set (cnt1 := fun z => if z =? y then n else cnt z). set (work1 := if Nat.eqb n 0 then (if mem y work then work else work ++ [y]) else work).
      assert (C1 : cnt1 y = n) by (unfold cnt1; rewrite N.eqb_refl; reflexivity). assert (C2 : forall z, z <> y -> cnt1 z = cnt z) by (intros z Nz; unfold cnt1; destruct (N.eqb_spec z y); [contradiction|reflexivity]).
      assert (W : NoDup work1 /\ forall z, In z work1 <-> In z work \/ (z = y /\ n = O)).
      { unfold work1. destruct (Nat.eqb_spec n 0) as [Z|Z]; [|split; [exact D|intros z; tauto]]. destruct (mem y work) eqn:M.
        - apply mem_In in M. split; [exact D|]. intros z. split; [auto|]. intros [K|[-> _]]; assumption.
        - assert (Ny : ~ In y work) by (intros K; apply mem_In in K; congruence). split.
          + pose proof (Add_app y work []) as Q. rewrite app_nil_r in Q. apply (NoDup_Add Q). split; assumption.
          + intros z. rewrite in_app_iff. cbn [In]. intuition congruence. }
      destruct W as [D1 W]. destruct (IH cnt1 work1) as (cnt' & work' & E & A & D' & B); [|exact D1|].
      * intros z Cz. specialize (H z Cz). rewrite occ_cons in H. destruct (N.eqb_spec z y) as [Ez|Nz]; [rewrite Ez in *; rewrite C1; lia|rewrite (C2 z Nz); exact H].
      * exists cnt', work'. split; [exact E|]. split; [|split; [exact D'|]].
        -- intros z Cz. rewrite occ_cons. pose proof (A z Cz) as Az. destruct (N.eqb_spec z y) as [Ez|Nz]; [rewrite Ez in *; rewrite C1 in Az; lia|rewrite (C2 z Nz) in Az; exact Az].
        -- intros z. rewrite B, W. pose proof (A y C) as Ay. rewrite C1 in Ay. split.
           ++ intros [[K|[Ez En]]|(K1 & K2 & K3)]; [auto|right; rewrite Ez; split; [exact C|split; lia]|]. destruct (N.eq_dec z y) as [Ez|Nz]; [rewrite Ez in *; right; split; [exact K1|split; [lia|exact K3]]|rewrite (C2 z Nz) in K2; auto].
           ++ intros [K|(K1 & K2 & K3)]; [auto|]. destruct (N.eq_dec z y) as [Ez|Nz]; [rewrite Ez in *|right; split; [exact K1|]; split; [rewrite (C2 z Nz); exact K2|exact K3]]. destruct (Nat.eq_dec n 0) as [Zn|Zn]; [auto|]. right. split; [exact K1|]. split; [rewrite C1; exact Zn|exact K3].
    + destruct (IH cnt work) as (cnt' & work' & E & A & D' & B); [|exact D|].
      * intros z Cz. specialize (H z Cz). rewrite occ_cons in H. destruct (N.eqb_spec z y) as [Ez|Nz]; [congruence|exact H].
      * exists cnt', work'. split; [exact E|]. split; [|split; [exact D'|exact B]]. intros z Cz. rewrite occ_cons. destruct (N.eqb_spec z y) as [Ez|Nz]; [congruence|exact (A z Cz)].
Qed.
Record running (cnt : N -> nat) (work dead : list N) : Prop := {
  ru_cnt : forall y, is_const m y = true -> cnt y = left_ m dead y;
  ru_work : NoDup work;
  ru_dead : NoDup dead;
  ru_apart : forall y, In y work -> ~ In y dead;
  ru_zero : forall y, In y work \/ In y dead <-> is_const m y = true /\ cnt y = O }.
Lemma search_ok : forall fuel cnt work dead, running cnt work dead -> (length (constants m) <= length dead + fuel)%nat ->
  exists d, search pick m fuel cnt work dead = Some d /\ NoDup d /\ forall y, In y d <-> is_const m y = true /\ left_ m d y = O.
Proof using P V.
  induction fuel as [|n IH]; intros cnt work dead [R1 R2 R3 R4 R5] L.
  - destruct work as [|w work].
    + exists dead. split; [reflexivity|]. split; [exact R3|]. intros y. specialize (R5 y). cbn [In] in R5. split; [intros H; destruct (proj1 R5 (or_intror H)) as [C Z]; split; [exact C|rewrite <- (R1 y C); exact Z]|]. intros [C Z]. rewrite <- (R1 y C) in Z. destruct (proj2 R5 (conj C Z)) as [[]|K]; exact K.
    + exfalso. assert (K : (length (w :: dead) <= length (constants m))%nat). { apply NoDup_incl_length; [constructor; [apply R4; left; reflexivity|exact R3]|]. intros z Hz. assert (Cz : is_const m z = true) by (apply (R5 z); destruct Hz as [<-|Hz]; [left; left; reflexivity|right; exact Hz]). apply mem_In, Cz. } cbn [length] in K. lia.
  - destruct work as [|w0 work0] eqn:Ew.
    + exists dead. split; [reflexivity|]. split; [exact R3|]. intros y. specialize (R5 y). cbn [In] in R5. split; [intros H; destruct (proj1 R5 (or_intror H)) as [C Z]; split; [exact C|rewrite <- (R1 y C); exact Z]|]. intros [C Z]. rewrite <- (R1 y C) in Z. destruct (proj2 R5 (conj C Z)) as [[]|K]; exact K.
    + cbn [search]. rewrite <- Ew in *. assert (Hx : In (pick work) work) by (apply P; rewrite Ew; discriminate). set (x := pick work) in *. clearbody x.
      destruct (proj1 (R5 x) (or_introl Hx)) as [Cx Zx]. destruct (proj1 (const_iff x) Cx) as (i & Hi & Ci & Ei). rewrite <- Ei, (definition_ok i Hi Ci), Ei. pose proof (va_constants _ V i Hi Ci) as Nx.
      set (todo := if followed (knd i) then ids i else []). assert (St : forall y, left_ m dead y = (left_ m (x :: dead) y + occ y todo)%nat).
      { intros y. unfold todo. destruct (followed (knd i)) eqn:F; [rewrite <- Ei; apply left_step; auto; [exact (va_results _ V)|rewrite Ei; exact (R4 x Hx)]|]. rewrite left_ext; [unfold occ; cbn; lia|]. intros j Hj Fj Ej.
        assert (j = i) as -> by (apply (res_unique m); [exact (va_results _ V)|exact Hj|exact Hi|congruence|congruence]). congruence. }
      destruct (operands_ok todo cnt work) as (cnt' & work' & E & A & D' & B); [intros y Cy; rewrite (R1 y Cy), St; lia|exact R2|]. rewrite E. apply IH; [|cbn [length]; lia].
      constructor.
      * intros y Cy. pose proof (A y Cy) as Ay. rewrite (R1 y Cy), St in Ay. lia.
      * apply NoDup_filter, D'.
      * constructor; [exact (R4 x Hx)|exact R3].
      * intros y Hy K. apply filter_In in Hy. destruct Hy as [Hy Ny]. apply negb_true_iff, N.eqb_neq in Ny. destruct K as [K|K]; [congruence|]. apply B in Hy. destruct Hy as [Hy|(_ & Hy & _)]; [exact (R4 y Hy K)|]. apply Hy. apply (R5 y). auto.
      * intros y. rewrite filter_In, negb_true_iff, N.eqb_neq, B. cbn [In]. split.
        -- intros H. assert (G : (In y work \/ In y dead) \/ (is_const m y = true /\ cnt y <> O /\ cnt' y = O)) by (destruct H as [[[H|H] _]|[<-|H]]; auto). destruct G as [G|(G1 & _ & G2)]; [|auto]. apply R5 in G. destruct G as [C Z]. split; [exact C|]. pose proof (A y C). lia.
        -- intros [C Z]. destruct (N.eq_dec y x) as [->|Nyx]; [auto|]. destruct (cnt y) as [|k] eqn:Ek; [destruct (proj2 (R5 y) (conj C Ek)) as [K|K]; auto|]. left. split; [|exact Nyx]. right. split; [exact C|]. split; [lia|exact Z].
Qed.
Lemma constants_nodup : NoDup (constants m).
Proof using V.
  assert (K : forall l, NoDup (nz l) -> (forall i, In i l -> is_constant (knd i) = true -> res i <> 0) -> NoDup (constants l)); [|exact (K m (va_results _ V) (va_constants _ V))].
  induction l as [|i l IH]; intros D H; [constructor|]. assert (D' : NoDup (nz l)) by (rewrite nz_cons in D; destruct (res i =? 0); [exact D|apply NoDup_cons_iff in D; tauto]). specialize (IH D' (fun j Hj => H j (or_intror Hj))).
  unfold constants in *. cbn [filter]. destruct (is_constant (knd i)) eqn:C; [|exact IH]. cbn [map]. constructor; [|exact IH]. intros K. apply in_map_iff in K. destruct K as (j & E & Hj). apply filter_In in Hj. destruct Hj as [Hj _].
  pose proof (H i (or_introl eq_refl) C) as Ne. rewrite nz_cons in D. destruct (N.eqb_spec (res i) 0); [contradiction|]. apply NoDup_cons_iff in D. apply (proj1 D). rewrite <- E. apply nz_in; [exact Hj|congruence].
Qed.
Lemma dead_ok : exists d, dead_constants pick m = Some d /\ NoDup d /\ forall y, In y d <-> is_const m y = true /\ left_ m d y = O.
Proof using P V.
  unfold dead_constants. apply search_ok; [|cbn [length]; lia]. constructor.
  - intros y _. apply left_start.
  - apply NoDup_filter, constants_nodup.
  - constructor.
  - intros y _ [].
  - intros y. rewrite filter_In. unfold is_const. rewrite mem_In, Nat.eqb_eq. cbn [In]. tauto.
Qed.
Lemma dead_unneeded d : (forall y, In y d <-> is_const m y = true /\ left_ m d y = O) -> forall y, needed m y -> ~ In y d.
Proof using V.
  intros Hd y Ny. induction Ny as [y i Hi K U|y i Hi C _ IH U]; intros H; apply Hd in H; destruct H as [Cy Z]; rewrite left_zero in Z.
  - destruct (Z i Hi) as [[F _]|Nu]; [rewrite K; reflexivity|rewrite K in F; discriminate|exact (Nu U)].
  - destruct (Z i Hi) as [[_ D]|Nu]; [destruct (knd i); try discriminate; reflexivity|exact (IH D)|exact (Nu U)].
Qed.
Lemma unneeded_dead d : plain m -> (forall y, In y d <-> is_const m y = true /\ left_ m d y = O) -> forall y, is_const m y = true -> ~ needed m y -> In y d.
Proof using V.
  intros Pl Hd. destruct (va_order _ V) as (height & Ho). assert (G : forall n y, (height y < n)%nat -> is_const m y = true -> ~ needed m y -> In y d); [|intros y; exact (G (S (height y)) y (Nat.lt_succ_diag_r _))].
  induction n as [|n IH]; intros y L Cy Ny; [lia|]. apply Hd. split; [exact Cy|]. apply left_zero. intros i Hi Ct. destruct (in_dec N.eq_dec y (ids i)) as [U|U]; [|right; exact U]. left.
  destruct (is_constant (knd i)) eqn:C.
  - assert (F : followed (knd i) = true). { destruct (knd i) eqn:Ek; try discriminate; try reflexivity. destruct (proj1 (const_iff y) Cy) as (c & Hc & Cc & Ec). destruct (Pl i y Hi Ek U c Hc Cc Ec). }
    split; [exact F|]. apply IH; [pose proof (Ho i y Hi C U); lia|apply const_iff; exists i; auto|]. intros K. apply Ny. exact (Needed_part m y i Hi C K U).
  - destruct Ny. apply (Needed_used m y i Hi); [|exact U]. destruct (knd i); cbn in C, Ct; try discriminate; reflexivity.
Qed.
End Search.
Lemma kill_in : forall d m i, In i (fold_left kill d m) <-> In i m /\ forall x, In x d -> goes x i = false.
Proof.
  induction d as [|x d IH]; intros m i; cbn [fold_left]; [split; [intros H; split; [exact H|intros z []]|tauto]|]. rewrite IH. unfold kill. rewrite filter_In, negb_true_iff. split.
  - intros [[H G] A]. split; [exact H|]. intros z [<-|Hz]; auto.
  - intros [H A]. split; [split; [exact H|apply A; left; reflexivity]|]. intros z Hz. apply A. right. exact Hz.
Qed.
Lemma kill_filter : forall d m, fold_left kill d m = filter (fun i => forallb (fun x => negb (goes x i)) d) m.
Proof.
  induction d as [|x d IH]; intros m; cbn [fold_left forallb]; [induction m as [|i m IHm]; cbn [filter]; congruence|]. rewrite (IH (kill m x)). unfold kill.
  induction m as [|i m IHm]; [reflexivity|]. cbn [filter]. destruct (goes x i); cbn [negb andb filter]; [exact IHm|]. destruct (forallb (fun x0 => negb (goes x0 i)) d); rewrite IHm; reflexivity.
Qed.
(** the constants that are found do not depend on the order *)
Lemma dead_unique m d1 d2 : valid m -> (forall y, In y d1 <-> is_const m y = true /\ left_ m d1 y = O) -> (forall y, In y d2 <-> is_const m y = true /\ left_ m d2 y = O) -> forall y, In y d1 <-> In y d2.
Proof.
  intros V H1 H2. destruct (va_order _ V) as (height & Ho). assert (G : forall n y, (height y < n)%nat -> (In y d1 <-> In y d2)); [|intros y; exact (G (S (height y)) y (Nat.lt_succ_diag_r _))].
  induction n as [|n IH]; intros y L; [lia|]. rewrite H1, H2, !left_zero. split; intros [C Z]; (split; [exact C|]); intros i Hi Ct; (destruct (in_dec N.eq_dec y (ids i)) as [U|U]; [|right; exact U]); (destruct (Z i Hi Ct) as [[F D]|Nu]; [|contradiction]); left; (split; [exact F|]);
  (apply IH; [pose proof (Ho i y Hi (proj1 (followed_constant _ F)) U); lia|exact D]).
Qed.
