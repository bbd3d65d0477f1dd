From Verif Require Import Base Lcs LcsSpec.
Local Open Scope nat_scope.

Section P.
Context {A : Type}.
Variable mt : A -> A -> bool.

(** The recurrence of the comment at lcs.h:127-131. *)
Fixpoint L (s : list A) : list A -> nat :=
  match s with
  | [] => fun _ => 0
  | x :: s' =>
      fix L2 (d : list A) : nat :=
        match d with
        | [] => 0
        | y :: d' => if mt x y then S (L s' d') else Nat.max (L s' d) (L2 d')
        end
  end.
Lemma L_nil_r s : L s [] = 0.
Proof. destruct s; auto. Qed.
Lemma L_cons x s y d : L (x :: s) (y :: d) = if mt x y then S (L s d) else Nat.max (L s (y :: d)) (L (x :: s) d).
Proof. reflexivity. Qed.

Definition common (k : nat) (s d : list A) : Prop :=
  exists xs ys, subsequence xs s /\ subsequence ys d /\ Forall2 (fun a b => mt a b = true) xs ys /\ length xs = k.

Lemma common_nil_l k d : common k [] d -> k = 0.
Proof. intros [xs [ys [H [_ [_ E]]]]]. inversion H; subst; auto. Qed.
Lemma common_nil_r k s : common k s [] -> k = 0.
Proof. intros [xs [ys [_ [H [F E]]]]]. inversion H; subst. inversion F; subst; auto. Qed.
Lemma sub_tail (x : A) xs l : subsequence (x :: xs) l -> subsequence xs l.
Proof.
  intros H. remember (x :: xs) as z. revert x xs Heqz. induction H; intros x' xs' E; try discriminate.
  - apply sub_skip. eapply IHsubsequence; eauto.
  - injection E as <- <-. apply sub_skip; auto.
Qed.
Lemma sub_inv (x : A) xs y l : subsequence (x :: xs) (y :: l) -> subsequence (x :: xs) l \/ (x = y /\ subsequence xs l).
Proof. intros H. inversion H; subst; auto. Qed.

(** Dropping the first elements of both sequences loses at most one pair. *)
Lemma common_both k x s y d : common k (x :: s) (y :: d) -> common (k - 1) s d.
Proof.
  intros [xs [ys [H1 [H2 [F E]]]]]. destruct F as [|a b xs ys M F].
  - simpl in E. subst k. exists [], []. repeat split; auto.
    + inversion H1; auto.
    + inversion H2; auto.
  - simpl in E. subst k. simpl. rewrite Nat.sub_0_r. exists xs, ys. repeat split; auto.
    + apply sub_inv in H1. destruct H1 as [H1|[_ H1]]; auto. eapply sub_tail; eauto.
    + apply sub_inv in H2. destruct H2 as [H2|[_ H2]]; auto. eapply sub_tail; eauto.
Qed.
Lemma common_mismatch k x s y d : mt x y = false -> common k (x :: s) (y :: d) ->
  common k s (y :: d) \/ common k (x :: s) d.
Proof.
  intros M [xs [ys [H1 [H2 [F E]]]]]. destruct F as [|a b xs ys Mab F].
  - left. exists [], []. repeat split; auto. inversion H1; auto.
  - apply sub_inv in H1. destruct H1 as [H1|[-> H1]].
    + left. exists (a :: xs), (b :: ys). repeat split; auto.
    + apply sub_inv in H2. destruct H2 as [H2|[-> H2]].
      * right. exists (x :: xs), (b :: ys). repeat split; auto. apply sub_take; auto.
      * congruence.
Qed.

Lemma L_optimal : forall s d k, common k s d -> k <= L s d.
Proof.
  induction s as [|x s IHs]; intros d k H.
  - apply common_nil_l in H. lia.
  - induction d as [|y d IHd].
    + apply common_nil_r in H. lia.
    + rewrite L_cons. destruct (mt x y) eqn:M.
      * apply common_both in H. apply IHs in H. lia.
      * apply common_mismatch in H; auto. destruct H as [H|H]; [apply IHs in H|apply IHd in H]; lia.
Qed.
Lemma L_le : forall s d, L s d <= length s /\ L s d <= length d.
Proof.
  induction s as [|x s IHs]; intros d.
  - simpl. lia.
  - induction d as [|y d IHd]; [simpl; lia|]. rewrite L_cons. destruct (mt x y).
    + specialize (IHs d). simpl. lia.
    + specialize (IHs (y :: d)). cbn [length] in *. lia.
Qed.

(** The table. *)
Variables (src dst : list A).
Let n := length src.
Let m := length dst.

Definition Lat (k : index) : nat := L (skipn (fst k) src) (skipn (snd k) dst).

Record inv (t : table) : Prop := {
  inv_nodup : NoDup (map fst t);
  inv_in : forall k, In k (map fst t) -> in_bound n m k = true;
  inv_len : forall k l b, entry_at t k = Some (l, b) -> l = N.of_nat (Lat k);
  inv_match : forall k l b x y, entry_at t k = Some (l, b) -> nth_error src (fst k) = Some x ->
    nth_error dst (snd k) = Some y -> b = mt x y;
  inv_closed_t : forall k l, entry_at t k = Some (l, true) ->
    calculated_or_out n m t (fst k + 1, snd k + 1) = true;
  inv_closed_f : forall k l, entry_at t k = Some (l, false) ->
    calculated_or_out n m t (fst k + 1, snd k) = true /\ calculated_or_out n m t (fst k, snd k + 1) = true }.

Lemma index_eqb_eq a b : index_eqb a b = true <-> a = b.
Proof.
  destruct a as [a1 a2], b as [b1 b2]. unfold index_eqb; simpl. rewrite andb_true_iff, !Nat.eqb_eq.
  split; [intros [-> ->]|intros [= -> ->]]; auto.
Qed.
Lemma entry_in t k e : entry_at t k = Some e -> In k (map fst t).
Proof.
  induction t as [|[k' e'] t IH]; simpl; [discriminate|]. destruct (index_eqb k' k) eqn:Q.
  - apply index_eqb_eq in Q. auto.
  - auto.
Qed.
Lemma calc_iff t k : is_calculated t k = true <-> In k (map fst t).
Proof.
  unfold is_calculated. split.
  - destruct (entry_at t k) eqn:E; [|discriminate]. intros _. eapply entry_in; eauto.
  - induction t as [|[k' e'] t IH]; simpl; [intros []|]. destruct (index_eqb k' k) eqn:Q; auto.
    intros [->|H]; auto. assert (index_eqb k k = true) by (apply index_eqb_eq; auto). congruence.
Qed.
Lemma table_bound t : inv t -> length t <= n * m.
Proof.
  intros I. rewrite <- (map_length fst).
  transitivity (length (list_prod (seq 0 n) (seq 0 m))).
  - apply NoDup_incl_length; [apply I|]. intros [i j] H. apply (inv_in _ I) in H.
    unfold in_bound in H. apply andb_true_iff in H. destruct H as [H1 H2]. simpl in *.
    apply Nat.ltb_lt in H1, H2. apply in_prod; apply in_seq; lia.
  - rewrite prod_length, !seq_length. auto.
Qed.

Lemma skipn_cons {B} (l : list B) i x : nth_error l i = Some x -> skipn i l = x :: skipn (i + 1) l.
Proof.
  revert i. induction l as [|y l IH]; intros [|i] H; simpl in *; try discriminate.
  - congruence.
  - apply IH; auto.
Qed.
Lemma Lat_out k : in_bound n m k = false -> Lat k = 0.
Proof.
  unfold in_bound, Lat. intros H. apply andb_false_iff in H. rewrite !Nat.ltb_ge in H. destruct H as [H|H].
  - rewrite skipn_all2; auto.
  - rewrite (skipn_all2 dst); auto. apply L_nil_r.
Qed.
Lemma Lat_le k : Lat k <= n /\ Lat k <= m.
Proof.
  unfold Lat, n, m. destruct (L_le (skipn (fst k) src) (skipn (snd k) dst)) as [H1 H2].
  rewrite skipn_length in H1, H2. lia.
Qed.
Lemma Lat_step k x y : nth_error src (fst k) = Some x -> nth_error dst (snd k) = Some y ->
  Lat k = if mt x y then S (Lat (fst k + 1, snd k + 1)) else Nat.max (Lat (fst k + 1, snd k)) (Lat (fst k, snd k + 1)).
Proof.
  intros H1 H2. unfold Lat. simpl. rewrite (skipn_cons src _ _ H1), (skipn_cons dst _ _ H2). apply L_cons.
Qed.

Lemma memo_ok t k : inv t -> calculated_or_out n m t k = true -> memoized_length n m t k = Some (N.of_nat (Lat k)).
Proof.
  intros I. unfold calculated_or_out, memoized_length. destruct (in_bound n m k) eqn:B; simpl.
  - intros C. unfold is_calculated in C. destruct (entry_at t k) as [[l b]|] eqn:E; [|discriminate].
    simpl. f_equal. eapply inv_len; eauto.
  - intros _. rewrite Lat_out; auto.
Qed.
Lemma in_bound_nth k : in_bound n m k = true -> exists x y, nth_error src (fst k) = Some x /\ nth_error dst (snd k) = Some y.
Proof.
  unfold in_bound. intros H. apply andb_true_iff in H. rewrite !Nat.ltb_lt in H. destruct H as [H1 H2].
  destruct (nth_error src (fst k)) as [x|] eqn:E1; [|apply nth_error_None in E1; unfold n in *; lia].
  destruct (nth_error dst (snd k)) as [y|] eqn:E2; [|apply nth_error_None in E2; unfold m in *; lia].
  eauto.
Qed.

Hypothesis SMALL : (N.of_nat (Nat.min n m) < 2 ^ 30)%N.

Lemma calc_ext t t' k : (forall x, In x (map fst t) -> In x (map fst t')) ->
  calculated_or_out n m t k = true -> calculated_or_out n m t' k = true.
Proof.
  unfold calculated_or_out. rewrite !orb_true_iff, !calc_iff. intros H [|]; auto.
Qed.

Lemma mark_ok t k len b x y : inv t -> in_bound n m k = true -> is_calculated t k = false ->
  nth_error src (fst k) = Some x -> nth_error dst (snd k) = Some y -> b = mt x y ->
  len = N.of_nat (Lat k) ->
  (b = true -> calculated_or_out n m t (fst k + 1, snd k + 1) = true) ->
  (b = false -> calculated_or_out n m t (fst k + 1, snd k) = true /\ calculated_or_out n m t (fst k, snd k + 1) = true) ->
  inv (mark_matched t k len b).
Proof.
  intros I B C Hx Hy -> -> Ht Hf. unfold mark_matched.
  assert (M : N.land (N.of_nat (Lat k)) (2 ^ 30 - 1) = N.of_nat (Lat k)).
  { change (2 ^ 30 - 1)%N with (N.ones 30). rewrite N.land_ones. apply N.mod_small.
    destruct (Lat_le k). lia. }
  rewrite M.
  set (t' := _ :: t).
  assert (EXT : forall z, In z (map fst t) -> In z (map fst t')) by (intros z Hz; right; auto).
  split.
  - simpl. constructor; [|apply I]. intros H. apply calc_iff in H. congruence.
  - intros z [<-|H]; auto. apply (inv_in _ I); auto.
  - intros z l b E. simpl in E. destruct (index_eqb k z) eqn:Q.
    + apply index_eqb_eq in Q. subst z. injection E as <- _. auto.
    + eapply inv_len; eauto.
  - intros z l b u v E Hu Hv. simpl in E. destruct (index_eqb k z) eqn:Q.
    + apply index_eqb_eq in Q. subst z. congruence.
    + eapply inv_match; eauto.
  - intros z l E. simpl in E. destruct (index_eqb k z) eqn:Q.
    + apply index_eqb_eq in Q. subst z. injection E as _ E. eapply calc_ext; eauto.
    + eapply calc_ext; eauto. eapply inv_closed_t; eauto.
  - intros z l E. simpl in E. destruct (index_eqb k z) eqn:Q.
    + apply index_eqb_eq in Q. subst z. injection E as _ E. destruct (Hf E). split; eapply calc_ext; eauto.
    + destruct (inv_closed_f _ I _ _ E). split; eapply calc_ext; eauto.
Qed.

(** Handling the top of the stack: a bounded number of iterations that leaves it calculated and touches
    only entries not before it. *)
Definition handled (k : index) (t : table) : Prop :=
  exists c t', inv t' /\ is_calculated t' k = true /\
    (forall x, In x (map fst t) -> In x (map fst t')) /\
    (forall x, In x (map fst t') -> ~ In x (map fst t) -> fst k <= fst x /\ snd k <= snd x) /\
    length t <= length t' /\
    c <= 1 + 4 * (length t' - length t) /\
    forall fuel rest, calculate_loop mt src dst (c + fuel) (k :: rest) t = calculate_loop mt src dst fuel rest t'.

Lemma loop_step k rest t fuel x y : nth_error src (fst k) = Some x -> nth_error dst (snd k) = Some y ->
  calculate_loop mt src dst (S fuel) (k :: rest) t =
              if is_calculated t k then calculate_loop mt src dst fuel rest t
              else if mt x y then
                let next := (fst k + 1, snd k + 1) in
                if calculated_or_out n m t next then
                  match memoized_length n m t next with
                  | Some l => calculate_loop mt src dst fuel rest (mark_matched t k (l + 1) true)
                  | None => None
                  end
                else calculate_loop mt src dst fuel (next :: k :: rest) t
              else
                let next_src := (fst k + 1, snd k) in
                let next_dst := (fst k, snd k + 1) in
                if calculated_or_out n m t next_src && calculated_or_out n m t next_dst then
                  match memoized_length n m t next_src, memoized_length n m t next_dst with
                  | Some a, Some b => calculate_loop mt src dst fuel rest (mark_matched t k (N.max a b) false)
                  | _, _ => None
                  end
                else
                  calculate_loop mt src dst fuel
                    ((if calculated_or_out n m t next_dst then [] else [next_dst]) ++
                     (if calculated_or_out n m t next_src then [] else [next_src]) ++ k :: rest) t.
Proof. intros H1 H2. cbn [calculate_loop]. rewrite H1, H2. reflexivity. Qed.

Lemma cor_false t k : calculated_or_out n m t k = false -> in_bound n m k = true /\ is_calculated t k = false.
Proof. unfold calculated_or_out. intros H. apply orb_false_iff in H. rewrite negb_false_iff in H. auto. Qed.
Lemma calc_cor t k : is_calculated t k = true -> calculated_or_out n m t k = true.
Proof. unfold calculated_or_out. intros ->. apply orb_true_r. Qed.
Lemma mark_calc t k l b : is_calculated (mark_matched t k l b) k = true.
Proof. apply calc_iff. left; auto. Qed.
Lemma not_calc t k : is_calculated t k = false <-> ~ In k (map fst t).
Proof. rewrite <- calc_iff. destruct (is_calculated t k); split; congruence. Qed.

(** Once the successors are there, one more iteration fills the entry. *)
Lemma fill k t x y : inv t -> in_bound n m k = true -> is_calculated t k = false ->
  nth_error src (fst k) = Some x -> nth_error dst (snd k) = Some y ->
  (if mt x y then calculated_or_out n m t (fst k + 1, snd k + 1)
   else calculated_or_out n m t (fst k + 1, snd k) && calculated_or_out n m t (fst k, snd k + 1)) = true ->
  exists len, inv (mark_matched t k len (mt x y)) /\
    forall fuel rest, calculate_loop mt src dst (S fuel) (k :: rest) t =
      calculate_loop mt src dst fuel rest (mark_matched t k len (mt x y)).
Proof.
  intros I B C Hx Hy R. destruct (mt x y) eqn:M.
  - exists (N.add (N.of_nat (Lat (fst k + 1, snd k + 1))) 1). split.
    + eapply mark_ok; eauto.
      * rewrite (Lat_step k x y Hx Hy), M. lia.
      * discriminate.
    + intros fuel rest. rewrite (loop_step _ _ _ _ _ _ Hx Hy), C, M. cbv zeta. rewrite R, memo_ok; auto.
  - apply andb_true_iff in R. destruct R as [R1 R2].
    exists (N.max (N.of_nat (Lat (fst k + 1, snd k))) (N.of_nat (Lat (fst k, snd k + 1)))). split.
    + eapply mark_ok; eauto.
      * rewrite (Lat_step k x y Hx Hy), M. lia.
      * discriminate.
    + intros fuel rest. rewrite (loop_step _ _ _ _ _ _ Hx Hy), C, M. cbv zeta. rewrite R1, R2. cbn [andb].
      rewrite !memo_ok; auto.
Qed.

Lemma handle : forall e k t, n + m - (fst k + snd k) <= e -> inv t -> in_bound n m k = true -> handled k t.
Proof.
  induction e as [|e IH]; intros k t Le I B.
  { exfalso. unfold in_bound in B. apply andb_true_iff in B. rewrite !Nat.ltb_lt in B. lia. }
  destruct (in_bound_nth k B) as [x [y [Hx Hy]]].
  destruct (is_calculated t k) eqn:C.
  { exists 1, t. repeat (split; [solve [auto; try tauto; lia]|]).
    intros fuel rest. change (1 + fuel) with (S fuel). rewrite (loop_step _ _ _ _ _ _ Hx Hy), C. auto. }
  (* the remaining part, once the successors are calculated after [c0] iterations *)
  assert (FIN : forall c0 t1, inv t1 -> (forall z, In z (map fst t) -> In z (map fst t1)) ->
    (forall z, In z (map fst t1) -> ~ In z (map fst t) -> fst k <= fst z /\ snd k <= snd z) ->
    length t <= length t1 -> is_calculated t1 k = false -> c0 <= 3 + 4 * (length t1 - length t) ->
    (if mt x y then calculated_or_out n m t1 (fst k + 1, snd k + 1)
     else calculated_or_out n m t1 (fst k + 1, snd k) && calculated_or_out n m t1 (fst k, snd k + 1)) = true ->
    (forall fuel rest, calculate_loop mt src dst (c0 + fuel) (k :: rest) t = calculate_loop mt src dst fuel (k :: rest) t1) ->
    handled k t).
  { intros c0 t1 I1 EXT NEW LL C1 Hc R RUN.
    destruct (fill k t1 x y I1 B C1 Hx Hy R) as [len [I2 RUN2]].
    exists (c0 + 1), (mark_matched t1 k len (mt x y)).
    split; auto. split; [apply mark_calc|]. split; [intros z Hz; right; auto|]. split.
    { intros z [<-|Hz] Nz; auto. }
    split; [simpl; lia|]. split; [simpl length; lia|].
    intros fuel rest. rewrite <- Nat.add_assoc, RUN. apply RUN2. }
  destruct (mt x y) eqn:M.
  - destruct (calculated_or_out n m t (fst k + 1, snd k + 1)) eqn:R.
    + apply (FIN 0 t); auto; try tauto; lia.
    + destruct (cor_false _ _ R) as [B1 C1].
      destruct (IH (fst k + 1, snd k + 1) t ltac:(simpl; lia) I B1) as [c [t1 [I1 [K1 [EXT [NEW [LL [Hc RUN]]]]]]]].
      apply (FIN (S c) t1); auto; try lia.
      * intros z Hz Nz. specialize (NEW z Hz Nz). simpl in NEW. lia.
      * apply not_calc. intros H. apply not_calc in C. destruct (NEW _ H C). simpl in *. lia.
      * apply calc_cor; auto.
      * intros fuel rest. cbn [Nat.add]. rewrite (loop_step _ _ _ _ _ _ Hx Hy), C, M. cbv zeta. rewrite R. apply RUN.
  - destruct (calculated_or_out n m t (fst k, snd k + 1)) eqn:Rd.
    + destruct (calculated_or_out n m t (fst k + 1, snd k)) eqn:Rs.
      * apply (FIN 0 t); auto; try tauto; try lia. rewrite Rs, Rd. auto.
      * destruct (cor_false _ _ Rs) as [B1 C1].
        destruct (IH (fst k + 1, snd k) t ltac:(simpl; lia) I B1) as [c [t1 [I1 [K1 [EXT [NEW [LL [Hc RUN]]]]]]]].
        apply (FIN (S c) t1); auto; try lia.
        -- intros z Hz Nz. specialize (NEW z Hz Nz). simpl in NEW. lia.
        -- apply not_calc. intros H. apply not_calc in C. destruct (NEW _ H C). simpl in *. lia.
        -- rewrite (calc_cor _ _ K1). cbn [andb]. eapply calc_ext; eauto.
        -- intros fuel rest. cbn [Nat.add]. rewrite (loop_step _ _ _ _ _ _ Hx Hy), C, M. cbv zeta. rewrite Rs, Rd. apply RUN.
    + destruct (cor_false _ _ Rd) as [B1 C1].
      destruct (IH (fst k, snd k + 1) t ltac:(simpl; lia) I B1) as [c [t1 [I1 [K1 [EXT [NEW [LL [Hc RUN]]]]]]]].
      assert (Ck1 : is_calculated t1 k = false).
      { apply not_calc. intros H. apply not_calc in C. destruct (NEW _ H C). simpl in *. lia. }
      destruct (calculated_or_out n m t (fst k + 1, snd k)) eqn:Rs.
      * apply (FIN (S c) t1); auto; try lia.
        -- intros z Hz Nz. specialize (NEW z Hz Nz). simpl in NEW. lia.
        -- rewrite (calc_cor _ _ K1), andb_true_r. eapply calc_ext; eauto.
        -- intros fuel rest. cbn [Nat.add]. rewrite (loop_step _ _ _ _ _ _ Hx Hy), C, M. cbv zeta. rewrite Rs, Rd. apply RUN.
      * destruct (cor_false _ _ Rs) as [B2 C2].
        destruct (IH (fst k + 1, snd k) t1 ltac:(simpl; lia) I1 B2) as [c2 [t2 [I2 [K2 [EXT2 [NEW2 [LL2 [Hc2 RUN2]]]]]]]].
        apply (FIN (S (c + c2)) t2); auto; try lia.
        -- intros z Hz Nz. destruct (in_dec (fun a b : index => ltac:(decide equality; apply Nat.eq_dec)) z (map fst t1)) as [H|H].
           ++ specialize (NEW z H Nz). simpl in NEW. lia.
           ++ specialize (NEW2 z Hz H). simpl in NEW2. lia.
        -- apply not_calc. intros H. apply not_calc in Ck1. destruct (NEW2 _ H Ck1). simpl in *. lia.
        -- rewrite (calc_cor _ _ K2). cbn [andb]. eapply calc_ext; eauto. apply calc_cor; auto.
        -- intros fuel rest. cbn [Nat.add]. rewrite (loop_step _ _ _ _ _ _ Hx Hy), C, M. cbv zeta. rewrite Rs, Rd.
           cbn [andb app]. rewrite <- Nat.add_assoc, RUN, RUN2. auto.
Qed.

Lemma inv_nil : inv [].
Proof. split; simpl; try discriminate; try tauto. constructor. Qed.

Lemma calculate_ok : exists t, calculate_lcs mt src dst (lcs_fuel n m) = Some t /\ inv t /\
  calculated_or_out n m t (0, 0) = true.
Proof.
  unfold calculate_lcs. destruct (in_bound n m (0, 0)) eqn:B.
  - destruct (handle (n + m) (0, 0) [] ltac:(simpl; lia) inv_nil B) as [c [t [I [K [_ [_ [_ [Hc RUN]]]]]]]].
    exists t. split; [|split; auto; apply calc_cor; auto].
    assert (Hlen := table_bound t I).
    assert (E : calculate_loop mt src dst (lcs_fuel n m) [(0, 0)] [] = Some t).
    { unfold lcs_fuel. replace (2 + 4 * (n * m)) with (c + S (1 + 4 * (n * m) - c)) by (simpl length in Hc; lia).
      rewrite RUN. reflexivity. }
    unfold in_bound in B. simpl in B. unfold n, m in B, E |- *. clear -B E.
    destruct src; [discriminate|]. destruct dst; [discriminate|]. exact E.
  - exists []. split; [|split; [exact inv_nil|]].
    + unfold in_bound in B. simpl in B. unfold n, m in B |- *. clear -B. destruct src; [auto|]. destruct dst; [auto|discriminate].
    + unfold calculated_or_out. rewrite B. auto.
Qed.

Lemma firstn_update {B} (l : list B) i v : i < length l -> firstn (i + 1) (update_nth l i v) = firstn i l ++ [v].
Proof.
  revert i. induction l as [|x l IH]; intros [|i] H; simpl in *; try lia; auto.
  rewrite IH; auto. lia.
Qed.
Lemma firstn_false i len : i < len -> forall l, length l = len -> skipn i l = repeat false (len - i) ->
  firstn (i + 1) l = firstn i l ++ [false].
Proof.
  intros Hi l Hl Hs. assert (E : nth_error l i = Some false).
  { rewrite <- (firstn_skipn i l), nth_error_app2; rewrite firstn_length; [|lia].
    replace (i - Nat.min i (length l)) with 0 by lia. rewrite Hs. replace (len - i) with (S (len - i - 1)) by lia. reflexivity. }
  clear Hs. subst len. revert i Hi E. induction l as [|x l IH]; intros [|i] Hi E; simpl in *; try lia; try congruence.
  rewrite IH; auto. lia.
Qed.
Lemma skipn_update {B} (l : list B) i v : i < length l -> skipn (i + 1) (update_nth l i v) = skipn (i + 1) l.
Proof.
  revert i. induction l as [|x l IH]; intros [|i] H; simpl in *; try lia; auto.
  apply IH. lia.
Qed.
Lemma update_length {B} (l : list B) i v : length (update_nth l i v) = length l.
Proof. revert i. induction l as [|x l IH]; intros [|i]; simpl; auto. Qed.
Lemma skipn_next {B} (l : list B) i len (b : B) : skipn i l = repeat b (len - i) -> skipn (i + 1) l = repeat b (len - (i + 1)).
Proof.
  revert l len. induction i as [|i IH]; intros l len H; simpl in *.
  - subst l. rewrite Nat.sub_0_r. destruct len; simpl; auto. rewrite Nat.sub_0_r. auto.
  - destruct l as [|x l].
    + destruct (len - S i) eqn:Q; [|discriminate]. replace (len - S (i + 1)) with 0 by lia. auto.
    + specialize (IH l (len - 1)). replace (len - 1 - i) with (len - S i) in IH by lia.
      rewrite IH; auto. f_equal. lia.
Qed.

Lemma retrieve_ok t : inv t -> forall fuel k sm dm, n + m - (fst k + snd k) < fuel ->
  fst k <= n -> snd k <= m -> length sm = n -> length dm = m ->
  skipn (fst k) sm = repeat false (n - fst k) -> skipn (snd k) dm = repeat false (m - snd k) ->
  calculated_or_out n m t k = true ->
  exists ms md, retrieve_loop n m t fuel k sm dm = Some (firstn (fst k) sm ++ ms, firstn (snd k) dm ++ md) /\
    length ms = n - fst k /\ length md = m - snd k /\
    Forall2 (fun a b => mt a b = true) (marked (skipn (fst k) src) ms) (marked (skipn (snd k) dst) md) /\
    length (marked (skipn (fst k) src) ms) = Lat k.
Proof.
  intros I. induction fuel as [|fuel IH]; intros [i j] sm dm Hf Hi Hj Ls Ld Fs Fd C; [lia|].
  cbn [retrieve_loop]. cbn [fst snd] in *. destruct (in_bound n m (i, j)) eqn:B.
  2:{ exists (repeat false (n - i)), (repeat false (m - j)).
      rewrite <- Fs, <- Fd, !firstn_skipn. split; auto. split; [rewrite skipn_length; lia|]. split; [rewrite skipn_length; lia|].
      rewrite Fs, Fd. assert (Z : forall (l : list A) q, marked l (repeat false q) = []).
      { induction l as [|z l IHl]; intros [|q]; simpl; auto. }
      rewrite !Z. split; [constructor|]. rewrite Lat_out; auto. }
  unfold calculated_or_out in C. rewrite B in C. cbn [negb orb] in C.
  destruct (in_bound_nth _ B) as [x [y [Hx Hy]]]. cbn [fst snd] in Hx, Hy.
  assert (Hin := B). unfold in_bound in Hin. apply andb_true_iff in Hin. rewrite !Nat.ltb_lt in Hin. cbn [fst snd] in Hin.
  destruct Hin as [Hin Hjm].
  unfold is_matched. unfold is_calculated in C. destruct (entry_at t (i, j)) as [[l b]|] eqn:E; [|discriminate].
  cbn [option_map snd]. assert (Eb := inv_match _ I _ _ _ _ _ E Hx Hy).
  assert (STEP := Lat_step (i, j) x y Hx Hy). cbn [fst snd] in STEP.
  destruct b.
  - assert (C' := inv_closed_t _ I _ _ E). cbn [fst snd] in C'.
    destruct (IH (i + 1, j + 1) (update_nth sm i true) (update_nth dm j true)) as [ms [md [R [L1 [L2 [F LL]]]]]]; cbn [fst snd]; try lia; auto.
    + rewrite update_length; auto.
    + rewrite update_length; auto.
    + rewrite skipn_update by lia. apply skipn_next; auto.
    + rewrite skipn_update by lia. apply skipn_next; auto.
    + cbn [fst snd] in *. exists (true :: ms), (true :: md).
      split; [rewrite R, !firstn_update, <- !app_assoc by lia; reflexivity|].
      split; [simpl; lia|]. split; [simpl; lia|].
      rewrite (skipn_cons src _ _ Hx), (skipn_cons dst _ _ Hy). cbn [marked length].
      split; [constructor; auto|]. rewrite STEP, <- Eb, LL. auto.
  - destruct (inv_closed_f _ I _ _ E) as [Cs Cd]. cbn [fst snd] in Cs, Cd.
    rewrite !memo_ok by auto. rewrite <- Eb in STEP.
    destruct (N.leb_spec (N.of_nat (Lat (i, j + 1))) (N.of_nat (Lat (i + 1, j)))) as [Hle|Hlt].
    + destruct (IH (i + 1, j) sm dm) as [ms [md [R [L1 [L2 [F LL]]]]]]; cbn [fst snd]; try lia; auto.
      { apply skipn_next; auto. }
      cbn [fst snd] in *. exists (false :: ms), md.
      split; [rewrite R, (firstn_false i n), <- app_assoc by (auto; lia); reflexivity|].
      split; [simpl; lia|]. split; [auto|].
      rewrite (skipn_cons src _ _ Hx). cbn [marked]. split; auto. lia.
    + destruct (IH (i, j + 1) sm dm) as [ms [md [R [L1 [L2 [F LL]]]]]]; cbn [fst snd]; try lia; auto.
      { apply skipn_next; auto. }
      cbn [fst snd] in *. exists ms, (false :: md).
      split; [rewrite R, (firstn_false j m), <- app_assoc by (auto; lia); reflexivity|].
      split; [auto|]. split; [simpl; lia|].
      rewrite (skipn_cons dst _ _ Hy). cbn [marked]. split; auto. lia.
Qed.

Theorem lcs_get_ok : exists len sm dm, lcs_get mt src dst = Some (len, sm, dm) /\
  length sm = length src /\ length dm = length dst /\
  Forall2 (fun a b => mt a b = true) (marked src sm) (marked dst dm) /\
  N.of_nat (length (marked src sm)) = len /\
  forall xs ys, subsequence xs src -> subsequence ys dst -> Forall2 (fun a b => mt a b = true) xs ys ->
    (N.of_nat (length xs) <= len)%N.
Proof.
  unfold lcs_get. fold n m. destruct calculate_ok as [t [E [I C]]]. rewrite E.
  assert (RL : forall k, length (repeat false k) = k) by (intros; apply repeat_length).
  destruct (retrieve_ok t I (S (n + m)) (0, 0) (repeat false n) (repeat false m)) as [ms [md [R [L1 [L2 [F LL]]]]]];
    cbn [fst snd]; try lia; auto.
  { rewrite Nat.sub_0_r; auto. }
  { rewrite Nat.sub_0_r; auto. }
  unfold retrieve_match. rewrite R. cbn [fst snd firstn app skipn] in *. rewrite memo_ok by auto.
  exists (N.of_nat (Lat (0, 0))), ms, md. split; auto. split; [lia|]. split; [lia|]. split; auto. split; [lia|].
  intros xs ys H1 H2 H3. assert (H : common (length xs) src dst) by (exists xs, ys; auto).
  apply L_optimal in H. unfold Lat. simpl. lia.
Qed.
End P.
