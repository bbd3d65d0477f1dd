(** Proofs about id naming (NamedIds.v) against IdSpec.v. *)
From Verif Require Import Base TextLex ParseNumber NumberSpec NumberProofs NamedIds IdSpec.
Local Open Scope N_scope.

Lemma name_eqb_eq a b : name_eqb a b = true <-> a = b.
Proof. unfold name_eqb. destruct (list_eq_dec N.eq_dec a b); split; auto; discriminate. Qed.
Lemma mem_In x l : mem x l = true <-> In x l.
Proof.
  unfold mem. rewrite existsb_exists. split.
  - intros (y & I & E). apply N.eqb_eq in E. now subst.
  - intros I. exists x. split; auto. apply N.eqb_refl.
Qed.
Lemma mem_false x l : mem x l = false <-> ~ In x l.
Proof. rewrite <- mem_In. destruct (mem x l); split; congruence. Qed.

Lemma Forall2_impl {A B} (P Q : A -> B -> Prop) l m :
  (forall a b, P a b -> Q a b) -> Forall2 P l m -> Forall2 Q l m.
Proof. intros H F. induction F; constructor; auto. Qed.

Lemma Forall2_length {A B} (P : A -> B -> Prop) l m : Forall2 P l m -> length l = length m.
Proof. induction 1; simpl; auto. Qed.

(** ** Numeric names *)
Lemma valid_head name : is_valid_id name = true -> exists c t, name = c :: t /\ is_id_char c = true.
Proof. destruct name as [|c t]; [discriminate|]. simpl. intros H. apply andb_true_iff in H. exists c, t. tauto. Qed.
Lemma numeric_parse name v : is_valid_id name = true ->
  parse_number_unsigned 32 name = Some v <-> numeric_name name v.
Proof.
  intros V. destruct (valid_head _ V) as (c & t & -> & C). unfold is_id_char in C.
  assert (NS : no_leading_space (c :: t)) by (simpl; unfold is_space; lia).
  unfold parse_number_unsigned, numeric_name. rewrite stream_int_mag by auto.
  replace (c =? 45) with false by lia. replace (c =? 43) with false by lia.
  split.
  - destruct (stream_mag false (c :: t)) as [[[n m] r]|] eqn:S; [|discriminate].
    destruct r; [|discriminate]. pose proof (stream_mag_neg _ _ _ _ _ S); subst n.
    destruct (N.ltb_spec m (2 ^ 32)); [|discriminate]. cbn [andb]. intros H'; inversion H'; subst v.
    apply stream_mag_spec in S. auto.
  - intros [[hex U] L]. assert (S : stream_mag false (c :: t) = Some (false, v, [])) by (apply stream_mag_spec; eauto).
    rewrite S. replace (v <? 2 ^ 32) with true by lia. reflexivity.
Qed.

(** ** Fresh ids *)
Definition cnt (n : N) (l : list N) : nat := length (filter (fun k => k <? n) l).
Lemma cnt_le n l : (cnt n l <= length l)%nat.
Proof. unfold cnt. induction l as [|k l IH]; simpl; auto. destruct (k <? n); simpl; lia. Qed.
Lemma cnt_mono n l : (cnt n l <= cnt (n + 1) l)%nat.
Proof.
  unfold cnt. induction l as [|k l IH]; simpl; auto.
  destruct (N.ltb_spec k n), (N.ltb_spec k (n + 1)); simpl; lia.
Qed.
Lemma cnt_step n l : In n l -> (cnt n l + 1 <= cnt (n + 1) l)%nat.
Proof.
  induction l as [|k l IH]; intros I; [contradiction|].
  pose proof (cnt_mono n l) as M. unfold cnt in *. simpl. destruct I as [->|I].
  - replace (n <? n) with false by lia. replace (n <? n + 1) with true by lia. simpl. lia.
  - specialize (IH I). destruct (N.ltb_spec k n), (N.ltb_spec k (n + 1)); simpl; lia.
Qed.

Lemma fresh_id_spec fuel next K :
  (length K - cnt next K < fuel)%nat -> next + N.of_nat (length K) + 1 < 2 ^ 32 + N.of_nat (cnt next K) ->
  exists id, fresh_id fuel next K = Some (id, id + 1) /\ next <= id /\ ~ In id K /\ id + 1 < 2 ^ 32 /\
    N.of_nat (cnt next K) + (id - next) <= N.of_nat (cnt (id + 1) K).
Proof.
  revert next. induction fuel as [|fuel IH]; intros next F W; [lia|].
  pose proof (cnt_le next K) as L. cbn [fresh_id]. cbn zeta.
  assert (S32 : succ32 next = next + 1) by (unfold succ32; apply N.mod_small; lia).
  rewrite S32. destruct (mem next K) eqn:M.
  - apply mem_In in M. pose proof (cnt_step next K M) as ST. pose proof (cnt_le (next + 1) K) as L'.
    destruct (IH (next + 1)) as (id & -> & A & B & C & D); [lia|lia|].
    exists id. repeat split; auto; lia.
  - apply mem_false in M. exists next. repeat split; auto; try lia.
    pose proof (cnt_mono next K). lia.
Qed.

(** ** The table *)
Lemma find_name_Some m name id : find_name m name = Some id -> In (name, id) m.
Proof.
  induction m as [|[k v] m IH]; simpl; [discriminate|].
  destruct (name_eqb k name) eqn:E; auto.
  apply name_eqb_eq in E. intros H; inversion H; subst. auto.
Qed.
Lemma find_name_None m name : find_name m name = None <-> ~ In name (map fst m).
Proof.
  induction m as [|[k v] m IH]; simpl; [tauto|].
  destruct (name_eqb k name) eqn:E.
  - apply name_eqb_eq in E. split; [discriminate|intros H; exfalso; auto].
  - rewrite IH. assert (k <> name) by (intros ->; rewrite (proj2 (name_eqb_eq name name) eq_refl) in E; discriminate).
    tauto.
Qed.
Lemma find_name_In m name id : NoDup (map fst m) -> In (name, id) m -> find_name m name = Some id.
Proof.
  induction m as [|[k v] m IH]; simpl; [tauto|]. intros ND [H|H].
  - inversion H; subst. now rewrite (proj2 (name_eqb_eq name name) eq_refl).
  - inversion ND as [|? ? NI ND']; subst. destruct (name_eqb k name) eqn:E; auto.
    apply name_eqb_eq in E. subst. exfalso. apply NI. now apply (in_map fst) in H.
Qed.

Lemma first_appearances_ext s1 s2 l : (forall x, In x s1 <-> In x s2) ->
  first_appearances s1 l = first_appearances s2 l.
Proof.
  revert s1 s2. induction l as [|x l IH]; intros s1 s2 H; simpl; auto.
  destruct (in_dec (list_eq_dec N.eq_dec) x s1), (in_dec (list_eq_dec N.eq_dec) x s2); auto.
  - exfalso. apply n, H; auto.
  - exfalso. apply n, H; auto.
  - f_equal. apply IH. intros y. simpl. rewrite H. tauto.
Qed.
Lemma first_appearances_In s l x : In x (first_appearances s l) <-> In x l /\ ~ In x s.
Proof.
  revert s. induction l as [|y l IH]; intros s; simpl; [tauto|].
  destruct (in_dec (list_eq_dec N.eq_dec) y s) as [I|I].
  - rewrite IH. split; [tauto|]. intros [[->|H] H2]; tauto.
  - simpl. rewrite IH. simpl. destruct (list_eq_dec N.eq_dec y x) as [->|E]; [tauto|]. tauto.
Qed.
Lemma first_appearances_length s l : (length (first_appearances s l) <= length l)%nat.
Proof.
  revert s. induction l as [|y l IH]; intros s; simpl; auto.
  destruct (in_dec (list_eq_dec N.eq_dec) y s); simpl; [specialize (IH s)|specialize (IH (y :: s))]; lia.
Qed.

(** ** Without preserved ids: ids are 1, 2, 3, ... in order of first appearance. *)
Record inv0 (c : id_ctx) : Prop := {
  i0_keep : preserve c = [];
  i0_nodup : NoDup (map fst (named c));
  i0_val : forall k n v, nth_error (named c) k = Some (n, v) -> v = 1 + N.of_nat k;
  i0_next : next_id c = 1 + N.of_nat (length (named c));
  i0_bound : bound c = 1 + N.of_nat (length (named c))
}.
Lemma NoDup_snoc {A} (l : list A) x : NoDup l -> ~ In x l -> NoDup (l ++ [x]).
Proof.
  intros ND NI. apply NoDup_Add with (a := x) (l := l).
  - replace l with (l ++ []) at 1 by apply app_nil_r. apply Add_app.
  - auto.
Qed.
Lemma name_ids_dense names : forall c, inv0 c ->
  N.of_nat (length (named c)) + N.of_nat (length names) + 2 < 2 ^ 32 ->
  exists ids c', name_ids c names = Some (ids, c') /\ inv0 c' /\
    map fst (named c') = map fst (named c) ++ first_appearances (map fst (named c)) names /\
    Forall2 (fun n id => exists k, nth_error (named c') k = Some (n, id)) names ids /\
    (forall k x, nth_error (named c) k = Some x -> nth_error (named c') k = Some x).
Proof.
  induction names as [|n names IH]; intros c I W; cbn [name_ids].
  - exists [], c. rewrite app_nil_r. repeat split; auto; apply I.
  - unfold assign_or_get. rewrite (i0_keep c I). cbn iota zeta.
    destruct (find_name (named c) n) as [id|] eqn:FN.
    + cbn [length] in W. destruct (IH c I ltac:(lia)) as (ids & c' & -> & I' & FA & F2 & EXT).
      exists (id :: ids), c'. split; auto. split; auto. split.
      * rewrite FA. simpl. destruct (in_dec (list_eq_dec N.eq_dec) n (map fst (named c))) as [Y|Y]; auto.
        exfalso. apply Y. apply find_name_Some in FN. now apply (in_map fst) in FN.
      * split; auto. constructor; auto. apply find_name_Some in FN.
        apply In_nth_error in FN. destruct FN as [k FN]. exists k. auto.
    + cbn [length fresh_id mem existsb]. cbn zeta.
      pose proof (i0_next c I) as NX. pose proof (i0_bound c I) as BD. cbn [length] in W.
      assert (S32 : succ32 (next_id c) = next_id c + 1).
      { unfold succ32. apply N.mod_small. lia. }
      rewrite S32. apply find_name_None in FN.
      set (c1 := mkIdCtx (named c ++ [(n, next_id c)]) (N.max (bound c) (next_id c + 1)) (next_id c + 1) []).
      assert (I1 : inv0 c1).
      { constructor; cbn [c1 preserve named next_id bound]; auto.
        - rewrite map_app. apply NoDup_snoc; auto. apply I.
        - intros k n' v H. destruct (Nat.lt_ge_cases k (length (named c))) as [L|L].
          + rewrite nth_error_app1 in H by auto. eapply i0_val; eauto.
          + rewrite nth_error_app2 in H by auto. destruct (k - length (named c))%nat as [|j] eqn:E.
            * inversion H; subst. lia.
            * destruct j; discriminate.
        - rewrite app_length. simpl. lia.
        - rewrite app_length. simpl. lia. }
      destruct (IH c1 I1) as (ids & c' & -> & I' & FA & F2 & EXT).
      { cbn [c1 named]. rewrite app_length. simpl. lia. }
      exists (next_id c :: ids), c'. split; auto. split; auto. split; [|split].
      * rewrite FA. cbn [c1 named]. rewrite map_app. simpl.
        destruct (in_dec (list_eq_dec N.eq_dec) n (map fst (named c))) as [Y|Y]; [contradiction|].
        rewrite <- app_assoc. simpl. f_equal. f_equal. apply first_appearances_ext.
        intros x. rewrite in_app_iff. simpl. tauto.
      * constructor; auto. exists (length (named c)). apply EXT. cbn [c1 named].
        rewrite nth_error_app2 by auto. rewrite Nat.sub_diag. reflexivity.
      * intros k x H. apply EXT. cbn [c1 named]. rewrite nth_error_app1; auto.
        apply nth_error_Some. congruence.
Qed.
Lemma inv0_init : inv0 (init_ctx []).
Proof. constructor; simpl; auto; [constructor|]. intros [|k] n v H; discriminate. Qed.

Theorem number_names_dense names : N.of_nat (length names) + 2 < 2 ^ 32 ->
  exists ids, number_names false names = Some (ids, 1 + N.of_nat (length (first_appearances [] names))) /\
    Forall2 (fun n id => exists k, position (first_appearances [] names) n k /\ id = 1 + N.of_nat k) names ids.
Proof.
  intros W. unfold number_names. cbn zeta iota.
  destruct (name_ids_dense names (init_ctx []) inv0_init) as (ids & c' & -> & I & FA & F2 & _).
  { simpl. lia. }
  simpl in FA. exists ids. split.
  - f_equal. f_equal. rewrite (i0_bound _ I). rewrite <- FA, map_length. auto.
  - eapply Forall2_impl; [|exact F2]. intros n id (k & H). exists k. split.
    + unfold position. rewrite <- FA. rewrite nth_error_map, H. reflexivity.
    + eapply i0_val; eauto.
Qed.

(** ** With preserved ids *)
Record invp (K : list N) (c : id_ctx) : Prop := {
  ip_keep : preserve c = K;
  ip_nodup : NoDup (map fst (named c));
  ip_fresh : forall n v, In (n, v) (named c) -> ~ In v K /\ 1 <= v < next_id c;
  ip_inj : forall n1 n2 v, In (n1, v) (named c) -> In (n2, v) (named c) -> n1 = n2;
  ip_next : next_id c <= 1 + N.of_nat (length (named c)) + N.of_nat (cnt (next_id c) K);
  ip_bound : next_id c <= bound c \/ (named c = [] /\ next_id c = 1);
  ip_bound1 : 1 <= bound c;
  ip_next1 : 1 <= next_id c;
  ip_names : forall n v w, In (n, v) (named c) -> parse_number_unsigned 32 n = Some w -> ~ In w K
}.
Definition id_of (K : list N) (m : list (list N * N)) (n : list N) (id : N) : Prop :=
  (parse_number_unsigned 32 n = Some id /\ In id K) \/
  (In (n, id) m /\ forall w, parse_number_unsigned 32 n = Some w -> ~ In w K).

Lemma name_ids_preserve K names : forall c, invp K c ->
  (forall v, In v K -> v + 1 < 2 ^ 32) ->
  N.of_nat (length (named c)) + N.of_nat (length names) + N.of_nat (length K) + 4 < 2 ^ 32 ->
  exists ids c', name_ids c names = Some (ids, c') /\ invp K c' /\
    Forall2 (fun n id => id_of K (named c') n id /\ id < bound c') names ids /\
    (forall x, In x (named c) -> In x (named c')) /\ bound c <= bound c'.
Proof.
  induction names as [|n names IH]; intros c I KM W; cbn [name_ids].
  - exists [], c. split; [auto|]. split; [auto|]. split; [constructor|]. split; [auto|lia].
  - unfold assign_or_get. rewrite (ip_keep K c I). cbn [length] in W.
    set (pr := match K with [] => None | _ :: _ => _ end).
    assert (PR : pr = match parse_number_unsigned 32 n with
                      | Some id => if mem id K then Some id else None | None => None end).
    { unfold pr. destruct K; auto. destruct (parse_number_unsigned 32 n); auto. }
    rewrite PR. clear PR pr.
    destruct (match parse_number_unsigned 32 n with
              | Some id => if mem id K then Some id else None | None => None end) as [id|] eqn:PE.
    + (* a preserved id *)
      destruct (parse_number_unsigned 32 n) as [id'|] eqn:PN; [|discriminate].
      destruct (mem id' K) eqn:M; [|discriminate]. inversion PE; subst id'. apply mem_In in M.
      assert (S32 : succ32 id = id + 1) by (unfold succ32; apply N.mod_small; auto).
      rewrite S32.
      set (c1 := mkIdCtx (named c) (N.max (bound c) (id + 1)) (next_id c) K).
      assert (I1 : invp K c1).
      { destruct I as [A0 A1 A2 A3 A4 A5 A6 A7 A8]. constructor; cbn [c1 preserve named next_id bound]; auto; lia. }
      destruct (IH c1 I1 KM) as (ids & c' & -> & I' & F2 & EXT & B); [cbn [c1 named]; lia|].
      cbn [c1 named bound] in EXT, B.
      exists (id :: ids), c'. split; auto. split; auto. split; [|split; auto; lia].
      constructor; auto. split; [left; auto|lia].
    + assert (NP : forall w, parse_number_unsigned 32 n = Some w -> ~ In w K).
      { intros w E. rewrite E in PE. apply mem_false. destruct (mem w K); auto; discriminate. }
      destruct (find_name (named c) n) as [id|] eqn:FN.
      * destruct (IH c I KM) as (ids & c' & -> & I' & F2 & EXT & B); [lia|].
        exists (id :: ids), c'. split; auto. split; auto. split; [|split; auto].
        apply find_name_Some in FN. constructor; auto. split; [right; auto|].
        destruct (ip_fresh _ _ I _ _ FN) as [_ ?]. destruct (ip_bound _ _ I) as [BB|[BB _]]; [lia|].
        rewrite BB in FN. contradiction.
      * pose proof (ip_next _ _ I) as NX. pose proof (cnt_le (next_id c) K) as CL.
        destruct (fresh_id_spec (S (length K)) (next_id c) K) as (id & -> & A & B & C & D); [lia|lia|].
        apply find_name_None in FN.
        assert (S32 : succ32 id = id + 1) by (unfold succ32; apply N.mod_small; auto).
        rewrite S32.
        set (c1 := mkIdCtx (named c ++ [(n, id)]) (N.max (bound c) (id + 1)) (id + 1) K).
        pose proof (ip_next1 _ _ I) as N1.
        assert (I1 : invp K c1).
        { constructor; cbn [c1 preserve named next_id bound]; auto.
          - rewrite map_app. apply NoDup_snoc; auto. apply I.
          - intros n' v H. apply in_app_iff in H. destruct H as [H|[H|[]]].
            + destruct (ip_fresh _ _ I _ _ H). split; auto. lia.
            + inversion H; subst. split; auto. lia.
          - intros n1 n2 v H1 H2. apply in_app_iff in H1, H2.
            destruct H1 as [H1|[H1|[]]], H2 as [H2|[H2|[]]].
            + eapply ip_inj; eauto.
            + inversion H2; subst. destruct (ip_fresh _ _ I _ _ H1). lia.
            + inversion H1; subst. destruct (ip_fresh _ _ I _ _ H2). lia.
            + inversion H1; inversion H2; subst; auto.
          - rewrite app_length. simpl. lia.
          - left. lia.
          - lia.
          - lia.
          - intros n' v w H. apply in_app_iff in H. destruct H as [H|[H|[]]].
            + eapply ip_names; eauto.
            + inversion H; subst. apply NP. }
        destruct (IH c1 I1 KM) as (ids & c' & -> & I' & F2 & EXT & BB).
        { cbn [c1 named]. rewrite app_length. simpl. lia. }
        cbn [c1 named bound] in EXT, BB.
        exists (id :: ids), c'. split; auto. split; auto. split; [|split].
        -- constructor; auto. split; [|lia]. right. split; auto. apply EXT. apply in_app_iff. simpl. auto.
        -- intros x H. apply EXT. apply in_app_iff. auto.
        -- lia.
Qed.

Lemma numeric_ids_In m v : In v (numeric_ids m) <-> exists n i, In (n, i) m /\ parse_number_unsigned 32 n = Some v.
Proof.
  induction m as [|[n i] m IH]; simpl.
  - split; [contradiction|]. intros (n & i & [] & _).
  - destruct (parse_number_unsigned 32 n) as [w|] eqn:P.
    + destruct (mem w (numeric_ids m)) eqn:M.
      * rewrite IH. split; [intros (n' & i' & H & E); eauto 6|].
        intros (n' & i' & [H|H] & E); eauto. inversion H; subst. rewrite P in E. inversion E; subst.
        apply IH. now apply mem_In.
      * simpl. rewrite IH. split.
        -- intros [->|(n' & i' & H & E)]; eauto 6.
        -- intros (n' & i' & [H|H] & E); [inversion H; subst; left; congruence|right; eauto].
    + rewrite IH. split; [intros (n' & i' & H & E); eauto 6|].
      intros (n' & i' & [H|H] & E); eauto. inversion H; subst. congruence.
Qed.
Lemma numeric_ids_length m : (length (numeric_ids m) <= length m)%nat.
Proof.
  induction m as [|[n i] m IH]; simpl; auto. destruct (parse_number_unsigned 32 n); [|lia].
  destruct (mem n0 (numeric_ids m)); simpl; lia.
Qed.
Lemma invp_init K : invp K (init_ctx K).
Proof. constructor; simpl; auto; try lia; try (intros; contradiction). constructor. Qed.

(** The ids handed out with the preserve option: numeric names keep their value, other names
    get pairwise different ids that no numeric name has, and the bound is above all ids. *)
Theorem number_names_preserve names :
  2 * N.of_nat (length names) + 4 < 2 ^ 32 ->
  Forall (fun n => is_valid_id n = true) names ->
  (forall n v, In n names -> numeric_name n v -> v <> 2 ^ 32 - 1) ->
  exists ids bound, number_names true names = Some (ids, bound) /\
    length ids = length names /\
    (forall i n id, nth_error names i = Some n -> nth_error ids i = Some id ->
       id < bound /\
       (forall v, numeric_name n v -> id = v) /\
       ((forall v, ~ numeric_name n v) -> id <> 0 /\ forall n' v, In n' names -> numeric_name n' v -> id <> v)) /\
    (forall i j n n' id id', nth_error names i = Some n -> nth_error names j = Some n' ->
       nth_error ids i = Some id -> nth_error ids j = Some id' ->
       (n = n' -> id = id') /\
       (n <> n' -> (forall v, ~ numeric_name n v) -> (forall v, ~ numeric_name n' v) -> id <> id')).
Proof.
  intros W V TOP. unfold number_names.
  destruct (name_ids_dense names (init_ctx []) inv0_init) as (ids0 & c0 & E0 & I0 & FA & F20 & _).
  { simpl. lia. }
  rewrite E0. cbn iota zeta. simpl in FA.
  set (K := numeric_ids (named c0)).
  assert (KS : forall v, In v K <-> exists n, In n names /\ numeric_name n v).
  { intros v. unfold K. rewrite numeric_ids_In. split.
    - intros (n & i & H & P). assert (In n names).
      { apply (in_map fst) in H. rewrite FA in H. apply first_appearances_In in H. tauto. }
      exists n. split; auto. apply numeric_parse; auto. rewrite Forall_forall in V; auto.
    - intros (n & H & P). assert (In n (map fst (named c0))).
      { rewrite FA. apply first_appearances_In. simpl. tauto. }
      apply in_map_iff in H0. destruct H0 as ([n' i] & <- & H1). simpl in *. exists n', i. split; auto.
      apply numeric_parse; auto. rewrite Forall_forall in V; auto. }
  assert (KL : (length K <= length names)%nat).
  { unfold K. pose proof (numeric_ids_length (named c0)). rewrite <- (map_length fst), FA in H.
    pose proof (first_appearances_length [] names). lia. }
  destruct (name_ids_preserve K names (init_ctx K) (invp_init K)) as (ids & c & -> & I & F2 & _ & _).
  { intros v H. apply KS in H. destruct H as (n & H1 & H2). pose proof (TOP _ _ H1 H2). destruct H2. lia. }
  { simpl. lia. }
  exists ids, (bound c). split; auto. split; [symmetry; eapply Forall2_length; eauto|].
  assert (AT : forall i n id, nth_error names i = Some n -> nth_error ids i = Some id ->
    (id_of K (named c) n id /\ id < bound c) /\ is_valid_id n = true /\ In n names).
  { intros i n id H1 H2. clear - F2 H1 H2 V. revert i ids F2 H1 H2 V.
    induction names as [|x names IH]; intros [|i] ids F2 H1 H2 V; try discriminate;
      inversion F2 as [|? ? ? ? Q F2']; subst; inversion V; subst; simpl in *.
    - inversion H1; inversion H2; subst. auto.
    - destruct (IH i l' F2' H1 H2 H4) as (A & B & C). auto. }
  split.
  - intros i n id H1 H2. destruct (AT i n id H1 H2) as ((ID & B) & VN & IN).
    split; auto. split.
    + intros v NN. assert (In v K) by (apply KS; eauto). apply numeric_parse in NN; auto.
      destruct ID as [[P _]|[_ P]]; [congruence|]. exfalso. eapply P; eauto.
    + intros NN. destruct ID as [[P _]|[P _]].
      * exfalso. eapply NN. apply numeric_parse; eauto.
      * destruct (ip_fresh _ _ I _ _ P) as [P1 P2]. split; [lia|].
        intros n' v H3 H4 ->. apply P1. apply KS. eauto.
  - intros i j n n' id id' A1 A2 B1 B2.
    destruct (AT i n id A1 B1) as ((ID & B) & VN & IN). destruct (AT j n' id' A2 B2) as ((ID' & B') & VN' & IN').
    split.
    + intros ->. destruct ID as [[P Q]|[P Q]], ID' as [[P' Q']|[P' Q']].
      * congruence.
      * exfalso. eapply Q'; eauto.
      * exfalso. eapply Q; eauto.
      * pose proof (find_name_In _ _ _ (ip_nodup _ _ I) P) as X1.
        pose proof (find_name_In _ _ _ (ip_nodup _ _ I) P') as X2. congruence.
    + intros NE N1 N2 ->. destruct ID as [[P Q]|[P Q]]; [exfalso; eapply N1; apply numeric_parse; eauto|].
      destruct ID' as [[P' Q']|[P' Q']]; [exfalso; eapply N2; apply numeric_parse; eauto|].
      apply NE. eapply ip_inj; eauto.
Qed.
