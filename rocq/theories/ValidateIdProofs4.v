(** Proofs about ValidateId.v, fourth part: the checks together. *)
From Verif Require Import Base NamedIds NamedIdsProofs Cfa GraphSpec AugmentedProofs
  ValidateId ValidateIdSpec ValidateIdProofs ValidateIdProofs2 ValidateIdProofs3.
Local Open Scope N_scope.

Section All.
Variable m : module.
Hypothesis WF : well_formed m.
Hypothesis TAME : merges_can_end m.

(** *** One function *)
Definition idoms_good (f : func) (edges : list (N * N)) : Prop :=
  (forall b p, idom edges b = Some p -> In b (labels f) -> reaches f b /\
      p <> b /\ on_every_path f p b /\ forall c, c <> b -> on_every_path f c b -> on_every_path f c p) /\
  (forall b b0 rest, blocks f = b0 :: rest -> reaches f b -> b <> label b0 -> exists p, idom edges b = Some p) /\
  (forall a b, reaches f b -> exists r, block_dominates edges a b = Some r /\ (r = true <-> on_every_path f a b)).

Lemma idoms_of f : In f (funcs m) -> targets_defined f = true ->
  exists edges, function_idoms f = Some edges /\ idoms_good f edges.
Proof using WF TAME.
  intros Hf TD. destruct (blocks f) as [|b0 rest] eqn:B.
  - exists []. unfold function_idoms, idoms_good. rewrite B. split; auto. split; [discriminate|]. split; [intros; congruence|].
    intros a b (x & y & E & _). congruence.
  - destruct (function_idoms_ok f b0 rest (labels_nodup m WF f Hf) TD (fun l => wf_range m WF f l Hf) (fun b => TAME f b Hf) B)
      as (edges & E & A1 & A2 & A3).
    assert (RE : forall b, reaches f b <-> reachable (succ f) (label b0) b).
    { intros b. split; [|intros H; exists b0, rest; auto]. intros (x & y & Exy & H). rewrite B in Exy. injection Exy as <- <-. auto. }
    assert (DE : forall a b, on_every_path f a b <-> dominates (succ f) (label b0) a b).
    { intros a b. split; [intros H; eapply H; eauto|]. intros H x y Exy. rewrite B in Exy. injection Exy as <- <-. auto. }
    exists edges. split; auto. split; [|split].
    + intros b p I Hb. destruct (A1 b p I) as (R & NE & D1 & D2 & D3).
      { intros ->. apply (wf_range m WF f _ Hf) in Hb. destruct Hb as [_ Hb]. exact (N.lt_irrefl _ Hb). }
      rewrite RE, DE. split; auto. split; auto. split; auto. intros c NC DC. apply DE. apply D3; auto. apply DE; auto.
    + intros b x y Exy R NE. rewrite B in Exy. injection Exy as <- <-. apply A2; auto. apply RE; auto.
    + intros a b R. apply RE in R. destruct (A3 a b R) as (r & E1 & E2). exists r. rewrite DE. auto.
Qed.

Definition order_rule (f : func) : Prop :=
  forall a b, reaches f b -> on_every_path f a b -> a <> b -> precedes f a b.

Lemma labels_succ_in f b : targets_defined f = true -> reaches f b -> In b (labels f).
Proof using. intros TD (b0 & rest & B & R). eapply reach_label; eauto. Qed.

Lemma order_ok_rule f edges : In f (funcs m) -> targets_defined f = true -> idoms_good f edges ->
  (order_ok edges (firstn 1 (labels f)) (skipn 1 (labels f)) = true <-> order_rule f).
Proof using WF.
  intros Hf TD (G1 & G2 & G3). rewrite order_ok_spec.
  assert (NDl := labels_nodup m WF f Hf).
  assert (DIN : forall a b, reaches f b -> on_every_path f a b -> reaches f a).
  { intros a b (b0 & rest & B & l & P) D. exists b0, rest. split; auto.
    destruct (path_pre _ _ _ _ _ P (D b0 rest B l P)) as (l1 & _ & _ & P1). exists l1; auto. }
  split.
  - intros O a b. unfold order_rule.
    assert (IND : forall n a b j, (j < n)%nat -> nth_error (labels f) j = Some b ->
       reaches f b -> on_every_path f a b -> a <> b -> precedes f a b).
    { induction n as [|n IH]; intros a' b' j L Hj R D NE; [lia|].
      destruct R as (b0 & rest & B & R'). assert (R : reaches f b') by (exists b0, rest; auto).
      assert (NF : b' <> label b0).
      { intros ->. assert (P : path (succ f) (label b0) (label b0) [label b0]) by constructor.
        specialize (D b0 rest B _ P). destruct D as [<-|[]]. auto. }
      destruct (G2 b' b0 rest B R NF) as (p & I).
      destruct (G1 b' p I) as (_ & N1 & N2 & N3); [eapply nth_error_In; eauto|].
      assert (LB : labels f = label b0 :: map label rest) by (unfold labels; rewrite B; auto).
      destruct j as [|j]; [rewrite LB in Hj; cbn in Hj; congruence|].
      assert (Pp : In p (firstn (S j) (labels f))).
      { rewrite LB in Hj. cbn [nth_error] in Hj. pose proof (nth_error_split_eq _ _ _ Hj) as SP.
        assert (E0 : skipn 1 (labels f) = firstn j (map label rest) ++ b' :: skipn (S j) (map label rest)).
        { rewrite LB. exact SP. }
        destruct (O _ _ _ p E0 I) as [Q|Q].
        - exfalso. assert (In p (labels f)) as K by (apply labels_succ_in; auto; eapply DIN; eauto).
          apply (wf_range m WF f _ Hf) in K. rewrite Q in K. destruct K as [K _]. exact (N.lt_irrefl _ K).
        - rewrite LB in *. cbn [firstn app] in *. exact Q. }
      assert (exists i, (i < S j)%nat /\ nth_error (labels f) i = Some p) as (i & Li & Hi).
      { apply In_nth_error in Pp. destruct Pp as (i & Hi).
        assert (Li : (i < S j)%nat).
        { assert (i < length (firstn (S j) (labels f)))%nat as K by (apply nth_error_Some; congruence).
          rewrite firstn_length in K. lia. }
        exists i. split; auto. rewrite <- (firstn_skipn (S j) (labels f)). rewrite nth_error_app1; auto.
        apply nth_error_Some. congruence. }
      destruct (N.eq_dec a' p) as [->|NP]; [apply precedes_index; exists i, (S j); auto|].
      destruct (IH a' p i ltac:(lia) Hi (DIN p b' R N2) (N3 a' NE D) NP) as (l1 & l2 & l3 & E).
      assert (PI : precedes f a' p) by (exists l1, l2, l3; auto). apply precedes_index in PI. destruct PI as (i1 & i2 & L12 & H1 & H2).
      apply precedes_index. exists i1, (S j). split; auto.
      assert (i2 = i); [|lia]. eapply (proj1 (NoDup_nth_error (labels f)) NDl); [apply nth_error_Some; congruence|congruence]. }
    intros R D NE. pose proof (labels_succ_in f b TD R) as K. apply In_nth_error in K. destruct K as (j & Hj).
    eapply (IND (S j)); eauto.
  - intros OR r1 b r2 p E I.
    assert (Hb : In b (labels f)).
    { rewrite <- (firstn_skipn 1 (labels f)). apply in_or_app. right. rewrite E. apply in_or_app. right. left; auto. }
    destruct (G1 b p I Hb) as (R & N1 & N2 & _). right.
    pose proof (OR p b R N2 N1) as PR. apply precedes_index in PR. destruct PR as (i & j & L & Hi & Hj).
    assert (SP : labels f = (firstn 1 (labels f) ++ r1) ++ b :: r2) by (rewrite <- app_assoc, <- E, firstn_skipn; auto).
    assert (j = length (firstn 1 (labels f) ++ r1)) as ->.
    { eapply (proj1 (NoDup_nth_error (labels f)) NDl); [apply nth_error_Some; congruence|]. rewrite Hj. rewrite SP at 1.
      rewrite nth_error_app2, Nat.sub_diag; auto. }
    rewrite SP in Hi. rewrite nth_error_app1 in Hi by auto. eapply nth_error_In; eauto.
Qed.

Lemma targets_defined_rule f : targets_defined f = true <->
  forall b t, In b (blocks f) -> In t (block_struct_succ b) -> In t (labels f).
Proof using.
  unfold targets_defined. rewrite forallb_forall. split.
  - intros H b t Hb Ht. specialize (H b Hb). rewrite forallb_forall in H. apply mem_In. auto.
  - intros H b Hb. apply forallb_forall. intros t Ht. apply mem_In. eauto.
Qed.

Lemma check_cfg_spec f : In f (funcs m) ->
  check_cfg f <> Undef /\ (check_cfg f = Ok <-> targets_defined f = true /\ order_rule f).
Proof using WF TAME.
  intros Hf. unfold check_cfg. destruct (targets_defined f) eqn:TD.
  - destruct (idoms_of f Hf TD) as (edges & E & G). rewrite E. cbn [of_bool then_]. split; [apply of_bool_def|].
    rewrite of_bool_ok, (order_ok_rule f edges Hf TD G). tauto.
  - cbn [of_bool then_]. split; [discriminate|]. split; [discriminate|]. intros [H _]. discriminate.
Qed.

Lemma first_block_rule f : first_block_ok f = true <->
  forall b0 rest b, blocks f = b0 :: rest -> In b (blocks f) -> ~ In (label b0) (block_succ b).
Proof using.
  unfold first_block_ok. destruct (blocks f) as [|b0 rest] eqn:B; [split; auto; intros _ b0 rest b E; discriminate|].
  rewrite forallb_forall. split.
  - intros H x y b E Hb. injection E as <- <-. specialize (H b Hb). apply negb_true_iff in H. intros K. apply mem_In in K. congruence.
  - intros H b Hb. apply negb_true_iff. destruct (mem (label b0) (block_succ b)) eqn:M; auto. apply mem_In in M.
    exfalso. eapply H; eauto.
Qed.

(** *** The uses, once the graphs are fine *)
Hypothesis TDS : forall f, In f (funcs m) -> targets_defined f = true.

Lemma facts_ok f : In f (funcs m) -> exists k, facts_of m (f_id f) = Some k /\
  (forall b, In b (reach k) <-> reaches f b) /\ idoms_good f (idoms k).
Proof using WF TAME TDS.
  intros Hf. unfold facts_of. rewrite (find_func_in m WF f Hf). unfold function_facts.
  destruct (reachable_blocks_ok f (labels_nodup m WF f Hf)) as (r & E1 & R).
  destruct (idoms_of f Hf (TDS f Hf)) as (edges & E2 & G). rewrite E1, E2. exists (Facts r edges). cbn. auto.
Qed.

Definition use_rule (d u : item) : Prop :=
  (forall f bd bu, it_block d = Some bd -> In f (funcs m) -> it_func u = Some (f_id f) -> it_block u = Some bu ->
     is_phi (it_inst u) = false -> reaches f bu -> on_every_path f bd bu) /\
  (forall fd, it_func d = Some fd -> it_block d = None -> it_func u = None \/ it_func u = Some fd).

Lemma check_use_spec d u : In d (items m) -> In u (items m) ->
  check_use m d u <> Undef /\ (check_use m d u = Ok <-> use_rule d u).
Proof using WF TAME TDS.
  intros Hd Hu. unfold check_use, use_rule.
  destruct (it_block d) as [bd|] eqn:Bd.
  - destruct (item_block m d bd Hd Bd) as (fd & _ & _ & Fd & _). rewrite Fd.
    destruct (it_block u) as [bu|] eqn:Bu.
    + destruct (item_block m u bu Hu Bu) as (fu & _ & Hfu & Fu & _). rewrite Fu.
      destruct (facts_ok fu Hfu) as (k & E & R & _ & _ & G3). rewrite E.
      destruct (mem bu (reach k)) eqn:M; cbn [negb].
      * apply mem_In, R in M. destruct (is_phi (it_inst u)) eqn:P.
        -- split; [discriminate|]. split; auto. intros _. split; [intros; congruence|intros; discriminate].
        -- destruct (G3 bd bu M) as (r & E2 & D). rewrite E2. cbn [outcome_of]. split; [apply of_bool_def|].
           rewrite of_bool_ok, D. split.
           ++ intros H. split; [|intros; discriminate]. intros f x y Ex Hf Ef Ey _ _. injection Ex as <-. injection Ey as <-.
              injection Ef as Ef. apply (func_inj m WF fu f Hfu Hf) in Ef. subst. auto.
           ++ intros [H _]. eapply H; eauto.
      * split; [discriminate|]. split; auto. intros _. split; [|intros; discriminate].
        intros f x y Ex Hf Ef Ey _ Rr. injection Ey as <-. injection Ef as Ef. apply (func_inj m WF fu f Hfu Hf) in Ef. subst.
        apply R, mem_In in Rr. congruence.
    + split; [discriminate|]. split; auto. intros _. split; [intros; congruence|intros; discriminate].
  - destruct (it_func d) as [fd|] eqn:Fd.
    + destruct (it_func u) as [fu|] eqn:Fu.
      * split; [apply of_bool_def|]. rewrite of_bool_ok, N.eqb_eq. split.
        -- intros ->. split; [intros; congruence|]. intros x Ex _. right. congruence.
        -- intros [_ H]. destruct (H fd eq_refl eq_refl); congruence.
      * split; [discriminate|]. split; auto. intros _. split; [intros; congruence|auto].
    + split; [discriminate|]. split; auto. intros _. split; intros; congruence.
Qed.

Lemma in_users u x : In u (users m x) <-> In u (items m) /\ uses u x.
Proof using. unfold users. rewrite filter_In, mem_In, in_used. tauto. Qed.

Lemma check_defs_spec :
  all_ok (check_def m) (items m) <> Undef /\
  (all_ok (check_def m) (items m) = Ok <->
   forall d u x, In d (items m) -> In u (items m) -> defines d x -> uses u x -> use_rule d u).
Proof using WF TAME TDS.
  assert (ONE : forall d, In d (items m) -> check_def m d <> Undef /\
    (check_def m d = Ok <-> forall u x, In u (items m) -> defines d x -> uses u x -> use_rule d u)).
  { intros d Hd. unfold check_def. unfold defines. destruct (result_id (it_inst d)) as [x|].
    - split.
      + apply all_ok_def. intros u Hu. apply in_users in Hu. apply check_use_spec; tauto.
      + rewrite all_ok_ok. split.
        * intros H u y Hu Ey U. injection Ey as <-. apply check_use_spec; auto. apply H. apply in_users; auto.
        * intros H u Hu. apply in_users in Hu. destruct Hu as [Hu U]. apply check_use_spec; eauto.
    - split; [discriminate|]. split; auto. intros; discriminate. }
  split; [apply all_ok_def; intros d Hd; apply ONE; auto|]. rewrite all_ok_ok. split.
  - intros H d u x Hd Hu D U. apply (proj2 (ONE d Hd)) with (x := x); auto.
  - intros H d Hd. apply ONE; auto. intros u x Hu D U. eapply H; eauto.
Qed.

(** *** OpPhi *)
Hypothesis PHI : forall u, In u (items m) -> phi_parents_rule m u.
Hypothesis DEF : forall it x, In it (items m) -> uses it x -> exists d, In d (items m) /\ defines d x.

Definition phi_value_rule (u : item) : Prop :=
  forall f bu pairs, is_phi (it_inst u) = true -> In f (funcs m) -> it_func u = Some (f_id f) -> it_block u = Some bu ->
    phi_pairs (it_inst u) = Some pairs -> reaches f bu ->
    forall v p d bd, In (v, p) pairs -> reaches f p -> In d (items m) -> defines d v -> it_block d = Some bd ->
      on_every_path f bd p.

Lemma pair_up_in : forall n l pairs, (length l < n)%nat -> pair_up l = Some pairs -> forall v p, In (v, p) pairs -> In (Id v) l /\ In (Id p) l.
Proof using.
  clear. induction n as [|n IH]; intros l pairs L; [lia|].
  destruct l as [|a l]; [intros E; injection E as <-; intros v p []|].
  destruct a as [z|z|z|]; try discriminate. destruct l as [|b l]; [discriminate|]. destruct b as [z'|z'|z'|]; try discriminate.
  cbn [pair_up]. destruct (pair_up l) as [rest|] eqn:E; [|discriminate]. cbn [option_map]. intros Q. injection Q as <-.
  intros v p [H|H].
  - injection H as <- <-. split; [left|right; left]; auto.
  - cbn [length] in L. destruct (IH l rest ltac:(lia) E v p H). split; right; right; auto.
Qed.
Lemma phi_pair_uses u pairs v p : phi_pairs (it_inst u) = Some pairs -> In (v, p) pairs -> uses u v.
Proof using.
  intros E H. unfold phi_pairs in E. destruct (pair_up_in (S (length (skipn 2 (operands (it_inst u))))) _ _ (Nat.lt_succ_diag_r _) E v p H) as [K _].
  right. rewrite <- (firstn_skipn 2 (operands (it_inst u))). apply in_or_app; auto.
Qed.

Lemma check_phi_spec u : In u (items m) ->
  check_phi m u <> Undef /\ (check_phi m u = Ok <-> phi_value_rule u).
Proof using WF TAME TDS PHI DEF.
  intros Hu. unfold check_phi.
  destruct (is_phi (it_inst u)) eqn:P.
  2:{ assert (phi_listed m u = false) as -> by (unfold phi_listed; rewrite P; reflexivity).
      split; [discriminate|]. split; auto. intros _ f bu pairs Q. congruence. }
  destruct (phi_in_block m WF u Hu P) as (b & Eb). destruct (item_block m u b Hu Eb) as (f & _ & Hf & Ef & _).
  destruct (facts_ok f Hf) as (k & E & R & _ & _ & G3).
  destruct (PHI u Hu P f b Hf Ef Eb) as (pairs & EP & NDp & IP).
  assert (ONE : forall v p, In (v, p) pairs -> check_pair m f k (v, p) <> Undef /\
    (check_pair m f k (v, p) = Ok <-> forall d bd, reaches f p -> In d (items m) -> defines d v -> it_block d = Some bd -> on_every_path f bd p)).
  { intros v p H. unfold check_pair. cbn [fst snd].
    destruct (DEF u v Hu (phi_pair_uses u pairs v p EP H)) as (d & Hd & D). rewrite (find_def_in m WF d v Hd D).
    assert (UNI : forall d', In d' (items m) -> defines d' v -> d' = d).
    { intros d' H' D'. pose proof (find_def_in m WF d' v H' D'). pose proof (find_def_in m WF d v Hd D). congruence. }
    destruct (it_block d) as [bd|] eqn:Bd.
    - assert (Lp : In p (labels f)) by (apply (IP p); change p with (snd (v, p)); apply in_map; auto).
      apply mem_In in Lp. rewrite Lp. destruct (mem p (reach k)) eqn:M.
      + apply mem_In, R in M. destruct (G3 bd p M) as (r & E2 & DD). rewrite E2. cbn [outcome_of]. split; [apply of_bool_def|].
        rewrite of_bool_ok, DD. split.
        * intros H1 d' bd' _ Hd' D' Bd'. rewrite (UNI d' Hd' D') in Bd'. rewrite Bd in Bd'. injection Bd' as <-. auto.
        * intros H1. eapply H1; eauto.
      + split; [discriminate|]. split; auto. intros _ d' bd' Rp. apply R, mem_In in Rp. congruence.
    - split; [discriminate|]. split; auto. intros _ d' bd' _ Hd' D' Bd'. rewrite (UNI d' Hd' D') in Bd'. congruence. }
  destruct (phi_listed m u) eqn:PL.
  - rewrite Ef, (find_func_in m WF f Hf), E, EP. split.
    + apply all_ok_def. intros [v p] H. apply ONE; auto.
    + rewrite all_ok_ok. split.
      * intros H f' bu pairs' _ Hf' Ef' Eb' EP' _ v p d bd I Rp Hd D Bd. rewrite EP in EP'. injection EP' as <-.
        rewrite Ef in Ef'. injection Ef' as Ef'. apply (func_inj m WF f f' Hf Hf') in Ef'. subst f'.
        apply (proj2 (ONE v p I)) with (d := d); auto.
      * intros H [v p] I. apply ONE; auto. intros d bd Rp Hd D Bd.
        assert (Rb : reaches f b).
        { unfold phi_listed in PL. rewrite Ef, Eb, E in PL. apply andb_true_iff in PL. destruct PL as [PL _].
          apply andb_true_iff in PL. destruct PL as [_ PL]. apply R, mem_In. auto. }
        exact (H f b pairs P Hf Ef Eb EP Rb v p d bd I Rp Hd D Bd).
  - split; [discriminate|]. split; auto. intros _ f' bu pairs' _ Hf' Ef' Eb' EP' Rb v p d bd I Rp Hd D Bd. exfalso.
    rewrite EP in EP'. injection EP' as <-. rewrite Ef in Ef'. injection Ef' as Ef'. apply (func_inj m WF f f' Hf Hf') in Ef'. subst f'.
    rewrite Eb in Eb'. injection Eb' as <-. apply R, mem_In in Rb.
    unfold phi_listed in PL. rewrite P, Ef, Eb, E, Rb in PL. cbn [andb] in PL.
    assert (existsb (fun x => match find_def m x with
                    | Some d => match it_func d, it_block d with Some _, Some _ => true | _, _ => false end
                    | None => false
                    end) (used_ids (it_inst u)) = true) as K; [|congruence].
    apply existsb_exists. exists v. split; [apply in_used; eapply phi_pair_uses; eauto|].
    rewrite (find_def_in m WF d v Hd D), Bd. destruct (item_block m d bd Hd Bd) as (fd & _ & _ & Fd & _). rewrite Fd. auto.
Qed.
End All.

Theorem validate_ids_exact m : well_formed m -> merges_can_end m ->
  validate_ids m <> Undef /\ (validate_ids m = Ok <-> ssa_rule m).
Proof.
  intros WF TAME. unfold validate_ids.
  set (s1 := of_bool (forallb first_block_ok (funcs m) && id_passes [] [] (items m))).
  set (s2 := all_ok (fun f => match reachable_blocks f with Some _ => Ok | None => Undef end) (funcs m)).
  set (s3 := all_ok (validate_phi m) (items m)).
  set (s4 := all_ok check_cfg (funcs m)).
  set (s5 := all_ok (check_def m) (items m)).
  set (s6 := all_ok (check_phi m) (items m)).
  assert (H1 : s1 = Ok <-> (forall f, In f (funcs m) -> first_block_ok f = true) /\ id_passes [] [] (items m) = true).
  { unfold s1. rewrite of_bool_ok, andb_true_iff, forallb_forall. tauto. }
  assert (H2 : s2 = Ok).
  { unfold s2. apply all_ok_ok. intros f Hf. destruct (reachable_blocks_ok f (labels_nodup m WF f Hf)) as (r & E & _).
    rewrite E. auto. }
  assert (H3 : s3 <> Undef /\ (s3 = Ok <-> forall u, In u (items m) -> phi_parents_rule m u)).
  { unfold s3. split; [apply all_ok_def; intros u Hu; apply validate_phi_spec; auto|]. rewrite all_ok_ok.
    split; intros H u Hu; apply (validate_phi_spec m WF u Hu); auto. }
  assert (H4 : s4 <> Undef /\ (s4 = Ok <-> forall f, In f (funcs m) -> targets_defined f = true /\ order_rule f)).
  { unfold s4. split; [apply all_ok_def; intros f Hf; apply (check_cfg_spec m WF TAME f Hf); auto|]. rewrite all_ok_ok.
    split; intros H f Hf; apply (check_cfg_spec m WF TAME f Hf); auto. }
  assert (H5 : s4 = Ok -> s5 <> Undef /\ (s5 = Ok <->
     forall d u x, In d (items m) -> In u (items m) -> defines d x -> uses u x -> use_rule m d u)).
  { intros K. pose proof (proj1 (proj2 H4) K) as RK; clear K; rename RK into K. apply check_defs_spec; auto. intros f Hf. apply K; auto. }
  assert (H6 : s1 = Ok -> s3 = Ok -> s4 = Ok -> s6 <> Undef /\ (s6 = Ok <-> forall u, In u (items m) -> phi_value_rule m u)).
  { intros K1 K3 K4. pose proof (proj1 (proj2 H4) K4) as RK4; clear K4; rename RK4 into K4. pose proof (proj1 (proj2 H3) K3) as RK3; clear K3; rename RK3 into K3. apply H1 in K1. destruct K1 as [_ K1]. apply id_passes_rule in K1. destruct K1 as [_ K1].
    assert (S : forall u, In u (items m) -> check_phi m u <> Undef /\ (check_phi m u = Ok <-> phi_value_rule m u)).
    { intros u Hu. apply check_phi_spec; auto. intros f Hf. apply K4; auto. }
    split; [apply all_ok_def; intros u Hu; apply S; auto|]. unfold s6. rewrite all_ok_ok. split; intros H u Hu; apply S; auto. }
  split.
  - apply then_def; [apply of_bool_def|]. intros K1. apply then_def; [congruence|]. intros _.
    apply then_def; [tauto|]. intros K3. apply then_def; [tauto|]. intros K4. apply then_def; [apply H5; auto|]. intros _. apply H6; auto.
  - rewrite !then_ok. split.
    + intros (K1 & _ & K3 & K4 & K5 & K6). pose proof (proj1 (proj2 (H5 K4)) K5) as R5. pose proof (proj1 (proj2 (H6 K1 K3 K4)) K6) as R6.
      apply H1 in K1. destruct K1 as [F ID]. apply id_passes_rule in ID. destruct ID as [ID1 ID2]. pose proof (proj1 (proj2 H3) K3) as RK3; clear K3; rename RK3 into K3. pose proof (proj1 (proj2 H4) K4) as RK4; clear K4; rename RK4 into K4.
      constructor; auto.
      * intros f b t Hf. apply targets_defined_rule. apply K4; auto.
      * intros f b0 rest b Hf. apply first_block_rule. auto.
      * intros f a b Hf. apply K4; auto.
      * intros d u x f bd bu Hd Hu D U Bd Hf. intros. eapply (R5 d u x); eauto.
      * intros d u x fd Hd Hu D U. apply (R5 d u x); auto.
      * intros u f bu Hu P Hf Ef Eb. destruct (K3 u Hu P f bu Hf Ef Eb) as (pairs & E & A & B). exists pairs.
        split; auto. split; auto. split; auto. intros Rb v p d bd I Rp Hd D Bd.
        exact (R6 u Hu f bu pairs P Hf Ef Eb E Rb v p d bd I Rp Hd D Bd).
    + intros R. destruct R as [R1 R2 R3 R4 R5 R6 R7 R8].
      assert (K1 : s1 = Ok).
      { apply H1. split; [|apply id_passes_rule; auto]. intros f Hf. apply first_block_rule. intros b0 rest b. apply R4; auto. }
      assert (K3 : s3 = Ok).
      { apply (proj2 H3). intros u Hu P f bu Hf Ef Eb. destruct (R8 u f bu Hu P Hf Ef Eb) as (pairs & A & B & C & _). exists pairs. auto. }
      assert (K4 : s4 = Ok).
      { apply (proj2 H4). intros f Hf. split; [apply targets_defined_rule; intros b t; apply R3; auto|]. intros a b. apply R5; auto. }
      split; auto. split; auto. split; auto. split; auto. split.
      * apply (proj2 (H5 K4)). intros d u x Hd Hu D U. split; [|intros fd; eapply R7; eauto].
        intros f bd bu Bd Hf Ef Eb P Rb. eapply (R6 d u x); eauto.
      * apply (proj2 (H6 K1 K3 K4)). intros u Hu f bu pairs P Hf Ef Eb E Rb v p d bd I Rp Hd D Bd.
        destruct (R8 u f bu Hu P Hf Ef Eb) as (pairs' & A & _ & _ & C). assert (pairs' = pairs) as -> by congruence.
        exact (C Rb v p d bd I Rp Hd D Bd).
Qed.
