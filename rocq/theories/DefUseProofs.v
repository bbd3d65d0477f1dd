(** Proofs about DefUse.v. *)
From Coq Require Import Sorting.Sorted.
From Verif Require Import Base OperandTypes DefUse DefUseSpec.
Local Open Scope N_scope.

(** ** The ordered set *)
Definition lt2 (a b : N * N) : Prop := fst a < fst b \/ (fst a = fst b /\ snd a < snd b).
Lemma entry_less_spec : forall a b, entry_less a b = true <-> lt2 a b.
Proof.
  intros a b. unfold entry_less, lt2. destruct (N.ltb_spec (fst a) (fst b)); [intuition|].
  destruct (N.ltb_spec (fst b) (fst a)); [split; [discriminate | lia]|]. rewrite N.ltb_lt. lia.
Qed.
Lemma entry_less_false : forall a b, entry_less a b = false <-> ~ lt2 a b.
Proof. intros a b. rewrite <- entry_less_spec. destruct (entry_less a b); intuition congruence. Qed.
Lemma lt2_trans : forall a b c, lt2 a b -> lt2 b c -> lt2 a c.
Proof. unfold lt2. intros [] [] []; cbn. lia. Qed.
Lemma lt2_irrefl : forall a, ~ lt2 a a.
Proof. unfold lt2. intros []; cbn. lia. Qed.
Lemma lt2_total : forall a b, ~ lt2 a b -> ~ lt2 b a -> a = b.
Proof. unfold lt2. intros [] []; cbn. intros. f_equal; lia. Qed.

Notation ssorted := (StronglySorted lt2).
Lemma ssorted_cons : forall x s, ssorted (x :: s) <-> ssorted s /\ forall y, In y s -> lt2 x y.
Proof. intros x s. split; [intros H; inversion H; subst; split; [assumption | apply Forall_forall; assumption] | intros (A & B); constructor; [exact A | apply Forall_forall; exact B]]. Qed.

Lemma set_insert_In : forall e s x, In x (set_insert e s) <-> x = e \/ In x s.
Proof.
  intros e s x. induction s as [|y s IH]; cbn; [intuition|].
  destruct (entry_less e y) eqn:E1; [cbn; intuition|]. destruct (entry_less y e) eqn:E2; [cbn; rewrite IH; intuition|].
  apply entry_less_false in E1, E2. rewrite (lt2_total _ _ E1 E2). cbn. intuition.
Qed.
Lemma set_insert_sorted : forall e s, ssorted s -> ssorted (set_insert e s).
Proof.
  intros e s. induction s as [|y s IH]; intros H; cbn; [constructor; constructor|].
  apply ssorted_cons in H as H2. destruct H2 as (H2 & H3).
  destruct (entry_less e y) eqn:E1.
  { apply entry_less_spec in E1. apply ssorted_cons. split; [exact H|]. intros z [<-|I]; [exact E1 | exact (lt2_trans _ _ _ E1 (H3 z I))]. }
  destruct (entry_less y e) eqn:E2; [|exact H]. apply entry_less_spec in E2. apply ssorted_cons. split; [apply IH; exact H2|].
  intros z I. apply set_insert_In in I. destruct I as [->|I]; [exact E2 | exact (H3 z I)].
Qed.
Lemma set_erase_In : forall e s x, ssorted s -> (In x (set_erase e s) <-> In x s /\ x <> e).
Proof.
  intros e s x. induction s as [|y s IH]; intros H; cbn; [intuition|].
  apply ssorted_cons in H as H2. destruct H2 as (H2 & H3).
  destruct (entry_less y e) eqn:E1.
  { apply entry_less_spec in E1. cbn. rewrite (IH H2). split; [|intuition]. intros [<-|(A & B)]; [|auto].
    split; [auto|]. intros ->. exact (lt2_irrefl _ E1). }
  destruct (entry_less e y) eqn:E2.
  { apply entry_less_spec in E2. cbn. split; [|intuition]. intros I. split; [exact I|]. intros ->.
    destruct I as [->|I]; [exact (lt2_irrefl _ E2) | exact (lt2_irrefl _ (lt2_trans _ _ _ E2 (H3 _ I)))]. }
  apply entry_less_false in E1, E2. rewrite <- (lt2_total _ _ E1 E2). split; [|intuition congruence].
  intros I. split; [auto|]. intros ->. exact (lt2_irrefl _ (H3 _ I)).
Qed.
Lemma set_erase_sorted : forall e s, ssorted s -> ssorted (set_erase e s).
Proof.
  intros e s. induction s as [|y s IH]; intros H; cbn; [exact H|]. apply ssorted_cons in H as H2. destruct H2 as (H2 & H3).
  destruct (entry_less y e); [|destruct (entry_less e y); assumption].
  apply ssorted_cons. split; [apply IH; exact H2|]. intros z I. apply (set_erase_In e s z H2) in I. apply H3, I.
Qed.
Lemma erase_all_In : forall (f : N -> N) inst ids s x, ssorted s ->
  ssorted (fold_left (fun s id => set_erase (f id, inst) s) ids s) /\
  (In x (fold_left (fun s id => set_erase (f id, inst) s) ids s) <-> In x s /\ forall id, In id ids -> x <> (f id, inst)).
Proof.
  intros f inst ids. induction ids as [|id ids IH]; intros s x H; cbn [fold_left].
  - split; [exact H|]. intuition.
  - destruct (IH (set_erase (f id, inst) s) x (set_erase_sorted _ _ H)) as (A & B). split; [exact A|].
    rewrite B, (set_erase_In _ _ _ H). cbn. split.
    + intros ((I1 & N1) & F). split; [exact I1|]. intros id' [<-|I2]; auto.
    + intros (I1 & F). auto.
Qed.

Lemma lower_bound_split : forall e s, ssorted s -> let '(a, b) := set_lower_bound e s in
  s = a ++ b /\ (forall x, In x a -> lt2 x e) /\ (forall x, In x b -> ~ lt2 x e).
Proof.
  intros e s. induction s as [|y s IH]; intros H; cbn; [intuition|]. apply ssorted_cons in H as H2. destruct H2 as (H2 & H3).
  destruct (entry_less y e) eqn:E1.
  - specialize (IH H2). destruct (set_lower_bound e s) as [a b]. destruct IH as (-> & A & B). split; [reflexivity|]. split; [|exact B].
    intros x [<-|I]; [apply entry_less_spec; exact E1 | exact (A x I)].
  - apply entry_less_false in E1. split; [reflexivity|]. split; [intros x []|]. intros x [<-|I]; [exact E1|].
    intros L. apply E1. exact (lt2_trans _ _ _ (H3 x I) L).
Qed.
Lemma users_range_split : forall d s, ssorted s -> (forall x, In x s -> d <= fst x) -> let '(a, b) := users_range d s in
  s = a ++ b /\ (forall x, In x a -> fst x = d) /\ (forall x, In x b -> d < fst x).
Proof.
  intros d s. induction s as [|y s IH]; intros H G; cbn; [intuition|]. apply ssorted_cons in H as H2. destruct H2 as (H2 & H3).
  destruct (N.eqb_spec (fst y) d) as [E|E].
  - specialize (IH H2 (fun x I => G x (or_intror I))). destruct (users_range d s) as [a b]. destruct IH as (-> & A & B). split; [reflexivity|]. split; [|exact B].
    intros x [<-|I]; [exact E | exact (A x I)].
  - split; [reflexivity|]. split; [intros x []|]. pose proof (G y (or_introl eq_refl)). intros x [<-|I]; [lia|].
    destruct (H3 x I) as [L|(L & _)]; lia.
Qed.
Lemma ssorted_app : forall a b, ssorted (a ++ b) <-> ssorted a /\ ssorted b /\ forall x y, In x a -> In y b -> lt2 x y.
Proof.
  induction a as [|z a IH]; intros b; cbn [app].
  - split; [intros H; split; [constructor | split; [exact H | intros x y []]] | intuition].
  - rewrite !ssorted_cons, IH. split.
    + intros ((A & B & C) & D). repeat split; auto; [intros y I; apply D, in_or_app; auto|].
      intros x y [<-|I] J; [apply D, in_or_app; auto | auto].
    + intros ((A & D) & B & C). repeat split; auto; [intros x y I J; apply C; [right; exact I | exact J]|].
      intros y I. apply in_app_or in I. destruct I as [I|I]; [auto | apply C; [left; reflexivity | exact I]].
Qed.

(** The range of a definition: what is in it, and what remains without it. *)
Lemma range_spec : forall d s, ssorted s ->
  let '(before, from) := set_lower_bound (d, 0) s in let '(range, after) := users_range d from in
  ssorted (before ++ after) /\ (forall x, In x (before ++ after) <-> In x s /\ fst x <> d) /\
  ssorted range /\ (forall x, In x range <-> In x s /\ fst x = d).
Proof.
  intros d s H. pose proof (lower_bound_split (d, 0) s H) as L. destruct (set_lower_bound (d, 0) s) as [before from].
  destruct L as (E & A & B). subst s. apply ssorted_app in H. destruct H as (H1 & H2 & H3).
  assert (G : forall x, In x from -> d <= fst x). { intros x I. specialize (B x I). unfold lt2 in B. cbn in B. lia. }
  assert (G' : forall x, In x before -> fst x < d). { intros x I. specialize (A x I). unfold lt2 in A. cbn in A. lia. }
  pose proof (users_range_split d from H2 G) as R. destruct (users_range d from) as [range after]. destruct R as (-> & C & D).
  apply ssorted_app in H2. destruct H2 as (H4 & H5 & H6).
  split; [apply ssorted_app; split; [exact H1|]; split; [exact H5|]; intros x y I J; apply H3; [exact I | apply in_or_app; auto]|].
  split.
  - intros x. rewrite !in_app_iff. split.
    + intros [I|I]; [specialize (G' x I) | specialize (D x I)]; (split; [auto | lia]).
    + intros ([I|[I|I]] & N); [auto | destruct (N (C x I)) | auto].
  - split; [exact H4|]. intros x. rewrite !in_app_iff. split.
    + intros I. split; [auto | exact (C x I)].
    + intros ([I|[I|I]] & N); [specialize (G' x I); lia | exact I | specialize (D x I); lia].
Qed.

(** ** Uses in a content *)
Lemma is_use_type_spec : forall t, is_use_type t = true <-> In t [T_ID; T_TYPE_ID; T_MEMORY_SEMANTICS_ID; T_SCOPE_ID].
Proof. intros t. destruct t; cbn; intuition congruence. Qed.
Definition use_ids (ops : list (otype * N)) : list N := map snd (filter (fun o => is_use_type (fst o)) ops).
Lemma use_ids_spec : forall c id, In id (use_ids (c_operands c)) <-> mentions c id.
Proof.
  intros c id. unfold use_ids, mentions, uses_at. rewrite in_map_iff. split.
  - intros ([t w] & <- & I). apply filter_In in I. destruct I as (I & F). cbn in F |- *. apply In_nth_error in I. destruct I as (k & E).
    exists (N.of_nat k), t. rewrite Nnat.Nat2N.id. split; [exact E | apply is_use_type_spec; exact F].
  - intros (k & t & E & I). exists (t, id). split; [reflexivity|]. apply filter_In. split; [exact (nth_error_In _ _ E) | apply is_use_type_spec; exact I].
Qed.

(** ** The invariant *)
Record inv (s : sstate) (m : manager) : Prop := {
  inv_defs : forall id, id_to_def m id = s_defs s id;
  inv_used : forall u, inst_to_used_ids m u = match s_analysed s u with Some c => Some (use_ids (c_operands c)) | None => None end;
  inv_sorted : ssorted (id_to_users m);
  inv_users : forall d u, In (d, u) (id_to_users m) <-> exists id c, s_analysed s u = Some c /\ mentions c id /\ s_defs s id = Some d;
  inv_result : forall id d, s_defs s id = Some d -> d <> 0 /\ id <> 0 /\ c_result (s_heap s d) = id
}.

Lemma inv_start : inv s_start empty_manager.
Proof. constructor; cbn; try reflexivity; try discriminate; [constructor|]. intros d u. split; [intros [] | intros (id & c & E & _); discriminate E]. Qed.

Lemma inv_get_def : forall s m id, inv s m -> get_def m id = match s_defs s id with Some d => d | None => 0 end.
Proof. intros s m id H. unfold get_def. rewrite (inv_defs _ _ H). reflexivity. Qed.

Lemma upd_same : forall A (f : N -> A) k v, upd f k v k = v.
Proof. intros A f k v. unfold upd. rewrite N.eqb_refl. reflexivity. Qed.
Lemma upd_other : forall A (f : N -> A) k v x, x <> k -> upd f k v x = f x.
Proof. intros A f k v x H. unfold upd. destruct (N.eqb_spec x k); [contradiction | reflexivity]. Qed.
Lemma upd_cases : forall A (f : N -> A) k v x, (x = k /\ upd f k v x = v) \/ (x <> k /\ upd f k v x = f x).
Proof. intros A f k v x. destruct (N.eq_dec x k) as [->|H]; [left; split; [reflexivity | apply upd_same] | right; split; [exact H | apply upd_other; exact H]]. Qed.

(** Erasing the records of an instruction forgets that it was analysed. *)
Definition s_forget (s : sstate) (i : N) : sstate := mkS (s_heap s) (s_defs s) (upd (s_analysed s) i None).
Lemma erase_inv : forall s m i, inv s m -> inv (s_forget s i) (erase_use_records m i).
Proof.
  intros s m i H. unfold erase_use_records. rewrite (inv_used _ _ H).
  destruct (s_analysed s i) as [c|] eqn:E.
  - set (ids := use_ids (c_operands c)). constructor; cbn [id_to_def id_to_users inst_to_used_ids s_forget s_defs s_analysed s_heap].
    + exact (inv_defs _ _ H).
    + intros u. destruct (upd_cases _ (inst_to_used_ids m) i None u) as [(-> & ->)|(N1 & ->)]; [rewrite upd_same; reflexivity|].
      rewrite (upd_other _ (s_analysed s) i None u N1). apply (inv_used _ _ H).
    + exact (proj1 (erase_all_In (get_def m) i ids _ (0, 0) (inv_sorted _ _ H))).
    + intros d u. rewrite (proj2 (erase_all_In (get_def m) i ids _ (d, u) (inv_sorted _ _ H))), (inv_users _ _ H). split.
      * intros ((id & c' & A & M & D) & F). exists id, c'. repeat split; auto. rewrite upd_other; [exact A|]. intros ->.
        rewrite E in A. injection A as <-. apply (F id); [apply use_ids_spec; exact M|]. rewrite (inv_get_def _ _ id H), D. reflexivity.
      * intros (id & c' & A & M & D). destruct (upd_cases _ (s_analysed s) i None u) as [(-> & Q)|(N1 & Q)]; rewrite Q in A; [discriminate A|].
        split; [exists id, c'; auto|]. intros id' _ X. injection X as _ ->. exact (N1 eq_refl).
    + exact (inv_result _ _ H).
  - assert (Q : forall u, upd (s_analysed s) i None u = s_analysed s u).
    { intros u. destruct (upd_cases _ (s_analysed s) i None u) as [(-> & ->)|(N1 & ->)]; [symmetry; exact E | reflexivity]. }
    constructor; cbn [s_forget s_defs s_analysed s_heap]; try (apply H).
    + intros u. rewrite Q. apply H.
    + intros d u. rewrite Q. apply H.
Qed.

Lemma clear_inv : forall s m i, inv s m -> clear_ok s i -> inv (s_clear s i) (clear_inst (s_heap s) m i).
Proof.
  intros s m i H (Ni & C). unfold clear_inst, s_clear. rewrite (inv_used _ _ H). destruct (s_analysed s i) as [c|] eqn:E; [|exact H].
  pose proof (erase_inv s m i H) as H1. set (m1 := erase_use_records m i) in *. destruct (N.eqb_spec (c_result (s_heap s i)) 0) as [R|R].
  - exact H1.
  - pose proof (range_spec i (id_to_users m1) (inv_sorted _ _ H1)) as RS.
    destruct (set_lower_bound (i, 0) (id_to_users m1)) as [before from]. destruct (users_range i from) as [range after].
    destruct RS as (S1 & I1 & _ & _). set (r := c_result (s_heap s i)) in *.
    constructor; cbn [id_to_def id_to_users inst_to_used_ids s_defs s_analysed s_heap].
    + intros id. destruct (upd_cases _ (id_to_def m1) r None id) as [(-> & ->)|(N1 & ->)]; [rewrite upd_same; reflexivity|].
      rewrite (upd_other _ (s_defs s) r None id N1). apply (inv_defs _ _ H1).
    + exact (inv_used _ _ H1).
    + exact S1.
    + intros d u. rewrite I1, (inv_users _ _ H1). cbn [fst s_forget s_defs s_analysed]. split.
      * intros ((id & c' & A & M & D) & N1). exists id, c'. repeat split; auto. rewrite upd_other; [exact D|]. intros ->.
        destruct C as [C|C]; rewrite C in D; [injection D as <-; exact (N1 eq_refl) | discriminate D].
      * intros (id & c' & A & M & D). destruct (upd_cases _ (s_defs s) r None id) as [(-> & Q)|(N1 & Q)]; rewrite Q in D; [discriminate D|].
        split; [exists id, c'; auto|]. intros ->. apply N1. symmetry. exact (proj2 (proj2 (inv_result _ _ H _ _ D))).
    + intros id d D. destruct (upd_cases _ (s_defs s) r None id) as [(-> & Q)|(N1 & Q)]; rewrite Q in D; [discriminate D|].
      exact (inv_result _ _ H _ _ D).
Qed.

Lemma clear_heap : forall s i, s_heap (s_clear s i) = s_heap s.
Proof. intros s i. unfold s_clear. destruct (s_analysed s i); reflexivity. Qed.
Lemma def_heap : forall s i, s_heap (s_def s i) = s_heap s.
Proof.
  intros s i. unfold s_def. destruct (c_result (s_heap s i) =? 0); [apply clear_heap|].
  cbn [s_heap]. destruct (s_defs s (c_result (s_heap s i))); [apply clear_heap | reflexivity].
Qed.

Lemma def_inv : forall s m i, inv s m -> def_ok s i ->
  (c_result (s_heap s i) = 0 -> clear_ok s i) -> inv (s_def s i) (analyze_inst_def (s_heap s) m i).
Proof.
  intros s m i H (Ni & U) Hc. unfold analyze_inst_def, s_def. destruct (N.eqb_spec (c_result (s_heap s i)) 0) as [R|R].
  { apply clear_inv; [exact H | apply Hc; exact R]. }
  set (r := c_result (s_heap s i)) in *. specialize (U R). rewrite (inv_defs _ _ H).
  set (s1 := match s_defs s r with Some j => s_clear s j | None => s end).
  set (m1 := match s_defs s r with Some old => clear_inst (s_heap s) m old | None => m end).
  assert (H1 : inv s1 m1 /\ s_heap s1 = s_heap s /\ (forall u c, s_analysed s1 u = Some c -> ~ mentions c r) /\
               (forall id d, id <> r -> s_defs s1 id = Some d -> s_defs s id = Some d)).
  { unfold s1, m1. destruct (s_defs s r) as [j|] eqn:E.
    - destruct (inv_result _ _ H _ _ E) as (Nj & _ & Rj).
      split; [apply clear_inv; [exact H | split; [exact Nj | left; rewrite Rj; exact E]]|]. split; [apply clear_heap|]. split.
      + intros u c A M. unfold s_clear in A. destruct (s_analysed s j) as [cj|] eqn:Aj.
        * cbn in A. destruct (upd_cases _ (s_analysed s) j None u) as [(-> & Q)|(N1 & Q)]; rewrite Q in A; [discriminate A|].
          specialize (U u c A M). injection U as ->. exact (N1 eq_refl).
        * specialize (U u c A M). injection U as ->. rewrite Aj in A. discriminate A.
      + intros id d N1 D. unfold s_clear in D. destruct (s_analysed s j); [|exact D]. cbn in D.
        destruct (c_result (s_heap s j) =? 0); [exact D|]. destruct (upd_cases _ (s_defs s) (c_result (s_heap s j)) None id) as [(-> & Q)|(N2 & Q)]; rewrite Q in D; [discriminate D | exact D].
    - split; [exact H|]. split; [reflexivity|]. split; [|auto]. intros u c A M. specialize (U u c A M). discriminate U. }
  destruct H1 as (H1 & Hh & NM & DD). constructor; cbn [id_to_def id_to_users inst_to_used_ids s_defs s_analysed s_heap].
  - intros id. destruct (upd_cases _ (id_to_def m1) r (Some i) id) as [(-> & ->)|(N1 & ->)]; [rewrite upd_same; reflexivity|].
    rewrite (upd_other _ (s_defs s1) r (Some i) id N1). apply (inv_defs _ _ H1).
  - exact (inv_used _ _ H1).
  - exact (inv_sorted _ _ H1).
  - intros d u. rewrite (inv_users _ _ H1). split; intros (id & c & A & M & D); exists id, c; repeat split; auto.
    + rewrite upd_other; [exact D|]. intros ->. exact (NM u c A M).
    + rewrite upd_other in D; [exact D|]. intros ->. exact (NM u c A M).
  - intros id d D. rewrite Hh. destruct (upd_cases _ (s_defs s1) r (Some i) id) as [(-> & Q)|(N1 & Q)]; rewrite Q in D.
    + injection D as <-. auto.
    + exact (inv_result _ _ H _ _ (DD id d N1 D)).
Qed.

(** Analysing the uses: after some operands. *)
Lemma use_loop_inv : forall ops s m i done,
  (forall id, In id (use_ids ops) -> s_defs s id <> None) ->
  (forall id, id_to_def m id = s_defs s id) ->
  (forall u, inst_to_used_ids m u = if u =? i then Some (use_ids done) else match s_analysed s u with Some c => Some (use_ids (c_operands c)) | None => None end) ->
  ssorted (id_to_users m) ->
  (forall d u, In (d, u) (id_to_users m) <->
     (u <> i /\ exists id c, s_analysed s u = Some c /\ mentions c id /\ s_defs s id = Some d) \/
     (u = i /\ exists id, In id (use_ids done) /\ s_defs s id = Some d)) ->
  (forall id d, s_defs s id = Some d -> d <> 0) ->
  exists m', use_loop m i ops = Some m' /\
  (forall id, id_to_def m' id = s_defs s id) /\
  (forall u, inst_to_used_ids m' u = if u =? i then Some (use_ids (done ++ ops)) else match s_analysed s u with Some c => Some (use_ids (c_operands c)) | None => None end) /\
  ssorted (id_to_users m') /\
  (forall d u, In (d, u) (id_to_users m') <->
     (u <> i /\ exists id c, s_analysed s u = Some c /\ mentions c id /\ s_defs s id = Some d) \/
     (u = i /\ exists id, In id (use_ids (done ++ ops)) /\ s_defs s id = Some d)).
Proof.
  induction ops as [|[t w] ops IH]; intros s m i done Hd H1 H2 H3 H4 H5; cbn [use_loop].
  - exists m. rewrite app_nil_r. auto.
  - assert (UA : forall a b, use_ids (a ++ b) = use_ids a ++ use_ids b) by (intros; unfold use_ids; rewrite filter_app, map_app; reflexivity).
    assert (AA : done ++ (t, w) :: ops = (done ++ [(t, w)]) ++ ops) by (rewrite <- app_assoc; reflexivity). rewrite AA.
    destruct (is_use_type t) eqn:T.
    + assert (U1 : use_ids [(t, w)] = [w]) by (unfold use_ids; cbn; rewrite T; reflexivity).
      assert (Dw : s_defs s w <> None). { apply Hd. unfold use_ids. cbn. rewrite T. left. reflexivity. }
      destruct (s_defs s w) as [d0|] eqn:E; [|congruence]. unfold get_def. rewrite H1, E.
      destruct (N.eqb_spec d0 0) as [Z|_]; [destruct (H5 _ _ E Z)|].
      apply IH; cbn [id_to_def id_to_users inst_to_used_ids]; auto.
      * intros id I. apply Hd. unfold use_ids in *. cbn. rewrite T. right. exact I.
      * intros u. rewrite (H2 i), N.eqb_refl. unfold upd. destruct (N.eqb_spec u i) as [->|N1]; [rewrite UA, U1; reflexivity|].
        rewrite H2. destruct (N.eqb_spec u i); [contradiction | reflexivity].
      * apply set_insert_sorted. exact H3.
      * intros d u. rewrite set_insert_In, H4, UA, U1. split.
        -- intros [X|[X|(-> & id & I & D)]]; [injection X as -> ->; right; split; [reflexivity|]; exists w; split; [apply in_or_app; right; left; reflexivity | exact E] | left; exact X |].
           right. split; [reflexivity|]. exists id. split; [apply in_or_app; left; exact I | exact D].
        -- intros [X|(-> & id & I & D)]; [right; left; exact X|]. apply in_app_or in I. destruct I as [I|[->|[]]].
           ++ right. right. split; [reflexivity|]. exists id. auto.
           ++ left. rewrite E in D. injection D as ->. reflexivity.
    + assert (U1 : use_ids [(t, w)] = []) by (unfold use_ids; cbn; rewrite T; reflexivity).
      apply IH; auto.
      * intros id I. apply Hd. unfold use_ids in *. cbn. rewrite T. exact I.
      * intros u. rewrite H2, UA, U1, app_nil_r. reflexivity.
      * intros d u. rewrite H4, UA, U1, app_nil_r. reflexivity.
Qed.

Lemma use_inv : forall s m i, inv s m -> use_ok s i -> exists m', analyze_inst_use (s_heap s) m i = Some m' /\ inv (s_use s i) m'.
Proof.
  intros s m i H (Ni & U). unfold analyze_inst_use.
  set (m1 := match inst_to_used_ids m i with Some (_ :: _) => erase_use_records m i | _ => m end).
  assert (H1 : (forall id, id_to_def m1 id = s_defs s id) /\
               (forall u, u <> i -> inst_to_used_ids m1 u = match s_analysed s u with Some c => Some (use_ids (c_operands c)) | None => None end) /\
               ssorted (id_to_users m1) /\
               forall d u, In (d, u) (id_to_users m1) <-> u <> i /\ exists id c, s_analysed s u = Some c /\ mentions c id /\ s_defs s id = Some d).
  { pose proof (erase_inv s m i H) as HE.
    assert (K : inv (s_forget s i) m1 \/ (m1 = m /\ forall c, s_analysed s i = Some c -> use_ids (c_operands c) = [])).
    { unfold m1. rewrite (inv_used _ _ H). destruct (s_analysed s i) as [c|] eqn:A.
      - destruct (use_ids (c_operands c)) eqn:Q; [right; split; [reflexivity|]; intros c' X; injection X as <-; exact Q | left; exact HE].
      - right. split; [reflexivity|]. discriminate. }
    destruct K as [K|(-> & K)].
    - split; [exact (inv_defs _ _ K)|]. split; [intros u N1; rewrite (inv_used _ _ K); cbn [s_forget s_analysed]; rewrite upd_other by exact N1; reflexivity|].
      split; [exact (inv_sorted _ _ K)|]. intros d u. rewrite (inv_users _ _ K). cbn [s_forget s_analysed s_defs]. split.
      + intros (id & c & A & M & D). destruct (upd_cases _ (s_analysed s) i None u) as [(-> & Q)|(N1 & Q)]; rewrite Q in A; [discriminate A|].
        split; [exact N1|]. exists id, c. auto.
      + intros (N1 & id & c & A & M & D). exists id, c. rewrite upd_other by exact N1. auto.
    - split; [exact (inv_defs _ _ H)|]. split; [intros u N1; apply (inv_used _ _ H)|]. split; [exact (inv_sorted _ _ H)|].
      intros d u. rewrite (inv_users _ _ H). split; [|intros (_ & X); exact X]. intros (id & c & A & M & D).
      split; [|exists id, c; auto]. intros ->. apply use_ids_spec in M. rewrite (K c A) in M. exact M. }
  destruct H1 as (A1 & A2 & A3 & A4).
  destruct (use_loop_inv (c_operands (s_heap s i)) s
              (mkManager (id_to_def m1) (id_to_users m1) (upd (inst_to_used_ids m1) i (Some []))) i []) as (m' & E & B1 & B2 & B3 & B4);
    cbn [id_to_def id_to_users inst_to_used_ids]; auto.
  - intros id I. apply use_ids_spec in I. exact (U id I).
  - intros u. unfold upd. destruct (N.eqb_spec u i) as [->|N1]; [reflexivity | apply A2; exact N1].
  - intros d u. rewrite A4. split; [auto|]. intros [X|(_ & id & [] & _)]. exact X.
  - intros id d D. exact (proj1 (inv_result _ _ H _ _ D)).
  - exists m'. split; [exact E|]. cbn [app] in B2, B4. constructor; cbn [s_use s_defs s_analysed s_heap].
    + exact B1.
    + intros u. rewrite B2. unfold upd. destruct (N.eqb_spec u i); reflexivity.
    + exact B3.
    + intros d u. rewrite B4. split.
      * intros [(N1 & id & c & A & M & D)|(-> & id & I & D)]; [exists id, c; rewrite upd_other by exact N1; auto|].
        exists id, (s_heap s i). rewrite upd_same. split; [reflexivity|]. split; [apply use_ids_spec; exact I | exact D].
      * intros (id & c & A & M & D). destruct (upd_cases _ (s_analysed s) i (Some (s_heap s i)) u) as [(-> & Q)|(N1 & Q)]; rewrite Q in A.
        -- injection A as <-. right. split; [reflexivity|]. exists id. split; [apply use_ids_spec; exact M | exact D].
        -- left. split; [exact N1|]. exists id, c. auto.
    + exact (inv_result _ _ H).
Qed.

Lemma clear_ok_zero : forall s m i, inv s m -> i <> 0 -> c_result (s_heap s i) = 0 -> clear_ok s i.
Proof.
  intros s m i H N R. split; [exact N|]. right. rewrite R. destruct (s_defs s 0) as [d|] eqn:E; [|reflexivity].
  destruct (inv_result _ _ H _ _ E) as (_ & X & _). destruct (X eq_refl).
Qed.
Lemma def_inv' : forall s m i, inv s m -> def_ok s i -> inv (s_def s i) (analyze_inst_def (s_heap s) m i).
Proof. intros s m i H D. apply def_inv; [exact H | exact D|]. intros R. apply (clear_ok_zero s m); [exact H | exact (proj1 D) | exact R]. Qed.

Lemma lines_inv : forall is s s' m, inv s m -> spec_lines s is s' ->
  exists m', analyze_lines (s_heap s) m is = Some m' /\ inv s' m' /\ s_heap s' = s_heap s.
Proof.
  induction is as [|i is IH]; intros s s' m H L; inversion L as [|? ? ? ? Hd Hu Hr]; subst; cbn [analyze_lines].
  - exists m. auto.
  - unfold analyze_one. pose proof (def_inv' s m i H Hd) as H1.
    destruct (use_inv _ _ i H1 Hu) as (m2 & E & H2). rewrite def_heap in E. rewrite E.
    destruct (IH _ _ m2 H2 Hr) as (m3 & E3 & H7 & H8). cbn [s_use s_heap] in E3, H8. rewrite def_heap in E3, H8. exists m3. auto.
Qed.

Lemma step_inv : forall s c s' m, inv s m -> spec_step s c s' ->
  exists m', perform (s_heap s, m) c = Some (s_heap s', m') /\ inv s' m'.
Proof.
  intros s c s' m H St. destruct St; cbn [perform].
  - exists m. split; [reflexivity|]. destruct H0 as (N0 & K). constructor; cbn [s_change s_defs s_analysed s_heap]; try apply H.
    intros id d D. destruct (inv_result _ _ H _ _ D) as (X & Y & Z). split; [exact X|]. split; [exact Y|].
    destruct (upd_cases _ (s_heap s) i c d) as [(-> & ->)|(_ & ->)]; [apply K; exact D | exact Z].
  - exists (analyze_inst_def (s_heap s) m i). rewrite def_heap. split; [reflexivity | apply def_inv'; assumption].
  - destruct (use_inv _ _ _ H H0) as (m' & E & I). exists m'. rewrite E. auto.
  - destruct (lines_inv _ _ _ _ H H0) as (m' & E & I & Hh). exists m'. rewrite Hh. cbn [analyze_lines] in E. unfold analyze_inst_def_use. rewrite E. auto.
  - pose proof (def_inv' s m i H H2) as H4. destruct (use_inv _ _ i H4 H3) as (m' & E & I). exists m'. rewrite def_heap in E.
    unfold update_def_use. destruct (N.eqb_spec (c_result (s_heap s i)) 0); [contradiction|]. rewrite (inv_defs _ _ H), H1, E. cbn [s_use s_heap]. rewrite def_heap. auto.
  - destruct (use_inv _ _ i H H1) as (m' & E & I). exists m'. unfold update_def_use. rewrite (inv_defs _ _ H).
    assert (K : (if c_result (s_heap s i) =? 0 then m else match s_defs s (c_result (s_heap s i)) with Some _ => m | None => analyze_inst_def (s_heap s) m i end) = m).
    { destruct (N.eqb_spec (c_result (s_heap s i)) 0); [reflexivity|]. destruct H0 as [H0|H0]; [contradiction|]. destruct (s_defs s (c_result (s_heap s i))); [reflexivity | contradiction]. }
    rewrite K, E. auto.
  - exists (clear_inst (s_heap s) m i). rewrite clear_heap. split; [reflexivity | apply clear_inv; assumption].
Qed.
Lemma steps_inv : forall cs s s' m, inv s m -> spec_steps s cs s' ->
  exists m', perform_all (s_heap s, m) cs = Some (s_heap s', m') /\ inv s' m'.
Proof.
  induction cs as [|c cs IH]; intros s s' m H St; inversion St; subst; cbn [perform_all].
  - exists m. auto.
  - destruct (step_inv _ _ _ _ H H3) as (m1 & E & H1). rewrite E. exact (IH _ _ _ H1 H5).
Qed.

(** ** Answers *)
Lemma users_of_spec : forall s m d, inv s m ->
  StronglySorted N.lt (users_of m d) /\ forall u, In u (users_of m d) <-> In (d, u) (id_to_users m).
Proof.
  intros s m d H. unfold users_of. pose proof (range_spec d (id_to_users m) (inv_sorted _ _ H)) as RS.
  destruct (set_lower_bound (d, 0) (id_to_users m)) as [before from]. cbn [snd]. destruct (users_range d from) as [range after]. cbn [fst].
  destruct RS as (_ & _ & S1 & I1). split.
  - assert (F : forall x, In x range -> fst x = d) by (intros x I; apply I1; exact I). clear I1. induction range as [|x range IH]; [constructor|].
    apply ssorted_cons in S1. destruct S1 as (S1 & S2). cbn. constructor; [apply IH; [exact S1 | intros y I; apply F; right; exact I]|].
    apply Forall_forall. intros u I. apply in_map_iff in I. destruct I as (y & <- & I). specialize (S2 y I).
    pose proof (F x (or_introl eq_refl)). pose proof (F y (or_intror I)). unfold lt2 in S2. lia.
  - intros u. rewrite in_map_iff. split.
    + intros ([d' u'] & <- & I). apply I1 in I. destruct I as (I & E). cbn in E. subst d'. exact I.
    + intros I. exists (d, u). split; [reflexivity|]. apply I1. auto.
Qed.

Lemma while_each_all : forall l, while_each (fun _ => true) l = (true, l).
Proof. induction l as [|x l IH]; [reflexivity|]. cbn. rewrite IH. reflexivity. Qed.

Lemma use_indices_spec : forall id ops b k,
  In k (use_indices id b ops) <-> exists t, b <= k /\ nth_error ops (N.to_nat (k - b)) = Some (t, id) /\ is_use_type t = true.
Proof.
  intros id ops. induction ops as [|[t w] ops IH]; intros b k; cbn [use_indices].
  - split; [intros [] | intros (t & _ & E & _); destruct (N.to_nat (k - b)); discriminate E].
  - rewrite in_app_iff, IH. assert (T : match t with T_RESULT_ID => false | _ => is_id_type t end = is_use_type t) by (destruct t; reflexivity). rewrite T.
    split.
    + intros [I|(t' & L & E & U)].
      * destruct (is_use_type t) eqn:U; [|destruct I]. destruct (N.eqb_spec id w) as [->|]; [|destruct I]. destruct I as [<-|[]].
        exists t. split; [lia|]. rewrite N.sub_diag. auto.
      * exists t'. split; [lia|]. split; [|exact U]. replace (N.to_nat (k - b)) with (Datatypes.S (N.to_nat (k - (b + 1)))) by lia. exact E.
    + intros (t' & L & E & U). destruct (N.eq_dec k b) as [->|N1].
      * left. rewrite N.sub_diag in E. cbn in E. injection E as -> ->. rewrite U, N.eqb_refl. left. reflexivity.
      * right. exists t'. split; [lia|]. split; [|exact U]. replace (N.to_nat (k - b)) with (Datatypes.S (N.to_nat (k - (b + 1)))) in E by lia. exact E.
Qed.
Lemma use_indices_sorted : forall id ops b, StronglySorted N.lt (use_indices id b ops).
Proof.
  intros id ops. induction ops as [|[t w] ops IH]; intros b; cbn [use_indices]; [constructor|].
  destruct (match t with T_RESULT_ID => false | _ => is_id_type t end && (id =? w)); [|apply IH]. cbn [app]. constructor; [apply IH|].
  apply Forall_forall. intros k I. apply use_indices_spec in I. destruct I as (t' & L & _). lia.
Qed.
Lemma pairs_sorted : forall (f : N -> list N) us, StronglySorted N.lt us -> (forall u, StronglySorted N.lt (f u)) ->
  ssorted (flat_map (fun u => map (pair u) (f u)) us).
Proof.
  intros f us S1 S2. induction S1 as [|u us S1 IH F]; [constructor|]. cbn [flat_map]. apply ssorted_app. split; [|split; [exact IH|]].
  - pose proof (S2 u) as S3. induction S3 as [|k l S3 IH3 F3]; [constructor|]. cbn. constructor; [exact IH3|]. apply Forall_forall.
    intros y I. apply in_map_iff in I. destruct I as (k' & <- & I). right. split; [reflexivity|]. rewrite Forall_forall in F3. exact (F3 k' I).
  - intros x y I J. apply in_map_iff in I. destruct I as (k & <- & _). apply in_flat_map in J. destruct J as (u' & J & K).
    apply in_map_iff in K. destruct K as (k' & <- & _). left. rewrite Forall_forall in F. exact (F u' J).
Qed.

Lemma inv_answers : forall s m, inv s m -> answers s m.
Proof.
  intros s m H. split; [intros id; apply inv_get_def; exact H|]. intros id d D. destruct (inv_result _ _ H _ _ D) as (Nd & Nid & R).
  assert (Reg : registered (s_heap s) m d = true).
  { unfold registered. rewrite R. apply andb_true_iff. split; [apply negb_true_iff, N.eqb_neq; exact Nd|]. apply orb_true_iff. right.
    rewrite (inv_get_def _ _ id H), D. apply N.eqb_refl. }
  assert (Z : c_result (s_heap s d) =? 0 = false) by (rewrite R; apply N.eqb_neq; exact Nid).
  destruct (users_of_spec s m d H) as (S1 & I1).
  assert (I2 : forall u, In u (users_of m d) <-> exists c, s_analysed s u = Some c /\ mentions c id).
  { intros u. rewrite I1, (inv_users _ _ H). split.
    - intros (id' & c & A & M & D'). exists c. split; [exact A|]. rewrite <- R. rewrite (proj2 (proj2 (inv_result _ _ H _ _ D'))). exact M.
    - intros (c & A & M). exists id, c. auto. }
  assert (EU : for_each_user (s_heap s) m d = Some (users_of m d)).
  { unfold for_each_user, while_each_user. rewrite Reg, Z, while_each_all. reflexivity. }
  split.
  - exists (users_of m d). split; [exact EU|]. split; [exact S1|]. split; [exact I2|]. unfold num_users. rewrite EU. reflexivity.
  - exists (flat_map (fun u => map (pair u) (use_indices (c_result (s_heap s d)) 0 (c_operands (s_heap s u)))) (users_of m d)).
    assert (EE : for_each_use (s_heap s) m d = Some (flat_map (fun u => map (pair u) (use_indices (c_result (s_heap s d)) 0 (c_operands (s_heap s u)))) (users_of m d))).
    { unfold for_each_use. rewrite Reg, Z. reflexivity. }
    split; [exact EE|]. split; [|split; [unfold num_uses; rewrite EE; reflexivity|]].
    + exact (pairs_sorted (fun u => use_indices (c_result (s_heap s d)) 0 (c_operands (s_heap s u))) _ S1 (fun u => use_indices_sorted _ _ _)).
    + intros Sync u k. rewrite in_flat_map. rewrite R.
      assert (UI : In k (use_indices id 0 (c_operands (s_heap s u))) <-> uses_at (s_heap s u) k id).
      { rewrite use_indices_spec. unfold uses_at. split; [intros (t & _ & E & U) | intros (t & E & U)]; exists t; rewrite ?N.sub_0_r in *.
        - split; [exact E | apply is_use_type_spec; exact U].
        - split; [lia|]. split; [exact E | apply is_use_type_spec; exact U]. }
      split.
      * intros (u' & I & J). apply in_map_iff in J. destruct J as (k' & X & J). injection X as -> ->. apply UI in J.
        apply I2 in I. destruct I as (c & A & _). rewrite A. split; [discriminate | exact J].
      * intros (A & J). destruct (s_analysed s u) as [c|] eqn:E; [|congruence]. exists u. split.
        -- apply I2. exists c. split; [exact E|]. exists k. rewrite (Sync u c E). exact J.
        -- apply in_map_iff. exists k. split; [reflexivity | apply UI; exact J].
Qed.
