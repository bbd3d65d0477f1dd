(** Proofs about the removal of redundant instructions: what an id is made from gives its value, in every execution. *)
From Verif Require Import Base GraphSpec Redundancy RedundancySpec RedundancyProofs.
Local Open Scope N_scope.

Section Values.
Context {D W : Type} (m : machine D W).
Fixpoint eval (e : N -> option D) (V : list (tree * N) -> option D) (t : tree) : option D :=
  match t with
  | LId x => e x
  | Node op l =>
      match (fix go (l : list tree) : option (list D) :=
               match l with [] => Some [] | a :: l' => match eval e V a, go l' with Some d, Some ds => Some (d :: ds) | _, _ => None end end) l with
      | Some ds => pure m op ds
      | None => None
      end
  | TPhi K => V K
  end.
Fixpoint evals (e : N -> option D) V (l : list tree) : option (list D) :=
  match l with [] => Some [] | a :: l' => match eval e V a, evals e V l' with Some d, Some ds => Some (d :: ds) | _, _ => None end end.
Lemma eval_node e V op l : eval e V (Node op l) = match evals e V l with Some ds => pure m op ds | None => None end.
Proof.
  simpl. set (g := fix go (l : list tree) : option (list D) := _). assert (E : g l = evals e V l); [|rewrite E; reflexivity].
  induction l as [|a l IH]; simpl; [reflexivity|]. rewrite IH. reflexivity.
Qed.
Lemma evals_agree e V e' V' l : (forall n t, nth_error l n = Some t -> eval e V t = eval e' V' t) -> evals e V l = evals e' V' l.
Proof.
  induction l as [|a l IH]; intros H; simpl; [reflexivity|]. rewrite (H O a eq_refl), IH; [reflexivity|]. intros n t E. apply (H (S n) t E).
Qed.
Lemma eval_agree (P : N -> Prop) (Q : list (tree * N) -> Prop) e V e' V' : (forall x, P x -> e x = e' x) -> (forall K, Q K -> V K = V' K) ->
  forall t, okt P Q t -> eval e V t = eval e' V' t.
Proof.
  intros HP HQ. induction t as [x|op l IH|K] using tree_ind'; intros H; [apply HP, H| |apply HQ, H]. rewrite !eval_node.
  rewrite (evals_agree e V e' V'); [reflexivity|]. intros n t E. apply (IH n t E). exact (proj1 (okt_node P Q op l) H n t E).
Qed.
Lemma evals_values e V : forall args ts, length ts = length args ->
  (forall n a t, nth_error args n = Some a -> nth_error ts n = Some t -> eval e V t = e a) -> evals e V ts = values e args.
Proof.
  induction args as [|a args IH]; intros [|t ts] L H; try discriminate; simpl; [reflexivity|]. rewrite (H O a t eq_refl eq_refl).
  injection L as L. rewrite (IH ts L); [reflexivity|]. intros n a' t' E1 E2. apply (H (S n) a' t' E1 E2).
Qed.

(** what holds after an instruction has run *)
Definition made (i : inst) (e : N -> option D) : Prop :=
  match i with
  | IPure r op args => exists ds, values e args = Some ds /\ e r = pure m op ds
  | ICopy r a => e r = e a
  | IOwn _ _ _ => True
  end.
Lemma upd_same (e : N -> option D) r d : upd e r d r = d.
Proof. unfold upd. rewrite N.eqb_refl. reflexivity. Qed.
Lemma upd_other (e : N -> option D) r d y : y <> r -> upd e r d y = e y.
Proof. intros H. unfold upd. destruct (N.eqb_spec y r); [congruence|reflexivity]. Qed.
Lemma values_ext (e e' : N -> option D) l : (forall a, In a l -> e a = e' a) -> values e l = values e' l.
Proof. induction l as [|a l IH]; intros H; simpl; [reflexivity|]. rewrite (H a (or_introl eq_refl)), IH; [reflexivity|]. intros b Hb. apply H. right. exact Hb. Qed.
Lemma step_other i c c' y : step m i c = Some c' -> result i <> Some y -> env c' y = env c y.
Proof.
  intros H Hr. destruct i as [r op args|r a|r op args]; simpl in *.
  - destruct (values (env c) args) as [ds|]; [|discriminate]. destruct (pure m op ds); [|discriminate]. injection H as <-. simpl. apply upd_other. congruence.
  - destruct (env c a); [|discriminate]. injection H as <-. simpl. apply upd_other. congruence.
  - destruct (values (env c) args) as [ds|]; [|discriminate]. destruct (own m op ds (world c)) as [[d w]|]; [|discriminate]. injection H as <-. simpl.
    destruct r as [r|]; [|reflexivity]. apply upd_other. congruence.
Qed.
Lemma steps_other l : forall c c' y, steps m l c = Some c' -> (forall i, In i l -> result i <> Some y) -> env c' y = env c y.
Proof.
  induction l as [|i l IH]; intros c c' y H Hn; simpl in H; [congruence|]. destruct (step m i c) as [c1|] eqn:E; [|discriminate].
  rewrite (IH c1 c' y H (fun j Hj => Hn j (or_intror Hj))). eapply step_other; eauto. apply Hn. left. reflexivity.
Qed.
Lemma step_made i c c' : step m i c = Some c' -> (forall r, result i = Some r -> ~ In r (reads i)) -> made i (env c').
Proof.
  intros H Hr. destruct i as [r op args|r a|r op args]; simpl in *; [| |exact I].
  - destruct (values (env c) args) as [ds|] eqn:V; [|discriminate]. destruct (pure m op ds) as [d|] eqn:P; [|discriminate]. injection H as <-. simpl. exists ds.
    rewrite upd_same, P. split; [|reflexivity]. rewrite <- V. apply values_ext. intros a Ha. apply upd_other. intros ->. exact (Hr r eq_refl Ha).
  - destruct (env c a) as [d|] eqn:E; [|discriminate]. injection H as <-. simpl. rewrite upd_same, upd_other; [congruence|]. intros ->. apply (Hr r eq_refl). left. reflexivity.
Qed.
Lemma made_ext i e e' : (forall y, In y (reads i) \/ result i = Some y -> e' y = e y) -> made i e -> made i e'.
Proof.
  intros H. destruct i as [r op args|r a|r op args]; simpl in *; [| |auto].
  - intros (ds & V & E). exists ds. rewrite (H r (or_intror eq_refl)). split; [|exact E]. rewrite <- V. apply values_ext. intros a Ha. apply H. left. exact Ha.
  - intros E. rewrite (H r (or_intror eq_refl)), (H a); [exact E|]. left. left. reflexivity.
Qed.

Variable f : func.
Variable comm : N -> bool.
Hypothesis WF : well_formed f.
Hypothesis HC : commutes m comm.

(** the constants *)
Lemma prelude_made globals w0 c : steps m (prelude f) (mkconfig globals w0) = Some c -> forall i, In i (prelude f) -> made i (env c).
Proof using WF.
  intros H i Hi. destruct (in_split _ _ Hi) as (l1 & l2 & E). pose proof (wf_prelude f WF l1 i l2) as Wi. rewrite E in H.
  assert (G : forall l c0, steps m (l ++ i :: l2) c0 = Some c -> exists c1 c2, step m i c1 = Some c2 /\ steps m l2 c2 = Some c).
  { induction l as [|x l IH]; simpl; intros c0 H0; [destruct (step m i c0) as [c2|] eqn:E0; [eauto|discriminate]|].
    destruct (step m x c0) as [c1|]; [eauto|discriminate]. }
  destruct (G l1 _ H) as (c1 & c2 & H1 & H2). apply (made_ext i (env c2)).
  - intros y Hy. apply (steps_other l2 c2 c y H2). intros j Hj Rj.
    destruct Hy as [Hy|Hy]; [|destruct (Wi y E Hy) as (_ & N & _); exact (N j Hj Rj)].
    destruct (in_split _ _ Hj) as (m1 & m2 & Ej). assert (E' : prelude f = (l1 ++ i :: m1) ++ j :: m2) by (rewrite E, Ej, <- app_assoc; reflexivity).
    destruct (wf_prelude f WF _ _ _ _ E' Rj) as (_ & _ & N). apply (N i); [|exact Hy]. apply in_or_app. left. apply in_or_app. right. left. reflexivity.
  - apply (step_made i c1 c2 H1). intros r Hr. destruct (Wi r E Hr) as (_ & _ & N). apply N. apply in_or_app. right. left. reflexivity.
Qed.

(** ids have the values of what they are made from *)
Definition good (e : N -> option D) V (c : block) (k : nat) : Prop := forall x t, means f comm x t -> available f c k x -> eval e V t = e x.
Lemma made_value r t e V : forall i, has f i -> result i = Some r -> made i e ->
  match i with
  | IPure _ op args => (exists ts, t = Node op ts /\ length ts = length args /\ forall n a t', nth_error args n = Some a -> nth_error ts n = Some t' -> eval e V t' = e a)
      \/ (exists a b ta tb, args = [a; b] /\ comm op = true /\ t = Node op [tb; ta] /\ eval e V ta = e a /\ eval e V tb = e b)
  | ICopy _ a => eval e V t = e a
  | IOwn _ _ _ => False
  end -> eval e V t = e r.
Proof using HC.
  intros i Hi Hr Md H. destruct i as [r' op args|r' a|r' op args]; simpl in *; [| |destruct H].
  - injection Hr as ->. destruct Md as (ds & V' & E). destruct H as [(ts & -> & L & H)|(a & b & ta & tb & -> & Cm & -> & Ea & Eb)]; rewrite eval_node, E.
    + rewrite (evals_values e V args ts L H), V'. reflexivity.
    + simpl. rewrite Ea, Eb. simpl in V'. destruct (e a) as [da|]; [|discriminate]. destruct (e b) as [db|]; [|discriminate]. injection V' as <-. apply HC. exact Cm.
  - injection Hr as ->. rewrite H, Md. reflexivity.
Qed.
Lemma good_start globals w0 c V b : steps m (prelude f) (mkconfig globals w0) = Some c -> In b (blocks f) -> label b = entry f -> good (env c) V b 1.
Proof using WF HC.
  intros H Hb El x t M Av. assert (Nd : forall b' j, ~ defined_at f x b' j).
  { destruct Av as [Nd|(b' & j & Df & C)]; [exact Nd|]. exfalso. destruct C as [[-> L]|[Ne Dm]].
    - destruct j as [|j]; [|lia]. destruct Df as [_ (p & Hp & _)]. rewrite (entry_no_phi f b WF Hb El) in Hp. destruct Hp.
    - assert (P : path (succs f) (entry f) (label b) [label b]) by (rewrite El; constructor). destruct (Dm _ P) as [E|[]]. congruence. }
  clear Av. pose proof (prelude_made globals w0 c H) as Md.
  induction M as [x|r op args ts Hi Ln Hm IH|r op a b0 ta tb Hi Co Ma IHa Mb IHb|r a t Hi Ma IH|c0 p t H0 Hp Hm IH|c0 p K H0 Hp Es Hm IH].
  - reflexivity.
  - destruct Hi as [Hi|(c0 & j & H0 & Hj)]; [|exfalso; apply (Nd c0 (S j)); split; [exact H0|exists (IPure r op args); split; [exact Hj|reflexivity]]].
    apply (made_value r (Node op ts) _ V _ (or_introl Hi) eq_refl (Md _ Hi)). left. exists ts. split; [reflexivity|]. split; [exact Ln|]. intros n a t Ea Et. apply (IH n a t Ea Et).
    intros b' j. apply (wf_constants f WF _ a b' j Hi). apply nth_error_In with n. exact Ea.
  - destruct Hi as [Hi|(c0 & j & H0 & Hj)]; [|exfalso; apply (Nd c0 (S j)); split; [exact H0|exists (IPure r op [a; b0]); split; [exact Hj|reflexivity]]].
    apply (made_value r (Node op [tb; ta]) _ V _ (or_introl Hi) eq_refl (Md _ Hi)). right. exists a, b0, ta, tb. repeat split; auto.
    + apply IHa. intros b' j. apply (wf_constants f WF _ a b' j Hi). simpl. auto.
    + apply IHb. intros b' j. apply (wf_constants f WF _ b0 b' j Hi). simpl. auto.
  - destruct Hi as [Hi|(c0 & j & H0 & Hj)]; [|exfalso; apply (Nd c0 (S j)); split; [exact H0|exists (ICopy r a); split; [exact Hj|reflexivity]]].
    rewrite IH; [|intros b' j; apply (wf_constants f WF _ a b' j Hi); simpl; auto]. symmetry. exact (Md _ Hi).
  - exfalso. apply (Nd c0 O). split; [exact H0|eauto].
  - exfalso. apply (Nd c0 O). split; [exact H0|eauto].
Qed.

(** one instruction *)
Lemma ready_upd c k e V r d t : defined_at f r c k -> ready f c k t -> eval (upd e r d) V t = eval e V t.
Proof using WF.
  intros Dr. apply eval_agree; [|reflexivity]. intros x Ax. apply upd_other. eapply avail_ne; eauto.
Qed.
Lemma ready_step c k c0 c1 i V t : In c (blocks f) -> nth_error (body c) k = Some i -> step m i c0 = Some c1 -> ready f c (S k) t -> eval (env c1) V t = eval (env c0) V t.
Proof using WF.
  intros Hc Hi Hs. apply eval_agree; [|reflexivity]. intros x Ax. apply (step_other i c0 c1 x Hs). intros Rx.
  assert (Dx : defined_at f x c (S k)) by (split; [exact Hc|eauto]). exact (avail_ne f c (S k) x x WF Dx Ax eq_refl).
Qed.
Lemma has_at i r c k : has f i -> result i = Some r -> defined_at f r c k -> exists j, k = S j /\ nth_error (body c) j = Some i.
Proof using WF.
  intros [Hi|(c0 & j & H0 & Hj)] Hr Dr.
  - exfalso. destruct (in_split _ _ Hi) as (l1 & l2 & E). destruct (wf_prelude f WF l1 i l2 r E Hr) as [N _]. exact (N _ _ Dr).
  - assert (D0 : defined_at f r c0 (S j)) by (split; [exact H0|eauto]). destruct (wf_once f WF _ _ _ _ _ Dr D0) as [-> ->]. eauto.
Qed.
Lemma good_step c k i c0 c1 V : In c (blocks f) -> reach f c -> nth_error (body c) k = Some i -> step m i c0 = Some c1 -> good (env c0) V c (S k) -> good (env c1) V c (S (S k)).
Proof using WF HC.
  intros Hc R Hi Hs G x t M Av. destruct (avail_step f c (S k) x Av) as [Av0|Dx].
  - rewrite (ready_step c k c0 c1 i V t Hc Hi Hs); [|eapply means_ready; eauto]. rewrite (G x t M Av0). symmetry. apply (step_other i c0 c1 x Hs). intros Rx.
    assert (Dx : defined_at f x c (S k)) by (split; [exact Hc|eauto]). exact (avail_ne f c (S k) x x WF Dx Av0 eq_refl).
  - assert (Hself : forall r, result i = Some r -> ~ In r (reads i)).
    { intros r Hr Hin. assert (Dr : defined_at f r c (S k)) by (split; [exact Hc|eauto]). exact (avail_ne f c (S k) r r WF Dr (wf_uses f WF c k i r Hc R Hi Hin) eq_refl). }
    pose proof (step_made i c0 c1 Hs Hself) as Md.
    assert (Arg : forall a t', In a (reads i) -> means f comm a t' -> eval (env c1) V t' = env c1 a).
    { intros a t' Ha Ma. pose proof (wf_uses f WF c k i a Hc R Hi Ha) as Aa. rewrite (ready_step c k c0 c1 i V t' Hc Hi Hs); [|eapply means_ready; eauto].
      rewrite (G a t' Ma Aa). symmetry. apply (step_other i c0 c1 a Hs). intros Ra. exact (Hself a Ra Ha). }
    destruct M as [x|r op args ts Hh Ln Hm|r op a b0 ta tb Hh Co Ma Mb|r a t Hh Ma|c2 p t H0 Hp Hm|c2 p K H0 Hp Es Hm].
    + reflexivity.
    + destruct (has_at _ _ _ _ Hh eq_refl Dx) as (j & Ej & Hj). injection Ej as <-. rewrite Hi in Hj. injection Hj as ->.
      apply (made_value r (Node op ts) _ V _ Hh eq_refl Md). left. exists ts. split; [reflexivity|]. split; [exact Ln|]. intros n a t Ea Et. apply Arg; [|exact (Hm n a t Ea Et)].
      apply nth_error_In with n. exact Ea.
    + destruct (has_at _ _ _ _ Hh eq_refl Dx) as (j & Ej & Hj). injection Ej as <-. rewrite Hi in Hj. injection Hj as ->.
      apply (made_value r (Node op [tb; ta]) _ V _ Hh eq_refl Md). right. exists a, b0, ta, tb. repeat split; auto; apply Arg; simpl; auto.
    + destruct (has_at _ _ _ _ Hh eq_refl Dx) as (j & Ej & Hj). injection Ej as <-. rewrite Hi in Hj. injection Hj as ->.
      rewrite (Arg a t (or_introl eq_refl) Ma). symmetry. exact Md.
    + exfalso. assert (D0 : defined_at f (p_res p) c2 0) by (split; [exact H0|eauto]). destruct (wf_once f WF _ _ _ _ _ Dx D0) as [_ E]. discriminate E.
    + exfalso. assert (D0 : defined_at f (p_res p) c2 0) by (split; [exact H0|eauto]). destruct (wf_once f WF _ _ _ _ _ Dx D0) as [_ E]. discriminate E.
Qed.

(** going to the next block *)
Lemma phis_other from ps : forall (c0 c c' : config D W), phis_from from ps c0 c = Some c' -> world c' = world c /\ forall y, ~ In y (map p_res ps) -> env c' y = env c y.
Proof.
  induction ps as [|p ps IH]; intros c0 c c' H; simpl in H; [injection H as <-; auto|].
  destruct (find (fun a => snd a =? from) (p_args p)) as [[a l]|]; [|discriminate]. destruct (env c0 a) as [d|]; [|discriminate].
  destruct (IH _ _ _ H) as [Ew Ey]. split; [exact Ew|]. intros y Hy. simpl in Hy. rewrite (Ey y) by tauto. simpl. apply upd_other. intros ->. apply Hy. left. reflexivity.
Qed.
Lemma phis_values from ps : forall (c0 c c' : config D W), NoDup (map p_res ps) -> phis_from from ps c0 c = Some c' ->
  forall p, In p ps -> exists a l, find (fun a => snd a =? from) (p_args p) = Some (a, l) /\ env c' (p_res p) = env c0 a /\ env c0 a <> None.
Proof.
  induction ps as [|q ps IH]; intros c0 c c' Nd H p Hp; [destruct Hp|]. simpl in H, Nd. inversion Nd as [|? ? Nq Nd']; subst.
  destruct (find (fun a => snd a =? from) (p_args q)) as [[a l]|] eqn:F; [|discriminate]. destruct (env c0 a) as [d|] eqn:Ea; [|discriminate].
  destruct Hp as [->|Hp]; [|eapply IH; eauto]. exists a, l. split; [exact F|]. rewrite (proj2 (phis_other from ps _ _ _ H) _ Nq). simpl. rewrite upd_same, Ea. split; [reflexivity|discriminate].
Qed.
Definition next_V (e : N -> option D) V (from : N) (c' : block) : list (tree * N) -> option D :=
  fun K => if joins K c' then match find (fun a => snd a =? from) K with Some (t, _) => eval e V t | None => None end else V K.
Lemma find_same {A B} from : forall (l : list (A * N)) (l' : list (B * N)), map snd l = map snd l' -> forall a k, find (fun a => snd a =? from) l = Some (a, k) ->
  exists b n, find (fun a => snd a =? from) l' = Some (b, k) /\ nth_error l n = Some (a, k) /\ nth_error l' n = Some (b, k).
Proof.
  induction l as [|[x kx] l IH]; intros [|[y ky] l'] E a k H; simpl in *; try discriminate. injection E as -> E. destruct (ky =? from) eqn:Ek.
  - injection H as -> ->. exists y, O. auto.
  - destruct (IH l' E a k H) as (b & n & F & N1 & N2). exists b, (S n). auto.
Qed.
Lemma same_phi c p p' : In c (blocks f) -> In p (phis c) -> In p' (phis c) -> p_res p = p_res p' -> p = p'.
Proof using WF. intros Hc Hp Hp' E. eapply map_inj_nodup with (g := p_res); eauto. apply (wf_phi_once f WF c Hc). Qed.
Lemma good_edge c c' (c1 c2 : config D W) V : In c (blocks f) -> reach f c -> In c' (blocks f) -> In (label c') (t_succ c) ->
  phis_from (label c) (phis c') c1 c1 = Some c2 -> good (env c1) V c (S (length (body c))) -> good (env c2) (next_V (env c1) V (label c) c') c' 1.
Proof using WF HC.
  intros Hc R Hc' Hs Hp G x t M Av. pose proof (reach_edge f c c' WF Hc R Hs) as R'.
  assert (Old : forall y, available f c' 0 y -> env c2 y = env c1 y).
  { intros y Ay. apply (proj2 (phis_other _ _ _ _ _ Hp)). intros Hin. apply in_map_iff in Hin. destruct Hin as (p & <- & Hin).
    assert (Dy : defined_at f (p_res p) c' 0) by (split; [exact Hc'|eauto]). exact (avail_ne f c' 0 _ _ WF Dy Ay eq_refl). }
  assert (Ev : forall t, ready f c' 0 t -> eval (env c2) (next_V (env c1) V (label c) c') t = eval (env c1) V t).
  { intros t0. apply eval_agree; [exact Old|]. intros K [[_ L]|[J _]]; [lia|]. unfold next_V. rewrite J. reflexivity. }
  destruct (avail_step f c' 0 x Av) as [Av0|Dx].
  - rewrite (Ev t); [|eapply means_ready; eauto]. rewrite (Old x Av0). apply (G x t M). eapply avail_edge; eauto.
  - pose proof (wf_phi_once f WF c' Hc') as Np.
    destruct M as [x|r op args ts Hh Ln Hm|r op a b0 ta tb Hh Co Ma Mb|r a t Hh Ma|c3 p t H0 Hp0 Hm|c3 p K H0 Hp0 Es Hm].
    + reflexivity.
    + destruct (has_at _ _ _ _ Hh eq_refl Dx) as (j & Ej & _). discriminate Ej.
    + destruct (has_at _ _ _ _ Hh eq_refl Dx) as (j & Ej & _). discriminate Ej.
    + destruct (has_at _ _ _ _ Hh eq_refl Dx) as (j & Ej & _). discriminate Ej.
    + assert (D0 : defined_at f (p_res p) c3 0) by (split; [exact H0|eauto]). destruct (wf_once f WF _ _ _ _ _ Dx D0) as [E _]. subst c3.
      destruct (phis_values _ _ _ _ _ Np Hp p Hp0) as (a & l & F & Er & _). pose proof (find_some _ _ F) as [Fi Fl]. simpl in Fl. apply N.eqb_eq in Fl. subst l.
      rewrite (Ev t); [|apply (same_ready f c' p t WF Hc' Hp0 R'); intros a' l' c4 k' Ha' H4 R4 A4; eapply means_ready; eauto].
      rewrite Er. apply (G a t (Hm a _ Fi)). eapply (wf_phis f WF c' p); eauto.
    + assert (D0 : defined_at f (p_res p) c3 0) by (split; [exact H0|eauto]). destruct (wf_once f WF _ _ _ _ _ Dx D0) as [E _]. subst c3.
      destruct (phis_values _ _ _ _ _ Np Hp p Hp0) as (a & l & F & Er & _). pose proof (find_some _ _ F) as [Fi Fl]. simpl in Fl. apply N.eqb_eq in Fl. subst l.
      destruct (find_same (label c) (p_args p) K (eq_sym Es) a _ F) as (t & n & FK & N1 & N2).
      simpl. unfold next_V. assert (J : joins K c' = true) by (apply joins_phi; exists p; split; [exact Hp0|congruence]). rewrite J, FK, Er.
      apply (G a t (Hm n a _ t _ N1 N2)). eapply (wf_phis f WF c' p); eauto.
Qed.
End Values.
