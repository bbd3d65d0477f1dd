(** Proofs about the rewriting of variables into ids: the order of the blocks, and the new function. *)
From Verif Require Import Base GraphSpec SsaRewrite SsaRewriteSpec SsaRewriteProofs SsaRewriteProofs2 SsaRewriteProofs3 SsaRewriteProofs4.
Local Open Scope N_scope.

Section Order.
Variable f : func.
Hypothesis WF : well_formed f.
Record dfs (stack seen order : list N) : Prop := {
  d_once : NoDup (stack ++ order);
  d_seen : forall x, In x seen -> In x (stack ++ order);
  d_rest : forall x, In x (tl stack ++ order) -> In x seen;
  d_block : forall x, In x (stack ++ order) -> exists b, find_block f x = Some b;
  d_succ : forall x y, In x order -> In y (succs f x) -> In y (stack ++ order);
  d_entry : In (entry f) (stack ++ order);
  d_chain : forall pre x post, stack = pre ++ x :: post -> x <> entry f -> match post with q :: _ => In x (succs f q) | [] => False end;
  d_from : forall pre l post, order = pre ++ l :: post -> l <> entry f -> exists q, In l (succs f q) /\ (In q pre \/ In q stack) }.
Definition covered (o : list N) : Prop := ordered f o /\ (forall l, reach f l -> In l o).
Lemma dfs_end seen order : dfs [] seen order -> covered order.
Proof using WF.
  intros D. split; [split; [apply (d_once _ _ _ D)|split]|].
  - intros l Hl. apply (d_block _ _ _ D l Hl).
  - intros pre l post p E Ep. assert (Ne : l <> entry f) by (intros ->; rewrite (entry_no_preds f WF) in Ep; discriminate).
    destruct (d_from _ _ _ D pre l post E Ne) as (q & Hq & [H|[]]). apply (in_preds_succs f l q WF) in Hq. rewrite Ep in Hq. destruct Hq as [->|[]]. exact H.
  - intros l [ls P]. induction P as [|b c ls P IH Hc]; [apply (d_entry _ _ _ D)|]. apply (d_succ _ _ _ D b c IH Hc).
Qed.
Lemma dfs_length stack seen order : dfs stack seen order -> (length (stack ++ order) <= length f)%nat.
Proof.
  intros D. rewrite <- (map_length label f). apply NoDup_incl_length; [apply (d_once _ _ _ D)|]. intros x Hx. destruct (d_block _ _ _ D x Hx) as [b F]. apply find_block_in in F. destruct F as [Hb <-]. apply in_map, Hb.
Qed.
Lemma post_order_ok n : forall stack seen order, dfs stack seen order -> (2 * (length f - length (stack ++ order)) + length stack < n)%nat -> covered (post_order n f stack seen order).
Proof using WF.
  induction n as [|n IH]; intros stack seen order D L; [lia|]. destruct stack as [|b stack']; [simpl; eapply dfs_end; eauto|]. cbn [post_order].
  destruct (d_block _ _ _ D b (or_introl eq_refl)) as [bb F]. rewrite F.
  assert (Sb : succs f b = t_succ bb) by (unfold succs; rewrite F; reflexivity).
  pose proof (dfs_length _ _ _ D) as Lf. rewrite app_length in *. simpl in Lf, L.
  assert (Nb : ~ In b (stack' ++ order) /\ NoDup (stack' ++ order)) by (pose proof (d_once _ _ _ D) as N; simpl in N; inversion N; auto). destruct Nb as [Nb Nd].
  destruct (find (fun l => negb (existsb (N.eqb l) (b :: seen))) (t_succ bb)) as [l|] eqn:E.
  - apply find_some in E. destruct E as [Hl Hn]. apply negb_true_iff in Hn.
    assert (Nl : ~ In l (b :: seen)). { intros K. assert (existsb (N.eqb l) (b :: seen) = true) by (apply existsb_exists; exists l; split; [exact K|apply N.eqb_refl]). congruence. }
    assert (Nl' : ~ In l (b :: stack' ++ order)). { intros [->|K]; apply Nl; [left; reflexivity|right; apply (d_rest _ _ _ D); exact K]. }
    assert (Fl : exists c, find_block f l = Some c).
    { pose proof (find_block_in _ _ _ F) as [Hb _]. pose proof (wf_targets f WF bb l Hb Hl) as K. apply in_map_iff in K. destruct K as (c & <- & Hc). exists c. apply find_block_wf; [apply WF|exact Hc]. }
    apply IH.
    + constructor.
      * simpl. constructor; [exact Nl'|]. exact (d_once _ _ _ D).
      * intros x [<-|Hx]; [right; left; reflexivity|right; apply (d_seen _ _ _ D x Hx)].
      * intros x [<-|Hx]; [left; reflexivity|right; apply (d_rest _ _ _ D x Hx)].
      * intros x [<-|Hx]; [exact Fl|apply (d_block _ _ _ D x Hx)].
      * intros x y Hx Hy. right. apply (d_succ _ _ _ D x y Hx Hy).
      * right. apply (d_entry _ _ _ D).
      * intros pre x post Es Ne. destruct pre as [|a pre]; simpl in Es.
        -- injection Es as <- <-. rewrite Sb. exact Hl.
        -- injection Es as _ Es. eapply (d_chain _ _ _ D); eauto.
      * intros pre x post Eo Ne. destruct (d_from _ _ _ D pre x post Eo Ne) as (q & Hq & [K|K]); exists q; split; auto. right. right. exact K.
    + pose proof (dfs_length _ _ _ D) as Lf'. rewrite app_length in *. simpl in *.
      assert (S (length stack' + length order) < length f)%nat.
      { rewrite <- (map_length label f). apply Nat.lt_le_trans with (length (l :: b :: stack' ++ order)); [simpl; rewrite app_length; lia|].
        apply NoDup_incl_length; [constructor; [exact Nl'|exact (d_once _ _ _ D)]|]. intros x Hx.
        assert (Bx : exists c, find_block f x = Some c) by (destruct Hx as [<-|Hx]; [exact Fl|apply (d_block _ _ _ D x Hx)]). destruct Bx as [c Fc]. apply find_block_in in Fc. destruct Fc as [Hc <-]. apply in_map, Hc. }
      lia.
  - assert (All : forall y, In y (t_succ bb) -> In y (b :: seen)).
    { intros y Hy. pose proof (find_none _ _ E y Hy) as K. simpl in K. apply negb_false_iff in K. change (existsb (N.eqb y) (b :: seen) = true) in K. apply existsb_exists in K. destruct K as (z & Hz & Ez). apply N.eqb_eq in Ez. congruence. }
    assert (Mv : forall x, In x ((b :: stack') ++ order) <-> In x (stack' ++ b :: order)).
    { intros x. simpl. rewrite !in_app_iff. simpl. tauto. }
    apply IH.
    + constructor.
      * apply NoDup_Add with (a := b) (l := stack' ++ order); [apply Add_app|auto].
      * intros x [<-|Hx]; apply Mv; [left; reflexivity|apply (d_seen _ _ _ D x Hx)].
      * intros x Hx. apply in_app_or in Hx. destruct Hx as [Hx|[<-|Hx]]; [right|left; reflexivity|right; apply (d_rest _ _ _ D); apply in_or_app; right; exact Hx].
        apply (d_rest _ _ _ D). apply in_or_app. left. simpl. destruct stack'; [destruct Hx|right; exact Hx].
      * intros x Hx. apply (d_block _ _ _ D), Mv, Hx.
      * intros x y [<-|Hx] Hy; apply Mv; [|apply (d_succ _ _ _ D x y Hx Hy)]. rewrite Sb in Hy. destruct (All y Hy) as [<-|K]; [left; reflexivity|apply (d_seen _ _ _ D y K)].
      * apply Mv, (d_entry _ _ _ D).
      * intros pre x post Es Ne. eapply (d_chain _ _ _ D (b :: pre)); [rewrite Es; reflexivity|exact Ne].
      * intros pre x post Eo Ne. destruct pre as [|a pre]; simpl in Eo.
        -- injection Eo as <- <-. pose proof (d_chain _ _ _ D [] b stack' eq_refl Ne) as K. destruct stack' as [|q t]; [destruct K|]. exists q. split; [exact K|right; left; reflexivity].
        -- injection Eo as <- Eo. destruct (d_from _ _ _ D pre x post Eo Ne) as (q & Hq & [K|[<-|K]]); [exists q|exists b|exists q]; split; auto; left; [right; exact K|left; reflexivity].
    + rewrite app_length. simpl. lia.
Qed.
Lemma visit_order_ok : f <> [] -> covered (visit_order f).
Proof using WF.
  intros Nf. unfold visit_order. pose proof post_order_ok as PO. assert (Cf : exists b f', f = b :: f') by (destruct f as [|b f']; [congruence|eauto]). destruct Cf as (b & f' & Ef).
  assert (Ee : entry f = label b) by (rewrite Ef; reflexivity). assert (Hb : In b f) by (rewrite Ef; left; reflexivity).
  replace (match f with [] => [] | b0 :: _ => post_order (S (2 * length f)) f [label b0] [] [] end) with (post_order (S (2 * length f)) f [label b] [] []) by (rewrite Ef; reflexivity).
  apply PO.
  - constructor; simpl; try tauto.
    + constructor; [tauto|constructor].
    + intros x [<-|[]]. exists b. apply find_block_wf; [apply WF|exact Hb].
    + left. congruence.
    + intros pre x post E Ne. destruct pre as [|a [|a' pre]]; simpl in E; try discriminate. injection E as <- <-. congruence.
    + intros pre l post E. destruct pre; discriminate.
  - assert (0 < length f)%nat by (rewrite Ef; simpl; lia). simpl. lia.
Qed.
End Order.

(** ** The new function *)
Lemma mapM_in {A B} (g : A -> option B) l r : mapM g l = Some r -> forall b, In b r -> exists a, In a l /\ g a = Some b.
Proof.
  revert r. induction l as [|a l IH]; simpl; intros r H b Hb; [injection H as <-; destruct Hb|].
  destruct (g a) as [b0|] eqn:E; [|discriminate]. destruct (mapM g l) as [r'|] eqn:E'; [|discriminate]. injection H as <-. destruct Hb as [<-|Hb]; [eauto|]. destruct (IH r' eq_refl b Hb) as (a' & Ha & Hg). eauto.
Qed.
Lemma mapM_of {A B} (g : A -> option B) l r : mapM g l = Some r -> forall a, In a l -> exists b, In b r /\ g a = Some b.
Proof.
  revert r. induction l as [|a l IH]; simpl; intros r H b Hb; [destruct Hb|].
  destruct (g a) as [b0|] eqn:E; [|discriminate]. destruct (mapM g l) as [r'|] eqn:E'; [|discriminate]. injection H as <-. destruct Hb as [<-|Hb]; [exists b0; simpl; auto|]. destruct (IH r' eq_refl b Hb) as (a' & Ha & Hg). exists a'. simpl. auto.
Qed.
Lemma mapM_nth {A B} (g : A -> option B) l r : mapM g l = Some r -> forall i a, nth_error l i = Some a -> exists b, nth_error r i = Some b /\ g a = Some b.
Proof.
  revert r. induction l as [|a l IH]; simpl; intros r H i b Hb; [destruct i; discriminate|].
  destruct (g a) as [b0|] eqn:E; [|discriminate]. destruct (mapM g l) as [r'|] eqn:E'; [|discriminate]. injection H as <-. destruct i as [|i]; simpl in *; [injection Hb as <-; eauto|eapply IH; eauto].
Qed.
Lemma mapM_length {A B} (g : A -> option B) l r : mapM g l = Some r -> length r = length l.
Proof.
  revert r. induction l as [|a l IH]; simpl; intros r H; [injection H as <-; reflexivity|].
  destruct (g a); [|discriminate]. destruct (mapM g l); [|discriminate]. injection H as <-. simpl. f_equal. apply IH. reflexivity.
Qed.
Lemma dedup_find p l : forall seen, ~ In p seen -> find (fun x : N * N => snd x =? p) (dedup seen l) = find (fun x => snd x =? p) l.
Proof.
  induction l as [|[a q] l IH]; intros seen Np; simpl; [reflexivity|]. destruct (existsb (N.eqb q) seen) eqn:E.
  - destruct (N.eqb_spec q p) as [->|Ne]; [|apply IH, Np]. exfalso. apply existsb_exists in E. destruct E as (z & Hz & Ez). apply N.eqb_eq in Ez. subst z. exact (Np Hz).
  - simpl. destruct (N.eqb_spec q p) as [->|Ne]; [reflexivity|]. apply IH. intros [->|K]; [congruence|exact (Np K)].
Qed.
Lemma combine_find p (args : list N) : forall ps, length args = length ps -> In p ps -> exists i a, nth_error args i = Some a /\ nth_error ps i = Some p /\ find (fun x => snd x =? p) (combine args ps) = Some (a, p).
Proof.
  induction args as [|a args IH]; intros [|q ps] L Hp; simpl in *; try discriminate; [destruct Hp|]. destruct (N.eqb_spec q p) as [->|Ne].
  - exists O, a. auto.
  - destruct Hp as [->|Hp]; [congruence|]. destruct (IH ps) as (i & a' & A & B & D); [congruence|exact Hp|]. exists (S i), a'. auto.
Qed.
Lemma replacement_more s n : forall x y, replacement n s x = Some y -> replacement (S n) s x = Some y.
Proof. induction n as [|n IH]; intros x y H; [discriminate|]. simpl in H. change (match repl s x with Some y0 => replacement (S n) s y0 | None => Some x end = Some y). destruct (repl s x); [apply IH, H|exact H]. Qed.

Definition no_dangling (s : state) : Prop := forall r x c, repl s r = Some x -> cands s x = Some c -> c_copy c = 0.

Section New.
Variable f : func.
Variable undef : N -> N.
Variable first : N.
Hypothesis WF : well_formed f.
Hypothesis FR : fresh_from f undef first.
Variable fuel : nat.
Variable o : list N.
Hypothesis COV : covered f o.
Variable s : state.
Variable R : N -> N.
Hypothesis I : inv f undef first (rev o) (part f (rev o) None) true (next s) [] s R.
Hypothesis Q : queue s = [].
Hypothesis LD : loads_done f s (rev o).
Hypothesis ND : no_dangling s.
Variable new : list (N * phi).
Hypothesis NEW : mapM (new_phi f fuel s) (gen s) = Some new.
Variable ls : list N.
Hypothesis LOADS : mapM (replacement fuel s) (loads f) = Some ls.
Definition ren0 (x : N) : N := match replacement fuel s x with Some y => y | None => x end.
Definition renR (x : N) : N := ren0 (R x).

Lemma cand_ids p : cand_id (C s) p -> first <= p.
Proof using I. intros (l & v & c & H & _). apply (i_next _ _ _ _ _ _ _ _ _ _ I) in H. lia. Qed.
Lemma fresh_ids p : first <= p -> ~ In p (ids f).
Proof using FR. intros L H. apply (proj1 FR) in H. lia. Qed.
Lemma non_cand_root x : x < first -> R x = x.
Proof using I.
  intros L. pose proof (i_root _ _ _ _ _ _ _ _ _ _ I x) as H. destruct (cands s x) as [c|] eqn:E; [|exact H]. apply (i_next _ _ _ _ _ _ _ _ _ _ I) in E. lia.
Qed.
Lemma load_in_ids b j r v : is_load f b j r v -> In r (ids f).
Proof. intros [Hb Hi]. eapply in_ids_body; eauto. Qed.
Lemma repl_is_load r x : repl s r = Some x -> exists b j v d, is_load f b j r v /\ value_at f undef (C s) b j v d /\ R x = R d.
Proof using I. apply (i_load _ _ _ _ _ _ _ _ _ _ I). Qed.
Lemma ren0_keep x : repl s x = None -> ren0 x = x.
Proof. intros H. unfold ren0. destruct fuel as [|n]; simpl; [reflexivity|]. rewrite H. reflexivity. Qed.
Lemma reach_sealed l : reach f l -> In l (rev o).
Proof using COV. intros H. rewrite <- in_rev. apply COV, H. Qed.
Lemma cand_repl p : first <= p -> repl s p = None.
Proof using I FR. intros L. destruct (repl s p) as [x|] eqn:E; [|reflexivity]. destruct (repl_is_load p x E) as (b & j & v & d & H & _). apply load_in_ids in H. apply (proj1 FR) in H. lia. Qed.
Lemma phi_argument_root n : forall a y, phi_argument n s a = Some y -> R y = R a /\ R y = y.
Proof using I.
  induction n as [|n IH]; intros a y H; [discriminate|]. simpl in H. destruct (a =? 0); [discriminate|]. pose proof (i_root _ _ _ _ _ _ _ _ _ _ I a) as Ra. destruct (cands s a) as [c|] eqn:E.
  - destruct (ready c) eqn:Rc.
    + injection H as <-. unfold ready in Rc. apply andb_true_iff in Rc. destruct Rc as [_ Z]. apply N.eqb_eq in Z. auto.
    + destruct (IH _ _ H) as [A B]. split; [|exact B]. rewrite A. symmetry. apply (i_copy _ _ _ _ _ _ _ _ _ _ I a c E). intros Z. rewrite Z in H. destruct n; discriminate.
  - injection H as <-. auto.
Qed.
Lemma in_loads b j r v : is_load f b j r v -> In r (loads f).
Proof. intros [Hb Hi]. unfold loads. apply in_flat_map. exists b. split; [exact Hb|]. apply in_flat_map. exists (ILoad r v). split; [eapply nth_error_In; eauto|left; reflexivity]. Qed.
Lemma gen_cand p : In p (gen s) -> exists c, cands s p = Some c /\ R p = p /\ length (c_args c) = length (preds f (c_bb c)) /\ ~ In 0 (c_args c).
Proof using I.
  intros H. destruct (proj2 (i_gen _ _ _ _ _ _ _ _ _ _ I) p H) as (c & Hc & Z & _ & L & Nz). exists c. pose proof (i_root _ _ _ _ _ _ _ _ _ _ I p) as Rp. rewrite Hc in Rp. auto.
Qed.
Lemma new_from l q : In (l, q) new -> exists c args, In (p_res q) (gen s) /\ cands s (p_res q) = Some c /\ c_bb c = l /\
  mapM (fun a => match phi_argument fuel s a with Some x => replacement fuel s x | None => None end) (c_args c) = Some args /\ p_args q = dedup [] (combine args (preds f l)).
Proof using NEW.
  intros H. destruct (mapM_in _ _ _ NEW _ H) as (p & Hp & E). unfold new_phi in E. destruct (cands s p) as [c|] eqn:Ec; [|discriminate].
  destruct (mapM _ (c_args c)) as [args|] eqn:Ea; [|discriminate]. injection E as <- <-. simpl. exists c, args. auto.
Qed.
Lemma fits_new : fits f undef (C s) renR new.
Proof using All.
  constructor.
  - intros p Hp. apply cand_ids in Hp. split; [apply fresh_ids, Hp|]. intros v E. pose proof (proj1 (proj2 FR v)). lia.
  - intros l v l' v' p (c & H & <- & <-) (c' & H' & <- & <-). assert (c = c') by congruence. subst. auto.
  - intros l v p (c & H & <- & <-). apply (i_two _ _ _ _ _ _ _ _ _ _ I p c H).
  - intros x Nc Nl. assert (Rx : R x = x). { pose proof (i_root _ _ _ _ _ _ _ _ _ _ I x) as H. destruct (cands s x) as [c|] eqn:E; [|exact H]. destruct Nc. exists (c_bb c), (c_var c), c. auto. }
    unfold renR. rewrite Rx. apply ren0_keep. destruct (repl s x) as [y|] eqn:E; [|reflexivity]. destruct (repl_is_load x y E) as (b & j & v & d & H & _). destruct (Nl _ _ _ H).
  - intros b j r v Hl Rb. pose proof (reach_sealed _ Rb) as Sb. pose proof Hl as [Hb Hi].
    destruct (repl s r) as [x|] eqn:E; [|exfalso; eapply (LD (label b) b r v); eauto; [apply find_block_wf; [apply WF|exact Hb]|eapply nth_error_In; eauto]].
    destruct (repl_is_load r x E) as (b' & j' & v' & d & [Hb' Hi'] & V & Ed).
    destruct (wf_once f WF r b (S j) b' (S j')) as [<- Ej]; [split; [exact Hb|exists (ILoad r v); auto]|split; [exact Hb'|exists (ILoad r v'); auto]|]. injection Ej as <-.
    assert (v' = v) by congruence. subst v'. exists d. split; [exact V|].
    destruct (mapM_of _ _ _ LOADS r (in_loads _ _ _ _ Hl)) as (z & _ & Hz).
    assert (Rr : R r = r) by (apply non_cand_root; apply load_in_ids in Hl; apply (proj1 FR) in Hl; lia).
    assert (Rx : R x = x). { pose proof (i_root _ _ _ _ _ _ _ _ _ _ I x) as H. destruct (cands s x) as [c|] eqn:Ex; [|exact H]. apply H. eapply ND; eauto. }
    unfold renR. rewrite Rr, <- Ed, Rx. unfold ren0. rewrite Hz. clear - Hz E. destruct fuel as [|n]; [discriminate|]. simpl in Hz. rewrite E in Hz. rewrite (replacement_more _ _ _ _ Hz). reflexivity.
  - intros l v p (c & H & <- & <-). destruct (i_all _ _ _ _ _ _ _ _ _ _ I p c H) as [[]|[A|[A|Z]]]; [rewrite Q in A; destruct A| |].
    + left. destruct (mapM_of _ _ _ NEW p A) as ([l q] & Hq & E). unfold new_phi in E. rewrite H in E. destruct (mapM _ (c_args c)); [|discriminate]. injection E as <- <-. eexists. split; [exact Hq|reflexivity].
    + right. intros q Rq Hq. apply (in_preds_succs f _ q WF) in Hq. apply In_nth_error in Hq. destruct Hq as [i Hi]. destruct (i_rem _ _ _ _ _ _ _ _ _ _ I p c H Z) as [L A].
      assert (Hn : (i < length (c_args c))%nat) by (rewrite L; apply nth_error_Some; congruence). destruct (nth_error (c_args c) i) as [a|] eqn:Ea; [|apply nth_error_None in Ea; lia].
      destruct (A a (nth_error_In _ _ Ea)) as [Na Er]. destruct (i_arg _ _ _ _ _ _ _ _ _ _ I p c i a q H Ea Na Hi) as [(_ & d & D & Ed)|[_ F]]; [|destruct (F (reach_sealed q Rq))].
      exists d. split; [exact D|]. unfold renR. congruence.
  - assert (E : map (fun x => p_res (snd x)) new = gen s).
    { clear - NEW. revert new NEW. induction (gen s) as [|p g IH]; simpl; intros new H; [injection H as <-; reflexivity|]. destruct (new_phi f fuel s p) as [[l q]|] eqn:E; [|discriminate].
      destruct (mapM (new_phi f fuel s) g) as [r|]; [|discriminate]. injection H as <-. simpl. f_equal; [|apply IH; reflexivity].
      unfold new_phi in E. destruct (cands s p); [|discriminate]. destruct (mapM _ _); [|discriminate]. injection E as <- <-. reflexivity. }
    rewrite E. apply (i_gen _ _ _ _ _ _ _ _ _ _ I).
  - intros l q Hq. destruct (new_from l q Hq) as (c & args & Hg & Hc & Eb & Ea & Ep). destruct (gen_cand _ Hg) as (c' & Hc' & Rp & L & Nz). assert (c' = c) by congruence. subst c'.
    exists (c_var c). split; [exists c; auto|]. split.
    + unfold renR. rewrite Rp. apply ren0_keep, cand_repl. apply (i_next _ _ _ _ _ _ _ _ _ _ I _ _ Hc).
    + intros p Rpp Hp. apply (in_preds_succs f l p WF) in Hp.
      destruct (combine_find p args (preds f l)) as (i & a & Ai & Pi & Fi); [rewrite (mapM_length _ _ _ Ea), <- Eb; exact L|exact Hp|].
      destruct (nth_error (c_args c) i) as [a0|] eqn:Ea0; [|apply nth_error_None in Ea0; assert (i < length args)%nat by (apply nth_error_Some; congruence); rewrite (mapM_length _ _ _ Ea) in H; lia].
      destruct (mapM_nth _ _ _ Ea i a0 Ea0) as (a' & Ai' & Ga). assert (a' = a) by congruence. subst a'.
      destruct (phi_argument fuel s a0) as [y|] eqn:Ey; [|discriminate]. destruct (phi_argument_root _ _ _ Ey) as [R1 R2].
      assert (Na : a0 <> 0) by (intros ->; apply Nz; eapply nth_error_In; eauto). rewrite <- Eb in Pi.
      destruct (i_arg _ _ _ _ _ _ _ _ _ _ I _ c i a0 p Hc Ea0 Na Pi) as [(_ & d & D & Ed)|[_ F]]; [|destruct (F (reach_sealed p Rpp))].
      exists a, d. rewrite Ep. rewrite dedup_find by (intros []). split; [exact Fi|]. split; [exact D|].
      unfold renR. rewrite <- Ed, <- R1, R2. unfold ren0. rewrite Ga. reflexivity.
Qed.
Lemma ren_ids x : In x (ids f) -> renR x = ren0 x.
Proof using I FR. intros H. unfold renR. rewrite non_cand_root; [reflexivity|]. apply (proj1 FR) in H. lia. Qed.
Lemma finish_same : map (finish_block s renR new) f = map (finish_block s ren0 new) f.
Proof using I FR.
  apply map_ext_in. intros b Hb. unfold finish_block.
  assert (Sub : forall x, In x (flat_map (fun p => p_res p :: map fst (p_args p)) (phis b) ++ flat_map (fun i => match result i with Some r => r :: reads i | None => reads i end) (body b) ++ t_args b) -> renR x = ren0 x).
  { intros x Hx. apply ren_ids. apply in_flat_map. exists b. split; [exact Hb|right; exact Hx]. }
  f_equal.
  - f_equal. apply map_ext_in. intros p Hp. f_equal. apply map_ext_in. intros a Ha. f_equal. apply Sub. apply in_or_app. left. apply in_flat_map. exists p. split; [exact Hp|right; apply in_map, Ha].
  - apply map_ext_in. intros i Hi. apply filter_In in Hi. destruct Hi as [Hi _].
    assert (Si : forall x, In x (reads i) -> renR x = ren0 x).
    { intros x Hx. apply Sub. apply in_or_app. right. apply in_or_app. left. apply in_flat_map. exists i. split; [exact Hi|]. destruct (result i); [right|]; exact Hx. }
    destruct i as [r v|v x|r op l]; simpl; [reflexivity| |]; f_equal; [apply Si; left; reflexivity|]. apply map_ext_in. intros x Hx. apply Si, Hx.
  - apply map_ext_in. intros x Hx. apply Sub. apply in_or_app. right. apply in_or_app. right. exact Hx.
Qed.
End New.

Theorem rewrite_preserves f undef first fuel s g : well_formed f -> fresh_from f undef first -> tables f undef fuel (visit_order f) first = Some s ->
  no_stale f s -> no_dangling s -> apply f fuel s = Some g ->
  forall D W (m : machine D W) n globals mem0 w0 r, fair_start undef globals mem0 -> run m f n globals mem0 w0 = Some r -> run m g n globals mem0 w0 = Some r.
Proof.
  intros WF FR T NS ND A D W m n globals mem0 w0 r FS H. assert (Nf : f <> []) by (intros ->; discriminate).
  pose proof (visit_order_ok f WF Nf) as COV. destruct (tables_ok f undef first WF FR fuel (visit_order f) s (proj1 COV) T NS) as (R & I & Q & LD).
  unfold apply in A. destruct (mapM (new_phi f fuel s) (gen s)) as [new|] eqn:NEW; [|discriminate]. destruct (mapM (replacement fuel s) (loads f)) as [ls|] eqn:LOADS; [|discriminate]. injection A as <-.
  change (run m (map (finish_block s (ren0 fuel s) new) f) n globals mem0 w0 = Some r). rewrite <- (finish_same f undef first FR fuel (visit_order f) s R I new).
  eapply fit_preserves; eauto.
  - eapply fits_new; eauto.
  - intros v. apply (proj2 FR v).
  - intros b j x v Hl Rb. pose proof Hl as [Hb Hi]. eapply (LD (label b)); [rewrite <- in_rev; apply COV, Rb|apply find_block_wf; [apply WF|exact Hb]|eapply nth_error_In; eauto].
Qed.

(** no load is left in a block that can be reached *)
Theorem rewrite_no_loads f undef first fuel g : well_formed f -> fresh_from f undef first -> rewrite f undef fuel first = Some g ->
  forall l b r v, reachable (succs f) (entry f) l -> find_block g l = Some b -> ~ In (ILoad r v) (body b).
Proof.
  intros WF FR H l b r v Rl Fb Hin. unfold rewrite in H. destruct (tables f undef fuel (visit_order f) first) as [s|] eqn:T; [|discriminate].
  assert (Nf : f <> []) by (intros ->; destruct Rl as [ls P]; unfold apply in H; destruct (mapM _ _); [destruct (mapM _ _); [|discriminate]|discriminate]; injection H as <-; discriminate).
  pose proof (visit_order_ok f WF Nf) as COV. pose proof (tables_loads f undef first WF FR fuel (visit_order f) s (proj1 COV) T) as LD.
  unfold apply in H. destruct (mapM (new_phi f fuel s) (gen s)) as [new|]; [|discriminate]. destruct (mapM (replacement fuel s) (loads f)) as [ls|]; [|discriminate]. injection H as <-.
  set (ren := fun x => match replacement fuel s x with Some y => y | None => x end) in Fb.
  assert (Ex : exists b0, find_block f l = Some b0 /\ b = finish_block s ren new b0).
  { clear - Fb. unfold find_block in *. induction f as [|a f' IH]; simpl in *; [discriminate|]. destruct (label a =? l); [injection Fb as <-; eauto|apply IH, Fb]. }
  destruct Ex as (b0 & F0 & ->). simpl in Hin. apply in_map_iff in Hin. destruct Hin as (i & Ei & Hi). apply filter_In in Hi. destruct Hi as [Hi K].
  destruct i as [r0 v0|v0 x0|r0 op0 l0]; simpl in Ei; try discriminate. injection Ei as -> ->. simpl in K.
  assert (Hs : repl s r <> None) by (eapply LD; eauto; rewrite <- in_rev; apply COV, Rl). destruct (repl s r); [discriminate|congruence].
Qed.
