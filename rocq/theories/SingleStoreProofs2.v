(** Proofs about the elimination of loads of variables stored to once: the loads that are replaced come after the store. *)
From Verif Require Import Base GraphSpec LocalElim LocalElimSpec LocalElimProofs LocalElimProofs2 LocalElimProofs3 LocalElimProofs4 SingleStore SingleStoreProofs.
Local Open Scope N_scope.

(** place [j] of block [c'] comes before place [k] of block [c] on every way to it *)
Definition before (f : func) (c' : block) (j : nat) (c : block) (k : nat) : Prop :=
  (c' = c /\ (j < k)%nat) \/ (label c' <> label c /\ dominates (succs f) (entry f) (label c') (label c)).
Lemma before_reach f c' j c k : reach f c -> before f c' j c k -> reach f c'.
Proof. intros R [[-> _]|[_ D]]; [exact R|]. eapply dom_reach; eauto. Qed.
Lemma before_avail f c' j c k z : well_formed f -> In c (blocks f) -> reach f c -> before f c' j c k -> available f c' j z -> available f c k z.
Proof.
  intros WF Hb R C1 Hz. destruct Hz as [N|(b2 & j2 & H2 & C2)]; [left; exact N|]. right. exists b2, j2. split; [exact H2|].
  destruct C1 as [[-> L1]|[N1 D1]].
  - destruct C2 as [[-> L2]|C2]; [left; split; [reflexivity|lia]|right; exact C2].
  - destruct C2 as [[-> L2]|[N2 D2]]; [right; auto|]. right. split; [|eapply dom_trans; eauto].
    intros E. apply N1. rewrite E in D2. eapply dom_antisym; eauto.
Qed.
Lemma before_edge f c' j c d : well_formed f -> In c (blocks f) -> In c' (blocks f) -> (j <= length (body c'))%nat -> In (label d) (t_succ c) ->
  before f c' j d 0 -> before f c' j c (S (length (body c))).
Proof.
  intros WF Hc Hc' L E [[_ L']|[Ne D]]; [lia|]. destruct (N.eq_dec (label c') (label c)) as [El|Nl].
  - left. pose proof (same_label f WF c' c Hc' Hc El) as ->. split; [reflexivity|lia].
  - right. split; [exact Nl|]. intros l P. assert (P' : path (succs f) (entry f) (label d) (l ++ [label d])).
    { econstructor; [exact P|]. unfold succs. rewrite (find_block f c WF Hc). exact E. }
    specialize (D _ P'). apply in_app_or in D. destruct D as [D|[D|[]]]; [exact D|congruence].
Qed.
Lemma before_step f c' j c k : before f c' j c (S k) -> before f c' j c k \/ (c' = c /\ j = k).
Proof. intros [[-> L]|H]; [|left; right; exact H]. destruct (Nat.eq_dec j k) as [->|]; [right; auto|left; left; split; [reflexivity|lia]]. Qed.
Lemma before_later f c' j c k : before f c' j c k -> before f c' j c (S k).
Proof. intros [[-> L]|H]; [left; split; [reflexivity|lia]|right; exact H]. Qed.

Definition as_state (s : progress) : state := mkstate (fun _ => None) (fun _ => None) (ren s) (gone s) [].

Section Loads.
Variable f : func.
Hypothesis WF : well_formed f.
Hypothesis PNS : pointers_not_stored f.
Variable dom : N -> N -> bool.
Hypothesis DR : forall b c, In b (blocks f) -> In c (blocks f) -> reach f c -> dom (label b) (label c) = true -> dominates (succs f) (entry f) (label b) (label c).

Lemma whole_unique v p : whole f v p -> forall v', whole f v' p -> v' = v.
Proof using All.
  induction 1 as [x Hx E|r a Hi Wh IH]; intros v' H.
  - destruct H as [x' Hx' E'|r a Hi' W']; [reflexivity|]. exfalso. apply (var_not_result f WF x _ Hx Hi'). simpl. congruence.
  - destruct H as [x' Hx' E'|r a' Hi' W'].
    + exfalso. apply (var_not_result f WF x' _ Hx' Hi). simpl. congruence.
    + pose proof (result_inj f WF _ _ r Hi Hi' eq_refl eq_refl) as E. injection E as <-. apply IH, W'.
Qed.
Lemma eligible_unique v st a st' a' : eligible f v st a -> eligible f v st' a' -> st' = st /\ a' = a.
Proof using All.
  intros E E'. destruct (el_store _ _ _ _ E) as (p & vol & Hp & Wp). destruct (el_store _ _ _ _ E') as (p' & vol' & Hp' & Wp').
  pose proof (el_use _ _ _ _ E p' st' _ (whole_derived f v p' Wp') Hp' (or_introl eq_refl)) as Es. simpl in Es. subst st'.
  pose proof (at_pos_fun f st _ _ Hp Hp') as K. injection K as _ <- _. auto.
Qed.
Lemma pos_same q q' r p vol p' vol' : at_pos f q (ILoad r p vol) -> at_pos f q' (ILoad r p' vol') -> q = q'.
Proof using All.
  destruct q as [b j], q' as [b' j']. intros H H'. apply in_placed in H, H'. destruct H as (c & Hb & Hj), H' as (c' & Hb' & Hj').
  assert (D1 : defined_at f r c (S j)) by (split; [eapply nth_error_In; eauto|exists (ILoad r p vol); auto]).
  assert (D2 : defined_at f r c' (S j')) by (split; [eapply nth_error_In; eauto|exists (ILoad r p' vol'); auto]).
  destruct (wf_once f WF _ _ _ _ _ D1 D2) as [<- E]. injection E as <-. rewrite (same_index f WF _ _ _ Hb Hb'). reflexivity.
Qed.

(** why a load may be gone *)
Definition just (s : progress) (q : pos) : Prop := exists r p vol v st a0,
  at_pos f q (ILoad r p vol) /\ whole f v p /\ eligible f v st a0 /\ dom_inst dom f st q = true /\ ren s r = ren s a0.
Record full (s : progress) : Prop := {
  fu_sound : sound f s;
  fu_just : forall q, In q (gone s) -> just s q;
  fu_before : renamed_before f (as_state s) }.
Lemma sound_passed s : sound f s -> renamed_passed f (as_state s) (length (blocks f)) 0.
Proof using All.
  intros So y Ne. destruct (so_renamed f s So y Ne) as ([b j] & p & vol & Hq & G). apply in_placed in Hq. destruct Hq as (c & Hb & Hj).
  exists b, c, j, p, vol. split; [exact Hb|]. split; [exact Hj|]. split; [left; apply nth_error_Some; congruence|exact G].
Qed.
Lemma dom_before bs js cs b j c p a vol x : nth_error (blocks f) bs = Some cs -> nth_error (body cs) js = Some (IStore p a vol) -> nth_error (blocks f) b = Some c -> nth_error (body c) j = Some x ->
  result x <> None -> reach f c -> dom_inst dom f (bs, js) (b, j) = true -> before f cs (S js) c (S j).
Proof using All.
  intros Hbs Hjs Hb Hj Hr R H. unfold dom_inst in H. simpl in H. destruct (Nat.eqb bs b) eqn:E.
  - apply Nat.eqb_eq in E. subst bs. assert (cs = c) by congruence. subst cs. apply Nat.leb_le in H. left. split; [reflexivity|]. destruct (Nat.eq_dec js j) as [->|]; [|lia].
    rewrite Hj in Hjs. injection Hjs as ->. destruct Hr. reflexivity.
  - rewrite Hbs, Hb in H. apply Nat.eqb_neq in E. right. split.
    + intros El. assert (cs = c) by (apply (same_label f WF); eauto using nth_error_In). subst cs. apply E. eapply same_index; eauto.
    + apply DR; eauto using nth_error_In.
Qed.
(** what is stored is available where the load is *)
Lemma stored_avail v bs js a0 b j c r p vol : eligible f v (bs, js) a0 -> nth_error (blocks f) b = Some c -> nth_error (body c) j = Some (ILoad r p vol) -> reach f c ->
  dom_inst dom f (bs, js) (b, j) = true -> exists cs, nth_error (blocks f) bs = Some cs /\ before f cs (S js) c (S j) /\ available f c (S j) a0.
Proof using All.
  intros El Hb Hj R H. destruct (el_store _ _ _ _ El) as (p0 & vol0 & Hs & _). apply in_placed in Hs. destruct Hs as (cs & Hbs & Hjs). exists cs. split; [exact Hbs|].
  assert (B : before f cs (S js) c (S j)) by (eapply dom_before; eauto; discriminate). split; [exact B|].
  eapply before_avail; eauto using nth_error_In. eapply (wf_uses f WF); eauto using nth_error_In; [eapply before_reach; eauto|simpl; auto].
Qed.

Lemma full_step s v st a0 q r p vol : full s -> eligible f v st a0 -> at_pos f q (ILoad r p vol) -> whole f v p -> dom_inst dom f st q = true ->
  full (mkprogress (fun y => replace1 r (ren s a0) (ren s y)) (q :: gone s)) /\ replace1 r (ren s a0) (ren s a0) = ren s a0.
Proof using All.
  intros [So Ju Be] El Hq Wp Dm. set (x := ren s a0). assert (X : replace1 r x x = x) by (unfold replace1; destruct (x =? r); reflexivity).
  split; [|exact X]. constructor.
  - constructor; simpl.
    + intros y Ne. destruct (N.eq_dec (ren s y) y) as [E|N].
      * rewrite E in Ne. unfold replace1 in Ne. destruct (N.eqb_spec y r) as [Ey|]; [|congruence]. subst y. exists q, p, vol. auto.
      * destruct (so_renamed f s So y N) as (q' & p' & vol' & H & G). exists q', p', vol'. auto.
    + intros y. unfold replace1. destruct (N.eqb_spec (ren s y) r) as [Ey|]; [|apply (so_stored f s So y)]. right. unfold x.
      destruct (so_stored f s So a0) as [E|H]; [|exact H]. rewrite E. destruct (el_store _ _ _ _ El) as (p0 & vol0 & Hs & _). exists p0, a0, vol0. split; [eapply at_pos_inst; eauto|reflexivity].
    + intros q' [<-|H]; [eauto|apply (so_gone f s So q' H)].
  - simpl. intros q' [<-|H].
    + exists r, p, vol, v, st, a0. repeat (split; [assumption|]). simpl. fold x. rewrite X. destruct (N.eq_dec (ren s r) r) as [E|N].
      * rewrite E. unfold replace1. rewrite N.eqb_refl. reflexivity.
      * destruct (so_renamed f s So r N) as (q' & p' & vol' & H & G). destruct (Ju q' G) as (r1 & p1 & vol1 & v1 & st1 & a1 & J1 & J2 & J3 & J4 & J5).
        pose proof (at_pos_fun f q' _ _ H J1) as K. injection K as -> -> ->. pose proof (pos_same _ _ _ _ _ _ _ Hq H) as Eq. subst q'. pose proof (at_pos_fun f q _ _ Hq H) as K. injection K as -> ->.
        pose proof (whole_unique v p1 Wp v1 J2) as ->. destruct (eligible_unique _ _ _ _ _ El J3) as [_ ->]. rewrite J5. fold x. exact X.
    + destruct (Ju q' H) as (r1 & p1 & vol1 & v1 & st1 & a1 & J1 & J2 & J3 & J4 & J5). exists r1, p1, vol1, v1, st1, a1. repeat (split; [assumption|]). simpl. rewrite J5. reflexivity.
  - intros y b k Dy R. simpl. destruct q as [bq jq]. pose proof Hq as Hq'. apply in_placed in Hq'. destruct Hq' as (c & Hb & Hj). destruct st as [bs js].
    assert (Dr : defined_at f r c (S jq)) by (split; [eapply nth_error_In; eauto|exists (ILoad r p vol); auto]).
    assert (Ax : reach f c -> available f c (S jq) x).
    { intros Rc. destruct (stored_avail v bs js a0 bq jq c r p vol El Hb Hj Rc Dm) as (cs & _ & _ & Av).
      apply (ren_avail f WF (as_state s) _ _ c (S jq) a0 (sound_passed s So) Be); eauto using nth_error_In. }
    unfold replace1. destruct (N.eqb_spec (ren s y) r) as [Ey|]; [|apply (Be y b k Dy R)]. right. destruct (Be y b k Dy R) as [E|E]; simpl in E.
    + assert (y = r) by congruence. subst y. destruct (wf_once f WF _ _ _ _ _ Dy Dr) as [-> ->]. apply Ax, R.
    + rewrite Ey in E. assert (Rc : reach f c) by (eapply avail_reach; eauto). eapply avail_trans; eauto. apply Dy.
Qed.
Lemma full_loads v st a0 l : forall s x, full s -> eligible f v st a0 -> ren s a0 = x ->
  (forall q r p vol, In (UInst q (ILoad r p vol)) l -> at_pos f q (ILoad r p vol) /\ whole f v p) -> full (rewrite_loads dom f st x l s).
Proof using All.
  induction l as [|u l IH]; simpl; intros s x Fu El Ex Hl; [exact Fu|].
  assert (Hl' : forall q r p vol, In (UInst q (ILoad r p vol)) l -> at_pos f q (ILoad r p vol) /\ whole f v p) by (intros; apply Hl; auto).
  destruct u as [q [r p vol| | | | |]|]; try (apply (IH s x); assumption).
  destruct (dom_inst dom f st q) eqn:Dm; [|apply IH; auto]. destruct (Hl q r p vol (or_introl eq_refl)) as [Hq Wp]. destruct (full_step s v st a0 q r p vol Fu El Hq Wp Dm) as [F1 F2].
  rewrite Ex in F1, F2. apply IH; [exact F1|exact El|simpl; rewrite Ex; exact F2|exact Hl'].
Qed.
Lemma full_variable v s s' : In v (vars f) -> v_target v = true -> full s -> process_variable dom f (v_id v) s = Some s' -> full s'.
Proof using All.
  intros Hv T Fu H. unfold process_variable in H. destruct (find_uses (fuel_of f) f s (v_id v)) as [us|] eqn:F; [|discriminate].
  destruct (single_store (fuel_of f) f s us None) as [[[q x]|]|] eqn:E; [|injection H as <-; exact Fu|discriminate]. injection H as <-.
  destruct (checked f WF PNS s (fu_sound _ Fu) (v_id v) v (conj Hv (conj eq_refl T)) _ _ _ _ _ F E) as (a0 & -> & El).
  eapply full_loads; eauto. intros q1 r p vol Hu. destruct (load_user f WF PNS s (fu_sound _ Fu) (v_id v) v (conj Hv (conj eq_refl T)) _ _ _ _ _ _ F Hu) as (A & B & _). auto.
Qed.
Lemma full_start : full (mkprogress (fun x => x) []).
Proof using All.
  constructor; [constructor|simpl; tauto|]; simpl.
  - intros y H. destruct (H eq_refl).
  - auto.
  - intros q [].
  - intros y b k _ _. left. reflexivity.
Qed.
Lemma full_variables l : forall s s', (forall v, In v l -> In v (vars f)) -> full s -> process_variables dom f l s = Some s' -> full s'.
Proof using All.
  induction l as [|v l IH]; simpl; intros s s' Hl Fu H; [injection H as <-; exact Fu|]. destruct (v_target v) eqn:T; [|eapply IH; eauto].
  destruct (process_variable dom f (v_id v) s) as [s1|] eqn:E; [|discriminate]. eapply IH; [intros; apply Hl; auto| |exact H]. eapply full_variable; eauto.
Qed.
End Loads.
