(** Proofs about ValidateId.v, third part: the instructions of the module and the passes over them. *)
From Verif Require Import Base NamedIds NamedIdsProofs Cfa GraphSpec AugmentedProofs
  ValidateId ValidateIdSpec ValidateIdProofs ValidateIdProofs2.
Local Open Scope N_scope.

(** *** Outcomes *)
Lemma then_ok a b : then_ a b = Ok <-> a = Ok /\ b = Ok.
Proof. destruct a; simpl; intuition congruence. Qed.
Lemma then_def a b : a <> Undef -> (a = Ok -> b <> Undef) -> then_ a b <> Undef.
Proof. destruct a; simpl; auto; congruence. Qed.
Lemma all_ok_ok {A} (f : A -> outcome) l : all_ok f l = Ok <-> forall x, In x l -> f x = Ok.
Proof.
  induction l as [|x l IH]; [split; [intros _ x []|reflexivity]|]. cbn [all_ok]. rewrite then_ok, IH. split.
  - intros [H1 H2] y [<-|H]; auto.
  - intros H. split; [apply H; left; auto|]. intros y Hy. apply H; right; auto.
Qed.
Lemma all_ok_def {A} (f : A -> outcome) l : (forall x, In x l -> f x <> Undef) -> all_ok f l <> Undef.
Proof.
  induction l as [|x l IH]; intros H; [discriminate|]. cbn [all_ok]. apply then_def; [apply H; left; auto|].
  intros _. apply IH. intros y Hy. apply H; right; auto.
Qed.
Lemma of_bool_ok b : of_bool b = Ok <-> b = true.
Proof. destruct b; simpl; split; congruence. Qed.
Lemma of_bool_def b : of_bool b <> Undef.
Proof. destruct b; discriminate. Qed.

(** *** Results and uses *)
Definition res (it : item) : list N := match result_id (it_inst it) with Some x => [x] | None => [] end.
Definition results (l : list item) : list N := flat_map res l.
Lemma in_res it x : In x (res it) <-> defines it x.
Proof. unfold res, defines. destruct (result_id (it_inst it)); simpl; intuition congruence. Qed.
Lemma in_results x l : In x (results l) <-> exists d, In d l /\ defines d x.
Proof. unfold results. rewrite in_flat_map. split; intros (d & H1 & H2); exists d; split; auto; apply in_res; auto. Qed.
Lemma results_app a b : results (a ++ b) = results a ++ results b.
Proof. apply flat_map_app. Qed.

Lemma in_used it x : In x (used_ids (it_inst it)) <-> uses it x.
Proof.
  unfold used_ids, uses. rewrite in_flat_map. split.
  - intros ([y|y|y|] & H1 & H2); cbn in H2; try tauto; destruct H2 as [<-|[]]; auto.
  - intros [H|H]; eexists; (split; [exact H|left; auto]).
Qed.
Lemma backward_uses it x : uses_backward it x -> uses it x.
Proof. intros [H|(k & H & _)]; [left; auto|right; eapply nth_error_In; eauto]. Qed.

(** *** IdPass *)
Lemma check_operands_spec defs o : forall ops k fwd,
  match check_operands defs o k ops fwd with
  | Some fwd' =>
      (forall x, In x fwd' <-> In x fwd \/ In (Id x) ops /\ ~ In x defs) /\
      (forall x, In (TypeId x) ops -> In x defs) /\
      (forall j x, nth_error ops j = Some (Id x) -> can_be_forward o (k + j) = false -> In x defs)
  | None =>
      exists x, ~ In x defs /\ (In (TypeId x) ops \/
        exists j, nth_error ops j = Some (Id x) /\ can_be_forward o (k + j) = false)
  end.
Proof.
  induction ops as [|a ops IH]; intros k fwd; cbn [check_operands].
  - split; [|split]; [intros x; split; [auto|intros [|[[] _]]; auto]|intros x []|intros [|j] x H; discriminate].
  - assert (STEP : forall fwd1, (forall x, a <> TypeId x) ->
       (forall x, a = Id x -> In x defs \/ can_be_forward o k = true) ->
       (forall x, In x fwd1 <-> In x fwd \/ a = Id x /\ ~ In x defs) ->
       match check_operands defs o (S k) ops fwd1 with
       | Some fwd' =>
         (forall x, In x fwd' <-> In x fwd \/ In (Id x) (a :: ops) /\ ~ In x defs) /\
         (forall x, In (TypeId x) (a :: ops) -> In x defs) /\
         (forall j x, nth_error (a :: ops) j = Some (Id x) -> can_be_forward o (k + j) = false -> In x defs)
       | None =>
         exists x, ~ In x defs /\ (In (TypeId x) (a :: ops) \/
           exists j, nth_error (a :: ops) j = Some (Id x) /\ can_be_forward o (k + j) = false)
       end).
    { intros fwd1 NT HI F1. specialize (IH (S k) fwd1). destruct (check_operands defs o (S k) ops fwd1) as [fwd'|].
      - destruct IH as (I1 & I2 & I3). split; [|split].
        + intros x. rewrite I1, F1. cbn [In]. tauto.
        + intros x [H|H]; [exfalso; eapply NT; eauto|auto].
        + intros [|j] x H C.
          * cbn [nth_error] in H. injection H as H. rewrite Nat.add_0_r in C. destruct (HI x H); [auto|congruence].
          * cbn [nth_error] in H. apply (I3 j x H). rewrite <- C. f_equal. lia.
      - destruct IH as (x & I1 & I2). exists x. split; auto. destruct I2 as [I2|(j & I2 & I3)]; [left; right; auto|].
        right. exists (S j). split; auto. rewrite <- I3. f_equal. lia. }
    destruct a as [y|y|y|].
    + apply STEP; try discriminate. intros x. split; [auto|intros [|[H _]]; [auto|discriminate]].
    + destruct (mem y defs) eqn:M.
      * apply mem_In in M. specialize (IH (S k) fwd). destruct (check_operands defs o (S k) ops fwd) as [fwd'|].
        -- destruct IH as (I1 & I2 & I3). split; [|split].
           ++ intros x. rewrite I1. cbn [In]. intuition discriminate.
           ++ intros x [H|H]; [injection H as <-; auto|auto].
           ++ intros [|j] x H C; [discriminate|]. apply (I3 j x H). rewrite <- C. f_equal. lia.
        -- destruct IH as (x & I1 & I2). exists x. split; auto. destruct I2 as [I2|(j & I2 & I3)]; [left; right; auto|].
           right. exists (S j). split; auto. rewrite <- I3. f_equal. lia.
      * exists y. split; [intros H; apply mem_In in H; congruence|]. left; left; auto.
    + destruct (mem y defs) eqn:M.
      * apply mem_In in M. apply STEP; try discriminate.
        -- intros x H. injection H as <-. auto.
        -- intros x. split; [auto|]. intros [|[H1 H2]]; auto. injection H1 as <-. contradiction.
      * assert (~ In y defs) as NY by (intros H; apply mem_In in H; congruence).
        destruct (can_be_forward o k) eqn:C.
        -- apply STEP; try discriminate.
           ++ intros x H. auto.
           ++ intros x. cbn [In]. split; [intros [<-|]; auto|]. intros [|[H1 H2]]; auto. injection H1 as <-. auto.
        -- exists y. split; auto. right. exists 0%nat. split; auto. rewrite Nat.add_0_r. auto.
    + apply STEP; try discriminate. intros x. split; [auto|intros [|[H _]]; [auto|discriminate]].
Qed.

Lemma id_pass_spec defs fwd it :
  match id_pass defs fwd (it_inst it) with
  | Some (defs', fwd') =>
      (forall x, In x defs' <-> In x defs \/ defines it x) /\
      (forall x, In x fwd' <-> (In x fwd \/ In (Id x) (operands (it_inst it)) /\ ~ In x defs) /\ ~ defines it x) /\
      (forall x, uses_backward it x -> In x defs)
  | None => exists x, ~ In x defs /\ uses_backward it x
  end.
Proof.
  unfold id_pass. pose proof (check_operands_spec defs (op (it_inst it)) (operands (it_inst it)) 0 fwd) as H.
  destruct (check_operands defs (op (it_inst it)) 0 (operands (it_inst it)) fwd) as [fwd1|].
  - destruct H as (H1 & H2 & H3).
    assert (BW : forall x, uses_backward it x -> In x defs).
    { intros x [U|(k & U1 & U2)]; auto. eapply (H3 k); eauto. }
    unfold defines. destruct (result_id (it_inst it)) as [r|] eqn:R.
    + split; [|split]; auto.
      * intros x. cbn [In]. intuition congruence.
      * intros x. rewrite filter_In, H1, negb_true_iff, N.eqb_neq. intuition congruence.
    + split; [|split]; auto.
      * intros x. intuition discriminate.
      * intros x. rewrite H1. intuition discriminate.
  - destruct H as (x & H1 & H2). exists x. split; auto.
Qed.

Lemma id_passes_spec : forall l defs fwd, (forall x, In x fwd -> ~ In x defs) ->
  (id_passes defs fwd l = true <->
    (forall before it after x, l = before ++ it :: after -> uses_backward it x -> In x defs \/ In x (results before)) /\
    (forall x, In x fwd -> In x (results l)) /\
    (forall it x, In it l -> uses it x -> In x defs \/ In x (results l))).
Proof.
  induction l as [|it l IH]; intros defs fwd DJ; cbn [id_passes].
  - split.
    + intros H. destruct fwd; [|discriminate]. split; [|split].
      * intros before it after x E. destruct before; discriminate.
      * intros x [].
      * intros it x [].
    + intros (_ & H & _). destruct fwd as [|y fwd]; auto. destruct (H y (or_introl eq_refl)).
  - pose proof (id_pass_spec defs fwd it) as S. destruct (id_pass defs fwd (it_inst it)) as [[defs' fwd']|].
    + destruct S as (S1 & S2 & S3).
      assert (DJ' : forall x, In x fwd' -> ~ In x defs').
      { intros x H K. apply S2 in H. apply S1 in K. destruct H as [[H|[_ H]] H']; [|tauto]. destruct K; [|tauto]. eapply DJ; eauto. }
      assert (RC : forall x, In x (results (it :: l)) <-> defines it x \/ In x (results l)).
      { intros x. change (it :: l) with ([it] ++ l). rewrite results_app, in_app_iff. unfold results at 1. cbn [flat_map].
        rewrite app_nil_r, in_res. tauto. }
      assert (DD : forall x, defines it x \/ ~ defines it x).
      { intros x. unfold defines. destruct (result_id (it_inst it)) as [r|]; [|right; discriminate].
        destruct (N.eq_dec r x); [left; congruence|right; congruence]. }
      rewrite (IH defs' fwd' DJ'). split.
      * intros (A & B & C). split; [|split].
        -- intros [|i0 before] it' after x E U.
           ++ injection E as <- ->. auto.
           ++ injection E as <- ->. destruct (A before it' after x eq_refl U) as [H|H].
              ** apply S1 in H. destruct H as [H|H]; auto. right. change (it :: before) with ([it] ++ before).
                 rewrite results_app, in_app_iff. left. unfold results. cbn [flat_map]. rewrite app_nil_r. apply in_res; auto.
              ** right. change (it :: before) with ([it] ++ before). rewrite results_app, in_app_iff. auto.
        -- intros x H. apply RC. destruct (DD x) as [D|D]; auto. right. apply B. apply S2. auto.
        -- intros it' x [<-|H] U.
           ++ destruct (DD x) as [D|D]; [right; apply RC; auto|].
              destruct (in_dec N.eq_dec x defs) as [I|I]; auto. right. apply RC. right. apply B. apply S2. split; auto.
              right. split; auto. destruct U as [U|U]; auto. exfalso. apply I, S3. left; auto.
           ++ destruct (C it' x H U) as [K|K]; [apply S1 in K; destruct K; auto; right; apply RC; auto|right; apply RC; auto].
      * intros (A & B & C). split; [|split].
        -- intros before it' after x E U. destruct (A (it :: before) it' after x) as [H|H]; auto.
           ++ rewrite E. auto.
           ++ left. apply S1; auto.
           ++ change (it :: before) with ([it] ++ before) in H. rewrite results_app, in_app_iff in H. destruct H as [H|H]; auto.
              unfold results in H. cbn [flat_map] in H. rewrite app_nil_r, in_res in H. left. apply S1; auto.
        -- intros x H. apply S2 in H. destruct H as [[H|[H H']] D].
           ++ apply B in H. apply RC in H. tauto.
           ++ destruct (C it x (or_introl eq_refl) (or_intror H)) as [K|K]; [contradiction|]. apply RC in K. tauto.
        -- intros it' x H U. destruct (C it' x (or_intror H) U) as [K|K]; [left; apply S1; auto|].
           apply RC in K. destruct K; auto. left. apply S1; auto.
    + destruct S as (x & S1 & S2). split; [discriminate|]. intros (A & _ & _). exfalso.
      destruct (A [] it l x eq_refl S2) as [H|[]]. contradiction.
Qed.

Lemma id_passes_rule m : id_passes [] [] (items m) = true <->
  (forall before it after x, items m = before ++ it :: after -> uses_backward it x -> exists d, In d before /\ defines d x) /\
  (forall it x, In it (items m) -> uses it x -> exists d, In d (items m) /\ defines d x).
Proof.
  rewrite (id_passes_spec (items m) [] []) by (intros x []). split.
  - intros (A & _ & C). split.
    + intros before it after x E U. destruct (A before it after x E U) as [[]|H]. apply in_results; auto.
    + intros it x H U. destruct (C it x H U) as [[]|K]. apply in_results; auto.
  - intros (A & C). split; [|split].
    + intros before it after x E U. right. apply in_results. eauto.
    + intros x [].
    + intros it x H U. right. apply in_results. eauto.
Qed.

(** *** The instructions of a module *)
Lemma item_cases m it : In it (items m) ->
  (exists i, In i (globals m) /\ it = Item i None None) \/
  exists f, In f (funcs m) /\
    (it = Item (function_inst f) None None \/
     (exists p, In p (params f) /\ it = Item (param_inst p) (Some (f_id f)) None) \/
     exists b, In b (blocks f) /\
       (it = Item (label_inst (label b)) (Some (f_id f)) None \/
        exists i, In i (body b) /\ it = Item i (Some (f_id f)) (Some (label b)))).
Proof.
  unfold items. rewrite in_app_iff, in_map_iff, in_flat_map. intros [(i & <- & H)|(f & Hf & H)]; [left; eauto|right].
  exists f. split; auto. unfold func_items in H. destruct H as [<-|H]; auto. right. apply in_app_iff in H.
  rewrite in_map_iff, in_flat_map in H. destruct H as [(p & <- & H)|(b & Hb & H)]; [left; eauto|right].
  exists b. split; auto. unfold block_items in H. destruct H as [<-|H]; auto. right. apply in_map_iff in H.
  destruct H as (i & <- & H). eauto.
Qed.
Lemma item_block m it b : In it (items m) -> it_block it = Some b ->
  exists f k, In f (funcs m) /\ it_func it = Some (f_id f) /\ In k (blocks f) /\ label k = b /\ In (it_inst it) (body k).
Proof.
  intros H E. destruct (item_cases m it H) as [(i & _ & ->)|(f & Hf & [->|[(p & _ & ->)|(k & Hk & [->|(i & Hi & ->)])]])];
    try discriminate. cbn in E. injection E as <-. exists f, k. auto 6.
Qed.
Lemma item_func m it fid : In it (items m) -> it_func it = Some fid -> exists f, In f (funcs m) /\ f_id f = fid.
Proof.
  intros H E. destruct (item_cases m it H) as [(i & _ & ->)|(f & Hf & [->|[(p & _ & ->)|(k & Hk & [->|(i & Hi & ->)])]])];
    try discriminate; cbn in E; injection E as <-; eauto.
Qed.
Lemma label_item m f b : In f (funcs m) -> In b (blocks f) -> In (Item (label_inst (label b)) (Some (f_id f)) None) (items m).
Proof.
  intros Hf Hb. unfold items. apply in_or_app. right. apply in_flat_map. exists f. split; auto. unfold func_items. right.
  apply in_or_app. right. apply in_flat_map. exists b. split; auto. left; auto.
Qed.

Lemma NoDup_app_parts {A} (a b : list A) : NoDup (a ++ b) -> NoDup a /\ NoDup b /\ forall x, In x a -> ~ In x b.
Proof.
  induction a as [|x a IH]; simpl; intros H; [split; [constructor|split; auto]|]. inversion H; subst.
  destruct (IH H3) as (I1 & I2 & I3). split; [constructor; auto; intros K; apply H2, in_or_app; auto|]. split; auto.
  intros y [<-|Hy] K; [apply H2, in_or_app; auto|eapply I3; eauto].
Qed.
Lemma NoDup_flat_map_pick {A B} (g : A -> list B) (h : A -> B) l :
  NoDup (flat_map g l) -> (forall x, In (h x) (g x)) -> NoDup (map h l).
Proof.
  intros ND H. induction l as [|x l IH]; [constructor|]. cbn [flat_map map] in *. apply NoDup_app_parts in ND.
  destruct ND as (N1 & N2 & N3). constructor; auto. intros K. apply in_map_iff in K. destruct K as (y & E & Hy).
  eapply N3; [apply H|]. apply in_flat_map. exists y. split; auto. rewrite <- E. apply H.
Qed.
Lemma NoDup_flat_map_in {A B} (g : A -> list B) l x : NoDup (flat_map g l) -> In x l -> NoDup (g x).
Proof.
  induction l as [|y l IH]; intros ND H; [destruct H|]. cbn [flat_map] in ND. apply NoDup_app_parts in ND.
  destruct ND as (N1 & N2 & _). destruct H as [<-|H]; auto.
Qed.

Lemma flat_map_flat_map {A B C} (g : B -> list C) (h : A -> list B) l :
  flat_map g (flat_map h l) = flat_map (fun x => flat_map g (h x)) l.
Proof. induction l as [|x l IH]; auto. cbn [flat_map]. rewrite flat_map_app, IH. auto. Qed.
Lemma find_unique {A} (g : A -> list N) l (x : A) k :
  NoDup (flat_map g l) -> In x l -> In k (g x) ->
  forall t, (forall y, t y = true <-> In k (g y)) -> find t l = Some x.
Proof.
  intros ND Hx Hk t T. induction l as [|y l IH]; [destruct Hx|]. cbn [flat_map find] in *. apply NoDup_app_parts in ND.
  destruct ND as (N1 & N2 & N3). destruct (t y) eqn:Ty.
  - apply T in Ty. destruct Hx as [<-|Hx]; auto. exfalso. eapply N3; eauto. apply in_flat_map. eauto.
  - destruct Hx as [<-|Hx]; [|auto]. apply T in Hk. congruence.
Qed.

Section Wf.
Variable m : module.
Hypothesis WF : well_formed m.

Lemma results_nodup : NoDup (results (items m)).
Proof using WF. exact (wf_unique m WF). Qed.
Lemma results_funcs : NoDup (flat_map (fun f => results (func_items f)) (funcs m)).
Proof using WF.
  pose proof results_nodup as H. unfold items in H. rewrite results_app in H. apply NoDup_app_parts in H.
  destruct H as (_ & H & _). unfold results in *. rewrite flat_map_flat_map in H. exact H.
Qed.
Lemma func_ids_nodup : NoDup (map f_id (funcs m)).
Proof using WF. eapply NoDup_flat_map_pick; [exact results_funcs|]. intros f. left. reflexivity. Qed.
Lemma labels_nodup f : In f (funcs m) -> NoDup (labels f).
Proof using WF.
  intros H. pose proof (NoDup_flat_map_in _ _ _ results_funcs H) as K. cbv beta in K. unfold func_items in K.
  change (NoDup (f_id f :: results (map (fun p => Item (param_inst p) (Some (f_id f)) None) (params f) ++
     flat_map (block_items (f_id f)) (blocks f)))) in K.
  inversion K as [|x l K1 K2]; subst. rewrite results_app in K2. apply NoDup_app_parts in K2. destruct K2 as (_ & K2 & _).
  unfold results in K2. rewrite flat_map_flat_map in K2. eapply NoDup_flat_map_pick; [exact K2|].
  intros b. left. reflexivity.
Qed.
Lemma find_func_in f : In f (funcs m) -> find_func m (f_id f) = Some f.
Proof using WF.
  intros H. unfold find_func. apply (find_unique (fun g => [f_id g]) (funcs m) f (f_id f)); auto.
  - pose proof func_ids_nodup as K. clear -K. induction (funcs m) as [|x l IH]; [constructor|].
    cbn [flat_map map app] in *. inversion K; subst. constructor; auto.
  - left; auto.
  - intros g. rewrite N.eqb_eq. cbn [In]. intuition congruence.
Qed.
Lemma find_def_in d x : In d (items m) -> defines d x -> find_def m x = Some d.
Proof using WF.
  intros H D. unfold find_def. apply (find_unique res (items m) d x); auto; [exact results_nodup|apply in_res; auto|].
  intros y. rewrite in_res. unfold defines. destruct (result_id (it_inst y)) as [r|]; [|split; discriminate].
  rewrite N.eqb_eq. split; congruence.
Qed.
Lemma find_def_some d x : find_def m x = Some d -> In d (items m) /\ defines d x.
Proof using.
  intros H. apply find_some in H. destruct H as [H1 H2]. split; auto. unfold defines.
  destruct (result_id (it_inst d)) as [r|]; [|discriminate]. apply N.eqb_eq in H2. congruence.
Qed.
Lemma func_inj f f' : In f (funcs m) -> In f' (funcs m) -> f_id f = f_id f' -> f = f'.
Proof using WF. intros H H' E. apply find_func_in in H, H'. congruence. Qed.

(** *** ValidatePhi *)
Lemma in_unique_preds f b p : In p (unique_preds f b) <-> In p (labels f) /\ In b (succ f p).
Proof using. unfold unique_preds. rewrite nodup_In. apply in_preds_by. Qed.

Lemma parents_ok_spec f b : In f (funcs m) -> forall parents observed,
  parents_ok m (unique_preds f b) parents observed = true <->
  NoDup parents /\ (forall p, In p parents -> In p (unique_preds f b) /\ ~ In p observed).
Proof using WF.
  intros Hf. induction parents as [|p parents IH]; intros observed; cbn [parents_ok].
  - split; auto. intros _. split; [constructor|intros p []].
  - rewrite !andb_true_iff, negb_true_iff, IH, mem_In. split.
    + intros (((_ & A) & B) & C & D). split.
      * constructor; auto. intros H. destruct (D p H) as [_ K]. apply K. left; auto.
      * intros q [<-|H]; [split; auto; intros K; apply mem_In in K; congruence|].
        destruct (D q H) as [K1 K2]. split; auto. intros K. apply K2. right; auto.
    + intros (A & B). inversion A; subst. destruct (B p (or_introl eq_refl)) as [K1 K2]. repeat apply conj; auto.
      * pose proof K1 as K3. apply in_unique_preds in K3. destruct K3 as [K3 _]. unfold labels in K3. apply in_map_iff in K3.
        destruct K3 as (k & <- & Hk). rewrite (find_def_in _ _ (label_item m f k Hf Hk)); [reflexivity|reflexivity].
      * destruct (mem p observed) eqn:M; auto. apply mem_In in M. contradiction.
      * intros q H. destruct (B q (or_intror H)) as [L1 L2]. split; auto. intros [<-|K]; auto.
Qed.

Definition phi_parents_rule (u : item) : Prop :=
  is_phi (it_inst u) = true -> forall f bu, In f (funcs m) ->
    it_func u = Some (f_id f) -> it_block u = Some bu ->
    exists pairs, phi_pairs (it_inst u) = Some pairs /\ NoDup (map snd pairs) /\
      (forall p, In p (map snd pairs) <-> In p (labels f) /\ In bu (succ f p)).

Lemma phi_in_block u : In u (items m) -> is_phi (it_inst u) = true -> exists b, it_block u = Some b.
Proof using WF.
  intros H P. destruct (item_cases m u H) as [(i & Hi & ->)|(f & Hf & [->|[(p & _ & ->)|(k & Hk & [->|(i & Hi & ->)])]])];
    try discriminate P; [cbn in P; rewrite (wf_phi m WF i Hi) in P; discriminate|cbn; eauto].
Qed.

Lemma validate_phi_spec u : In u (items m) ->
  validate_phi m u <> Undef /\ (validate_phi m u = Ok <-> phi_parents_rule u).
Proof using WF.
  intros Hu. unfold validate_phi, phi_parents_rule.
  destruct (is_phi (it_inst u)) eqn:P.
  2:{ unfold is_phi in P. destruct (op (it_inst u)); try discriminate P; (split; [discriminate|split; [discriminate|reflexivity]]). }
  assert (op (it_inst u) = OpPhi) as -> by (unfold is_phi in P; destruct (op (it_inst u)); congruence).
  destruct (phi_in_block u Hu P) as (b & Eb). destruct (item_block m u b Hu Eb) as (f & k & Hf & Ef & Hk & Ek & Hi).
  rewrite Ef, Eb, (find_func_in f Hf).
  destruct (phi_pairs (it_inst u)) as [pairs|] eqn:PP.
  - split; [apply of_bool_def|]. rewrite of_bool_ok, andb_true_iff, Nat.eqb_eq, (parents_ok_spec f b Hf). split.
    + intros (L & A & B) _ f' b' Hf' Ef' Eb'. injection Ef' as Ef'. injection Eb' as <-.
      apply (func_inj f f' Hf Hf') in Ef'. subst f'. exists pairs. split; auto. split; auto. intros p. rewrite <- in_unique_preds.
      split; [intros H; apply B; auto|]. intros H.
      assert (I1 : incl (map snd pairs) (unique_preds f b)) by (intros q Hq; apply B; auto).
      assert (LE : (length (unique_preds f b) <= length (map snd pairs))%nat) by (rewrite map_length; lia).
      exact (NoDup_length_incl A LE I1 p H).
    + intros H. destruct (H eq_refl f b Hf eq_refl eq_refl) as (pairs' & E & A & B). injection E as <-. split; [|split].
      * rewrite <- (map_length snd). apply Nat.le_antisymm; apply NoDup_incl_length; auto.
        -- intros p Hp. apply in_unique_preds. apply B; auto.
        -- apply NoDup_nodup.
        -- intros p Hp. apply B. apply in_unique_preds; auto.
      * auto.
      * intros p Hp. split; auto. apply in_unique_preds. apply B; auto.
  - split; [discriminate|]. split; [discriminate|]. intros H.
    destruct (H eq_refl f b Hf eq_refl eq_refl) as (pairs' & E & _). discriminate.
Qed.

(** *** PerformCfgChecks *)
Lemma order_ok_spec edges : forall rest earlier, order_ok edges earlier rest = true <->
  forall r1 b r2 p, rest = r1 ++ b :: r2 -> idom edges b = Some p -> p = pseudo_entry \/ In p (earlier ++ r1).
Proof using.
  induction rest as [|b rest IH]; intros earlier; cbn [order_ok].
  - split; auto. intros _ [|x r1] b r2 p E; discriminate.
  - rewrite andb_true_iff, IH. split.
    + intros (A & C) [|x r1] y r2 p E I.
      * injection E as <- ->. rewrite I in A. apply orb_true_iff in A. rewrite N.eqb_eq, mem_In in A. rewrite app_nil_r. auto.
      * injection E as <- ->. destruct (C r1 y r2 p eq_refl I) as [|H]; auto. rewrite <- app_assoc in H. auto.
    + intros H. split.
      * destruct (idom edges b) as [p|] eqn:I; auto. apply orb_true_iff. rewrite N.eqb_eq, mem_In.
        destruct (H [] b rest p eq_refl I) as [|K]; auto. rewrite app_nil_r in K. auto.
      * intros r1 y r2 p -> I. destruct (H (b :: r1) y r2 p eq_refl I) as [|K]; auto. rewrite <- app_assoc. auto.
Qed.

Lemma precedes_index f a b : precedes f a b <->
  exists i j, (i < j)%nat /\ nth_error (labels f) i = Some a /\ nth_error (labels f) j = Some b.
Proof using.
  split.
  - intros (l1 & l2 & l3 & E). exists (length l1), (length l1 + S (length l2))%nat. rewrite E. split; [lia|]. split.
    + rewrite nth_error_app2, Nat.sub_diag; auto.
    + rewrite nth_error_app2 by lia. replace (length l1 + S (length l2) - length l1)%nat with (S (length l2)) by lia.
      cbn [nth_error]. rewrite nth_error_app2, Nat.sub_diag; auto.
  - intros (i & j & L & Hi & Hj). apply nth_error_split in Hj. destruct Hj as (l & r & E & Ej).
    unfold precedes. rewrite E in *. rewrite nth_error_app1 in Hi by lia. apply nth_error_split in Hi.
    destruct Hi as (l1 & l2 & -> & Ei). exists l1, l2, r. rewrite <- app_assoc. reflexivity.
Qed.
End Wf.
