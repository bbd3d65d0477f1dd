(** Proofs about ValidateId.v, fifth part: what the rule says about executions. *)
From Verif Require Import Base NamedIds NamedIdsProofs Cfa GraphSpec AugmentedProofs
  ValidateId ValidateIdSpec ValidateIdProofs ValidateIdProofs2 ValidateIdProofs3 ValidateIdProofs4.
Local Open Scope N_scope.

Section Exec.
Variable m : module.
Hypothesis WF : well_formed m.
Hypothesis RULE : ssa_rule m.

(** The text before an instruction of a block. *)
Lemma text_before f b before i after : In f (funcs m) -> In b (blocks f) -> body b = before ++ i :: after ->
  exists P after', items m = (P ++ Item (label_inst (label b)) (Some (f_id f)) None ::
      map (fun i => Item i (Some (f_id f)) (Some (label b))) before) ++ Item i (Some (f_id f)) (Some (label b)) :: after' /\
    (forall d x, In d P -> it_block d = Some x -> exists d', In d' P /\ defines d' x).
Proof using.
  intros Hf Hb E. apply in_split in Hf. destruct Hf as (fs1 & fs2 & Ef). apply in_split in Hb. destruct Hb as (bs1 & bs2 & Eb).
  set (P := items (SpvModule (globals m) fs1) ++ Item (function_inst f) None None ::
      map (fun p => Item (param_inst p) (Some (f_id f)) None) (params f) ++ flat_map (block_items (f_id f)) bs1).
  exists P, (map (fun i => Item i (Some (f_id f)) (Some (label b))) after ++ flat_map (block_items (f_id f)) bs2 ++ flat_map func_items fs2).
  split.
  - unfold P, items. cbn [globals funcs]. rewrite Ef, flat_map_app. cbn [flat_map]. unfold func_items at 2. rewrite Eb, flat_map_app.
    cbn [flat_map]. unfold block_items at 2. rewrite E, map_app. cbn [map].
    repeat (rewrite <- ?app_assoc; cbn [app]). reflexivity.
  - intros d x Hd Ed. unfold P in Hd. apply in_app_or in Hd. destruct Hd as [Hd|[<-|Hd]]; [| discriminate|].
    + destruct (item_block _ d x Hd Ed) as (g & k & Hg & _ & Hk & Ek & _). exists (Item (label_inst (label k)) (Some (f_id g)) None).
      split; [apply in_or_app; left; apply label_item; auto|]. subst x. reflexivity.
    + apply in_app_or in Hd. destruct Hd as [Hd|Hd]; [apply in_map_iff in Hd; destruct Hd as (p & <- & _); discriminate|].
      apply in_flat_map in Hd. destruct Hd as (k & Hk & Hd). unfold block_items in Hd. destruct Hd as [<-|Hd]; [discriminate|].
      apply in_map_iff in Hd. destruct Hd as (j & <- & _). cbn in Ed. injection Ed as <-.
      exists (Item (label_inst (label k)) (Some (f_id f)) None). split; [|reflexivity]. unfold P.
      apply in_or_app. right. right. apply in_or_app. right. apply in_flat_map. exists k. split; auto. left; auto.
Qed.

Lemma unique_def d d' x : In d (items m) -> In d' (items m) -> defines d x -> defines d' x -> d = d'.
Proof using WF. intros H H' D D'. pose proof (find_def_in m WF d x H D). pose proof (find_def_in m WF d' x H' D'). congruence. Qed.

Theorem use_defined f b0 rest b l before i after x :
  In f (funcs m) -> blocks f = b0 :: rest -> In b (blocks f) ->
  path (succ f) (label b0) (label b) (l ++ [label b]) ->
  body b = before ++ i :: after -> is_phi i = false ->
  uses_backward (Item i (Some (f_id f)) (Some (label b))) x ->
  exists d, In d (items m) /\ defines d x /\
    (it_func d = None \/
     it_func d = Some (f_id f) /\
       (it_block d = None \/
        it_block d = Some (label b) /\ In (it_inst d) before \/
        exists bd, it_block d = Some bd /\ In bd l)).
Proof using WF RULE.
  intros Hf B Hb P E NP U.
  destruct (text_before f b before i after Hf Hb E) as (Q & after' & EI & HQ).
  destruct (rule_earlier m RULE _ _ _ _ EI U) as (d & Hd & D).
  assert (Hdi : In d (items m)) by (rewrite EI; apply in_or_app; auto).
  set (u := Item i (Some (f_id f)) (Some (label b))) in *.
  assert (Hu : In u (items m)) by (rewrite EI; apply in_or_app; right; left; auto).
  exists d. split; auto. split; auto. destruct (it_func d) as [fd|] eqn:Fd; auto. right.
  destruct (it_block d) as [bd|] eqn:Bd.
  - assert (R : reaches f (label b)) by (exists b0, rest; split; auto; eexists; eauto).
    pose proof (rule_value m RULE d u x f bd (label b) Hdi Hu D (backward_uses u x U) Bd Hf eq_refl eq_refl NP R b0 rest B _ P) as I.
    assert (FE : fd = f_id f).
    { destruct (item_block m d bd Hdi Bd) as (g & k & Hg & Fg & Hk & Ek & _). rewrite Fd in Fg. injection Fg as ->.
      assert (In bd (labels f)) as L.
      { destruct (path_pre _ _ _ _ _ P I) as (l1 & _ & _ & P1). apply (reach_label f b0 rest); auto.
        - apply targets_defined_rule. intros b' t. apply (rule_targets m RULE); auto.
        - exists l1; auto. }
      unfold labels in L. apply in_map_iff in L. destruct L as (k' & Ek' & Hk').
      pose proof (unique_def _ _ bd (label_item m g k Hg Hk) (label_item m f k' Hf Hk')) as EQ.
      rewrite <- Ek in EQ at 1. rewrite <- Ek' in EQ. specialize (EQ eq_refl). 
      assert (label k' = label k) as EK by congruence. rewrite EK in EQ. specialize (EQ eq_refl). congruence. }
    split; [congruence|]. right. apply in_app_or in I. destruct I as [I|[<-|[]]]; [right; eauto|]. left. split; auto.
    apply in_app_or in Hd. destruct Hd as [Hd|[<-|Hd]].
    + exfalso. destruct (HQ d (label b) Hd Bd) as (d' & Hd' & D').
      pose proof (wf_unique m WF) as ND. change (NoDup (results (items m))) in ND. rewrite EI, results_app in ND.
      apply NoDup_app_parts in ND. destruct ND as (ND & _ & _). rewrite results_app in ND. apply NoDup_app_parts in ND.
      destruct ND as (_ & _ & ND). apply (ND (label b)); [apply in_results; eauto|]. left. reflexivity.
    + discriminate.
    + apply in_map_iff in Hd. destruct Hd as (j & <- & Hj). auto.
  - destruct (rule_local m RULE d u x fd Hdi Hu D (backward_uses u x U) Fd Bd) as [K|K]; [discriminate|]. cbn in K.
    split; [congruence|auto].
Qed.

Theorem phi_defined f b0 rest b p l i :
  In f (funcs m) -> blocks f = b0 :: rest -> In b (blocks f) -> In i (body b) -> is_phi i = true ->
  path (succ f) (label b0) p l -> In (label b) (succ f p) ->
  exists pairs v, phi_pairs i = Some pairs /\ In (v, p) pairs /\ (forall v', In (v', p) pairs -> v' = v) /\
  exists d, In d (items m) /\ defines d v /\
    (it_func d = None \/
     it_func d = Some (f_id f) /\ (it_block d = None \/ exists bd, it_block d = Some bd /\ In bd l)).
Proof using WF RULE.
  intros Hf B Hb Hi PH P S.
  set (u := Item i (Some (f_id f)) (Some (label b))).
  assert (Hu : In u (items m)).
  { unfold items. apply in_or_app. right. apply in_flat_map. exists f. split; auto. unfold func_items. right. apply in_or_app. right.
    apply in_flat_map. exists b. split; auto. right. apply in_map_iff. exists i. auto. }
  assert (TD : targets_defined f = true) by (apply targets_defined_rule; intros b' t; apply (rule_targets m RULE); auto).
  assert (Rp : reaches f p) by (exists b0, rest; split; auto; exists l; auto).
  assert (Rb : reaches f (label b)).
  { exists b0, rest. split; auto. exists (l ++ [label b]). econstructor; eauto. }
  destruct (rule_phi m RULE u f (label b) Hu PH Hf eq_refl eq_refl) as (pairs & E & ND & IP & V). cbn [it_inst u] in E.
  assert (Ip : In p (map snd pairs)).
  { apply IP. split; auto. apply (succ_in f TD) in S. tauto. }
  apply in_map_iff in Ip. destruct Ip as ([v p'] & Q & Iv). cbn in Q. subst p'.
  exists pairs, v. split; auto. split; auto. split.
  { intros v' Iv'. clear -ND Iv Iv'. induction pairs as [|[x y] ps IH]; [destruct Iv|]. cbn [map snd] in ND. inversion ND; subst.
    destruct Iv as [Iv|Iv], Iv' as [Iv'|Iv']; try congruence; auto.
    - injection Iv as -> ->. exfalso. apply H1. change p with (snd (v', p)). apply in_map; auto.
    - injection Iv' as -> ->. exfalso. apply H1. change p with (snd (v, p)). apply in_map; auto. }
  pose proof (phi_pair_uses u pairs v p E Iv) as U.
  destruct (rule_defined m RULE u v Hu U) as (d & Hd & D). exists d. split; auto. split; auto.
  destruct (it_func d) as [fd|] eqn:Fd; auto. right. destruct (it_block d) as [bd|] eqn:Bd.
  - pose proof (V Rb v p d bd Iv Rp Hd D Bd b0 rest B l P) as I. split; [|right; eauto].
    destruct (item_block m d bd Hd Bd) as (g & k & Hg & Fg & Hk & Ek & _).
    assert (In bd (labels f)) as L.
    { destruct (path_pre _ _ _ _ _ P I) as (l1 & _ & _ & P1). apply (reach_label f b0 rest); auto. exists l1; auto. }
    unfold labels in L. apply in_map_iff in L. destruct L as (k' & Ek' & Hk').
    assert (EK : label k' = label k) by congruence.
    pose proof (unique_def _ _ (label k) (label_item m g k Hg Hk) (label_item m f k' Hf Hk') eq_refl) as EQ.
    rewrite EK in EQ. specialize (EQ eq_refl). congruence.
  - destruct (rule_local m RULE d u v fd Hd Hu D U Fd Bd) as [K|K]; [discriminate|]. cbn in K. split; [congruence|auto].
Qed.
End Exec.
