(** C23: the manager of definitions and uses answers exactly what the instructions given to it say. *)
From Coq Require Import Sorting.Sorted.
From Verif Require Import Base OperandTypes DefUse DefUseSpec DefUseProofs.
Local Open Scope N_scope.

(** After any history of calls that keep to the conditions of DefUseSpec, no assertion has failed and every query is
    answered as the specification says. Partial: without the conditions the answers can be wrong, see below. *)
Theorem def_use_answers_exact_partial : forall calls s,
  spec_steps s_start calls s ->
  exists m, perform_all (empty_heap, empty_manager) calls = Some (s_heap s, m) /\ answers s m.
Proof.
  intros calls s H. destruct (steps_inv calls s_start s empty_manager inv_start H) as (m & E & I). exists m. split; [exact E | apply inv_answers; exact I].
Qed.

(** An instruction is analysed, changed and analysed again; a definition is cleared. *)
Definition history : list call :=
  [Change 1 (mkContent 5 [(T_RESULT_ID, 5)] []); Change 2 (mkContent 6 [(T_TYPE_ID, 5); (T_RESULT_ID, 6)] []);
   Change 3 (mkContent 0 [(T_ID, 6); (T_ID, 5); (T_ID, 6)] []);
   AnalyzeInstDefUse 1; AnalyzeInstDefUse 2; AnalyzeInstDefUse 3;
   Change 3 (mkContent 0 [(T_LITERAL_INTEGER, 5); (T_ID, 6)] []); AnalyzeInstUse 3; ClearInst 3; UpdateDefUse 3].
Example history_example :
  exists s, spec_steps s_start history s /\ s_defs s 5 = Some 1 /\ s_defs s 6 = Some 2 /\ s_analysed s 3 = Some (s_heap s 3) /\
  exists m, perform_all (empty_heap, empty_manager) history = Some (s_heap s, m) /\
    for_each_user (s_heap s) m 1 = Some [2] /\ for_each_user (s_heap s) m 2 = Some [3] /\ for_each_use (s_heap s) m 2 = Some [(3, 1)].
Proof.
  assert (MC : forall c id, mentions c id -> In id (use_ids (c_operands c))) by (intros c id M; apply use_ids_spec; exact M).
  eexists. split.
  { unfold history.
    repeat match goal with
      | |- spec_steps _ [] _ => apply Spec_nil
      | |- spec_steps _ (Change _ _ :: _) _ => eapply Spec_cons; [apply Spec_Change; split; [discriminate|] |]
      | |- forall id, s_defs _ id = Some _ -> _ => let id := fresh in let H := fresh in intros id H; cbn in H; unfold upd in H;
              repeat match type of H with context [?a =? ?b] => destruct (N.eqb_spec a b) end; try discriminate H; subst; try reflexivity
      | |- spec_steps _ (AnalyzeInstDefUse _ :: _) _ => eapply Spec_cons; [apply Spec_DefUse; cbn; apply Lines_cons; [| | apply Lines_nil] |]
      | |- spec_steps _ (AnalyzeInstUse _ :: _) _ => eapply Spec_cons; [apply Spec_Use |]
      | |- spec_steps _ (ClearInst _ :: _) _ => eapply Spec_cons; [apply Spec_Clear; split; [discriminate | right; reflexivity] |]
      | |- spec_steps _ (UpdateDefUse _ :: _) _ => eapply Spec_cons; [apply Spec_Update_known; [left; reflexivity|] |]
      | |- use_ok _ _ => split; [discriminate|]; let id := fresh in let M := fresh in
             intros id M; apply MC in M; cbn in M; repeat (destruct M as [<-|M]; [vm_compute; discriminate|]); destruct M
      | |- def_ok _ _ => split; [discriminate|]; let u := fresh in let c := fresh in let A := fresh in let M := fresh in let Z := fresh in
             cbv zeta; intros Z u c A M; vm_compute in A;
             repeat match type of A with context [match ?a with _ => _ end] => destruct a end; try discriminate A;
             try (injection A as <-; apply MC in M; cbn in M; intuition discriminate); try (destruct (Z eq_refl))
      end. }
  vm_compute. repeat split; try reflexivity. eexists. split; [reflexivity|]. repeat split; reflexivity.
Qed.

(** Without them: a definition with a user, analysed again unchanged, has lost its user. *)
Theorem def_use_reanalysis_refuted : exists calls h m,
  perform_all (empty_heap, empty_manager) calls = Some (h, m) /\
  h 2 = mkContent 0 [(T_ID, 5)] [] /\ get_def m 5 = 1 /\ for_each_user h m 1 = Some [2] /\
  exists m', perform (h, m) (AnalyzeInstDefUse 1) = Some (h, m') /\ get_def m' 5 = 1 /\ for_each_user h m' 1 = Some [].
Proof.
  exists [Change 1 (mkContent 5 [(T_RESULT_ID, 5)] []); Change 2 (mkContent 0 [(T_ID, 5)] []); AnalyzeInstDefUse 1; AnalyzeInstDefUse 2].
  eexists. eexists. split; [reflexivity|]. split; [reflexivity|]. split; [reflexivity|]. split; [reflexivity|].
  eexists. split; [reflexivity|]. split; reflexivity.
Qed.

(** ** A whole module *)
Lemma all_defs : forall h insts s m,
  s_heap s = h -> (forall u, s_analysed s u = None) -> inv s m -> (forall i, In i insts -> i <> 0) ->
  (forall i j, In i insts -> In j insts -> c_result (h i) <> 0 -> c_result (h i) = c_result (h j) -> i = j) ->
  exists s', s_heap s' = h /\ (forall u, s_analysed s' u = None) /\ inv s' (fold_left (analyze_inst_def h) insts m) /\
    (forall i, In i insts -> c_result (h i) <> 0 -> s_defs s' (c_result (h i)) = Some i) /\
    (forall id, (forall i, In i insts -> c_result (h i) <> id \/ id = 0) -> s_defs s' id = s_defs s id).
Proof.
  intros h insts. induction insts as [|i insts IH]; intros s m Hh Ha H N0 U; cbn [fold_left].
  - exists s. split; [exact Hh|]. split; [exact Ha|]. split; [exact H|]. split; [intros i []|]. reflexivity.
  - assert (D : inv (s_def s i) (analyze_inst_def h m i)).
    { rewrite <- Hh. apply def_inv'; [exact H|]. split; [apply N0; left; reflexivity|]. cbv zeta; intros _ u c A. rewrite Ha in A. discriminate A. }
    assert (Ha' : forall u, s_analysed (s_def s i) u = None).
    { intros u. unfold s_def, s_clear. rewrite Ha. destruct (c_result (s_heap s i) =? 0); [apply Ha|]. cbn [s_analysed]. destruct (s_defs s (c_result (s_heap s i))) as [j|]; [rewrite (Ha j)|]; apply Ha. }
    assert (Dd : forall id, s_defs (s_def s i) id = if (c_result (h i) =? 0) then s_defs s id else upd (s_defs s) (c_result (h i)) (Some i) id).
    { intros id. unfold s_def, s_clear. rewrite Ha, Hh. destruct (c_result (h i) =? 0); [reflexivity|]. cbn [s_defs].
      destruct (s_defs s (c_result (h i))) as [j|]; [rewrite (Ha j)|]; reflexivity. }
    destruct (IH (s_def s i) (analyze_inst_def h m i)) as (s' & A & B & C & E & F); auto.
    + rewrite def_heap. exact Hh.
    + intros j I. apply N0. right. exact I.
    + intros a b I J. apply U; right; assumption.
    + exists s'. split; [exact A|]. split; [exact B|]. split; [exact C|]. split.
      * intros j [<-|I] R; [|apply E; assumption].
        destruct (in_dec N.eq_dec i insts) as [I|NI]; [apply E; assumption|].
        rewrite F; [rewrite Dd; destruct (N.eqb_spec (c_result (h i)) 0); [contradiction | apply upd_same]|].
        intros j J. left. intros X. apply NI. rewrite (U i j); [exact J | left; reflexivity | right; exact J | exact R | symmetry; exact X].
      * intros id X. rewrite F; [|intros j J; apply X; right; exact J]. rewrite Dd. destruct (N.eqb_spec (c_result (h i)) 0) as [|R]; [reflexivity|].
        apply upd_other. destruct (X i (or_introl eq_refl)) as [Y|Y]; [intros ->; exact (Y eq_refl) | subst id; intros Z; apply R; symmetry; exact Z].
Qed.
Lemma all_uses : forall h insts s m,
  s_heap s = h -> inv s m -> (forall i, In i insts -> use_ok s i) ->
  exists s' m', analyze_uses h m insts = Some m' /\ inv s' m' /\ s_heap s' = h /\ (forall id, s_defs s' id = s_defs s id) /\
    (forall u, s_analysed s' u = if in_dec N.eq_dec u insts then Some (h u) else s_analysed s u).
Proof.
  intros h insts. induction insts as [|i insts IH]; intros s m Hh H U; cbn [analyze_uses].
  - exists s, m. split; [reflexivity|]. split; [exact H|]. split; [exact Hh|]. split; reflexivity.
  - destruct (use_inv s m i H (U i (or_introl eq_refl))) as (m1 & E & I1). rewrite Hh in E. rewrite E.
    destruct (IH (s_use s i) m1) as (s' & m' & A & B & C & D & F); [exact Hh | exact I1 | intros j J; destruct (U j (or_intror J)) as (X & Y); split; assumption|].
    exists s', m'. split; [exact A|]. split; [exact B|]. split; [exact C|]. split; [exact D|]. intros u. rewrite F.
    destruct (in_dec N.eq_dec u insts) as [J|J]; destruct (in_dec N.eq_dec u (i :: insts)) as [K|K]; cbn in K; [reflexivity | tauto | | ].
    + destruct K as [<-|K]; [|contradiction]. cbn. rewrite upd_same, Hh. reflexivity.
    + cbn. apply upd_other. intros ->. tauto.
Qed.

(** Analysing a module whose result ids are distinct and whose used ids are all defined: every query about every
    definition is answered by reading the instructions. *)
Theorem module_def_use_exact : forall h insts,
  (forall i, In i insts -> i <> 0) ->
  (forall i j, In i insts -> In j insts -> c_result (h i) <> 0 -> c_result (h i) = c_result (h j) -> i = j) ->
  (forall u id, In u insts -> mentions (h u) id -> exists d, In d insts /\ c_result (h d) = id /\ id <> 0) ->
  exists m, analyze_def_use h empty_manager insts = Some m /\
  (forall id, (forall d, In d insts -> c_result (h d) <> id \/ id = 0) -> get_def m id = 0) /\
  forall d, In d insts -> c_result (h d) <> 0 ->
    get_def m (c_result (h d)) = d /\
    (exists us, for_each_user h m d = Some us /\ StronglySorted N.lt us /\
       (forall u, In u us <-> In u insts /\ mentions (h u) (c_result (h d)))) /\
    (exists ps, for_each_use h m d = Some ps /\
       StronglySorted (fun a b => fst a < fst b \/ (fst a = fst b /\ snd a < snd b)) ps /\
       (forall u k, In (u, k) ps <-> In u insts /\ uses_at (h u) k (c_result (h d)))).
Proof.
  intros h insts N0 U D. unfold analyze_def_use.
  assert (H0 : inv (mkS h (fun _ => None) (fun _ => None)) empty_manager).
  { constructor; cbn; try reflexivity; try discriminate; [constructor|]. intros d u. split; [intros [] | intros (id & c & E & _); discriminate E]. }
  destruct (all_defs h insts (mkS h (fun _ => None) (fun _ => None)) _ eq_refl (fun _ => eq_refl) H0 N0 U) as (s1 & Hh & Ha & H1 & Dd & Du).
  destruct (all_uses h insts s1 _ Hh H1) as (s2 & m & E & H2 & Hh2 & Dd2 & A2).
  { intros i I. split; [apply N0; exact I|]. intros id M. rewrite Hh in M. destruct (D i id I M) as (d & J & <- & R). rewrite (Dd d J R). discriminate. }
  exists m. split; [exact E|]. assert (An : forall u c, s_analysed s2 u = Some c <-> In u insts /\ c = h u).
  { intros u c. rewrite A2, Ha. destruct (in_dec N.eq_dec u insts) as [J|J]; [|split; [discriminate | tauto]]. split; [intros X; injection X as <-; auto | intros (_ & ->); reflexivity]. }
  pose proof (inv_answers _ _ H2) as (Q1 & Q2). rewrite Hh2 in Q2. split.
  - intros id X. rewrite Q1, Dd2, (Du id X). reflexivity.
  - intros d J R. assert (Ed : s_defs s2 (c_result (h d)) = Some d) by (rewrite Dd2; apply Dd; assumption).
    split; [rewrite Q1, Ed; reflexivity|]. destruct (Q2 _ _ Ed) as ((us & A & B & C & _) & (ps & F & G & _ & K)). split.
    + exists us. split; [exact A|]. split; [exact B|]. intros u. rewrite C. split.
      * intros (c & X & M). apply An in X. destruct X as (I & ->). auto.
      * intros (I & M). exists (h u). split; [apply An; auto | exact M].
    + exists ps. split; [exact F|]. split; [exact G|]. intros u k. rewrite K; [|intros u' c X; apply An in X; apply X].
      assert (Z : s_analysed s2 u <> None <-> In u insts). { rewrite A2, Ha. destruct (in_dec N.eq_dec u insts); split; auto; congruence. } rewrite Z. reflexivity.
Qed.
Definition module_heap : heap := fun i =>
  match i with
  | 1 => mkContent 5 [(T_RESULT_ID, 5)] []
  | 2 => mkContent 6 [(T_TYPE_ID, 5); (T_RESULT_ID, 6); (T_ID, 7); (T_ID, 6)] []
  | 3 => mkContent 7 [(T_RESULT_ID, 7); (T_SCOPE_ID, 7); (T_ID, 5)] []
  | _ => mkContent 0 [] []
  end.
Example module_def_use_example :
  (forall i, In i [1; 2; 3] -> i <> 0) /\
  (forall i j, In i [1; 2; 3] -> In j [1; 2; 3] -> c_result (module_heap i) <> 0 -> c_result (module_heap i) = c_result (module_heap j) -> i = j) /\
  (forall u id, In u [1; 2; 3] -> mentions (module_heap u) id -> exists d, In d [1; 2; 3] /\ c_result (module_heap d) = id /\ id <> 0) /\
  option_map (fun m => (for_each_user module_heap m 1, for_each_use module_heap m 3, for_each_user module_heap m 2))
             (analyze_def_use module_heap empty_manager [1; 2; 3])
    = Some (Some [2; 3], Some [(2, 2); (3, 1)], Some [2]).
Proof.
  split; [cbn; intuition lia|]. split.
  { intros i j I J. cbn in I, J. intuition (subst; try reflexivity; discriminate). }
  split.
  { intros u id I M. apply use_ids_spec in M. cbn in I. destruct I as [<-|[<-|[<-|[]]]]; cbn in M.
    - destruct M.
    - destruct M as [<-|[<-|[<-|[]]]]; [exists 1 | exists 3 | exists 2]; cbn; intuition discriminate.
    - destruct M as [<-|[<-|[]]]; [exists 3 | exists 1]; cbn; intuition discriminate. }
  vm_compute. reflexivity.
Qed.

(** The assertion of the analysis fails exactly when some used id has no definition. *)
Lemma use_loop_none : forall ops m i, use_loop m i ops = None <-> exists id, In id (use_ids ops) /\ get_def m id = 0.
Proof.
  induction ops as [|[t w] ops IH]; intros m i; cbn [use_loop].
  - split; [discriminate | intros (id & [] & _)].
  - unfold use_ids. cbn. destruct (is_use_type t); cbn; [|apply IH]. destruct (N.eqb_spec (get_def m w) 0) as [Z|Z].
    + split; [|reflexivity]. intros _. exists w. auto.
    + rewrite IH. unfold get_def at 1. cbn [id_to_def]. fold (get_def m). split; intros (id & I & E); exists id; [auto|]. destruct I as [<-|I]; [contradiction | auto].
Qed.
Lemma use_loop_defs : forall ops m i m', use_loop m i ops = Some m' -> forall id, get_def m' id = get_def m id.
Proof.
  induction ops as [|[t w] ops IH]; intros m i m' E id; cbn [use_loop] in E; [injection E as <-; reflexivity|].
  destruct (is_use_type t); [|exact (IH _ _ _ E id)]. destruct (get_def m w =? 0); [discriminate E|]. rewrite (IH _ _ _ E). reflexivity.
Qed.
Lemma erase_defs : forall m i id, get_def (erase_use_records m i) id = get_def m id.
Proof. intros m i id. unfold erase_use_records. destruct (inst_to_used_ids m i); reflexivity. Qed.
Lemma analyze_uses_none : forall h insts m,
  analyze_uses h m insts = None <-> exists u id, In u insts /\ mentions (h u) id /\ get_def m id = 0.
Proof.
  intros h insts. induction insts as [|i insts IH]; intros m; cbn [analyze_uses].
  - split; [discriminate | intros (u & id & [] & _)].
  - set (m1 := match inst_to_used_ids m i with Some (_ :: _) => erase_use_records m i | _ => m end).
    assert (D1 : forall id, get_def m1 id = get_def m id). { intros id. unfold m1. destruct (inst_to_used_ids m i) as [[|]|]; [reflexivity | apply erase_defs | reflexivity]. }
    destruct (analyze_inst_use h m i) as [m2|] eqn:E.
    + rewrite IH. assert (D2 : forall id, get_def m2 id = get_def m id). { intros id. rewrite (use_loop_defs _ _ _ _ E). exact (D1 id). }
      split; intros (u & id & I & M & Z); exists u, id; rewrite D2 in *; [cbn; auto|]. destruct I as [<-|I]; [|auto].
      exfalso. assert (X : analyze_inst_use h m i = None). { apply use_loop_none. exists id. split; [apply use_ids_spec; exact M|]. rewrite <- Z. exact (D1 id). }
      rewrite E in X. discriminate X.
    + split; [|reflexivity]. intros _. apply use_loop_none in E. destruct E as (id & I & Z). exists i, id. split; [left; reflexivity|].
      split; [apply use_ids_spec; exact I|]. rewrite <- Z. symmetry. exact (D1 id).
Qed.
Theorem module_def_use_asserts_iff : forall h insts,
  (forall i, In i insts -> i <> 0) ->
  (forall i j, In i insts -> In j insts -> c_result (h i) <> 0 -> c_result (h i) = c_result (h j) -> i = j) ->
  (analyze_def_use h empty_manager insts = None <->
   exists u id, In u insts /\ mentions (h u) id /\ forall d, In d insts -> c_result (h d) <> id \/ id = 0).
Proof.
  intros h insts N0 U. unfold analyze_def_use.
  assert (H0 : inv (mkS h (fun _ => None) (fun _ => None)) empty_manager).
  { constructor; cbn; try reflexivity; try discriminate; [constructor|]. intros d u. split; [intros [] | intros (id & c & E & _); discriminate E]. }
  destruct (all_defs h insts (mkS h (fun _ => None) (fun _ => None)) _ eq_refl (fun _ => eq_refl) H0 N0 U) as (s1 & Hh & Ha & H1 & Dd & Du).
  rewrite analyze_uses_none. split; intros (u & id & I & M & Z); exists u, id; (split; [exact I|]; split; [exact M|]).
  - intros d J. destruct (N.eq_dec id 0) as [|Y]; [right; assumption | left]. intros X. rewrite (inv_get_def _ _ id H1) in Z.
    rewrite <- X in Z, Y. rewrite (Dd d J Y) in Z. exact (N0 d J Z).
  - rewrite (inv_get_def _ _ id H1), (Du id Z). reflexivity.
Qed.
Example module_def_use_asserts_example :
  analyze_def_use (upd module_heap 4 (mkContent 0 [(T_ID, 9)] [])) empty_manager [1; 2; 3; 4] = None.
Proof. reflexivity. Qed.

Print Assumptions def_use_answers_exact_partial.
Print Assumptions def_use_reanalysis_refuted.
Print Assumptions module_def_use_exact.
Print Assumptions module_def_use_asserts_iff.
