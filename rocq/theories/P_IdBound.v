(** Property C24: fresh ids never clash and running out of ids is reported. *)
From Verif Require Import Base OperandTypes IrModule IrSpec IdBound.
Local Open Scope N_scope.

(** ** Specification *)
(** All ids a module mentions: operands and debug scopes of its instructions, of the line instructions attached to
    them and of the trailing line instructions. *)
Definition module_ids (m : ir_module) : list N := insts_ids (insts m) ++ flat_map line_ids (trailing m).
(** All lines of a module *)
Definition all_lines (m : ir_module) : list line :=
  flat_map (fun i => lines i ++ [body i]) (insts m) ++ trailing m.
Definition all_operand_ids (m : ir_module) : list N :=
  flat_map (fun l => flat_map operand_ids (operands l)) (all_lines m).
(** A module in which every debug scope is defined by some instruction, and ids are words. *)
Definition scopes_defined (m : ir_module) : Prop :=
  Forall ids_are_words (all_lines m) /\ incl (module_ids m) (all_operand_ids m).

(** What a client may do to a context, starting from a loaded module: take ids, insert, change and delete
    instructions as long as they only mention ids of the module and ids taken, change the
    maximum, clear the overflow flag, and recompute the bound (which ends the validity of the ids taken so far).
    The list holds the ids taken. *)
Inductive history : context -> list N -> Prop :=
| h_start c : scopes_defined (ctx_module c) ->
    (forall id, In id (module_ids (ctx_module c)) -> 0 < id < bound (ctx_module c)) ->
    1 <= bound (ctx_module c) < 2 ^ 32 -> max_id_bound c < 2 ^ 32 -> history c []
| h_take c g : history c g ->
    history (snd (take_next_id c)) (if fst (take_next_id c) =? 0 then g else fst (take_next_id c) :: g)
| h_edit c g m : history c g -> scopes_defined m -> bound m = bound (ctx_module c) ->
    (forall id, In id (module_ids m) -> In id (module_ids (ctx_module c)) \/ In id g) ->
    history (with_module c m) g
| h_max c g n : history c g -> n < 2 ^ 32 -> history (set_max_id_bound c n) g
| h_clear c g : history c g -> history (clear_id_overflow c) g
| h_recompute c g : history c g -> history (recompute_id_bound c) [].

(** ** Proofs *)
Lemma highest_in_line_ge h l : h <= highest_in_line h l.
Proof.
  unfold highest_in_line. generalize (operands l). intro ops. revert h.
  induction ops as [|o ops IH]; intro h; simpl; [lia|]. specialize (IH (if is_id_type (fst o) then N.max h (hd 0 (snd o)) else h)).
  destruct (is_id_type (fst o)); lia.
Qed.
Lemma highest_in_line_bound h l b : h < b -> Forall (fun id => id < b) (flat_map operand_ids (operands l)) -> ids_are_words l ->
  highest_in_line h l < b.
Proof.
  unfold highest_in_line, ids_are_words. generalize (operands l). intro ops. revert h.
  induction ops as [|[t ws] ops IH]; intros h Hh Hf Hw; simpl; [exact Hh|].
  simpl in Hf. apply Forall_app in Hf as [Hf1 Hf2]. inversion Hw; subst. apply IH; auto.
  unfold operand_ids in Hf1. simpl in *. destruct (is_id_type t); [|exact Hh].
  destruct ws as [|w [|? ?]]; try (specialize (H1 eq_refl); discriminate). inversion Hf1; subst. simpl. lia.
Qed.
Lemma highest_in_line_all h l id : ids_are_words l -> In id (flat_map operand_ids (operands l)) -> id <= highest_in_line h l.
Proof.
  unfold highest_in_line, ids_are_words. generalize (operands l). intro ops. revert h.
  induction ops as [|[t ws] ops IH]; intros h Hw Hin; simpl in *; [tauto|]. inversion Hw; subst.
  apply in_app_or in Hin as [Hin|Hin]; [|apply IH; auto].
  unfold operand_ids in Hin. simpl in *. destruct (is_id_type t); [|destruct Hin].
  destruct ws as [|w [|? ?]]; try (specialize (H1 eq_refl); discriminate). destruct Hin as [<-|[]].
  pose proof (highest_in_line_ge (N.max h w) (mkLine 0 ops 0 0)) as G. unfold highest_in_line in G. simpl in *. lia.
Qed.
Lemma fold_lines_eq m h : fold_left (fun h i => highest_in_line (fold_left highest_in_line (lines i) h) (body i)) m h =
  fold_left highest_in_line (flat_map (fun i => lines i ++ [body i]) m) h.
Proof.
  revert h. induction m as [|i m IH]; intro h; [reflexivity|]. simpl. rewrite IH, fold_left_app. f_equal.
  rewrite fold_left_app. reflexivity.
Qed.
Lemma compute_eq m : compute_id_bound m = (fold_left highest_in_line (all_lines m) 0 + 1) mod 2 ^ 32.
Proof. unfold compute_id_bound, all_lines. rewrite fold_left_app, fold_lines_eq. reflexivity. Qed.
Lemma fold_highest_ge ls h : h <= fold_left highest_in_line ls h.
Proof. revert h. induction ls as [|l ls IH]; intro h; simpl; [lia|]. pose proof (highest_in_line_ge h l). specialize (IH (highest_in_line h l)). lia. Qed.
Lemma fold_highest_bound ls h b : h < b -> Forall ids_are_words ls ->
  Forall (fun id => id < b) (flat_map (fun l => flat_map operand_ids (operands l)) ls) -> fold_left highest_in_line ls h < b.
Proof.
  revert h. induction ls as [|l ls IH]; intros h Hh Hw Hf; simpl; [exact Hh|]. simpl in Hf. apply Forall_app in Hf as [H1 H2].
  inversion Hw; subst. apply IH; auto. apply highest_in_line_bound; auto.
Qed.
Lemma fold_highest_all ls h id : Forall ids_are_words ls ->
  In id (flat_map (fun l => flat_map operand_ids (operands l)) ls) -> id <= fold_left highest_in_line ls h.
Proof.
  revert h. induction ls as [|l ls IH]; intros h Hw Hin; simpl in *; [tauto|]. inversion Hw; subst.
  apply in_app_or in Hin as [Hin|Hin]; [|apply IH; auto].
  pose proof (highest_in_line_all h l id H1 Hin). pose proof (fold_highest_ge ls (highest_in_line h l)). lia.
Qed.
Lemma operand_ids_in_module m : incl (all_operand_ids m) (module_ids m).
Proof.
  intros id H. unfold all_operand_ids in H. apply in_flat_map in H as (l & Hl & Hid).
  assert (Hid' : In id (line_ids l)) by (unfold line_ids; apply in_or_app; left; exact Hid).
  unfold all_lines in Hl. unfold module_ids. apply in_app_or in Hl as [Hl|Hl]; apply in_or_app.
  - left. apply in_flat_map in Hl as (i & Hi & Hl). apply in_flat_map. exists i. split; [exact Hi|].
    unfold inst_ids. apply in_app_or in Hl as [Hl|[<-|[]]]; apply in_or_app; [left; apply in_flat_map; eauto | right; exact Hid'].
  - right. apply in_flat_map. eauto.
Qed.

Definition inv (c : context) (g : list N) : Prop :=
  scopes_defined (ctx_module c) /\
  (forall id, In id (module_ids (ctx_module c)) -> 0 < id < bound (ctx_module c)) /\
  (forall id, In id g -> 0 < id < bound (ctx_module c)) /\
  1 <= bound (ctx_module c) < 2 ^ 32 /\ max_id_bound c < 2 ^ 32.

Lemma take_cases c : 1 <= bound (ctx_module c) < 2 ^ 32 -> max_id_bound c < 2 ^ 32 ->
  (max_id_bound c <= bound (ctx_module c) /\
     take_next_id c = (0, mkContext (ctx_module c) (max_id_bound c) true (has_consumer c)
                            (if has_consumer c then errors c + 1 else errors c))) \/
  (bound (ctx_module c) < max_id_bound c /\
     take_next_id c = (bound (ctx_module c), with_module c (with_bound (ctx_module c) (bound (ctx_module c) + 1)))).
Proof.
  intros Hb Hm. unfold take_next_id, take_next_id_bound. destruct (N.leb_spec (max_id_bound c) (bound (ctx_module c))).
  - left. split; [assumption|]. reflexivity.
  - right. split; [assumption|]. destruct (N.eqb_spec (bound (ctx_module c)) 0); [lia|].
    rewrite N.mod_small by lia. reflexivity.
Qed.

Lemma compute_bound_spec m b : scopes_defined m -> (forall id, In id (module_ids m) -> 0 < id < b) -> 1 <= b < 2 ^ 32 ->
  1 <= compute_id_bound m <= b /\ forall id, In id (module_ids m) -> id < compute_id_bound m.
Proof.
  intros [Hw Hs] Hids Hb. rewrite compute_eq.
  assert (L : fold_left highest_in_line (all_lines m) 0 < b).
  { apply fold_highest_bound; [lia | exact Hw|]. apply Forall_forall. intros id Hin. apply Hids. apply operand_ids_in_module. exact Hin. }
  rewrite N.mod_small by lia. split; [lia|]. intros id Hin. apply Hs in Hin.
  pose proof (fold_highest_all (all_lines m) 0 id Hw Hin). lia.
Qed.

Lemma history_inv c g : history c g -> inv c g.
Proof.
  induction 1 as [c Hs Hi Hb Hm | c g H (Is & Ii & Ig & Ib & Im) | c g m H (Is & Ii & Ig & Ib & Im) Hs Hbd Hids
                 | c g n H (Is & Ii & Ig & Ib & Im) Hn | c g H (Is & Ii & Ig & Ib & Im) | c g H (Is & Ii & Ig & Ib & Im)].
  - split; [exact Hs|]. split; [exact Hi|]. split; [intros ? []|]. auto.
  - destruct (take_cases c Ib Im) as [[L E]|[L E]]; rewrite E; cbn [fst snd].
    + split; [exact Is|]. split; [exact Ii|]. split; [exact Ig|]. auto.
    + destruct (N.eqb_spec (bound (ctx_module c)) 0); [lia|]. cbn.
      split; [exact Is|]. split; [intros id Hid; specialize (Ii id Hid); cbn; lia|]. split; [|cbn; lia].
      intros id [<-|Hid]; cbn; [lia|]. specialize (Ig id Hid). lia.
  - unfold inv. cbn [ctx_module with_module max_id_bound]. rewrite Hbd. split; [exact Hs|]. split; [|split; [|auto]].
    + intros id Hid. destruct (Hids id Hid); auto.
    + auto.
  - split; [exact Is|]. split; [exact Ii|]. split; [exact Ig|]. split; [exact Ib | exact Hn].
  - split; [exact Is|]. split; [exact Ii|]. split; [exact Ig|]. auto.
  - destruct (compute_bound_spec _ _ Is Ii Ib) as [B A]. cbn.
    split; [exact Is|]. split; [|split; [intros ? []|cbn; lia]]. intros id Hid. split; [apply Ii; exact Hid | apply A; exact Hid].
Qed.

(** ** C24 *)
(** In every history: an id is refused exactly when the bound has reached the maximum; then the overflow is recorded
    and one error is reported if there is a consumer, and the module is unchanged.  Otherwise the id is
    non-zero, below the maximum and below the new bound, is not mentioned in the module, and was not handed out before. *)
Theorem fresh_ids_are_unused : forall c g id c',
  history c g -> take_next_id c = (id, c') ->
  (id = 0 <-> max_id_bound c <= bound (ctx_module c)) /\
  (id = 0 -> id_overflow c' = true /\ ctx_module c' = ctx_module c /\
             errors c' = if has_consumer c then errors c + 1 else errors c) /\
  (id <> 0 -> ~ In id (module_ids (ctx_module c)) /\ ~ In id g /\ id < max_id_bound c /\
              id < bound (ctx_module c') /\ id_overflow c' = id_overflow c /\ errors c' = errors c /\
              insts (ctx_module c') = insts (ctx_module c) /\ trailing (ctx_module c') = trailing (ctx_module c)).
Proof.
  intros c g id c' H E. destruct (history_inv c g H) as (Is & Ii & Ig & Ib & Im).
  destruct (take_cases c Ib Im) as [[L E']|[L E']]; rewrite E' in E; inversion E; subst; clear E.
  - split; [tauto|]. split; [auto | congruence].
  - split; [lia|]. split; [intro Hc; lia|]. intros _. split; [|split; [|cbn; repeat split; lia || reflexivity]].
    + intro Hc. specialize (Ii _ Hc). lia.
    + intro Hc. specialize (Ig _ Hc). lia.
Qed.

(** Ids never run beyond the bound: in every history the bound exceeds every id mentioned or handed out. *)
Theorem bound_exceeds_every_id : forall c g id,
  history c g -> In id (module_ids (ctx_module c)) \/ In id g -> 0 < id < bound (ctx_module c).
Proof. intros c g id H Hid. destruct (history_inv c g H) as (_ & Ii & Ig & _). destruct Hid; auto. Qed.

(** The recomputed bound is the least one exceeding every id of the module. *)
Theorem recomputed_bound_is_least : forall c g,
  history c g ->
  (forall id, In id (module_ids (ctx_module c)) -> id < bound (ctx_module (recompute_id_bound c))) /\
  (1 < bound (ctx_module (recompute_id_bound c)) ->
     In (bound (ctx_module (recompute_id_bound c)) - 1) (module_ids (ctx_module c))).
Proof.
  intros c g H. destruct (history_inv c g H) as (Is & Ii & Ig & Ib & Im). cbn.
  destruct (compute_bound_spec _ _ Is Ii Ib) as [B A]. split; [exact A|]. intro Hlt.
  destruct (in_dec N.eq_dec (compute_id_bound (ctx_module c) - 1) (module_ids (ctx_module c))) as [Hin|Hn]; [exact Hin|].
  exfalso. destruct (compute_bound_spec (ctx_module c) (compute_id_bound (ctx_module c) - 1) Is) as [B' _]; [|lia|lia].
  intros id Hid. split; [apply Ii; exact Hid|]. specialize (A id Hid).
  assert (id <> compute_id_bound (ctx_module c) - 1) by (intros ->; contradiction). lia.
Qed.

(** A history: take two ids, use one of them, run out of ids. *)
Definition example_module (extra : list inst) (b : N) : ir_module :=
  mkModule (mkInst (mkLine 19 [(T_RESULT_ID, [3])] 0 0) [] :: extra) [] b.
Definition example_context : context := mkContext (example_module [] 4) 6 false true 0.
Example fresh_ids_example :
  history example_context [] /\
  fst (take_next_id example_context) = 4 /\
  (let c := snd (take_next_id (snd (take_next_id example_context))) in
   history c [5; 4] /\ fst (take_next_id c) = 0 /\ errors (snd (take_next_id c)) = 1 /\
   bound (ctx_module (recompute_id_bound c)) = 4).
Proof.
  assert (H : history example_context []).
  { apply h_start; [| | cbv; split; [discriminate | reflexivity] | reflexivity].
    - split; [repeat constructor|]. intros id. cbv. tauto.
    - intros id. cbv. intros [<-|[]]. split; reflexivity. }
  split; [exact H|]. split; [reflexivity|]. cbn zeta. split; [|vm_compute; auto].
  exact (h_take _ _ (h_take _ _ H)).
Qed.

Print Assumptions fresh_ids_are_unused.
Print Assumptions bound_exceeds_every_id.
Print Assumptions recomputed_bound_is_least.
