(** Constants copied by the rules, and the strict typing of the rewritten instruction. *)
From Verif Require Import Base Fold FoldSpec FoldRules FoldRulesSpec FoldRulesProofs FoldRulesProofs2 FoldRulesProofs3 FoldRulesProofs4.
Local Open Scope Z_scope.

Definition copied (m : rmodule) (i : rinst) (r : fres rnew) : Prop :=
  forall a, r = FSome (mkRNew RCopy [a]) ->
    match a with
    | AId _ => True
    | AConst c => c = null_const (ri_type i) \/ const_input m i = Some c
    | ANew _ _ _ _ => False
    end.
Lemma bind_copied {A} m i (x : fres A) k : (forall a, copied m i (k a)) -> copied m i (fbind x k).
Proof. intros H c E. destruct x; cbn in E; try discriminate. eapply H; exact E. Qed.
Lemma none_copied m i : copied m i FNone. Proof. intros c H; discriminate. Qed.
Lemma bad_copied m i : copied m i FBad. Proof. intros c H; discriminate. Qed.
Lemma check_copied m i t k : copied m i k -> copied m i (check_width t k).
Proof. intros H. unfold check_width. apply bind_copied. intros w. destruct (_ && _); [apply none_copied|exact H]. Qed.
Lemma forelse_copied m i r s : copied m i r -> copied m i s -> copied m i (forelse r s).
Proof. intros Hr Hs c E. destruct r; cbn in E; [exact (Hs c E)|discriminate E|exact (Hr c E)]. Qed.
Ltac other := let c := fresh "c" in let H := fresh "H" in intros c H; first [discriminate H|injection H as <-; exact I].
Ltac cwalk :=
  repeat (cbv zeta;
    match goal with
    | |- copied _ _ FNone => apply none_copied
    | |- copied _ _ FBad => apply bad_copied
    | |- copied _ _ (fbind _ _) => apply bind_copied; intros
    | |- copied _ _ (check_width _ _) => apply check_copied
    | |- copied _ _ (forelse _ _) => apply forelse_copied
    | |- copied _ _ (FSome (mkRNew (ROp _) _)) => other
    | |- copied _ _ (FSome (mkRNew (RShuffle _) _)) => other
    | |- copied _ _ (FSome (mkRNew RBitcast _)) => other
    | |- copied _ _ (FSome (mkRNew RCopy [AId _])) => other
    | |- copied _ _ (FSome (mkRNew (if ?b then _ else _) _)) => destruct b
    | |- copied _ _ (FSome (match ?x with _ => _ end)) => destruct x
    | |- copied _ _ (match ?x with _ => _ end) => destruct x eqn:?
    end).
Lemma copied_rule m i o : ri_op i = ROp o -> forall r, In r (rules_of o) -> copied m i (r m i).
Proof.
  intros Ho r Hr.
  assert (Hs : copied m i (merge_binary_op_select o m i)) by (unfold merge_binary_op_select; cwalk).
  assert (H0 : forall a b, copied m i (redundant_zero a b m i)) by (intros a b; unfold redundant_zero; cwalk).
  assert (H1 : copied m i (reassociate_commutative o m i)) by (unfold reassociate_commutative; cwalk).
  assert (H2 : copied m i (reassociate_nested o m i)) by (unfold reassociate_nested; cwalk).
  assert (H3 : copied m i (redundant_and_or_xor m i)).
  { unfold redundant_and_or_xor. apply check_copied. destruct (const_input m i) as [c1|] eqn:E1; [|apply none_copied].
    cwalk. intros c H. injection H as <-. auto. }
  assert (H4 : copied m i (redundant_and_add_sub m i)) by (unfold redundant_and_add_sub; cwalk).
  assert (H5 : copied m i (redundant_and_shift m i)).
  { unfold redundant_and_shift. cwalk. all: intros c' H; injection H as <-; auto. }
  assert (H6 : copied m i (redundant_mod m i)).
  { unfold redundant_mod. cwalk. intros c' H; injection H as <-; auto. }
  assert (H7 : copied m i (redundant_div m i)) by (unfold redundant_div; cwalk).
  assert (H8 : copied m i (merge_add_negate m i)) by (unfold merge_add_negate; cwalk).
  assert (H9 : copied m i (merge_add_add m i)) by (unfold merge_add_add; cwalk).
  assert (H10 : copied m i (merge_add_sub m i)) by (unfold merge_add_sub; cwalk).
  assert (H11 : copied m i (merge_generic_add_sub m i)) by (unfold merge_generic_add_sub, generic_addend_sub; cwalk).
  assert (H12 : forall b, copied m i (reassociate_add_sub b m i)).
  { intros b. unfold reassociate_add_sub. cwalk. }
  assert (H13 : copied m i (factor_add_sub_muls o m i)) by (unfold factor_add_sub_muls, factor_opnds; cwalk).
  assert (H14 : copied m i (merge_sub_negate m i)) by (unfold merge_sub_negate; cwalk).
  assert (H15 : copied m i (merge_sub_add m i)) by (unfold merge_sub_add; cwalk).
  assert (H16 : copied m i (merge_sub_sub m i)) by (unfold merge_sub_sub; cwalk).
  assert (H17 : copied m i (int_multiple_by_1 m i)) by (unfold int_multiple_by_1; cwalk).
  assert (H18 : copied m i (merge_mul_mul m i)) by (unfold merge_mul_mul; cwalk).
  assert (H19 : copied m i (merge_mul_negate m i)) by (unfold merge_mul_negate; cwalk).
  assert (H20 : copied m i (merge_div_mul_double_negative m i)).
  { unfold merge_div_mul_double_negative. rewrite Ho. cwalk. }
  assert (H21 : copied m i (merge_negate m i)) by (unfold merge_negate; cwalk).
  assert (H22 : copied m i (merge_negate_mul_div m i)) by (unfold merge_negate_mul_div; cwalk).
  assert (H23 : copied m i (merge_negate_add_sub m i)) by (unfold merge_negate_add_sub; cwalk).
  assert (H24 : copied m i (redundant_select m i)) by (unfold redundant_select; cwalk).
  assert (H25 : copied m i (constant_boolean_select m i)) by (unfold constant_boolean_select; cwalk).
  assert (H26 : forall b, copied m i (redundant_logical b m i)) by (intros b; unfold redundant_logical; cwalk).
  assert (H27 : copied m i (redundant_logical_not m i)) by (unfold redundant_logical_not; cwalk).
  assert (H28 : copied m i (logical_not_comparison m i)) by (unfold logical_not_comparison; cwalk).
  assert (H29 : forall b, copied m i (redundant_logical_equal b m i)) by (intros b; unfold redundant_logical_equal; cwalk).
  clear Ho. destruct o; cbn [rules_of In] in Hr;
    repeat (destruct Hr as [<-|Hr]; [first [assumption|apply H0|apply H12|apply H26|apply H29]|]); destruct Hr.
Qed.

Lemma copied_apply m i : copied m i (apply_rules m i).
Proof.
  unfold apply_rules. destruct (ri_op i) as [o| | | |] eqn:Ho; try apply none_copied.
  pose proof (copied_rule m i o Ho) as H. clear Ho. induction (rules_of o) as [|r l IH]; cbn [first_rule].
  - apply none_copied.
  - apply forelse_copied; [apply H; left; reflexivity|]. apply IH. intros r' Hr'. apply H. right. exact Hr'.
Qed.
Lemma const_ok_type t c : const_ok t c -> fconst_type c = t.
Proof.
  destruct t, c; cbn; try contradiction.
  - intros H. f_equal. destruct c; cbn in *; intuition.
  - intros (-> & <- & _). reflexivity.
  - intros (-> & ->). reflexivity.
Qed.
Lemma null_const_type t : fconst_type (null_const t) = t.
Proof. destruct t; reflexivity. Qed.
Lemma strict_typed m i n : rmodule_ok m -> rinst_ok m i -> one_signedness m i -> apply_rules m i = FSome n ->
  new_well_typed true m (ri_type i) n.
Proof.
  intros Hm Hi Hone E. pose proof (good_apply_rules m Hm i Hi) as G. rewrite E in G. destruct G as ((Ha & ts & Ht & Hop) & _).
  split; [exact Ha|]. exists ts. split; [exact Ht|].
  destruct n as [op args]. cbn [rn_op rn_args] in *. destruct op as [o| | |lits|]; try exact Hop.
  destruct ts as [|a [|b l]]; try exact Hop.
  destruct Hop as [->|(_ & Hlike)]; [left; reflexivity|]. left.
  inversion Ht as [|x ? ? ? Hx Ht' E1 E2]; subst. inversion Ht'; subst.
  destruct x as [id|c|o t x y].
  - apply (Hone id); assumption.
  - cbn in Hx. injection Hx as <-. destruct (copied_apply m i (AConst c) E) as [->|Hc].
    + apply null_const_type.
    + assert (Hid : exists id, In id (ri_args i) /\ rm_const m id = Some c).
      { unfold const_input, cst in Hc. destruct (nth_error (ri_args i) 0) as [x0|] eqn:N0.
        - destruct (rm_const m x0) as [c0|] eqn:E0.
          + injection Hc as ->. exists x0. split; [eapply nth_error_In; eassumption|assumption].
          + destruct (nth_error (ri_args i) 1) as [x1|] eqn:N1; [|discriminate].
            exists x1. split; [eapply nth_error_In; eassumption|assumption].
        - destruct (nth_error (ri_args i) 1) as [x1|] eqn:N1; [|discriminate].
          exists x1. split; [eapply nth_error_In; eassumption|assumption]. }
      destruct Hid as (id & Hin & Hcst).
      unfold apply_rules in E. destruct (ri_op i) as [o| | | |] eqn:Ho; try discriminate E.
      destruct (proj2 Hi o Ho) as (ts' & F & _).
      assert (Hty : exists t, rtype m id = Some t).
      { clear - F Hin. induction F as [|x t l l' H F IH]; [destruct Hin|]. destruct Hin as [->|Hin]; [exists t; exact H|auto]. }
      destruct Hty as (t & Hty). unfold rtype in Hty. destruct (rm_def m id) as [d|] eqn:Hd; [|discriminate].
      destruct (Hm id d Hd) as (_ & Hcok & _). pose proof (const_ok_type _ _ (Hcok c Hcst)) as Hct.
      rewrite Hct in *. apply (Hone id); [|assumption]. unfold rtype. rewrite Hd. reflexivity.
  - destruct (copied_apply m i _ E).
Qed.
