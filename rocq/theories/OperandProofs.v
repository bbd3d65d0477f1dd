(** Proofs about the operand-pattern functions. *)
From Verif Require Import Base Operand.
Local Open Scope N_scope.

Definition not_none (t : otype) : bool := negb (is_none t).

Lemma push_operand_types_spec types p : push_operand_types types p = filter not_none types ++ p.
Proof.
  unfold push_operand_types, not_none. revert p. induction types as [|t r IH]; intro p; simpl; auto.
  rewrite fold_left_app, IH. simpl. destruct (is_none t); simpl; auto.
Qed.

Lemma push_operand_array_spec ts r p :
  Forall (fun t => t <> T_NONE) ts -> push_operand_array (ts ++ T_NONE :: r) p = Some (ts ++ p).
Proof.
  intro F. unfold push_operand_array.
  assert (A : array_until_none (ts ++ T_NONE :: r) = Some ts).
  { induction ts as [|t ts IH]; simpl; auto.
    pose proof (Forall_inv F) as Ht. rewrite IH by (exact (Forall_inv_tail F)).
    unfold is_none. destruct (otype_eqb t T_NONE) eqn:E; auto.
    apply otype_eqb_eq in E. contradiction. }
  rewrite A. f_equal. clear. induction ts; simpl; auto. rewrite fold_left_app, IHts. reflexivity.
Qed.

Lemma expand_some_variable t p q : expand_once t p = Some q -> is_variable t = true.
Proof. destruct t; simpl; intros; congruence. Qed.
Lemma expand_none_iff t p : expand_once t p = None <-> is_variable t = false.
Proof. destruct t; simpl; split; intros; congruence. Qed.

Lemma take_first_total t r : exists u q, take_first_matchable (t :: r) = Some (u, q) /\ is_variable u = false.
Proof. destruct t; (eexists _, _; split; reflexivity). Qed.
Lemma take_first_nonvariable t r : is_variable t = false -> take_first_matchable (t :: r) = Some (t, r).
Proof. intro H. unfold take_first_matchable. simpl. apply (expand_none_iff t r) in H. rewrite H. reflexivity. Qed.

(** [n] successive takes. *)
Fixpoint take_n (n : nat) (p : pattern) : option (list otype * pattern) :=
  match n with
  | O => Some ([], p)
  | S n' =>
      match take_first_matchable p with
      | None => None
      | Some (t, p') =>
          match take_n n' p' with
          | None => None
          | Some (l, q) => Some (t :: l, q)
          end
      end
  end.

Lemma take_n_app a b p l q : take_n a p = Some (l, q) ->
  take_n (a + b) p = match take_n b q with Some (l', q') => Some (l ++ l', q') | None => None end.
Proof.
  revert p l q; induction a as [|a IH]; simpl; intros p l q H.
  - injection H as <- <-. destruct (take_n b p) as [[? ?]|]; reflexivity.
  - destruct (take_first_matchable p) as [[t p']|]; [|discriminate].
    destruct (take_n a p') as [[l1 q1]|] eqn:E; [|discriminate]. injection H as <- <-.
    rewrite (IH _ _ _ E). destruct (take_n b q1) as [[? ?]|]; reflexivity.
Qed.

Lemma take_n_fixed ts r : Forall (fun t => is_variable t = false) ts ->
  take_n (length ts) (ts ++ r) = Some (ts, r).
Proof.
  induction ts as [|t ts IH]; simpl; intro F; auto.
  rewrite take_first_nonvariable by exact (Forall_inv F).
  rewrite IH by exact (Forall_inv_tail F). reflexivity.
Qed.

Lemma push_for_mask_spec lookup ty mask : forall bits p,
  push_for_mask_loop lookup ty mask bits p =
  flat_map (fun b => if N.testbit mask (N.of_nat b)
                     then match lookup ty (2 ^ N.of_nat b) with Some ts => filter not_none ts | None => [] end
                     else []) (seq 0 bits) ++ p.
Proof.
  induction bits as [|b IH]; intro p; cbn [push_for_mask_loop]; [reflexivity|].
  rewrite IH, seq_S, flat_map_app, <- app_assoc. f_equal. simpl. rewrite app_nil_r.
  rewrite N.shiftl_1_l.
  assert (E : negb (N.land (2 ^ N.of_nat b) mask =? 0) = N.testbit mask (N.of_nat b)).
  { rewrite N.land_comm.
    destruct (N.testbit mask (N.of_nat b)) eqn:T.
    - destruct (N.land mask (2 ^ N.of_nat b) =? 0) eqn:Z; auto.
      apply N.eqb_eq in Z. assert (X := f_equal (fun x => N.testbit x (N.of_nat b)) Z). cbv beta in X.
      rewrite N.land_spec, T, N.pow2_bits_true, N.bits_0 in X. discriminate.
    - replace (N.land mask (2 ^ N.of_nat b)) with 0; [reflexivity|].
      symmetry. apply N.bits_inj. intro k. rewrite N.land_spec, N.bits_0, N.pow2_bits_eqb.
      destruct (N.eqb_spec (N.of_nat b) k) as [<-|]; [rewrite T|]; auto using andb_false_r. }
  rewrite E. destruct (N.testbit mask (N.of_nat b)); simpl; [|reflexivity].
  destruct (lookup ty (2 ^ N.of_nat b)); [apply push_operand_types_spec|reflexivity].
Qed.

Lemma find_result_id_spec p :
  match find_result_id p with
  | Some d => nth_error p d = Some T_RESULT_ID /\ forall i, (i < d)%nat -> nth_error p i <> Some T_RESULT_ID
  | None => ~ In T_RESULT_ID p
  end.
Proof.
  induction p as [|t r IH]; simpl; auto.
  destruct (otype_eqb t T_RESULT_ID) eqn:E.
  - apply otype_eqb_eq in E; subst. split; [reflexivity|]. intros; lia.
  - assert (t <> T_RESULT_ID) by (intro; subst; vm_compute in E; discriminate).
    destruct (find_result_id r) as [k|].
    + destruct IH as [A B]. split; [exact A|]. intros [|i] Hi; simpl; [congruence|]. apply B; lia.
    + intros [|]; auto.
Qed.
Lemma repeat_snoc {A} (x : A) n : repeat x n ++ [x] = x :: repeat x n.
Proof. induction n; simpl; congruence. Qed.
Lemma rev_repeat' {A} (x : A) n : rev (repeat x n) = repeat x n.
Proof. induction n; simpl; auto. rewrite IHn. apply repeat_snoc. Qed.
Lemma alternate_pattern_shape p :
  alternate_pattern p =
  match find_result_id p with
  | Some d => repeat T_OPTIONAL_CIV d ++ [T_RESULT_ID; T_OPTIONAL_CIV]
  | None => [T_OPTIONAL_CIV]
  end.
Proof.
  unfold alternate_pattern. destruct (find_result_id p) as [d|]; auto.
  replace (d + 2)%nat with (S (S d)) by lia. simpl.
  rewrite rev_repeat', <- app_assoc. reflexivity.
Qed.
