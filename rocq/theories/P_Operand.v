(** C16: operand patterns expand to the documented sequences. *)
From Verif Require Import Base Operand OperandProofs.
Local Open Scope N_scope.

(** Specification: the repeating unit of each variable-length operand type, as documented in
    libspirv.h:233-244 and 336-338. *)
Definition documented_unit (v : otype) : list otype :=
  match v with
  | T_VARIABLE_ID => [T_OPTIONAL_ID]                                  (* id, id, ... *)
  | T_VARIABLE_LITERAL_INTEGER => [T_OPTIONAL_LITERAL_INTEGER]         (* literal, literal, ... *)
  | T_VARIABLE_LITERAL_INTEGER_ID => [T_OPTIONAL_TYPED_LITERAL_INTEGER; T_ID]
  | T_VARIABLE_ID_LITERAL_INTEGER => [T_OPTIONAL_ID; T_LITERAL_INTEGER]
  | T_VARIABLE_CAPABILITY => [T_OPTIONAL_CAPABILITY]
  | _ => []
  end.

(** For a pattern made of fixed operands followed by a variable one, any number [n] of takes
    succeeds; the i-th operand type delivered is the i-th fixed one and afterwards the
    documented unit repeats for ever. The pattern never runs dry, and it may stop (its next
    element is optional) exactly on a unit boundary. *)
Theorem pattern_expands_as_documented : forall fixed v rest n,
  Forall (fun t => is_variable t = false) fixed -> is_variable v = true ->
  exists l q, take_n n (fixed ++ v :: rest) = Some (l, q) /\ length l = n /\ q <> [] /\
    (forall i, (i < n)%nat ->
       nth_error l i = if (i <? length fixed)%nat then nth_error fixed i
                       else nth_error (documented_unit v) ((i - length fixed) mod length (documented_unit v))) /\
    ((length fixed <= n)%nat ->
       (is_optional (hd T_NONE q) = true <-> ((n - length fixed) mod length (documented_unit v) = 0)%nat)).
Proof.
  assert (V : forall v rest n, is_variable v = true ->
    exists l q, take_n n (v :: rest) = Some (l, q) /\ length l = n /\ q <> [] /\
      (forall i, (i < n)%nat -> nth_error l i = nth_error (documented_unit v) (i mod length (documented_unit v))) /\
      (is_optional (hd T_NONE q) = true <-> (n mod length (documented_unit v) = 0)%nat)).
  { intros v rest n Hv.
    assert (U1 : forall o, documented_unit v = [o] -> take_first_matchable (v :: rest) = Some (o, v :: rest) ->
      exists l q, take_n n (v :: rest) = Some (l, q) /\ length l = n /\ q <> [] /\
      (forall i, (i < n)%nat -> nth_error l i = nth_error (documented_unit v) (i mod length (documented_unit v))) /\
      (is_optional (hd T_NONE q) = true <-> (n mod length (documented_unit v) = 0)%nat)).
    { intros o U T. rewrite U. cbn [length].
      assert (E : take_n n (v :: rest) = Some (repeat o n, v :: rest)).
      { induction n as [|n IHn]; [reflexivity|]. cbn [take_n]. rewrite T, IHn. reflexivity. }
      rewrite E. exists (repeat o n), (v :: rest). rewrite repeat_length, Nat.mod_1_r.
      split; [reflexivity|]. split; [reflexivity|]. split; [discriminate|]. split.
      - intros i Hi. rewrite Nat.mod_1_r. simpl. rewrite nth_error_repeat by exact Hi. reflexivity.
      - simpl. destruct v; simpl in *; try discriminate; tauto. }
    assert (U2 : forall a b, documented_unit v = [a; b] -> is_variable b = false -> is_optional b = false ->
      take_first_matchable (v :: rest) = Some (a, b :: v :: rest) ->
      exists l q, take_n n (v :: rest) = Some (l, q) /\ length l = n /\ q <> [] /\
      (forall i, (i < n)%nat -> nth_error l i = nth_error (documented_unit v) (i mod length (documented_unit v))) /\
      (is_optional (hd T_NONE q) = true <-> (n mod length (documented_unit v) = 0)%nat)).
    { intros a b U Hb Ob T. rewrite U. cbn [length].
      assert (Ov : is_optional v = true) by (destruct v; simpl in *; congruence).
      assert (G : forall k, exists l, take_n (2 * k) (v :: rest) = Some (l, v :: rest) /\ length l = (2 * k)%nat /\
                forall i, (i < 2 * k)%nat -> nth_error l i = nth_error [a; b] (i mod 2)).
      { induction k as [|k [l [E [L I]]]]; [exists []; split; [reflexivity|split; [reflexivity|intros; lia]]|].
        exists (a :: b :: l). replace (2 * S k)%nat with (S (S (2 * k))) by lia. cbn [take_n]. rewrite T.
        rewrite take_first_nonvariable by exact Hb. rewrite E.
        split; [reflexivity|]. split; [simpl; lia|].
        intros [|[|i]] Hi; [reflexivity|reflexivity|]. cbn [nth_error]. rewrite I by lia.
        f_equal. replace (S (S i)) with (i + 1 * 2)%nat by lia. rewrite Nat.mod_add by lia. reflexivity. }
      destruct (Nat.Even_or_Odd n) as [[k Hk]|[k Hk]]; destruct (G k) as [l [E [L I]]].
      - subst n. exists l, (v :: rest). split; [exact E|]. split; [exact L|]. split; [discriminate|]. split; [exact I|].
        cbn [hd]. rewrite Ov. rewrite Nat.mul_comm, Nat.mod_mul by lia. tauto.
      - subst n. exists (l ++ [a]), (b :: v :: rest).
        rewrite (take_n_app _ 1 _ _ _ E). cbn [take_n]. rewrite T.
        split; [reflexivity|]. split; [rewrite app_length; simpl; lia|]. split; [discriminate|]. split.
        + intros i Hi. destruct (Nat.eq_dec i (2 * k)) as [->|Ne].
          * rewrite nth_error_app2 by lia. replace (2 * k - length l)%nat with 0%nat by lia.
            rewrite Nat.mul_comm, Nat.mod_mul by lia. reflexivity.
          * rewrite nth_error_app1 by lia. apply I; lia.
        + cbn [hd]. rewrite Ob. replace (2 * k + 1)%nat with (1 + k * 2)%nat by lia.
          rewrite Nat.mod_add by lia. split; discriminate. }
    destruct v; simpl in Hv; try discriminate.
    - eapply U1; reflexivity.
    - eapply U1; reflexivity.
    - eapply U2; reflexivity.
    - eapply U2; reflexivity.
    - eapply U1; reflexivity. }
  intros fixed v rest n F Hv.
  destruct (le_lt_dec (length fixed) n) as [Hn|Hn].
  - destruct (V v rest (n - length fixed)%nat Hv) as (l & q & E & L & Q & I & O).
    exists (fixed ++ l), q.
    assert (T := take_n_app _ (n - length fixed) _ _ _ (take_n_fixed fixed (v :: rest) F)).
    rewrite E in T. replace (length fixed + (n - length fixed))%nat with n in T by lia.
    split; [exact T|]. split; [rewrite app_length; lia|]. split; [exact Q|]. split.
    + intros i Hi. destruct (Nat.ltb_spec i (length fixed)).
      * rewrite nth_error_app1 by lia. reflexivity.
      * rewrite nth_error_app2 by lia. apply I. lia.
    + intros _. exact O.
  - exists (firstn n fixed), (skipn n fixed ++ v :: rest).
    assert (T := take_n_fixed (firstn n fixed) (skipn n fixed ++ v :: rest)).
    rewrite app_assoc, firstn_skipn, firstn_length_le in T by lia.
    rewrite T by (rewrite <- (firstn_skipn n fixed) in F; apply Forall_app in F; tauto).
    split; [reflexivity|]. split; [apply firstn_length_le; lia|].
    split; [intro X; apply app_eq_nil in X; destruct X; discriminate|]. split.
    + intros i Hi. destruct (Nat.ltb_spec i (length fixed)); [|lia].
      clear - Hi. revert n Hi. generalize i. clear i.
      induction fixed; intros [|i] [|n] Hi; simpl; auto; try lia. apply IHfixed; lia.
    + lia.
Qed.

(** Taking never fails on a non-empty pattern and never delivers a variable-length type. *)
Theorem take_first_matchable_total : forall p, p <> [] ->
  exists t q, take_first_matchable p = Some (t, q) /\ is_variable t = false.
Proof. intros [|t r] H; [contradiction|]. exact (take_first_total t r). Qed.

(** Pushing the operand types of a description puts them, in order and without NONE entries,
    in front of what was expected before. *)
Theorem pushed_types_come_first : forall types p,
  push_operand_types types p = filter (fun t => negb (otype_eqb t T_NONE)) types ++ p.
Proof. exact push_operand_types_spec. Qed.
Theorem pushed_array_comes_first : forall ts r p, Forall (fun t => t <> T_NONE) ts ->
  push_operand_array (ts ++ T_NONE :: r) p = Some (ts ++ p).
Proof. exact push_operand_array_spec. Qed.

(** The operands of a mask are expected in increasing order of the mask bits. *)
Theorem mask_operands_in_bit_order : forall lookup ty mask p,
  push_for_mask lookup ty mask p =
  flat_map (fun b => if N.testbit mask (N.of_nat b)
                     then match lookup ty (2 ^ N.of_nat b) with
                          | Some ts => filter (fun t => negb (otype_eqb t T_NONE)) ts
                          | None => [] end
                     else []) (seq 0 32) ++ p.
Proof. intros. exact (push_for_mask_spec lookup ty mask 32 p). Qed.

(** The relaxed pattern used after an immediate keeps the result id at the position, counted
    in operands still to come, where the original pattern had it first, and expects exactly
    one more optional operand after it; without a result id it is one optional operand. *)
Theorem alternate_pattern_keeps_result_id : forall p,
  (forall d, nth_error p d = Some T_RESULT_ID -> (forall i, (i < d)%nat -> nth_error p i <> Some T_RESULT_ID) ->
     alternate_pattern p = repeat T_OPTIONAL_CIV d ++ [T_RESULT_ID; T_OPTIONAL_CIV]) /\
  (~ In T_RESULT_ID p -> alternate_pattern p = [T_OPTIONAL_CIV]).
Proof.
  intro p. rewrite alternate_pattern_shape. pose proof (find_result_id_spec p) as S.
  destruct (find_result_id p) as [d'|].
  - split.
    + intros d A B. destruct S as [A' B'].
      destruct (lt_eq_lt_dec d d') as [[H| ->]|H]; auto; exfalso; [apply (B' d H A)|apply (B d' H A')].
    + intro X. exfalso. apply X. destruct S as [A _]. eapply nth_error_In; eauto.
  - split; [|reflexivity]. intros d A _. exfalso. apply S. eapply nth_error_In; eauto.
Qed.

(** Classification facts the parsers rely on: variable implies optional, and optional types
    are never concrete (never reported to a client). *)
Theorem operand_classes_consistent : forall t,
  (is_variable t = true -> is_optional t = true) /\ (is_optional t = true -> is_concrete t = false) /\
  (is_in_id_type t = true -> is_id_type t = true /\ t <> T_TYPE_ID /\ t <> T_RESULT_ID).
Proof. intro t; destruct t; vm_compute; repeat split; congruence. Qed.

Example pattern_example :
  take_n 5 ([T_ID; T_ID] ++ [T_VARIABLE_LITERAL_INTEGER_ID]) =
  Some ([T_ID; T_ID; T_OPTIONAL_TYPED_LITERAL_INTEGER; T_ID; T_OPTIONAL_TYPED_LITERAL_INTEGER],
        [T_ID; T_VARIABLE_LITERAL_INTEGER_ID]) /\
  alternate_pattern [T_TYPE_ID; T_RESULT_ID; T_ID] = [T_OPTIONAL_CIV; T_RESULT_ID; T_OPTIONAL_CIV] /\
  push_for_mask (fun _ v => if v =? 1 then Some [T_ID] else if v =? 4 then Some [T_LITERAL_INTEGER; T_ID] else None)
    T_IMAGE 5 [T_SCOPE_ID] = [T_ID; T_LITERAL_INTEGER; T_ID; T_SCOPE_ID].
Proof. vm_compute. auto. Qed.

Print Assumptions pattern_expands_as_documented.
Print Assumptions take_first_matchable_total.
Print Assumptions pushed_types_come_first.
Print Assumptions pushed_array_comes_first.
Print Assumptions mask_operands_in_bit_order.
Print Assumptions alternate_pattern_keeps_result_id.
Print Assumptions operand_classes_consistent.
