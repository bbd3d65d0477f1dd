(** Common imports, machine-word conventions and small list lemmas. *)
From Coq Require Export List Arith NArith ZArith Lia Bool.
From Coq Require Export ZifyBool ZifyNat ZifyN.
Export ListNotations.
Ltac Zify.zify_post_hook ::= Z.div_mod_to_equations.

Arguments Nat.div : simpl never.
Arguments Nat.modulo : simpl never.
Arguments N.add : simpl never.
Arguments N.sub : simpl never.
Arguments N.mul : simpl never.
Arguments N.div : simpl never.
Arguments N.modulo : simpl never.
Arguments N.shiftl : simpl never.
Arguments N.shiftr : simpl never.
Arguments N.land : simpl never.
Arguments N.lor : simpl never.
Arguments N.lxor : simpl never.
Arguments N.ldiff : simpl never.
Arguments N.pow : simpl never.
Arguments N.testbit : simpl never.
Arguments Z.add : simpl never.
Arguments Z.sub : simpl never.
Arguments Z.mul : simpl never.
Arguments Z.div : simpl never.
Arguments Z.modulo : simpl never.
Arguments Z.pow : simpl never.

(** [update_nth l i x]: the list [l] with position [i] overwritten (no effect out of range). *)
Fixpoint update_nth {A} (l : list A) (i : nat) (x : A) : list A :=
  match l, i with
  | [], _ => []
  | _ :: t, O => x :: t
  | h :: t, S i' => h :: update_nth t i' x
  end.

Lemma update_nth_length {A} (l : list A) i x : length (update_nth l i x) = length l.
Proof. revert i; induction l; destruct i; simpl; auto. Qed.

Lemma nth_error_update_nth_eq {A} (l : list A) i x :
  i < length l -> nth_error (update_nth l i x) i = Some x.
Proof. revert i; induction l; destruct i; simpl; intros; try lia; auto. apply IHl; lia. Qed.

Lemma nth_error_update_nth_ne {A} (l : list A) i j x :
  i <> j -> nth_error (update_nth l i x) j = nth_error l j.
Proof. revert i j; induction l; destruct i, j; simpl; intros; auto; try congruence. Qed.

Lemma nth_error_split_eq {A} (l : list A) i x :
  nth_error l i = Some x -> l = firstn i l ++ x :: skipn (S i) l.
Proof.
  revert i; induction l; destruct i; simpl; intros H; try discriminate.
  - congruence.
  - f_equal. apply IHl; auto.
Qed.

Lemma update_nth_split {A} (l : list A) i x :
  i < length l -> update_nth l i x = firstn i l ++ x :: skipn (S i) l.
Proof. revert i; induction l; destruct i; simpl; intros; try lia; auto. f_equal. apply IHl; lia. Qed.

(** A number is below [2^n] exactly when it has no bit at or above position [n]. *)
Lemma N_lt_pow2_bits (d n : N) : (d < 2 ^ n)%N <-> (forall k, (n <= k)%N -> N.testbit d k = false).
Proof.
  split.
  - intros L k Hk. destruct (N.eq_dec d 0) as [->|ne]; [apply N.bits_0|].
    apply N.bits_above_log2. apply N.lt_le_trans with n; auto. apply N.log2_lt_pow2; lia.
  - intros H. destruct (N.eq_dec d 0) as [->|ne].
    + apply N.neq_0_lt_0, N.pow_nonzero; lia.
    + destruct (N.lt_ge_cases d (2 ^ n)) as [|G]; auto. exfalso.
      assert (n <= N.log2 d)%N by (apply N.log2_le_pow2; lia).
      specialize (H _ H0). rewrite N.bit_log2 in H; auto; discriminate.
Qed.
