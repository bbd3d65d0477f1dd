(** * C47: accepted block layouts

    The validator accepts exactly the explicit layouts that follow the layout
    rules; in an accepted block no two numbers share a byte and everything is
    aligned.

    Partial: for blocks whose offsets, strides and counts can be evaluated and
    that stay below 4 GiB (minus 64 KiB).  What happens otherwise is in the
    refutations below. *)

From Coq Require Import ZArith List Bool Lia.
From Verif Require Import ExplicitLayout ExplicitLayoutSpec ExplicitLayoutProofs
  ExplicitLayoutProofs2 ExplicitLayoutProofs3 ExplicitLayoutProofs4.
Import ListNotations.
Local Open Scope Z_scope.

(** ** The theorems *)

(** The check decides the layout rules. *)
Theorem layout_check_exact_partial relaxed md ms :
  proper (TyStruct ms) -> reach no_matrix (TyStruct ms) + 2 ^ 16 <= 2 ^ 32 ->
  (accepts relaxed md (TyStruct ms) = true <->
   follows relaxed md no_matrix 0 (TyStruct ms)).
Proof.
  intros Hp Hr. apply check_right; [exact Hp|simpl; lia|discriminate|].
  split; lia.
Qed.

(** In an accepted block two different numbers have no byte in common. *)
Theorem layout_disjoint_partial relaxed md ms :
  proper (TyStruct ms) -> block ms ->
  reach no_matrix (TyStruct ms) + 2 ^ 16 <= 2 ^ 32 ->
  accepts relaxed md (TyStruct ms) = true ->
  forall p a n p' a' n',
  leaf (TyStruct ms) no_matrix 0 p a n ->
  leaf (TyStruct ms) no_matrix 0 p' a' n' ->
  p <> p' -> apart a n a' n'.
Proof.
  intros Hp Hb Hr Ha p a n p' a' n'.
  apply layout_check_exact_partial in Ha; [|exact Hp|exact Hr].
  apply (block_disjoint relaxed md ms no_matrix 0 Hp Hb Ha 0).
Qed.

(** In an accepted block every part is aligned, including the elements of
    runtime arrays and what they contain. *)
Theorem layout_aligned_partial relaxed md ms :
  proper (TyStruct ms) -> reach no_matrix (TyStruct ms) + 2 ^ 16 <= 2 ^ 32 ->
  accepts relaxed md (TyStruct ms) = true ->
  forall t mc a direct,
  part (TyStruct ms) no_matrix 0 t mc a direct ->
  (alignment relaxed md mc direct t | a).
Proof.
  intros Hp Hr Ha t mc a d P.
  apply layout_check_exact_partial in Ha; [|exact Hp|exact Hr].
  apply (part_aligned relaxed md _ _ _ _ _ _ _ P Hp).
  - exists 0. exact Ha.
  - apply Z.divide_0_r.
Qed.

(** The loop over the elements of an array needs no more than sixteen rounds:
    with more of them it gives the same answer. *)
Theorem layout_sixteen_elements chk stride base num more :
  check_elements (16 + more) chk stride base num 0 [] =
  check_elements 16 chk stride base num 0 [].
Proof. apply sixteen_elements; lia. Qed.

(** ** Cases that meet the hypotheses *)

Definition f32 := TyScalar 4.
Definition at_ (t : ty) (o : Z) : member ty := Member t (Some o) None None.

(** A uniform block: a matrix in columns, a three component vector with a
    number packed behind it, an array, a nested structure. *)
Definition light : ty := TyStruct [at_ (TyVector 4 3) 0; at_ f32 12].

Definition uniforms : list (member ty) :=
  [Member (TyMatrix 4 4 4) (Some 0) (Some true) (Some 16);
   at_ (TyVector 4 3) 64; at_ f32 76;
   at_ (TyArray (TyVector 4 4) (Some 3) (Some 16)) 80;
   at_ (TyArray light (Some 2) (Some 16)) 128].

(** A storage block that ends in a runtime array, declared out of order. *)
Definition storage : list (member ty) :=
  [at_ (TyRuntimeArray light (Some 16)) 48;
   Member (TyMatrix 4 2 3) (Some 0) (Some false) (Some 16);
   at_ (TyScalar 8) 32].

Ltac prove_proper :=
  repeat first
    [ exact I | lia | (unfold width; lia)
    | (eexists; split; [reflexivity|lia])
    | (intros ? E; (discriminate || (injection E as <-; lia)))
    | apply conj ].

Example uniforms_proper : proper (TyStruct uniforms).
Proof. simpl; unfold width; prove_proper. Qed.

Example storage_proper : proper (TyStruct storage).
Proof. simpl; unfold width; prove_proper. Qed.

Example uniforms_block : block uniforms.
Proof. intros m H; simpl in H; left; repeat (destruct H as [<-|H]; [simpl; tauto|]); destruct H. Qed.

Example storage_block : block storage.
Proof.
  intros m [<-|[<-|[<-|[]]]].
  - right. exists light, (Some 16). simpl. tauto.
  - left; simpl; tauto.
  - left; simpl; tauto.
Qed.

Example uniforms_accepted :
  reach no_matrix (TyStruct uniforms) + 2 ^ 16 <= 2 ^ 32 /\
  accepts false Extended (TyStruct uniforms) = true /\
  accepts true Standard (TyStruct uniforms) = true /\
  accepts false Scalar (TyStruct uniforms) = true.
Proof. vm_compute. repeat split; discriminate. Qed.

Example storage_accepted :
  reach no_matrix (TyStruct storage) + 2 ^ 16 <= 2 ^ 32 /\
  accepts false Standard (TyStruct storage) = true /\
  (* the runtime array must not be followed *)
  accepts false Standard (TyStruct (storage ++ [at_ f32 64])) = false /\
  (* a matrix row ends at 28 *)
  accepts false Standard
    (TyStruct (tl storage ++ [at_ f32 28])) = true /\
  accepts false Standard
    (TyStruct (tl storage ++ [at_ f32 24])) = false.
Proof. vm_compute. repeat split; discriminate. Qed.

(** The second light's number is leaf [0; 1; 1] of the storage block. *)
Example storage_leaf :
  leaf (TyStruct storage) no_matrix 0 [0; 1; 1]%nat 76 4.
Proof.
  eapply leaf_member; [reflexivity|reflexivity|].
  eapply leaf_runtime. eapply leaf_member; [reflexivity|reflexivity|].
  change 76 with (0 + 48 + Z.of_nat 1 * 16 + 12). apply leaf_scalar.
Qed.

(** The straddling rule at work: with the relaxed rules the second element of
    this array crosses a multiple of 16. *)
Definition vec3s (t : ty -> ty) : ty :=
  TyStruct [at_ (t (TyStruct [at_ (TyVector 4 3) 0])) 0].

Example straddling_element :
  accepts true Standard
    (vec3s (fun e => TyArray e (Some 2) (Some 12))) = false /\
  accepts true Standard
    (vec3s (fun e => TyArray e (Some 1) (Some 12))) = true /\
  accepts true Scalar
    (vec3s (fun e => TyArray e (Some 2) (Some 12))) = true.
Proof. vm_compute. auto. Qed.

(** ** What the partial theorems leave out *)

(** Sizes are computed modulo 2^32: an array of slightly more than 4 GiB counts
    as 4 bytes, and the next member is accepted inside it. *)
Definition huge : list (member ty) :=
  [at_ (TyArray f32 (Some (2 ^ 30 + 1)) (Some 4)) 0; at_ f32 4].

Theorem layout_wrap_refuted :
  exists ms p a n p' a' n',
    proper (TyStruct ms) /\ block ms /\
    accepts false Standard (TyStruct ms) = true /\
    leaf (TyStruct ms) no_matrix 0 p a n /\
    leaf (TyStruct ms) no_matrix 0 p' a' n' /\
    p <> p' /\ ~ apart a n a' n'.
Proof.
  exists huge, [0; 1]%nat, 4, 4, [1]%nat, 4, 4.
  split; [simpl; unfold width; prove_proper|].
  split. { intros m [<-|[<-|[]]]; left; simpl; tauto. }
  split; [vm_compute; reflexivity|].
  split.
  { eapply leaf_member; [reflexivity|reflexivity|].
    eapply leaf_array; [lia|]. apply leaf_scalar. }
  split.
  { eapply leaf_member; [reflexivity|reflexivity|]. apply leaf_scalar. }
  split; [discriminate|]. unfold apart; lia.
Qed.

(** A structure that ends in a runtime array counts as empty when it is nested:
    a member is accepted on top of the array.  (The Vulkan environments reject
    such a structure elsewhere.) *)
Definition nested : list (member ty) :=
  [at_ (TyStruct [at_ (TyRuntimeArray f32 (Some 4)) 0]) 0; at_ f32 4].

Theorem layout_nested_runtime_refuted :
  exists ms p a n p' a' n',
    proper (TyStruct ms) /\
    reach no_matrix (TyStruct ms) + 2 ^ 16 <= 2 ^ 32 /\
    accepts false Standard (TyStruct ms) = true /\
    leaf (TyStruct ms) no_matrix 0 p a n /\
    leaf (TyStruct ms) no_matrix 0 p' a' n' /\
    p <> p' /\ ~ apart a n a' n'.
Proof.
  exists nested, [0; 0; 1]%nat, 4, 4, [1]%nat, 4, 4.
  split; [simpl; unfold width; prove_proper|].
  split; [vm_compute; discriminate|].
  split; [vm_compute; reflexivity|].
  split.
  { eapply leaf_member; [reflexivity|reflexivity|].
    eapply leaf_member; [reflexivity|reflexivity|].
    eapply leaf_runtime. apply leaf_scalar. }
  split.
  { eapply leaf_member; [reflexivity|reflexivity|]. apply leaf_scalar. }
  split; [discriminate|]. unfold apart; lia.
Qed.

(** The offset 4294967295 stands for an offset that cannot be evaluated, also
    when it is written as a literal: such members are not checked at all. *)
Definition marked : list (member ty) := [at_ f32 umax; at_ f32 umax].

Theorem layout_marker_refuted :
  exists ms p a n p' a' n',
    block ms /\ accepts false Standard (TyStruct ms) = true /\
    leaf (TyStruct ms) no_matrix 0 p a n /\
    leaf (TyStruct ms) no_matrix 0 p' a' n' /\
    p <> p' /\ ~ apart a n a' n' /\
    exists t mc b direct,
      part (TyStruct ms) no_matrix 0 t mc b direct /\
      ~ (alignment false Standard mc direct t | b).
Proof.
  exists marked, [0]%nat, umax, 4, [1]%nat, umax, 4.
  split. { intros m [<-|[<-|[]]]; left; simpl; tauto. }
  split; [vm_compute; reflexivity|].
  split.
  { eapply leaf_member; [reflexivity|reflexivity|].
    change umax with (0 + umax) at 2. apply leaf_scalar. }
  split.
  { eapply leaf_member; [reflexivity|reflexivity|].
    change umax with (0 + umax) at 2. apply leaf_scalar. }
  split; [discriminate|]. split; [unfold apart, umax; lia|].
  exists f32, no_matrix, (0 + umax), true. split.
  - change no_matrix with (decorations (at_ f32 umax)) at 2.
    apply (part_member marked no_matrix 0 (at_ f32 umax)); [left; reflexivity|reflexivity].
  - intros [q Hq]. unfold umax in Hq. simpl in Hq. lia.
Qed.

(** An array whose length cannot be evaluated (a specialization constant)
    counts as empty: a member is accepted on top of it although every length
    makes the two overlap. *)
Definition specialized (n : option Z) : list (member ty) :=
  [at_ (TyArray f32 n (Some 4)) 0; at_ f32 0].

Theorem layout_unknown_length_refuted :
  accepts false Standard (TyStruct (specialized None)) = true /\
  forall k, 1 <= k ->
    exists p a n p' a' n',
      leaf (TyStruct (specialized (Some k))) no_matrix 0 p a n /\
      leaf (TyStruct (specialized (Some k))) no_matrix 0 p' a' n' /\
      p <> p' /\ ~ apart a n a' n'.
Proof.
  split; [vm_compute; reflexivity|]. intros k Hk.
  exists [0; 0]%nat, 0, 4, [1]%nat, 0, 4. split.
  { eapply leaf_member; [reflexivity|reflexivity|].
    eapply leaf_array; [lia|]. apply leaf_scalar. }
  split.
  { eapply leaf_member; [reflexivity|reflexivity|]. apply leaf_scalar. }
  split; [discriminate|]. unfold apart; lia.
Qed.

(** Only the first element of a runtime array is checked: the vector in the
    second one straddles, and the same array with a length is rejected
    ([straddling_element]). *)
Theorem layout_runtime_straddle_refuted :
  exists ms, proper (TyStruct ms) /\ block ms /\
    reach no_matrix (TyStruct ms) + 2 ^ 16 <= 2 ^ 32 /\
    accepts true Standard (TyStruct ms) = true /\
    exists c n mc a,
      part (TyStruct ms) no_matrix 0 (TyVector c n) mc a true /\
      straddles a (n * c).
Proof.
  exists [at_ (TyRuntimeArray (TyStruct [at_ (TyVector 4 3) 0]) (Some 12)) 0].
  split; [simpl; unfold width; prove_proper|].
  split.
  { intros m [<-|[]]. right. eexists; eexists. split; [reflexivity|]. simpl; tauto. }
  split; [vm_compute; discriminate|].
  split; [vm_compute; reflexivity|].
  exists 4, 3, no_matrix, (0 + 0 + 1 * 12 + 0). split; [|vm_compute; discriminate].
  eapply part_trans.
  - eapply (part_member _ no_matrix 0 (at_ _ 0)); [left; reflexivity|reflexivity].
  - eapply part_trans.
    + apply (part_runtime _ 12 _ _ 1). lia.
    + change no_matrix with (decorations (at_ (TyVector 4 3) 0)).
      apply (part_member _ _ _ (at_ (TyVector 4 3) 0)); [left; reflexivity|reflexivity].
Qed.

Print Assumptions layout_check_exact_partial.
Print Assumptions layout_disjoint_partial.
Print Assumptions layout_aligned_partial.
Print Assumptions layout_sixteen_elements.
Print Assumptions layout_wrap_refuted.
Print Assumptions layout_nested_runtime_refuted.
Print Assumptions layout_marker_refuted.
Print Assumptions layout_unknown_length_refuted.
Print Assumptions layout_runtime_straddle_refuted.
