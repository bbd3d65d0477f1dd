(** C62: packing structures. *)
From Coq Require Import Sorted.
From Verif Require Import Base StructPack StructPackSpec StructPackProofs.
Local Open Scope N_scope.

(** What the pass does, other than with HLSL rules: it succeeds exactly if the members come in order and none would have to move up, and then gives the offsets of the rules. *)
Theorem pack_exact : forall r types l out, r <> Hlsl -> (forall t, In t types -> good r t) ->
  pack r types l = Done out <->
  LocallySorted le (map fst l) /\ map fst out = map fst l /\ Forall2 (fun o old => o <= old) (map snd out) (map snd l) /\
  exists ts, Forall2 (fun i t => nth_error types i = Some t) (map fst l) ts /\ laid_out r 0 1 ts (map snd out).
Proof.
  intros r types l out H G. unfold pack. assert (HH : is_hlsl r = false) by (destruct r; try reflexivity; congruence).
  enough (Q : forall l prev c p out, pow2 p -> assign r types prev c p l = Done out <->
    LocallySorted le (prev :: map fst l) /\ map fst out = map fst l /\ Forall2 (fun o old => o <= old) (map snd out) (map snd l) /\
    exists ts, Forall2 (fun i t => nth_error types i = Some t) (map fst l) ts /\ laid_out r c p ts (map snd out)).
  { rewrite (Q l 0%nat 0 1 out pow2_1). split; intros (A & B); (split; [|exact B]).
    - inversion A; subst; [constructor|assumption].
    - destruct (map fst l); constructor; [exact A|lia]. }
  clear l out. induction l as [|(m & old) l IH]; intros prev c p out P; cbn [assign map fst snd].
  { split.
    - intros E. injection E as <-. split; [constructor|]. split; [reflexivity|]. split; [constructor|]. exists []. split; constructor.
    - intros (_ & A & _). destruct out; [reflexivity|discriminate]. }
  destruct (Nat.ltb_spec m prev) as [L|L].
  { split; [discriminate|]. intros (A & _). inversion A; subst. lia. }
  destruct (nth_error types m) as [t|] eqn:T.
  2:{ split; [discriminate|]. intros (_ & _ & _ & ts & A & _). inversion A; subst. congruence. }
  rewrite HH. cbv zeta. pose proof (G t (nth_error_In _ _ T)) as Gt.
  assert (M : pow2 (N.max (alignment r t) p)) by (apply pow2_max; [apply alignment_pow2, Gt|exact P]).
  pose proof (align_next c _ M) as X. set (o := align c (N.max (alignment r t) p)) in *.
  pose proof (fun k => IH m (o + size r t) (pads r t) k (pads_pow2 r t Gt)) as I. unfold pads in I.
  destruct (N.ltb_spec old o) as [OL|OL].
  { split; [discriminate|]. intros (_ & _ & A & ts & B & C). exfalso. destruct out as [|(n & q) out]; [inversion A|].
    cbn [map snd] in *. inversion A; subst. inversion C; subst. inversion B; subst.
    match goal with Q : nth_error types m = Some ?y |- _ => tryif constr_eq y t then fail else (assert (y = t) by congruence; subst y) end.
    assert (q = o) by (eapply next_unique; [apply pow2_pos, M|eassumption|exact X]). lia. }
  split.
  - intros E. destruct (assign r types m (o + size r t) (pad t (alignment r t)) l) as [k| |] eqn:K; [|discriminate|discriminate]. injection E as <-.
    destruct (proj1 (I k) eq_refl) as (A & B & C & ts & D & F). cbn [map fst snd]. split; [constructor; [exact A|exact L]|]. split; [rewrite B; reflexivity|].
    split; [constructor; assumption|]. exists (t :: ts). split; [constructor; assumption|]. constructor; [exact X|]. rewrite pads_eq. exact F.
  - intros (A & B & C & ts & D & F). destruct out as [|(n & q) out]; [discriminate|]. cbn [map fst snd] in *. injection B as -> B.
    inversion A; subst. inversion C; subst. inversion D; subst. inversion F; subst.
    match goal with Q : nth_error types m = Some ?y |- _ => tryif constr_eq y t then fail else (assert (y = t) by congruence; subst y) end.
    assert (q = o) by (eapply next_unique; [apply pow2_pos, M|eassumption|exact X]). subst q. rewrite pads_eq in *.
    assert (K : assign r types m (o + size r t) (pad t (alignment r t)) l = Done out).
    { apply I. split; [assumption|]. split; [exact B|]. split; [assumption|]. eexists. split; eassumption. }
    rewrite K. reflexivity.
Qed.

(** Every scalar, vector, array and structure in a member is at an address that is a multiple of what the rules ask for. *)
Theorem pack_aligned : forall r types l out i n o t q u, (forall t, In t types -> good r t) ->
  pack r types l = Done out -> nth_error out i = Some (n, o) -> nth_error types n = Some t -> inside r t q u -> (natural r u | o + q).
Proof.
  intros r types l out i n o t q u G E Q T I. pose proof (G t (nth_error_In _ _ T)) as Gt.
  destruct (assign_aligned r types G l 0%nat 0 1 out pow2_1 E i n o Q) as (t' & T' & D).
  assert (t' = t) by congruence. subst t'. destruct (inside_aligned r t q u I Gt) as (A1 & A2).
  apply (N.divide_trans _ (alignment r u)); [apply natural_alignment; eapply inside_good; eassumption|].
  apply N.divide_add_r; [|exact A1]. eapply N.divide_trans; eassumption.
Qed.
(** With all rules, numbers and vectors of at most 16 bytes (vectors of three: with the fourth) do not cross a boundary of 16 bytes; with scalar rules this holds of numbers only. *)
Theorem pack_vec4 : forall r types l out i n o m b k k', (forall t, In t types -> good r t) ->
  pack r types l = Done out -> nth_error out i = Some (n, o) ->
  nth_error types n = Some (Vec m b) /\ r <> Scalar /\ (if m =? 3 then 4 else m) * b <= 16 \/ nth_error types n = Some (Num b) /\ m = 1 /\ b <= 16 ->
  k < m * b -> k' < m * b -> (o + k) / 16 = (o + k') / 16.
Proof.
  intros r types l out i n o m b k k' G E Q W K K'.
  destruct (assign_aligned r types G l 0%nat 0 1 out pow2_1 E i n o Q) as (t & T & D).
  pose proof (G t (nth_error_In _ _ T)) as Gt. pose proof (alignment_pow2 r t Gt) as P.
  assert (B : m * b <= alignment r t <= 16).
  { destruct W as [(W & S & L)|(W & -> & L)]; rewrite W in T; injection T as <-; cbn [alignment]; [|lia].
    inversion Gt; subst. assert (SC : is_scalar r = false) by (destruct r; try reflexivity; congruence). rewrite SC.
    assert (m = 1 \/ m = 2 \/ m = 3 \/ m = 4) as [-> | [-> | [-> | ->]]] by lia; cbn [N.eqb Pos.eqb] in *; lia. }
  pose proof (pow2_le_divide _ _ P pow2_16 (proj2 B)) as (y & Y). destruct D as (z & ->). set (a := alignment r t) in *.
  assert (F : forall j, j < a -> (z * a + j) / 16 = z / y).
  { intros j J. rewrite Y. rewrite (N.mul_comm y a), <- N.div_div by lia. rewrite N.div_add_l by lia. rewrite (N.div_small j a) by lia. rewrite N.add_0_r. reflexivity. }
  rewrite !F by lia. reflexivity.
Qed.

(** The alignment the pass computes is the largest the rules ask for in any part of the type. *)
Theorem alignment_exact : forall r t, r <> Hlsl -> good r t ->
  (exists u, part t u /\ alignment r t = natural r u) /\ forall u, part t u -> natural r u <= alignment r t.
Proof.
  intros r t H G. split; [apply alignment_attained; assumption|]. intros u P. pose proof (part_good r t u P G) as Gu.
  pose proof (N.divide_pos_le _ _ (pow2_pos _ (alignment_pow2 r u Gu)) (natural_alignment r u Gu)). pose proof (part_le r t u P). lia.
Qed.
(** The size it computes: of numbers and vectors, exactly their bytes; of matrices, so many rows; of arrays, a multiple of the stride, the next multiple of the alignment; structures end where the last member ends. *)
Theorem size_exact : forall r t, r <> Hlsl -> good r t ->
  match t with
  | Num _ | Vec _ _ => forall j, own t j <-> j < size r t
  | Mat _ rows _ _ _ => size r t = rows * natural r t
  | Arr e n => next (size r e) (alignment r t) (stride r e n) /\ size r t = n * stride r e n
  | Struct [] => size r t = 0
  | Struct l => forall k, laid_out r 0 1 l k -> size r t = last k 0 + size r (last l (Num 1))
  end.
Proof.
  intros r t H G. assert (HH : is_hlsl r = false) by (destruct r; try reflexivity; congruence).
  destruct t as [b|n b|c rw b w s|e n|l].
  - intros j. split; [intros O; inversion O; subst; assumption|apply Ow_num].
  - intros j. split; [intros O; inversion O; subst; assumption|apply Ow_vec].
  - rewrite <- (natural_leaf r (Mat c rw b w s) H G I). inversion G; subst. cbn [size alignment]. rewrite HH. destruct (is_scalar r) eqn:Sc; [destruct r; try discriminate Sc; congruence|]. cbv zeta. destruct (vec4_padded r || (c =? 3)); lia.
  - split; [apply align_next, alignment_pow2, G|]. cbn [size]. rewrite HH. cbn [andb]. cbv zeta. unfold stride. lia.
  - inversion G as [| | | |? Gl]; subst. destruct l as [|x l]; [reflexivity|]. intros k L. apply (laid_out_last r 0 1 (x :: l) k L pow2_1 Gl). discriminate.
Qed.

(** Members do not overlap: every byte of an earlier one is before every byte of a later one.  Missing: HLSL rules, and the matrices that are not [good]: for these it is false, see below. *)
Theorem pack_disjoint_partial : forall r types l out i j n o n' o' t t' k k', r <> Hlsl -> (forall t, In t types -> good r t) ->
  pack r types l = Done out -> (i < j)%nat -> nth_error out i = Some (n, o) -> nth_error out j = Some (n', o') ->
  nth_error types n = Some t -> nth_error types n' = Some t' -> byte r t k -> byte r t' k' -> o + k < o' + k'.
Proof.
  intros r types l out i j n o n' o' t t' k k' H G E L Q Q' T T' (u & q & b & I & O & ->) _.
  destruct (assign_spec r types H G l 0%nat 0 1 out pow2_1 E) as (_ & _ & C). specialize (C i j n o n' o' t L Q Q' T).
  pose proof (G t (nth_error_In _ _ T)) as Gt. pose proof (inside_fits r t q u H I Gt). pose proof (own_size r u b H (inside_good r t q u I Gt) O). lia.
Qed.
(** Nor do the elements of an array. *)
Theorem elements_disjoint_partial : forall r e n i j k k', r <> Hlsl -> good r e -> i < j < n -> byte r e k -> byte r e k' -> i * stride r e n + k < j * stride r e n + k'.
Proof.
  intros r e n i j k k' H G L (u & q & b & I & O & ->) _.
  pose proof (inside_fits r e q u H I G). pose proof (own_size r u b H (inside_good r e q u I G) O). pose proof (proj1 (stride_ge r e n G)). nia.
Qed.

(** A matrix with four columns of two floats, stored by columns 16 bytes apart, and a float after it: the float is put on the third column. *)
Theorem pack_disjoint_columns_refuted : exists types l out o o' t t' k k',
  types = [t; t'] /\ pack Std140 types l = Done out /\ out = [(0%nat, o); (1%nat, o')] /\ byte Std140 t k /\ byte Std140 t' k' /\ o + k = o' + k'.
Proof.
  exists [Mat 4 2 4 false 16; Num 4], [(0%nat, 0); (1%nat, 64)], [(0%nat, 0); (1%nat, 32)], 0, 32, (Mat 4 2 4 false 16), (Num 4), 32, 0.
  split; [reflexivity|]. split; [vm_compute; reflexivity|]. split; [reflexivity|]. split; [|split; [|reflexivity]].
  - exists (Mat 4 2 4 false 16), 0, 32. split; [constructor|]. split; [|reflexivity]. apply (Ow_columns 4 2 4 16 2 0); reflexivity.
  - exists (Num 4), 0, 0. split; [constructor|]. split; [constructor; reflexivity|reflexivity].
Qed.
(** With scalar rules only one column of a matrix is counted, whichever way it is stored. *)
Theorem pack_disjoint_scalar_refuted : forall by_rows, exists types l out o o' t t' k k', t = Mat 2 2 4 by_rows 8 /\
  types = [t; t'] /\ pack Scalar types l = Done out /\ out = [(0%nat, o); (1%nat, o')] /\ byte Scalar t k /\ byte Scalar t' k' /\ o + k = o' + k'.
Proof.
  intros w. exists [Mat 2 2 4 w 8; Num 4], [(0%nat, 0); (1%nat, 16)], [(0%nat, 0); (1%nat, 8)], 0, 8, (Mat 2 2 4 w 8), (Num 4), 8, 0.
  split; [reflexivity|]. split; [reflexivity|]. split; [vm_compute; reflexivity|]. split; [reflexivity|]. split; [|split; [|reflexivity]].
  - exists (Mat 2 2 4 w 8), 0, 8. split; [constructor|]. split; [|reflexivity]. destruct w; [apply (Ow_rows 2 2 4 8 1 0)|apply (Ow_columns 2 2 4 8 1 0)]; reflexivity.
  - exists (Num 4), 0, 0. split; [constructor|]. split; [constructor; reflexivity|reflexivity].
Qed.
(** With HLSL rules the size of an array of one 8-byte number is computed as 16 - 24, which wraps around: any structure with a member after it (at an offset below 2^32 - 8) is refused. *)
Theorem pack_hlsl_refuted : forall old, old < 2 ^ 32 - 8 -> pack Hlsl [Arr (Num 8) 1; Num 4] [(0%nat, 0); (1%nat, old)] = Failure.
Proof.
  intros old H. unfold pack. cbn [assign nth_error].
  change (Nat.ltb 0 0) with false. change (Nat.ltb 1 0) with false. cbv iota.
  change (size Hlsl (Arr (Num 8) 1)) with (2 ^ 32 - 8). change (size Hlsl (Num 4)) with 4.
  change (alignment Hlsl (Arr (Num 8) 1)) with 16. change (alignment Hlsl (Num 4)) with 4. cbn [is_hlsl pad].
  match goal with |- context [0 <? align 0 ?a] => change (align 0 a) with 0 end. change (0 <? 0) with false. cbv iota zeta.
  match goal with |- context [old <? align ?x ?a] => change (align x a) with (2 ^ 32 - 8) end.
  destruct (N.ltb_spec old (2 ^ 32 - 8)); [reflexivity|lia].
Qed.

(** Non-vacuity: a structure with a structure and an array in it. *)
Definition ex_types : list ty := [Struct [Vec 3 4; Num 4; Num 2]; Num 4; Arr (Vec 2 4) 3; Mat 3 2 4 true 16; Num 8].
Lemma ex_good : forall t, In t ex_types -> good Std140 t.
Proof.
  assert (P1 : pow2 4) by (exists 2; reflexivity). assert (P2 : pow2 2) by (exists 1; reflexivity). assert (P3 : pow2 8) by (exists 3; reflexivity).
  intros t T. cbn in T. repeat (destruct T as [<-|T]); try contradiction.
  - constructor. intros t T. cbn in T. repeat (destruct T as [<-|T]); try contradiction; constructor; assumption || lia.
  - constructor; assumption.
  - constructor. constructor; assumption || lia.
  - apply Go_mat; [lia|exact P1|discriminate|left; reflexivity|vm_compute; discriminate].
  - constructor; assumption.
Qed.
Example ex_pack : pack Std140 ex_types [(0%nat, 0); (1%nat, 64); (2%nat, 80); (3%nat, 200); (4%nat, 300)] = Done [(0%nat, 0); (1%nat, 32); (2%nat, 48); (3%nat, 96); (4%nat, 128)].
Proof. vm_compute. reflexivity. Qed.
Example ex_inside : inside Std140 (Arr (Vec 2 4) 3) 32 (Vec 2 4) /\ natural Std140 (Vec 2 4) = 8 /\ byte Std140 (Arr (Vec 2 4) 3) 39.
Proof.
  assert (I : inside Std140 (Arr (Vec 2 4) 3) 32 (Vec 2 4)) by (apply (In_arr Std140 (Vec 2 4) 3 2 0); [reflexivity|constructor]).
  split; [exact I|]. split; [reflexivity|]. exists (Vec 2 4), 32, 7. split; [exact I|]. split; [constructor; reflexivity|reflexivity].
Qed.
Lemma ex_laid : laid_out Std140 0 1 [Vec 3 4; Num 4; Num 2] [0; 12; 16].
Proof.
  constructor; [split; [exists 0; reflexivity|cbn; lia]|]. constructor; [split; [exists 3; reflexivity|cbn; lia]|].
  constructor; [split; [exists 8; reflexivity|cbn; lia]|]. constructor.
Qed.
Example ex_member : inside Std140 (Struct [Vec 3 4; Num 4; Num 2]) 12 (Num 4).
Proof. apply (In_struct Std140 [Vec 3 4; Num 4; Num 2] [0; 12; 16] 1 (Num 4) 12 0 (Num 4) ex_laid); [reflexivity..|constructor]. Qed.
Example ex_fails : pack Std430 [Num 4; Vec 3 4] [(0%nat, 0); (1%nat, 12)] = Failure /\ pack Std430 [Num 4; Vec 3 4] [(1%nat, 16); (0%nat, 0)] = Failure.
Proof. split; vm_compute; reflexivity. Qed.

Example ex_hlsl : pack Hlsl [Num 4; Vec 3 4; Num 4; Vec 2 4] [(0%nat, 0); (1%nat, 16); (2%nat, 32); (3%nat, 48)] = Done [(0%nat, 0); (1%nat, 16); (2%nat, 28); (3%nat, 32)].
Proof. vm_compute. reflexivity. Qed.

Print Assumptions pack_exact.
Print Assumptions pack_aligned.
Print Assumptions pack_vec4.
Print Assumptions alignment_exact.
Print Assumptions size_exact.
Print Assumptions pack_disjoint_partial.
Print Assumptions elements_disjoint_partial.
Print Assumptions pack_disjoint_columns_refuted.
Print Assumptions pack_disjoint_scalar_refuted.
Print Assumptions pack_hlsl_refuted.
