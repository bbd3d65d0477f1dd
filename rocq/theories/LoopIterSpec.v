(** Specification for the iteration counts: what a run of the loop is.

    Integers of width w are bit patterns, 0 <= x < 2^w.  The counter of a loop starts as the value the
    phi receives from outside, and becomes, each time round, the value the phi receives from inside.
    Written from the SPIR-V specification (OpPhi, OpIAdd, OpISub, the integer comparisons,
    OpBranchConditional); nothing here uses the counting functions of LoopIter.v. *)
From Verif Require Import Base LoopIter.
Local Open Scope Z_scope.

(** The two readings of a bit pattern. *)
Definition as_signed (w x : Z) : Z := if x <? 2 ^ (w - 1) then x else x - 2 ^ w.

Definition op_signed (op : cmpop) : bool :=
  match op with SLT | SGT | SGE | SLE => true | _ => false end.

Definition reading (op : cmpop) (w x : Z) : Z := if op_signed op then as_signed w x else x.

(** The comparisons. *)
Definition compares (op : cmpop) (w x y : Z) : bool :=
  let a := reading op w x in
  let b := reading op w y in
  match op with
  | ULT | SLT => a <? b
  | UGT | SGT => b <? a
  | UGE | SGE => b <=? a
  | ULE | SLE => a <=? b
  end.

(** The integers of width w, as an operation of that signedness reads them. *)
Definition fits (op : cmpop) (w x : Z) : Prop :=
  if op_signed op then - 2 ^ (w - 1) <= x < 2 ^ (w - 1) else 0 <= x < 2 ^ w.

(** The bits of an integer constant: low-order word first. *)
Definition literal_bits (w : Z) (ws : list Z) : Z :=
  match ws with
  | [lo] => lo mod 2 ^ w
  | [lo; hi] => (lo + 2 ^ 32 * hi) mod 2 ^ w
  | _ => 0
  end.

(** A constant as SPIR-V encodes it: one word, or two for 64 bits; a narrow signed value is
    sign-extended to the word, a narrow unsigned value zero-extended. *)
Definition encoded (w : Z) (sgn : bool) (ws : list Z) : Prop :=
  match ws with
  | [lo] => 0 < w <= 32 /\ 0 <= lo < 2 ^ 32
            /\ (if sgn then lo < 2 ^ (w - 1) \/ 2 ^ 32 - 2 ^ (w - 1) <= lo else lo < 2 ^ w)
  | [lo; hi] => w = 64 /\ 0 <= lo < 2 ^ 32 /\ 0 <= hi < 2 ^ 32
  | _ => False
  end.

(** The value of an id that is a constant of width w. *)
Inductive constant_value (L : loop) (w : Z) (id : N) : bool -> Z -> Prop :=
| cv_literal : forall sgn ws,
    lp_def L id = Some (LConst w sgn ws) -> encoded w sgn ws ->
    constant_value L w id sgn (literal_bits w ws)
| cv_null : forall sgn,
    lp_def L id = Some (LNull w sgn) -> 0 < w <= 32 \/ w = 64 ->
    constant_value L w id sgn 0.

(** The value of an operand when the phi has the value [x]. *)
Inductive operand_value (L : loop) (phi : N) (w x : Z) : N -> Z -> Prop :=
| ov_phi : operand_value L phi w x phi x
| ov_constant : forall id sgn y, id <> phi -> constant_value L w id sgn y -> operand_value L phi w x id y.

(** The value of the instruction that computes the next value. *)
Inductive result_value (L : loop) (phi : N) (w x : Z) (id : N) : Z -> Prop :=
| rv_add : forall a b y z,
    lp_def L id = Some (LAdd a b) -> operand_value L phi w x a y -> operand_value L phi w x b z ->
    result_value L phi w x id ((y + z) mod 2 ^ w)
| rv_sub : forall a b y z,
    lp_def L id = Some (LSub a b) -> operand_value L phi w x a y -> operand_value L phi w x b z ->
    result_value L phi w x id ((y - z) mod 2 ^ w).

(** The value of the phi the k-th time the loop is at its header, counting from 0. *)
Inductive counter (L : loop) (phi : N) (w : Z) : nat -> Z -> Prop :=
| counter_first : forall args v b sgn x,
    lp_def L phi = Some (LPhi w args) -> In (v, b) args -> lp_inside L b = false ->
    constant_value L w v sgn x ->
    counter L phi w 0 x
| counter_next : forall k x args v b y,
    counter L phi w k x ->
    lp_def L phi = Some (LPhi w args) -> In (v, b) args -> lp_inside L b = true ->
    result_value L phi w x v y ->
    counter L phi w (S k) y.

(** Where the conditional branch at the end of [block] goes when the phi has the value [x]. *)
Inductive branches_to (L : loop) (block phi : N) (w x : Z) : N -> Prop :=
| bt : forall c t f op a b y z,
    lp_term L block = Some (TBranchCond c t f) ->
    lp_def L c = Some (LCmp op a b) ->
    operand_value L phi w x a y -> operand_value L phi w x b z ->
    branches_to L block phi w x (if compares op w y z then t else f).

(** The loop goes on n times and then leaves: at the visits 0 .. n-1 the branch does not go to the
    merge block, at visit n it does. *)
Definition runs_exactly (L : loop) (block phi : N) (w : Z) (n : nat) : Prop :=
  (forall k, (k < n)%nat -> exists x t,
      counter L phi w k x /\ branches_to L block phi w x t /\ lp_merge L <> Some t)
  /\ exists x t, counter L phi w n x /\ branches_to L block phi w x t /\ lp_merge L = Some t.

(** ** Runs of a loop given by its constants, for the unrolling *)

(** The counter after k steps. *)
Definition value_at (w init step : Z) (k : Z) : Z := (init + k * step) mod 2 ^ w.

(** [while (i op bound) i += step] from [init] makes exactly n rounds. *)
Definition while_rounds (op : cmpop) (w init step bound : Z) (n : Z) : Prop :=
  0 <= n
  /\ (forall k, 0 <= k < n -> compares op w (value_at w init step k) bound = true)
  /\ compares op w (value_at w init step n) bound = false.

(** The same loop with its body repeated [factor] times for each test of the condition makes
    exactly m tests that succeed. *)
Definition unrolled_rounds (op : cmpop) (w init step bound factor : Z) (m : Z) : Prop :=
  0 <= m
  /\ (forall k, 0 <= k < m -> compares op w (value_at w init step (k * factor)) bound = true)
  /\ compares op w (value_at w init step (m * factor)) bound = false.

(** Partial unrolling with a residual: the loop with the bound [bound1], then, from where it stopped,
    the unrolled loop with the bound [bound2]; [total] is the number of bodies executed. *)
Definition split_bodies (op : cmpop) (w init step bound1 bound2 factor total : Z) : Prop :=
  exists r m,
    while_rounds op w init step bound1 r
    /\ unrolled_rounds op w (value_at w init step r) step bound2 factor m
    /\ total = r + m * factor.

(** ** Side conditions *)

(** The ids whose constants matter to the loop: the bound, the values of the phi, and the operands of
    the instruction that computes the next value. *)
Definition is_step_operand (L : loop) (args : list (N * N)) (id : N) : Prop :=
  exists v b x y, In (v, b) args /\ lp_inside L b = true
    /\ (lp_def L v = Some (LAdd x y) \/ lp_def L v = Some (LSub x y)) /\ (id = x \/ id = y).

Definition is_start (L : loop) (args : list (N * N)) (id : N) : Prop :=
  exists b, In (id, b) args /\ lp_inside L b = false.

(** These constants have the width of the phi, and are encoded as SPIR-V asks. *)
Definition well_typed (L : loop) (w : Z) (args : list (N * N)) (bnd : N) : Prop :=
  forall id, id = bnd \/ is_start L args id \/ is_step_operand L args id ->
    match lp_def L id with
    | Some (LConst w' sgn ws) => w' = w /\ encoded w sgn ws
    | Some (LNull w' _) => w' = w /\ (0 < w <= 32 \/ w = 64)
    | _ => True
    end.

(** The type of a constant and the comparison give its bits the same reading: the type is signed and
    so is the comparison, or unsigned, of at most 32 bits, and so is the comparison; or the top bit is
    clear, so that the two readings agree. *)
Definition reads_alike (op : cmpop) (w : Z) (sgn : bool) (x : Z) : Prop :=
  (sgn = op_signed op /\ (sgn = true \/ w <= 32)) \/ x < 2 ^ (w - 1).

(** The step fits in 32 bits. *)
Definition short_step (w : Z) (sgn : bool) (x : Z) : Prop :=
  w <= 32 \/ (if sgn then x < 2 ^ 31 \/ 2 ^ 64 - 2 ^ 31 <= x else x < 2 ^ 32).

(** The value of a constant by its own type. *)
Definition own_value (w : Z) (sgn : bool) (x : Z) : Z := if sgn then as_signed w x else x.

(** A loop that counts: one block of the loop leads to the merge block, by a conditional branch on the
    comparison of the phi with the bound; the phi has a value from outside and one from the latch;
    the latter adds a constant to the phi or subtracts it. *)
Record counting_loop (L : loop) (block m phi bnd start st : N) (op : cmpop) (w : Z) (sub : bool) : Prop := {
  cl_merge : lp_merge L = Some m;
  cl_exit : filter (lp_inside L) (lp_merge_preds L) = [block];
  cl_branch : exists c t, lp_term L block = Some (TBranchCond c t m) /\ t <> m
                /\ lp_def L c = Some (LCmp op phi bnd);
  cl_phi : exists args outside next, lp_def L phi = Some (LPhi w args)
                /\ (args = [(start, outside); (next, lp_latch L)] \/ args = [(next, lp_latch L); (start, outside)])
                /\ lp_inside L outside = false /\ lp_inside L (lp_latch L) = true
                /\ lp_def L next = Some (if sub then LSub phi st else LAdd phi st)
}.
