(** Specification of the loop dependence tests: which iterations of a loop are executed, and when
    two accesses touch the same element. *)
From Verif Require Import Base Scev ScevSpec LoopDep.
Local Open Scope Z_scope.

(** A loop over one induction variable: for (i = init; i op limit; i += step). *)
Record loop_run := mkRun { r_init : Z; r_step : Z; r_op : cmp; r_limit : Z }.
Definition holds (op : cmp) (x y : Z) : Prop :=
  match op with C_lt => x < y | C_gt => x > y | C_le => x <= y | C_ge => x >= y end.
(** Iteration [k] (0 is the first) is executed: no test failed up to it. *)
Definition executes (r : loop_run) (k : Z) : Prop :=
  0 <= k /\ forall j, 0 <= j <= k -> holds (r_op r) (r_init r + r_step r * j) (r_limit r).
(** The loop counts by one towards its limit. *)
Definition counts (r : loop_run) : Prop :=
  (r_step r = 1 /\ (r_op r = C_lt \/ r_op r = C_le)) \/
  (r_step r = -1 /\ (r_op r = C_gt \/ r_op r = C_ge)).
(** The induction variable is never negative. *)
Definition stays_nonnegative (r : loop_run) : Prop :=
  forall k, executes r k -> 0 <= r_init r + r_step r * k.

(** The expression has value [v] whatever the iteration, and is a linear combination of unknowns. *)
Definition linear_value (env : N -> Z) (n : node) (v : Z) : Prop :=
  linear n /\ forall it, value_of env it n v.

(** What the analysis knows of the loop is true of it. *)
Record described (env : N -> Z) (d : loop_desc) (r : loop_run) : Prop := {
  de_cond : forall op lower upper, ld_cond d = Some (op, lower, upper) ->
      op = r_op r /\ linear_value env upper (r_limit r) /\
      (forall n, lower = Some n -> linear_value env n (r_init r));
  de_init : forall v, ld_init d = Some v -> v = r_init r;
  de_trip : forall t, ld_trip d = Some t -> forall k, executes r k <-> 0 <= k < t
}.

(** The subscript [s] in the iterations [it] and the subscript [d] in the iterations [it'] are
    equal. *)
Definition equal_subscripts (env : N -> Z) (it it' : N -> Z) (s d : node) : Prop :=
  exists v, value_of env it s v /\ value_of env it' d v.
(** They are equal in two executed iterations of the loop [l], which runs as [r]. *)
Definition conflict (env : N -> Z) (r : loop_run) (l : N) (it it' : N -> Z) (s d : node) : Prop :=
  executes r (it l) /\ executes r (it' l) /\ equal_subscripts env it it' s d.

(** The pairs of subscripts over the loop [l] for which the tests are right. *)
Inductive handled_pair (env : N -> Z) (r : loop_run) (l : N) : node -> node -> Prop :=
(** The same step, and constant offsets. *)
| H_strong o o' c : c <> 0 ->
    handled_pair env r l (NRec l (NConst o) (NConst c)) (NRec l (NConst o') (NConst c))
(** The same step as the induction variable, and offsets over unknowns. *)
| H_symbolic n n' x x' :
    linear_value env n x -> linear_value env n' x' ->
    handled_pair env r l (NRec l n (NConst (r_step r))) (NRec l n' (NConst (r_step r)))
(** Opposite steps. *)
| H_crossing n n' x x' c : c <> 0 ->
    linear_value env n x -> linear_value env n' x' ->
    handled_pair env r l (NRec l n (NConst c)) (NRec l n' (NConst (- c)))
(** A constant and a recurrence with constant offset; the loop counts up from zero, or the step is
    that of the induction variable, which is never negative. *)
| H_zero_source f o c : c <> 0 ->
    (r_init r = 0 /\ r_step r = 1) \/ (c = r_step r /\ stays_nonnegative r) ->
    handled_pair env r l (NConst f) (NRec l (NConst o) (NConst c))
| H_zero_destination f o c : c <> 0 ->
    (r_init r = 0 /\ r_step r = 1) \/ (c = r_step r /\ stays_nonnegative r) ->
    handled_pair env r l (NRec l (NConst o) (NConst c)) (NConst f).

(** The pairs of subscripts over any loops: constants, one loop as above, or several loops. *)
Inductive handled_any (env : N -> Z) (runs : N -> loop_run) : node -> node -> Prop :=
| H_constants x y : handled_any env runs (NConst x) (NConst y)
| H_one l s d : handled_pair env (runs l) l s d -> handled_any env runs s d
| H_several s d l l' :
    l <> l' -> In l (loops_of_pair s d) -> In l' (loops_of_pair s d) -> handled_any env runs s d.

(** The pairs (x, y) of iterations a constraint with constants allows. *)
Inductive allows : constr -> Z -> Z -> Prop :=
| A_line a b c x y : a * x + b * y = c -> allows (K_line (NConst a) (NConst b) (NConst c)) x y
| A_distance d x y : y - x = d -> allows (K_distance (NConst d)) x y
| A_point x y : allows (K_point (NConst x) (NConst y)) x y
| A_none x y : allows K_none x y.

(** The sign of a distance agrees with a direction. *)
Definition direction_of (d : direction) (x : Z) : Prop :=
  match d with
  | D_none => False
  | D_lt => x > 0
  | D_eq => x = 0
  | D_gt => x < 0
  | D_le => x >= 0
  | D_ge => x <= 0
  | D_ne => x <> 0
  | D_all => True
  end.
(** What is reported besides a dependence is true of all conflicts: the distance is the iteration
    of the source less that of the destination; peeling the first or the last iteration, of
    whichever subscript varies, leaves no conflict. *)
Definition report_right (env : N -> Z) (r : loop_run) (l : N) (s d : node) (e : entry) : Prop :=
  forall it it', conflict env r l it it' s d ->
    (e_info e = I_distance -> e_dist e = it l - it' l) /\
    (e_info e = I_distance \/ e_info e = I_direction -> direction_of (e_dir e) (it l - it' l)) /\
    (e_peel_first e = true -> it l = 0 \/ it' l = 0) /\
    (e_peel_last e = true -> ~ executes r (it l + 1) \/ ~ executes r (it' l + 1)).
