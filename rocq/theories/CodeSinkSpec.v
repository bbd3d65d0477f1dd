(** What moving loads and access chains down needs from the function and the machine.  Runs of functions are those of RedundancySpec.v. *)
From Verif Require Import Base GraphSpec Redundancy RedundancySpec LicmSpec CodeSink.
Local Open Scope N_scope.

Definition path_op (k : opkind) : Prop := k = KAccessChain \/ k = KPtrChain \/ k = KPath.
(** the id is the variable [v], or a pointer made from it by access chains and the like *)
Inductive rests_on (x : info) (f : func) : N -> N -> Prop :=
| RO_variable v : i_var x v <> None -> rests_on x f v v
| RO_copy r a v : In (ICopy r a) (all_insts f) -> rests_on x f a v -> rests_on x f r v
| RO_path r op a l v : In (IPure r op (a :: l)) (all_insts f) -> path_op (i_kind x op) -> rests_on x f a v -> rests_on x f r v.

(** [points p v]: the value [p] is a pointer into the variable [v] *)
Record memory_rules {D W} (m : machine D W) (x : info) (points : D -> N -> Prop) : Prop := {
  mr_path : forall op p ds q v, path_op (i_kind x op) -> pure m op (p :: ds) = Some q -> points p v -> points q v;
  mr_load : forall op ds w d w', i_kind x op = KLoad -> own m op ds w = Some (d, w') -> w' = w }.
(** the operation, with these operands, does not change what is read through pointers into [v] *)
Definition undisturbed {D W} (m : machine D W) (x : info) (points : D -> N -> Prop) (v op : N) (ds : list D) : Prop :=
  forall w d w', own m op ds w = Some (d, w') -> forall lop q, i_kind x lop = KLoad -> points q v ->
    option_map fst (own m lop [q] w') = option_map fst (own m lop [q] w).
(** operand values that point where the operands should *)
Definition fits {D} (x : info) (f : func) (points : D -> N -> Prop) (args : list N) (ds : list D) : Prop :=
  forall k a d v, nth_error args k = Some a -> nth_error ds k = Some d -> rests_on x f a v -> points d v.
(** the instructions of the function do not change what is read through pointers into [v] *)
Definition not_written {D W} (m : machine D W) (x : info) (points : D -> N -> Prop) (f : func) (v : N) : Prop :=
  forall r op args ds, In (IOwn r op args) (all_insts f) -> fits x f points args ds -> undisturbed m x points v op ds.
(** memory semantics (SPIR-V 3.25): bit 6 is UniformMemory, bits 1, 2 and 3 are Acquire, Release and AcquireRelease *)
Definition synchronises (s : N) : Prop := N.testbit s 6 = true /\ (N.testbit s 1 = true \/ N.testbit s 2 = true \/ N.testbit s 3 = true).
(** a variable the function loads from, and that is read-only, or Uniform in a module without synchronisation of uniform memory *)
Definition loaded (x : info) (f : func) (v : N) : Prop := exists r op p, In (IOwn (Some r) op [p]) (insts f) /\ i_kind x op = KLoad /\ rests_on x f p v.
Definition seems_constant (x : info) (v : N) : Prop :=
  exists q, i_var x v = Some q /\ (v_read_only q = true \/ (v_uniform q = true /\ forall s, In s (i_semantics x) -> ~ synchronises s)).
Definition loads_are_constant {D W} (m : machine D W) (x : info) (points : D -> N -> Prop) (f : func) : Prop :=
  forall v, loaded x f v -> seems_constant x v -> not_written m x points f v.
(** variables are declared outside of the function, and are pointers into themselves *)
Definition variables_outside (x : info) (f : func) : Prop :=
  forall v, i_var x v <> None -> (forall i, In i (all_insts f) -> result i <> Some v) /\ forall b p, In b (blocks f) -> In p (phis b) -> p_res p <> v.
Definition variables_point {D} (x : info) (points : D -> N -> Prop) (globals : N -> option D) : Prop :=
  forall v p, i_var x v <> None -> globals v = Some p -> points p v.

(** ** Structure *)
(** A header of a selection dominates its merge block; the merge block exists. *)
Definition structured (x : info) (f : func) : Prop :=
  forall h mg, i_merge x h = Some mg -> In h (map label (blocks f)) -> In mg (map label (blocks f)) /\ h <> mg /\ dominates (succs f) (entry f) h mg.
(** branches lead to blocks of the function *)
Definition closed (f : func) : Prop := forall b l, In b (blocks f) -> In l (t_succ b) -> In l (map label (blocks f)).
(** the results of the instructions have no values before they run *)
Definition starts_clean {D} (f : func) (globals : N -> option D) : Prop := forall i r, In i (all_insts f) -> result i = Some r -> globals r = None.
(** the merge block of a header that is reached is reached too *)
Definition merges_reached (x : info) (f : func) : Prop := forall h mg, i_merge x h = Some mg -> reachable (succs f) (entry f) h -> reachable (succs f) (entry f) mg.
(** values are not made from themselves *)
Definition ordered (f : func) : Prop :=
  exists rank : N -> nat, forall i r a, In i (all_insts f) -> (match i with IOwn _ _ _ => False | _ => True end) -> result i = Some r -> In a (reads i) -> (rank a < rank r)%nat.
