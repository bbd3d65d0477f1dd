(** Programs with private variables and with local ones. *)
From Verif Require Import Base PrivateLocal.
Local Open Scope N_scope.

(** Only loads from it and stores through it, directly or through access chains; names, decorations and debug information *)
Inductive harmless : use -> Prop :=
| Ha_load f : harmless (Use f Load) | Ha_store f : harmless (Use f StoreTo) | Ha_name f : harmless (Use f Name) | Ha_decoration f : harmless (Use f Decoration) | Ha_debug f : harmless (Use f DebugGlobal)
| Ha_chain f l : (forall u, In u l -> harmless u) -> harmless (Use f (Chain l)).
Definition where_ (u : use) : option N := match u with Use f _ => f end.
(** What a function does until it returns: it reads variables and goes on with what it read in any way, writes variables, calls functions, and outputs values *)
Inductive code := Ret | Read (x : N) (k : N -> code) | Write (x v : N) (k : code) | Call (f : N) (k : code) | Out (v : N) (k : code).
Inductive mentions (x : N) : code -> Prop :=
| Me_read k : mentions x (Read x k) | Me_write v k : mentions x (Write x v k)
| Me_read' y k v : mentions x (k v) -> mentions x (Read y k) | Me_write' y v k : mentions x k -> mentions x (Write y v k) | Me_call g k : mentions x k -> mentions x (Call g k) | Me_out v k : mentions x k -> mentions x (Out v k).
Inductive calls (f : N) : code -> Prop :=
| Ca_call k : calls f (Call f k)
| Ca_read y k v : calls f (k v) -> calls f (Read y k) | Ca_write y v k : calls f k -> calls f (Write y v k) | Ca_call' g k : calls f k -> calls f (Call g k) | Ca_out v k : calls f k -> calls f (Out v k).
Definition set (m : N -> N) (x v : N) : N -> N := fun y => if N.eq_dec y x then v else m y.
Section Semantics.
(** the functions, and the initial values some variables have (others have any) *)
Variable prog : N -> code.
Variable init : N -> option N.
Definition initial (m : N -> N) : Prop := forall x v, init x = Some v -> m x = v.
(** all variables are private: there is one of each.  From memory to memory, with output *)
Inductive private_run : code -> (N -> N) -> (N -> N) -> list N -> Prop :=
| P_ret m : private_run Ret m m []
| P_read x k m m' t : private_run (k (m x)) m m' t -> private_run (Read x k) m m' t
| P_write x v k m m' t : private_run k (set m x v) m' t -> private_run (Write x v k) m m' t
| P_out v k m m' t : private_run k m m' t -> private_run (Out v k) m m' (v :: t)
| P_call f k m m1 m2 t u : private_run (prog f) m m1 t -> private_run k m1 m2 u -> private_run (Call f k) m m2 (t ++ u).
(** those with [local x = true] are local: every call has its own, with its initial value or any.  [c]: the local variables of this call *)
Variable local : N -> bool.
Inductive local_run : code -> (N -> N) -> (N -> N) -> (N -> N) -> (N -> N) -> list N -> Prop :=
| L_ret c m : local_run Ret c m c m []
| L_read x k c m c' m' t : local_run (k (if local x then c x else m x)) c m c' m' t -> local_run (Read x k) c m c' m' t
| L_write_local x v k c m c' m' t : local x = true -> local_run k (set c x v) m c' m' t -> local_run (Write x v k) c m c' m' t
| L_write x v k c m c' m' t : local x = false -> local_run k c (set m x v) c' m' t -> local_run (Write x v k) c m c' m' t
| L_out v k c m c' m' t : local_run k c m c' m' t -> local_run (Out v k) c m c' m' (v :: t)
| L_call f k c m fresh c1 m1 c2 m2 t u : initial fresh -> local_run (prog f) fresh m c1 m1 t -> local_run k c m1 c2 m2 u -> local_run (Call f k) c m c2 m2 (t ++ u).
(** what the entry point may output *)
Definition private_outputs (e : N) (t : list N) : Prop := exists m m', initial m /\ private_run (prog e) m m' t.
Definition local_outputs (e : N) (t : list N) : Prop := exists c m c' m', initial c /\ initial m /\ local_run (prog e) c m c' m' t.
End Semantics.
