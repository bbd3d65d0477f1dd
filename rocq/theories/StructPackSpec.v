(** Which bytes a value occupies in memory. *)
From Verif Require Import Base StructPack.
Local Open Scope N_scope.

Definition pow2 (n : N) : Prop := exists k, n = 2 ^ k.
(** the next multiple of [a] *)
Definition next (v a w : N) : Prop := (exists k, w = k * a) /\ v <= w < v + a.
(** offsets of the members of a structure: each is the next multiple of the alignment the rules ask for, and of that of a structure before it *)
Inductive laid_out (r : rules) : N -> N -> list ty -> list N -> Prop :=
| Lo_nil c p : laid_out r c p [] []
| Lo_cons c p t l o k : next c (N.max (alignment r t) p) o -> laid_out r (o + size r t) (match t with Struct _ => alignment r t | _ => 1 end) l k -> laid_out r c p (t :: l) (o :: k).
(** a value of the type [u] is stored at byte [o] of a value of the type [t]: itself, in an element of an array (a stride apart), or in a member of a structure *)
Inductive inside (r : rules) : ty -> N -> ty -> Prop :=
| In_self t : inside r t 0 t
| In_arr e n i o u : i < n -> inside r e o u -> inside r (Arr e n) (i * stride r e n + o) u
| In_struct l k i t p o u : laid_out r 0 1 l k -> nth_error l i = Some t -> nth_error k i = Some p -> inside r t o u -> inside r (Struct l) (p + o) u.
(** the bytes of scalars, vectors and matrices; rows, or columns, of matrices are the stride of the matrix apart *)
Inductive own : ty -> N -> Prop :=
| Ow_num b k : k < b -> own (Num b) k
| Ow_vec n b k : k < n * b -> own (Vec n b) k
| Ow_rows c rw b s i j : i < rw -> j < c * b -> own (Mat c rw b true s) (i * s + j)
| Ow_columns c rw b s i j : i < c -> j < rw * b -> own (Mat c rw b false s) (i * s + j).
(** the byte [k] belongs to a value of the type that begins at byte 0 *)
Definition byte (r : rules) (t : ty) (k : N) : Prop := exists u o j, inside r t o u /\ own u j /\ k = o + j.
(** what the address of a value must be a multiple of: scalars of their size, vectors of two or four times that; matrices (of two or more columns) like vectors, with std140 like those of four; with std140, arrays and structures of 16 *)
Definition natural (r : rules) (t : ty) : N :=
  match t, r with
  | Num b, _ => b
  | Vec _ b, Scalar => b
  | Vec 1 b, _ => b
  | Vec 2 b, _ => 2 * b
  | Vec _ b, _ => 4 * b
  | Mat _ _ b _ _, Scalar => b
  | Mat 2 _ b _ _, Std430 => 2 * b
  | Mat _ _ b _ _, _ => 4 * b
  | (Arr _ _ | Struct _), Std140 => 16
  | (Arr _ _ | Struct _), _ => 1
  end.
(** a type is a part of another *)
Inductive part : ty -> ty -> Prop :=
| Pa_self t : part t t
| Pa_arr e n u : part e u -> part (Arr e n) u
| Pa_struct l t u : In t l -> part t u -> part (Struct l) u.
(** Types the theorems are about.  Matrices are stored row by row (or have as many columns as rows), with a stride not above what the rules give; not with scalar rules. *)
Inductive good (r : rules) : ty -> Prop :=
| Go_num b : pow2 b -> good r (Num b)
| Go_vec n b : 1 <= n <= 4 -> pow2 b -> good r (Vec n b)
| Go_mat c rw b by_rows s : 2 <= c <= 4 -> pow2 b -> r <> Scalar -> (by_rows = true \/ c = rw) -> s <= alignment r (Mat c rw b by_rows s) -> good r (Mat c rw b by_rows s)
| Go_arr e n : good r e -> good r (Arr e n)
| Go_struct l : (forall t, In t l -> good r t) -> good r (Struct l).
