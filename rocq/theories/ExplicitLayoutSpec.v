(** * What an explicit layout has to satisfy

    Specification for [P_ExplicitLayout.v].  It is written with unbounded
    integers and from the layout rules, not from the code; of the model it
    only uses the descriptions of types ([ty], [member], [matrix], [mode]). *)

From Coq Require Import ZArith List Bool.
From Verif Require Import ExplicitLayout.
Import ListNotations.
Local Open Scope Z_scope.

(** ** Where the data is *)

(** The matrix decorations of a member itself. *)
Definition decorations (m : member ty) : matrix :=
  Matrix (match m_stride m with Some s => s | None => 0 end)
         (match m_major m with Some c => c | None => true end).

(** [leaf t mc base p a n]: in an object of type [t] that starts at byte
    [base], the path of indices [p] leads to a number (or an opaque value)
    that occupies the [n] bytes from [a] on.  [mc] are the matrix decorations
    that apply to the object. *)
Inductive leaf : ty -> matrix -> Z -> list nat -> Z -> Z -> Prop :=
| leaf_scalar b mc base : leaf (TyScalar b) mc base [] base b
| leaf_opaque s al mc base : leaf (TyOpaque s al) mc base [] base s
| leaf_vector c n mc base i :
    Z.of_nat i < n ->
    leaf (TyVector c n) mc base [i] (base + Z.of_nat i * c) c
| leaf_columns c rows cols mc base j i :
    mx_col mc = true -> Z.of_nat j < cols -> Z.of_nat i < rows ->
    leaf (TyMatrix c rows cols) mc base [j; i]
      (base + Z.of_nat j * mx_stride mc + Z.of_nat i * c) c
| leaf_rows c rows cols mc base j i :
    mx_col mc = false -> Z.of_nat j < cols -> Z.of_nat i < rows ->
    leaf (TyMatrix c rows cols) mc base [j; i]
      (base + Z.of_nat i * mx_stride mc + Z.of_nat j * c) c
| leaf_array e n s mc base i p a k :
    Z.of_nat i < n ->
    leaf e mc (base + Z.of_nat i * s) p a k ->
    leaf (TyArray e (Some n) (Some s)) mc base (i :: p) a k
| leaf_runtime e s mc base i p a k :
    leaf e mc (base + Z.of_nat i * s) p a k ->
    leaf (TyRuntimeArray e (Some s)) mc base (i :: p) a k
| leaf_member ms mc base i m o p a k :
    nth_error ms i = Some m -> m_offset m = Some o ->
    leaf (m_type m) (decorations m) (base + o) p a k ->
    leaf (TyStruct ms) mc base (i :: p) a k.

(** Two ranges of bytes have nothing in common. *)
Definition apart (a n b k : Z) : Prop := a + n <= b \/ b + k <= a.

(** [part t mc base t' mc' a direct]: an object of type [t] at [base] contains
    an object of type [t'] at [a].  [direct]: as the member of a structure,
    rather than as the element of an array. *)
Inductive part : ty -> matrix -> Z -> ty -> matrix -> Z -> bool -> Prop :=
| part_member ms mc base m o :
    In m ms -> m_offset m = Some o ->
    part (TyStruct ms) mc base (m_type m) (decorations m) (base + o) true
| part_element e n s mc base i :
    0 <= i < n ->
    part (TyArray e (Some n) (Some s)) mc base e mc (base + i * s) false
| part_runtime e s mc base i :
    0 <= i ->
    part (TyRuntimeArray e (Some s)) mc base e mc (base + i * s) false
| part_trans t mc b t1 mc1 b1 d1 t2 mc2 b2 d2 :
    part t mc b t1 mc1 b1 d1 -> part t1 mc1 b1 t2 mc2 b2 d2 ->
    part t mc b t2 mc2 b2 d2.

(** ** The rules *)

Definition round_up (x a : Z) : Z := (x + a - 1) / a * a.

(** The extended rules round the alignments of arrays, structures and matrices
    up to a multiple of 16. *)
Definition up (md : mode) (x : Z) : Z :=
  match md with Extended => round_up x 16 | _ => x end.

(** A vector of two components is aligned to twice the component, a longer one
    to four times the component; with the scalar rules, to the component. *)
Definition vector_alignment (md : mode) (comp n : Z) : Z :=
  match md with
  | Scalar => comp
  | _ => if 3 <=? n then 4 * comp else n * comp
  end.

(** The alignment the rules ask for.  With the relaxed rules a vector that is
    itself the member of a structure ([direct]) is aligned to its component. *)
Fixpoint alignment (relaxed : bool) (md : mode) (mc : matrix) (direct : bool)
    (t : ty) : Z :=
  match t with
  | TyScalar b => b
  | TyOpaque _ al => al
  | TyVector c n =>
      if relaxed && direct then c else vector_alignment md c n
  | TyMatrix c rows cols =>
      (* that of a column, or of a row *)
      match md with
      | Scalar => c
      | _ => up md (vector_alignment md c (if mx_col mc then rows else cols))
      end
  | TyArray e _ _ | TyRuntimeArray e _ => up md (alignment relaxed md mc false e)
  | TyStruct ms =>
      fold_right (fun m a =>
        Z.max (up md (alignment relaxed md (decorations m) true (m_type m))) a)
        1 ms
  end.

(** How many bytes an object takes, up to the end of its last byte; a matrix
    in columns takes whole columns, and the elements of a runtime array are
    not counted. *)
Fixpoint extent (mc : matrix) (t : ty) : Z :=
  match t with
  | TyScalar b => b
  | TyOpaque s _ => s
  | TyVector c n => n * c
  | TyMatrix c rows cols =>
      if mx_col mc then cols * mx_stride mc
      else (rows - 1) * mx_stride mc + cols * c
  | TyArray e (Some n) (Some s) => (n - 1) * s + extent mc e
  | TyArray _ _ _ | TyRuntimeArray _ _ => 0
  | TyStruct ms =>
      fold_right (fun m a =>
        Z.max (match m_offset m with Some o => o | None => 0 end +
               extent (decorations m) (m_type m)) a)
        0 ms
  end.

(** A vector of at most 16 bytes must not cross a multiple of 16; a larger one
    must start at one. *)
Definition straddles (a n : Z) : Prop :=
  if n <=? 16 then a / 16 <> (a + n - 1) / 16 else a mod 16 <> 0.

(** Matrices and arrays of matrices. *)
Fixpoint of_matrices (t : ty) : Prop :=
  match t with
  | TyMatrix _ _ _ => True
  | TyArray e _ _ | TyRuntimeArray e _ => of_matrices e
  | _ => False
  end.

(** Where the next member may start: the end of the member, rounded up to its
    alignment after an array or a structure. *)
Definition free_after (relaxed : bool) (md : mode) (m : member ty) (o : Z) : Z :=
  let last := o + extent (decorations m) (m_type m) in
  match md, m_type m with
  | Scalar, _ => last
  | _, TyArray _ _ _ | _, TyStruct _ =>
      round_up last (alignment relaxed md (decorations m) true (m_type m))
  | _, _ => last
  end.

(** The member [x] leaves [y] its place. *)
Definition makes_room (relaxed : bool) (md : mode) (x y : member ty) : Prop :=
  (forall e s, m_type x <> TyRuntimeArray e s) /\
  exists o o', m_offset x = Some o /\ m_offset y = Some o' /\
    free_after relaxed md x o <= o'.

Definition not_after (x y : member ty) : Prop :=
  exists o o', m_offset x = Some o /\ m_offset y = Some o' /\ o <= o'.

(** [x] is declared before [y]: the one with the smaller offset, [x] on a tie,
    leaves the other its place. *)
Definition share (relaxed : bool) (md : mode) (x y : member ty) : Prop :=
  (not_after x y /\ makes_room relaxed md x y) \/
  (~ not_after x y /\ makes_room relaxed md y x).

(** [follows relaxed md mc base t]: an object of type [t] at [base] is laid
    out according to the rules. *)
Inductive follows (relaxed : bool) (md : mode) : matrix -> Z -> ty -> Prop :=
| follows_scalar b mc base : follows relaxed md mc base (TyScalar b)
| follows_opaque s al mc base : follows relaxed md mc base (TyOpaque s al)
| follows_vector c n mc base : follows relaxed md mc base (TyVector c n)
| follows_matrix c rows cols mc base :
    (alignment relaxed md mc false (TyMatrix c rows cols) | mx_stride mc) ->
    (if mx_col mc then rows * c else cols * c) <= mx_stride mc ->
    follows relaxed md mc base (TyMatrix c rows cols)
| follows_array e n s mc base :
    0 < s ->
    (alignment relaxed md mc false (TyArray e (Some n) (Some s)) | s) ->
    extent mc e <= s ->
    (forall i, 0 <= i < n -> follows relaxed md mc (base + i * s) e) ->
    follows relaxed md mc base (TyArray e (Some n) (Some s))
| follows_runtime e s mc base :
    0 < s ->
    (alignment relaxed md mc false (TyRuntimeArray e (Some s)) | s) ->
    extent mc e <= s ->
    (* the first element only *)
    follows relaxed md mc base e ->
    follows relaxed md mc base (TyRuntimeArray e (Some s))
| follows_struct ms mc base :
    (forall m, In m ms -> exists o, m_offset m = Some o /\
       (of_matrices (m_type m) ->
          m_major m <> None /\ exists s, m_stride m = Some s /\ s <> 0) /\
       (alignment relaxed md (decorations m) true (m_type m) | o) /\
       (alignment relaxed md (decorations m) true (m_type m) | base + o) /\
       (forall c n, relaxed = true -> md <> Scalar -> m_type m = TyVector c n ->
          ~ straddles (base + o) (n * c)) /\
       follows relaxed md (decorations m) (base + o) (m_type m)) ->
    ForallOrdPairs (share relaxed md) ms ->
    follows relaxed md mc base (TyStruct ms).

(** ** Which types are considered *)

Definition width (c : Z) : Prop := c = 1 \/ c = 2 \/ c = 4 \/ c = 8.

(** Types with numbers of one, two, four or eight bytes, vectors with at least
    one component, matrices of two to four rows and columns, opaque values
    aligned to a power of two, and counts, strides and offsets that can be
    evaluated. *)
Fixpoint proper (t : ty) : Prop :=
  match t with
  | TyScalar b => width b
  | TyOpaque s al => 0 <= s /\ exists k, 0 <= k <= 16 /\ al = 2 ^ k
  | TyVector c n => width c /\ 1 <= n
  | TyMatrix c rows cols => width c /\ 2 <= rows <= 4 /\ 2 <= cols <= 4
  | TyArray e n s =>
      proper e /\ (exists k, n = Some k /\ 1 <= k) /\
      (forall k, s = Some k -> 0 <= k < 2 ^ 32 - 1)
  | TyRuntimeArray e s =>
      proper e /\ (forall k, s = Some k -> 0 <= k < 2 ^ 32 - 1)
  | TyStruct ms =>
      fold_right (fun m P =>
        proper (m_type m) /\
        (forall o, m_offset m = Some o -> 0 <= o < 2 ^ 32 - 1) /\
        (forall s, m_stride m = Some s -> 0 <= s) /\ P)
        True ms
  end.

(** An upper bound for the offsets in an object. *)
Fixpoint reach (mc : matrix) (t : ty) : Z :=
  match t with
  | TyScalar b => b
  | TyOpaque s _ => s
  | TyVector c n => n * c
  | TyMatrix c rows cols =>
      if mx_col mc then cols * mx_stride mc
      else rows * mx_stride mc + cols * c
  | TyArray e n s =>
      match n, s with
      | Some n, Some s => n * s + reach mc e
      | _, _ => reach mc e
      end
  | TyRuntimeArray e _ => reach mc e
  | TyStruct ms =>
      fold_right (fun m a =>
        Z.max (match m_offset m with Some o => o | None => 0 end +
               reach (decorations m) (m_type m)) a)
        0 ms
  end.

(** No runtime array anywhere. *)
Fixpoint sized (t : ty) : Prop :=
  match t with
  | TyRuntimeArray _ _ => False
  | TyArray e _ _ => sized e
  | TyStruct ms => fold_right (fun m P => sized (m_type m) /\ P) True ms
  | _ => True
  end.

(** A block: a structure whose only runtime arrays are members of its own. *)
Definition block (ms : list (member ty)) : Prop :=
  forall m, In m ms ->
    sized (m_type m) \/ exists e s, m_type m = TyRuntimeArray e s /\ sized e.
