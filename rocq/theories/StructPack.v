(** Packing structures: model of source/opt/struct_packing_pass.cpp.  Simplifications: numbers do not overflow 32 bits, but they do wrap around below zero; the structure is given, with its member types
    and its offset decorations in order (findStructIdByName and the search for the decorations are not modelled). *)
From Verif Require Import Base.
Local Open Scope N_scope.

Inductive rules := Std140 | Std430 | Scalar | Hlsl.
(** struct_packing_pass.cpp:90-120; the variants "EnhancedLayout" and "PackOffset" are not treated differently from the others *)
Definition vec4_padded (r : rules) : bool := match r with Std140 | Hlsl => true | _ => false end.
Definition is_scalar (r : rules) : bool := match r with Scalar => true | _ => false end.
Definition is_hlsl (r : rules) : bool := match r with Hlsl => true | _ => false end.
(** Types: scalars of [b] bytes (1 for Booleans); vectors of [n]; matrices with [c] columns and [r] rows (for the specification also: are they stored row by row, and with which stride); arrays; structures *)
Inductive ty := Num (b : N) | Vec (n b : N) | Mat (c r b : N) (by_rows : bool) (stride : N) | Arr (e : ty) (n : N) | Struct (l : list ty).
(** struct_packing_pass.cpp:122-139 (getPackedBaseSize); 0 for other types *)
Definition base (t : ty) : N := match t with Num b | Vec _ b | Mat _ _ b _ _ => b | Arr _ _ | Struct _ => 0 end.
(** struct_packing_pass.cpp:141-153 (getScalarElementCount); 0 for structures *)
Definition elements (t : ty) : N := match t with Vec n _ => n | Mat _ r _ _ _ => r | Struct _ => 0 | _ => 1 end.
(** struct_packing_pass.cpp:157-159 (alignPow2) *)
Definition align (v a : N) : N := N.ldiff (v + a - 1) (a - 1).
(** subtraction of 32-bit numbers *)
Definition minus (a b : N) : N := if b <=? a then a - b else a + 2 ^ 32 - b.
(** struct_packing_pass.cpp:168-224 (getPackedAlignment).  Vectors have 1 to 4 components. *)
Fixpoint alignment (r : rules) (t : ty) : N :=
  match t with
  | Arr e _ => N.max (if vec4_padded r then 16 else 1) (alignment r e)
  | Struct l => let a := fold_left (fun a m => N.max a (alignment r m)) l 1 in if vec4_padded r then N.max a 16 else a
  | Num b => b
  | Vec n b => if is_scalar r then b else if n =? 1 then b else if n =? 3 then b * 4 else b * n
  | Mat c _ b _ _ => if is_scalar r then b else if vec4_padded r || (c =? 3) then b * 4 else b * c
  end.
(** struct_packing_pass.cpp:226-231 (getPadAlignment) *)
Definition pad (t : ty) (a : N) : N := match t with Struct _ => a | _ => 1 end.
Definition is_struct (t : ty) : bool := match t with Struct _ => true | _ => false end.
(** struct_packing_pass.cpp:233-302 (getPackedSize), 304-310 (getPackedArrayStride) *)
Fixpoint size (r : rules) (t : ty) : N :=
  match t with
  | Arr e n =>
      let s := align (size r e) (alignment r (Arr e n)) * n in
      if is_hlsl r && negb (is_struct e) then minus s ((4 - elements e) * base e) else s
  | Struct l => fst (fold_left (fun st m => (align (fst st) (N.max (alignment r m) (snd st)) + size r m, pad m (alignment r m))) l (0, 1))
  | Num b => b
  | Vec n b => n * b
  | Mat c rw b _ _ =>
      if is_scalar r then rw * b
      else
        let s := if vec4_padded r || (c =? 3) then rw * b * 4 else rw * b * c in
        if is_hlsl r then minus s ((4 - rw) * b) else s
  end.
Definition stride (r : rules) (e : ty) (n : N) : N := align (size r e) (alignment r (Arr e n)).
Inductive outcome := Done (l : list (nat * N)) | Failure | Crash.
(** struct_packing_pass.cpp:409-479 (assignStructMemberOffsets): the decorations, each a member and its offset.  [Crash]: there is no such member. *)
Fixpoint assign (r : rules) (types : list ty) (prev : nat) (cur pd : N) (l : list (nat * N)) : outcome :=
  match l with
  | [] => Done []
  | (i, old) :: l' =>
      if Nat.ltb i prev then Failure
      else match nth_error types i with
      | None => Crash
      | Some t =>
          let a := alignment r t in
          let s := size r t in
          let a := if is_hlsl r then (if cur / 16 =? (minus (cur + s) 1) / 16 then a else N.max a 16) else a in
          let o := align cur (N.max a pd) in
          if old <? o then Failure
          else match assign r types i (o + s) (pad t a) l' with Done k => Done ((i, o) :: k) | x => x end
      end
  end.
Definition pack (r : rules) (types : list ty) (l : list (nat * N)) : outcome := assign r types 0 0 1 l.
