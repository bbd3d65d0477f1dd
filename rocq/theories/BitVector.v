(** Model of source/util/bit_vector.{h,cpp} : spvtools::utils::BitVector. *)
From Verif Require Import Base.
Local Open Scope N_scope.

(** bit_vector.h:116-117  bits_ : std::vector<uint64_t>; bit_vector.h:30-32 constants. *)
Definition bv := list N.
Definition kBitContainerSize : N := 64.

(** bit_vector.h:36-37  BitVector(reserved_size): uint32 subtraction wraps. *)
Definition create (reserved_size : N) : bv :=
  repeat 0 (N.to_nat ((reserved_size + 2 ^ 32 - 1) mod 2 ^ 32 / kBitContainerSize + 1)).

(** std::vector::resize(n, 0) when growing *)
Definition grow (v : bv) (n : nat) : bv := v ++ repeat 0 (n - length v).

(** bit_vector.h:40-57  Set; [None] would be an out-of-range bits_[element_index]. *)
Definition bset (v : bv) (i : N) : option (bv * bool) :=
  let element_index := N.to_nat (i / kBitContainerSize) in
  let bit_in_element := i mod kBitContainerSize in
  let v := if (length v <=? element_index)%nat then grow v (S element_index) else v in
  match nth_error v element_index with
  | None => None
  | Some original =>
      let ith_bit := N.shiftl 1 bit_in_element in
      if negb (N.land original ith_bit =? 0) then Some (v, true)
      else Some (update_nth v element_index (N.lor original ith_bit), false)
  end.

(** bit_vector.h:60-77  Clear; [original & ~ith_bit] is [N.ldiff]. *)
Definition bclear (v : bv) (i : N) : option (bv * bool) :=
  let element_index := N.to_nat (i / kBitContainerSize) in
  let bit_in_element := i mod kBitContainerSize in
  if (length v <=? element_index)%nat then Some (v, false)
  else
    match nth_error v element_index with
    | None => None
    | Some original =>
        let ith_bit := N.shiftl 1 bit_in_element in
        if N.land original ith_bit =? 0 then Some (v, false)
        else Some (update_nth v element_index (N.ldiff original ith_bit), true)
    end.

(** bit_vector.h:80-90  Get *)
Definition bget (v : bv) (i : N) : option bool :=
  let element_index := N.to_nat (i / kBitContainerSize) in
  let bit_in_element := i mod kBitContainerSize in
  if (length v <=? element_index)%nat then Some false
  else
    match nth_error v element_index with
    | None => None
    | Some w => Some (negb (N.land w (N.shiftl 1 bit_in_element) =? 0))
    end.

(** bit_vector.h:93-100  Empty *)
Fixpoint bempty (v : bv) : bool :=
  match v with
  | [] => true
  | b :: v' => if negb (b =? 0) then false else bempty v'
  end.

(** bit_vector.cpp:41-62  Or: the common-prefix loop, then the append of the rest of other. *)
Fixpoint bor (v other : bv) : bv * bool :=
  match v, other with
  | a :: v', b :: other' =>
      let '(r, m) := bor v' other' in
      let temp := N.lor a b in
      if negb (temp =? a) then (temp :: r, true) else (a :: r, m)
  | _, [] => (v, false)
  | [], _ => (other, true)
  end.

(** bit_vector.cpp:81-89  operator==: index loop to max size, missing words read as 0. *)
Fixpoint beqb_loop (fuel : nat) (i : nat) (v other : bv) : bool :=
  match fuel with
  | O => true
  | S f => if negb (nth i v 0 =? nth i other 0) then false else beqb_loop f (S i) v other
  end.
Definition beqb (v other : bv) : bool := beqb_loop (Nat.max (length v) (length other)) 0 v other.

(** bit_vector.cpp:64-79  operator<<: the numbers printed between the braces.
    The inner while loop runs on explicit fuel; [None] is out of fuel. *)
Fixpoint word_bits (fuel : nat) (base j b : N) : option (list N) :=
  if b =? 0 then Some []
  else
    match fuel with
    | O => None
    | S f =>
        option_map (fun l => if N.odd b then base + j :: l else l)
                   (word_bits f base (j + 1) (N.shiftr b 1))
    end.
Fixpoint print_loop (i : N) (v : bv) : option (list N) :=
  match v with
  | [] => Some []
  | b :: v' =>
      match word_bits 64 (i * kBitContainerSize) 0 b, print_loop (i + 1) v' with
      | Some l, Some l' => Some (l ++ l')
      | _, _ => None
      end
  end.
Definition print_bits (v : bv) : option (list N) := print_loop 0 v.

(** Histories: how a client can build a bit vector. *)
Inductive hist :=
| HNew (reserved : N)
| HSet (h : hist) (i : N)
| HClear (h : hist) (i : N)
| HOr (h other : hist).
Fixpoint build (h : hist) : option bv :=
  match h with
  | HNew r => Some (create r)
  | HSet h i => match build h with Some v => option_map fst (bset v i) | None => None end
  | HClear h i => match build h with Some v => option_map fst (bclear v i) | None => None end
  | HOr h o =>
      match build h, build o with
      | Some v, Some w => Some (fst (bor v w))
      | _, _ => None
      end
  end.
