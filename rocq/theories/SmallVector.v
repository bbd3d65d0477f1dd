(** Model of /repo/source/util/small_vector.h.
    The inline buffer is a list of cells: raw memory, or an object; an object that has been moved from has no
    specified value.  Constructing over an object, using raw memory as an object and reading the value of an object
    that was moved from are faults ([None]).  The heap vector is a plain list.  Positions are indices from begin(). *)
From Verif Require Import Base.

Section SmallVector.
Variable T : Type.

Inductive cell := Raw | Obj (value : option T).
(** small_vector.h:465-485: [size] objects in the buffer, and the heap vector if there is one. *)
Record small_vector := mkSV { buffer : list cell; size_ : nat; large : option (list T) }.

(** ** Single cells *)
Fixpoint put (i : nat) (c : cell) (b : list cell) : list cell :=
  match b, i with [], _ => [] | _ :: b, O => c :: b | d :: b, S i => d :: put i c b end.
(** Placement new. *)
Definition construct (i : nat) (x : T) (b : list cell) : option (list cell) :=
  match nth_error b i with Some Raw => Some (put i (Obj (Some x)) b) | _ => None end.
Definition assign (i : nat) (x : T) (b : list cell) : option (list cell) :=
  match nth_error b i with Some (Obj _) => Some (put i (Obj (Some x)) b) | _ => None end.
Definition destroy (i : nat) (b : list cell) : option (list cell) :=
  match nth_error b i with Some (Obj _) => Some (put i Raw b) | _ => None end.
Definition read (i : nat) (b : list cell) : option T :=
  match nth_error b i with Some (Obj (Some x)) => Some x | _ => None end.
(** std::move from a cell: its value, and the buffer in which it has none. *)
Definition move_out (i : nat) (b : list cell) : option (T * list cell) :=
  match nth_error b i with Some (Obj (Some x)) => Some (x, put i (Obj None) b) | _ => None end.
(** Move assignment of cell [i] from cell [j]; assigning an object from itself leaves it without a specified value. *)
Definition move_assign_cell (i j : nat) (b : list cell) : option (list cell) :=
  if (i =? j)%nat then match nth_error b i with Some (Obj _) => Some (put i (Obj None) b) | _ => None end
  else match move_out j b with Some (x, b) => assign i x b | None => None end.
Definition move_construct_cell (i j : nat) (b : list cell) : option (list cell) :=
  match move_out j b with Some (x, b) => construct i x b | None => None end.

(** ** Loops *)
Fixpoint construct_all (i : nat) (xs : list T) (b : list cell) : option (list cell) :=
  match xs with [] => Some b | x :: xs => match construct i x b with Some b => construct_all (S i) xs b | None => None end end.
Fixpoint assign_all (i : nat) (xs : list T) (b : list cell) : option (list cell) :=
  match xs with [] => Some b | x :: xs => match assign i x b with Some b => assign_all (S i) xs b | None => None end end.
Fixpoint destroy_all (i n : nat) (b : list cell) : option (list cell) :=
  match n with O => Some b | S n => match destroy i b with Some b => destroy_all (S i) n b | None => None end end.
(** Reading or moving out the [n] objects from [i]. *)
Fixpoint read_all (i n : nat) (b : list cell) : option (list T) :=
  match n with
  | O => Some []
  | S n => match read i b with Some x => match read_all (S i) n b with Some xs => Some (x :: xs) | None => None end | None => None end
  end.
Fixpoint move_out_all (i n : nat) (b : list cell) : option (list T * list cell) :=
  match n with
  | O => Some ([], b)
  | S n => match move_out i b with
           | Some (x, b) => match move_out_all (S i) n b with Some (xs, b) => Some (x :: xs, b) | None => None end
           | None => None
           end
  end.

(** ** Members *)
Variable small_size : nat.
(** small_vector.h:50-53. *)
Definition new : small_vector := mkSV (repeat Raw small_size) 0 None.
(** small_vector.h:458-463. *)
Definition destruct_small_data (v : small_vector) : option small_vector :=
  match destroy_all 0 (size_ v) (buffer v) with Some b => Some (mkSV b 0 (large v)) | None => None end.
(** small_vector.h:448-455. *)
Definition move_to_large_data (v : small_vector) : option small_vector :=
  match large v with
  | Some _ => None
  | None => match move_out_all 0 (size_ v) (buffer v) with
            | Some (xs, b) => destruct_small_data (mkSV b (size_ v) (Some xs))
            | None => None
            end
  end.
(** small_vector.h:99-103, the destructor: what is left of the buffer. *)
Definition destructor (v : small_vector) : option (list cell) := destroy_all 0 (size_ v) (buffer v).

(** small_vector.h:218-224. *)
Definition size (v : small_vector) : nat := match large v with None => size_ v | Some l => length l end.
(** small_vector.h:392-397. *)
Definition empty (v : small_vector) : bool :=
  match large v with Some l => match l with [] => true | _ => false end | None => (size_ v =? 0)%nat end.
(** small_vector.h:202-216; an index past the end is undefined behaviour. *)
Definition get (v : small_vector) (i : nat) : option T :=
  match large v with None => if (i <? size_ v)%nat then read i (buffer v) else None | Some l => nth_error l i end.
(** [v[i] = x]. *)
Definition set (v : small_vector) (i : nat) (x : T) : option small_vector :=
  match large v with
  | None => if (i <? size_ v)%nat then match assign i x (buffer v) with Some b => Some (mkSV b (size_ v) None) | None => None end else None
  | Some l => if (i <? length l)%nat then Some (mkSV (buffer v) (size_ v) (Some (firstn i l ++ x :: skipn (S i) l))) else None
  end.
(** Iterating from begin() to end(), small_vector.h:226-260. *)
Definition elements (v : small_vector) : option (list T) :=
  match large v with Some l => Some l | None => read_all 0 (size_ v) (buffer v) end.

(** A value argument: of its own, or a reference to the element at an index of the vector itself. *)
Inductive argument := Value (x : T) | Own (i : nat).
(** The reference, when the elements were [from] when it was taken, and the buffer is now [b].  A reference into the
    heap vector stays good until the vector's own operation, which allows for it. *)
Definition argument_value (v : small_vector) (b : list cell) (a : argument) : option T :=
  match a with
  | Value x => Some x
  | Own i => match large v with None => if (i <? size_ v)%nat then read i b else None | Some l => nth_error l i end
  end.

(** small_vector.h:312-324 (and 326-338, 407-419, which differ in how the value is built). *)
Definition push_back (v : small_vector) (a : argument) : option small_vector :=
  match (match large v with None => if (size_ v =? small_size)%nat then move_to_large_data v else Some v | Some _ => Some v end) with
  | None => None
  | Some w =>
      match argument_value v (buffer w) a with
      | None => None
      | Some x =>
          match large w with
          | Some l => Some (mkSV (buffer w) (size_ w) (Some (l ++ [x])))
          | None => match construct (size_ w) x (buffer w) with Some b => Some (mkSV b (S (size_ w)) None) | None => None end
          end
      end
  end.
(** small_vector.h:340-347; undefined on an empty vector. *)
Definition pop_back (v : small_vector) : option small_vector :=
  match large v with
  | Some l => match l with [] => None | _ => Some (mkSV (buffer v) (size_ v) (Some (removelast l))) end
  | None => match size_ v with
            | O => None
            | S n => match destroy n (buffer v) with Some b => Some (mkSV b n None) | None => None end
            end
  end.

(** The loop of small_vector.h:295-299, [cnt] elements from [l] to [f]. *)
Fixpoint shift_down (cnt f l : nat) (b : list cell) : option (list cell) :=
  match cnt with
  | O => Some b
  | S cnt => match move_assign_cell f l b with Some b => shift_down cnt (S f) (S l) b | None => None end
  end.
(** small_vector.h:272-310, erasing [first, last); also 270 with last = first + 1.  Returns the position returned. *)
Definition erase (v : small_vector) (first last : nat) : option (small_vector * nat) :=
  match large v with
  | Some l => if (first <=? last)%nat && (last <=? length l)%nat
              then Some (mkSV (buffer v) (size_ v) (Some (firstn first l ++ skipn last l)), first) else None
  | None =>
      if (first <=? last)%nat && (last <=? size_ v)%nat then
        if (first =? last)%nat then Some (v, first) else
        match shift_down (size_ v - last) first last (buffer v) with
        | None => None
        | Some b => match destroy_all (first + (size_ v - last)) (last - first) b with
                    | Some b => Some (mkSV b (size_ v - (last - first)) None, first)
                    | None => None
                    end
        end
      else None
  end.

(** The loop of small_vector.h:368-375: moving the [cnt] elements that end at [j] (excluded) to end at [i] (excluded);
    cells at or above [n] are raw.  (The loop compares pointers that may be one below begin(); indices here are natural.) *)
Fixpoint shift_up (cnt i j n : nat) (b : list cell) : option (list cell) :=
  match cnt with
  | O => Some b
  | S cnt =>
      match (if (n <=? i - 1)%nat then move_construct_cell (i - 1) (j - 1) b else move_assign_cell (i - 1) (j - 1) b) with
      | Some b => shift_up cnt (i - 1) (j - 1) n b
      | None => None
      end
  end.
(** The loop of small_vector.h:378-385. *)
Fixpoint fill (p n : nat) (xs : list T) (b : list cell) : option (list cell) :=
  match xs with
  | [] => Some b
  | x :: xs => match (if (n <=? p)%nat then construct p x b else assign p x b) with Some b => fill (S p) n xs b | None => None end
  end.
(** small_vector.h:349-390.  Returns the position returned. *)
Definition insert (v : small_vector) (pos : nat) (xs : list T) : option (small_vector * nat) :=
  if (size v <? pos)%nat then None else
  let new_size := (size_ v + length xs)%nat in
  match (match large v with None => if (small_size <? new_size)%nat then move_to_large_data v else Some v | Some _ => Some v end) with
  | None => None
  | Some w =>
      match large w with
      | Some l => Some (mkSV (buffer w) (size_ w) (Some (firstn pos l ++ xs ++ skipn pos l)), pos)
      | None =>
          match shift_up (size_ w - pos) new_size (size_ w) (size_ w) (buffer w) with
          | None => None
          | Some b => match fill pos (size_ w) xs b with
                      | Some b => Some (mkSV b (size_ w + length xs) None, pos)
                      | None => None
                      end
          end
      end
  end.

(** small_vector.h:399-405. *)
Definition clear (v : small_vector) : option small_vector :=
  match large v with Some _ => Some (mkSV (buffer v) (size_ v) (Some [])) | None => destruct_small_data v end.

(** [l.resize(n, x)] of std::vector. *)
Definition resized (n : nat) (x : T) (l : list T) : list T := firstn n l ++ repeat x (n - length l).
(** small_vector.h:421-443. *)
Definition resize (v : small_vector) (n : nat) (a : argument) : option small_vector :=
  match (match large v with None => if (small_size <? n)%nat then move_to_large_data v else Some v | Some _ => Some v end) with
  | None => None
  | Some w =>
      match large w with
      | Some l => match argument_value v (buffer w) a with
                  | Some x => Some (mkSV (buffer w) (size_ w) (Some (resized n x l))) | None => None end
      | None =>
          match destroy_all n (size_ w - n) (buffer w) with
          | None => None
          | Some b =>
              match (n - size_ w)%nat with
              | O => Some (mkSV b n None)
              | k => match argument_value v b a with
                     | Some x => match construct_all (size_ w) (repeat x k) b with Some b => Some (mkSV b n None) | None => None end
                     | None => None
                     end
              end
          end
      end
  end.

(** small_vector.h:105-137, copying [that], which may be [v] itself. *)
Definition copy_assign (v that : small_vector) : option small_vector :=
  match large that with
  | Some l => Some (mkSV (buffer v) (size_ v) (Some l))
  | None =>
      match read_all 0 (size_ that) (buffer that) with
      | None => None
      | Some xs =>
          let common := Nat.min (size_ v) (size_ that) in
          match assign_all 0 (firstn common xs) (buffer v) with
          | None => None
          | Some b =>
              match (if (size_ that <=? common)%nat then destroy_all common (size_ v - common) b
                     else construct_all common (skipn common xs) b) with
              | Some b => Some (mkSV b (size_ that) None)
              | None => None
              end
          end
      end
  end.
(** small_vector.h:139-169, for two different vectors: the new [v] and the new [that]. *)
Definition move_assign (v that : small_vector) : option (small_vector * small_vector) :=
  match large that with
  | Some l =>
      match destruct_small_data (mkSV (buffer that) (size_ that) None) with
      | Some that => Some (mkSV (buffer v) (size_ v) (Some l), that)
      | None => None
      end
  | None =>
      match move_out_all 0 (size_ that) (buffer that) with
      | None => None
      | Some (xs, tb) =>
          let common := Nat.min (size_ v) (size_ that) in
          match assign_all 0 (firstn common xs) (buffer v) with
          | None => None
          | Some b =>
              match (if (size_ that <=? common)%nat then destroy_all common (size_ v - common) b
                     else construct_all common (skipn common xs) b) with
              | None => None
              | Some b => match destruct_small_data (mkSV tb (size_ that) None) with
                          | Some that' => Some (mkSV b (size_ that) None, that')
                          | None => None
                          end
              end
          end
      end
  end.

(** Constructors from values: small_vector.h:59-68 and 75-85 (std::vector), 70-73 (range), 87-95 (initializer list),
    97 (count). *)
Definition from_vector (xs : list T) : option small_vector :=
  if (small_size <? length xs)%nat then Some (mkSV (repeat Raw small_size) 0 (Some xs))
  else match construct_all 0 xs (repeat Raw small_size) with Some b => Some (mkSV b (length xs) None) | None => None end.
Definition from_range (xs : list T) : option small_vector :=
  match insert new (size new) xs with Some (v, _) => Some v | None => None end.
Definition from_list (xs : list T) : option small_vector :=
  if (length xs <? small_size)%nat
  then match construct_all 0 xs (repeat Raw small_size) with Some b => Some (mkSV b (length xs) None) | None => None end
  else Some (mkSV (repeat Raw small_size) 0 (Some xs)).
Definition from_count (n : nat) (x : T) : option small_vector := resize new n (Value x).

(** ** Programs over several vectors *)
Inductive step :=
| PushBack (k : nat) (a : argument) | PopBack (k : nat) | Insert (k pos : nat) (xs : list T) | Erase (k first last : nat)
| Resize (k n : nat) (a : argument) | Clear (k : nat) | Set_ (k i : nat) (x : T) | CopyAssign (k j : nat) | MoveAssign (k j : nat)
| RebuildVector (k : nat) (xs : list T) | RebuildRange (k : nat) (xs : list T) | RebuildList (k : nat) (xs : list T)
| RebuildCount (k n : nat) (x : T) | RebuildCopy (k j : nat) | RebuildMove (k j : nat).

Fixpoint replace_at {A} (k : nat) (a : A) (l : list A) : list A :=
  match l, k with [], _ => [] | _ :: l, O => a :: l | b :: l, S k => b :: replace_at k a l end.
Definition with_vector (vs : list small_vector) (k : nat) (f : small_vector -> option small_vector) : option (list small_vector) :=
  match nth_error vs k with
  | Some v => match f v with Some v => Some (replace_at k v vs) | None => None end
  | None => None
  end.
(** Destroys vector [k] and constructs another in its place; leaving an object behind is a leak, and a fault. *)
Definition is_raw (c : cell) : bool := match c with Raw => true | _ => false end.
Definition rebuild (vs : list small_vector) (k : nat) (f : option small_vector) : option (list small_vector) :=
  with_vector vs k (fun v => match destructor v with Some b => if forallb is_raw b then f else None | None => None end).
Definition run_step (vs : list small_vector) (s : step) : option (list small_vector) :=
  match s with
  | PushBack k a => with_vector vs k (fun v => push_back v a)
  | PopBack k => with_vector vs k pop_back
  | Insert k pos xs => with_vector vs k (fun v => option_map fst (insert v pos xs))
  | Erase k first last => with_vector vs k (fun v => option_map fst (erase v first last))
  | Resize k n a => with_vector vs k (fun v => resize v n a)
  | Clear k => with_vector vs k clear
  | Set_ k i x => with_vector vs k (fun v => set v i x)
  | CopyAssign k j => match nth_error vs j with Some that => with_vector vs k (fun v => copy_assign v that) | None => None end
  | MoveAssign k j =>
      if (k =? j)%nat then None else
      match nth_error vs k, nth_error vs j with
      | Some v, Some that => match move_assign v that with Some (v, that) => Some (replace_at j that (replace_at k v vs)) | None => None end
      | _, _ => None
      end
  | RebuildVector k xs => rebuild vs k (from_vector xs)
  | RebuildRange k xs => rebuild vs k (from_range xs)
  | RebuildList k xs => rebuild vs k (from_list xs)
  | RebuildCount k n x => rebuild vs k (from_count n x)
  | RebuildCopy k j =>  (* the new object is a copy of another one *)
      if (k =? j)%nat then None else
      match nth_error vs j with Some that => rebuild vs k (copy_assign new that) | None => None end
  | RebuildMove k j =>
      if (k =? j)%nat then None else
      match nth_error vs j with
      | Some that => match move_assign new that with
                     | Some (v, that) => match rebuild vs k (Some v) with Some vs => Some (replace_at j that vs) | None => None end
                     | None => None
                     end
      | None => None
      end
  end.
Fixpoint run (vs : list small_vector) (p : list step) : option (list small_vector) :=
  match p with [] => Some vs | s :: p => match run_step vs s with Some vs => run vs p | None => None end end.
End SmallVector.
Arguments Raw {T}.
Arguments Obj {T} value.
Arguments mkSV {T} buffer size_ large.
Arguments buffer {T} s.
Arguments size_ {T} s.
Arguments large {T} s.
Arguments Value {T} x.
Arguments Own {T} i.
Arguments PushBack {T} k a.
Arguments PopBack {T} k.
Arguments Insert {T} k pos xs.
Arguments Erase {T} k first last.
Arguments Resize {T} k n a.
Arguments Clear {T} k.
Arguments Set_ {T} k i x.
Arguments CopyAssign {T} k j.
Arguments MoveAssign {T} k j.
Arguments RebuildVector {T} k xs.
Arguments RebuildRange {T} k xs.
Arguments RebuildList {T} k xs.
Arguments RebuildCount {T} k n x.
Arguments RebuildCopy {T} k j.
Arguments RebuildMove {T} k j.
