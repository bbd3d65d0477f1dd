(** Model of spvtools::EnumSet (source/enum_set.h). *)
From Verif Require Import Base.
Local Open Scope N_scope.

(** enum_set.h:70-79  struct Bucket { uint64_t data; T start; } *)
Record bucket := mkBucket { bdata : N; bstart : N }.

(** enum_set.h:461-464  members buckets_ and size_ (size_t is 64 bit; no wrap is
    reachable because a set holds at most 2^32 values). *)
Record eset := mkSet { buckets : list bucket; esize : N }.

(** enum_set.h:82  kBucketSize *)
Definition kBucketSize : N := 64.

(** enum_set.h:191  EnumSet() *)
Definition empty_set : eset := mkSet [] 0.

(** enum_set.h:360-362 *)
Definition largest_index (v : N) : N := v / kBucketSize.
(** enum_set.h:366-369 *)
Definition bucket_start (v : N) : N := kBucketSize * largest_index v.
(** enum_set.h:372-374 *)
Definition bucket_offset (v : N) : N := v mod kBucketSize.
(** enum_set.h:377-379  1ULL << offset (offset < 64, no overflow) *)
Definition mask_for (v : N) : N := N.shiftl 1 (bucket_offset v).
(** enum_set.h:383-386 *)
Definition value_from_bucket (b : bucket) (off : N) : N := bstart b + off.

(** enum_set.h:412-416  the for loop of FindBucketForValue; an out-of-range
    vector access is [None]. *)
Fixpoint scan_down (bs : list bucket) (wanted : N) (index : nat) : option nat :=
  match nth_error bs index with
  | None => None
  | Some b =>
      if wanted <=? bstart b then
        match index with
        | O => Some O
        | S i => scan_down bs wanted i
        end
      else Some (S index)
  end.

(** enum_set.h:391-419  FindBucketForValue *)
Definition find_bucket (s : eset) (v : N) : option nat :=
  match buckets s with
  | [] => Some O
  | bs => scan_down bs (bucket_start v)
            (N.to_nat (N.min (N.of_nat (length bs) - 1) (largest_index v)))
  end.

(** enum_set.h:423-434  InsertBucketFor: vector::emplace at an index <= size *)
Definition insert_bucket (bs : list bucket) (index : nat) (v : N) : option (list bucket) :=
  if (index <=? length bs)%nat
  then Some (firstn index bs ++ mkBucket (N.shiftl 1 (bucket_offset v)) (bucket_start v) :: skipn index bs)
  else None.

(** enum_set.h:146-150  iterator state (bucketIndex_, bucketOffset_) *)
Definition iter := (nat * N)%type.
Definition iter_eqb (a b : iter) : bool := ((fst a =? fst b)%nat && (snd a =? snd b)).

(** enum_set.h:234-254  insert; the result is the new set and the returned
    pair (iterator, inserted?). *)
Definition insert (s : eset) (v : N) : option (eset * (iter * bool)) :=
  match find_bucket s v with
  | None => None
  | Some index =>
      match nth_error (buckets s) index with
      | Some b =>
          if bstart b =? bucket_start v then
            if N.eqb (N.land (bdata b) (mask_for v)) 0
            then Some (mkSet (update_nth (buckets s) index
                                (mkBucket (N.lor (bdata b) (mask_for v)) (bstart b)))
                             (esize s + 1), ((index, bucket_offset v), true))
            else Some (s, ((index, bucket_offset v), false))
          else
            match insert_bucket (buckets s) index v with
            | Some bs => Some (mkSet bs (esize s + 1), ((index, bucket_offset v), true))
            | None => None
            end
      | None =>
          match insert_bucket (buckets s) index v with
          | Some bs => Some (mkSet bs (esize s + 1), ((index, bucket_offset v), true))
          | None => None
          end
      end
  end.

(** vector::erase of one element *)
Definition remove_nth {A} (l : list A) (i : nat) : list A := firstn i l ++ skipn (S i) l.

(** enum_set.h:282-301  erase; the result is the number of erased elements. *)
Definition erase (s : eset) (v : N) : option (eset * N) :=
  match find_bucket s v with
  | None => None
  | Some index =>
      match nth_error (buckets s) index with
      | None => Some (s, 0)
      | Some b =>
          if bstart b =? bucket_start v then
            if N.eqb (N.land (bdata b) (mask_for v)) 0 then Some (s, 0)
            else
              let d := N.ldiff (bdata b) (mask_for v) in
              if d =? 0
              then Some (mkSet (remove_nth (buckets s) index) (esize s - 1), 1)
              else Some (mkSet (update_nth (buckets s) index (mkBucket d (bstart b))) (esize s - 1), 1)
          else Some (s, 0)
      end
  end.

(** enum_set.h:304-312  contains *)
Definition contains (s : eset) (v : N) : option bool :=
  match find_bucket s v with
  | None => None
  | Some index =>
      match nth_error (buckets s) index with
      | None => Some false
      | Some b =>
          if bstart b =? bucket_start v
          then Some (negb (N.eqb (N.land (bdata b) (mask_for v)) 0))
          else Some false
      end
  end.

(** enum_set.h:315,318,321  count, empty, size *)
Definition count (s : eset) (v : N) : option N :=
  option_map (fun b : bool => if b then 1 else 0) (contains s v).
Definition is_empty (s : eset) : bool := esize s =? 0.
Definition size (s : eset) : N := esize s.

(** enum_set.h:330-355  the merge loop of HasAnyOf over both bucket vectors. *)
Fixpoint has_any_loop (l : list bucket) : list bucket -> bool :=
  fix aux (r : list bucket) : bool :=
    match l, r with
    | a :: l', b :: r' =>
        if bstart a =? bstart b then
          if negb (N.eqb (N.land (bdata a) (bdata b)) 0) then true
          else has_any_loop l' r'
        else if bstart a <? bstart b then has_any_loop l' r
        else aux r'
    | _, _ => false
    end.
(** enum_set.h:325-356  HasAnyOf *)
Definition has_any_of (s t : eset) : bool :=
  if is_empty t then true else has_any_loop (buckets s) (buckets t).

(** enum_set.h:438-442  HasEnumAt *)
Definition has_enum_at (s : eset) (i : nat) (off : N) : option bool :=
  match nth_error (buckets s) i with
  | None => None
  | Some b => Some (negb (N.eqb (N.land (bdata b) (N.shiftl 1 off)) 0))
  end.

(** enum_set.h:99-117  operator++ : one do-while iteration per unit of fuel;
    [None] is out of fuel or an out-of-range access. *)
Fixpoint iter_next (fuel : nat) (s : eset) (it : iter) : option iter :=
  match fuel with
  | O => None
  | S f =>
      let n := length (buckets s) in
      let '(bi, bo) := it in
      if (n <=? bi)%nat then Some (n, 0)
      else
        let it' := if bo + 1 =? kBucketSize then (S bi, 0) else (bi, bo + 1) in
        if (fst it' <? n)%nat then
          match has_enum_at s (fst it') (snd it') with
          | None => None
          | Some true => Some it'
          | Some false => iter_next f s it'
          end
        else Some it'
  end.

Definition iter_fuel (s : eset) : nat := S (64 * length (buckets s)).

(** enum_set.h:167-180  cbegin *)
Definition iter_begin (s : eset) : option iter :=
  match buckets s with
  | [] => Some (O, 0)
  | _ =>
      match has_enum_at s 0 0 with
      | None => None
      | Some true => Some (O, 0)
      | Some false => iter_next (iter_fuel s) s (O, 0)
      end
  end.
(** enum_set.h:184-186  cend *)
Definition iter_end (s : eset) : iter := (length (buckets s), 0).

(** enum_set.h:125-129  operator*; dereferencing an invalid iterator is [None]. *)
Definition iter_deref (s : eset) (it : iter) : option N :=
  match has_enum_at s (fst it) (snd it), nth_error (buckets s) (fst it) with
  | Some true, Some b => Some (value_from_bucket b (snd it))
  | _, _ => None
  end.

(** A range-for over the set: for (auto v : set) collect v. *)
Fixpoint collect (fuel : nat) (s : eset) (it : iter) : option (list N) :=
  if iter_eqb it (iter_end s) then Some []
  else
    match fuel with
    | O => None
    | S f =>
        match iter_deref s it with
        | None => None
        | Some v =>
            match iter_next (iter_fuel s) s it with
            | None => None
            | Some it' => option_map (cons v) (collect f s it')
            end
        end
    end.
Definition to_list (s : eset) : option (list N) :=
  match iter_begin s with
  | None => None
  | Some it => collect (64 * length (buckets s)) s it
  end.

(** enum_set.h:445-454  operator== *)
Definition bucket_eqb (a b : bucket) : bool := (bstart a =? bstart b) && (bdata a =? bdata b).
Fixpoint buckets_eqb (l r : list bucket) : bool :=
  match l, r with
  | [], [] => true
  | a :: l', b :: r' => bucket_eqb a b && buckets_eqb l' r'
  | _, _ => false
  end.
Definition set_eqb (s t : eset) : bool :=
  if negb (esize s =? esize t) then false
  else if negb (length (buckets s) =? length (buckets t))%nat then false
  else buckets_eqb (buckets s) (buckets t).

(** Histories of mutating calls. *)
Inductive op := Insert (v : N) | Erase (v : N).
Definition step (s : eset) (o : op) : option (eset * bool) :=
  match o with
  | Insert v => match insert s v with Some (s', (_, b)) => Some (s', b) | None => None end
  | Erase v => match erase s v with Some (s', n) => Some (s', n =? 1) | None => None end
  end.
Fixpoint run (s : eset) (ops : list op) : option (eset * list bool) :=
  match ops with
  | [] => Some (s, [])
  | o :: os =>
      match step s o with
      | None => None
      | Some (s', b) =>
          match run s' os with
          | None => None
          | Some (s'', bs) => Some (s'', b :: bs)
          end
      end
  end.

(** enum_set.h:194-219, 275-280  the constructors and range insert are
    sequences of insert. *)
Definition of_list (l : list N) : option eset :=
  option_map fst (run empty_set (map Insert l)).
