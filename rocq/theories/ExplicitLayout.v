(** * The validator's check of explicit layouts

    Model of [source/val/validate_explicit_layout.cpp]: the sizes, the
    alignments and the checks the validator uses to decide whether the
    [Offset], [ArrayStride], [MatrixStride], [RowMajor] and [ColMajor]
    decorations of a block describe an acceptable layout.

    Simplifications, all of them:
    - a type is a tree instead of an id; the decorations of a type or of a
      member are fields of the tree.  A type that contains itself can only do
      so through a pointer, which is a leaf here as it is for the checks;
    - numerical scalars are given by their size in bytes, vectors and matrices
      by the size of their components;
    - pointers, images, samplers and descriptors are leaves with the size and
      the alignment that the options give them ([TyOpaque]);
    - [layout_cache_] is left out: it only remembers checks that succeeded,
      under all the arguments of the check (lines 1027-1030 and 1059);
    - the diagnostics are left out: a check returns whether it succeeds. *)

From Coq Require Import ZArith List Bool Lia.
Import ListNotations.
Local Open Scope Z_scope.

(** ** Types and decorations *)

(** [LayoutMode]: lines 34-41. *)
Inductive mode := Scalar | Standard | Extended.

Definition mode_eqb (a b : mode) : bool :=
  match a, b with
  | Scalar, Scalar | Standard, Standard | Extended, Extended => true
  | _, _ => false
  end.

(** [MatrixConstraints]: lines 89-92. *)
Record matrix := Matrix { mx_stride : Z; mx_col : bool }.

Definition no_matrix : matrix := Matrix 0 true.

(** A member of a structure and its decorations: its type, the value of its
    [Offset] or [OffsetIdEXT] decoration if it has one, its [ColMajor] (true)
    or [RowMajor] (false) decoration if it has one, and its [MatrixStride]
    decoration if it has one.  An id that cannot be evaluated gives the value
    [umax] (lines 450-460 and 482-489). *)
Record member (A : Type) := Member {
  m_type : A;
  m_offset : option Z;
  m_major : option bool;
  m_stride : option Z
}.
Arguments Member {A} _ _ _ _.
Arguments m_type {A} _.
Arguments m_offset {A} _.
Arguments m_major {A} _.
Arguments m_stride {A} _.

(** The types a block can contain.  The count of an array is [None] when
    [EvalConstantValUint64] cannot evaluate it; a stride is [None] when there
    is no decoration. *)
Inductive ty :=
| TyScalar (bytes : Z)
| TyOpaque (size align : Z)
| TyVector (comp : Z) (n : Z)
| TyMatrix (comp : Z) (rows cols : Z)
| TyArray (elem : ty) (count : option Z) (stride : option Z)
| TyRuntimeArray (elem : ty) (stride : option Z)
| TyStruct (members : list (member ty)).

(** ** 32-bit arithmetic *)

Definition w32 (x : Z) : Z := x mod 2 ^ 32.

(** [std::numeric_limits<uint32_t>::max()], the marker for a value that could
    not be evaluated. *)
Definition umax : Z := 2 ^ 32 - 1.

(** [IsAlignedTo]: lines 492-495. *)
Definition is_aligned_to (value align : Z) : bool :=
  if align =? 0 then value =? 0 else value mod align =? 0.

(** [AlignTo]: lines 498-500. *)
Definition align_to (value align : Z) : Z :=
  Z.ldiff (w32 (value + align - 1)) (w32 (align - 1)).

(** [HasImproperStraddle]: lines 509-518. *)
Definition has_improper_straddle (offset size : Z) : bool :=
  let F := offset in
  let L := w32 (offset + size - 1) in
  if size <=? 16 then negb (Z.shiftr F 4 =? Z.shiftr L 4)
  else negb (F mod 16 =? 0).

(** ** Decorations *)

(** [ContainsMatrix]: lines 432-445. *)
Fixpoint contains_matrix (t : ty) : bool :=
  match t with
  | TyMatrix _ _ _ => true
  | TyArray e _ _ => contains_matrix e
  | TyRuntimeArray e _ => contains_matrix e
  | _ => false
  end.

(** [GetMatrixConstraints]: lines 699-716; what it leaves in
    [matrix_constraints], and whether it returns true. *)
Definition matrix_of (m : member ty) : matrix :=
  Matrix (match m_stride m with Some s => s | None => 0 end)
         (match m_major m with Some c => c | None => true end).

Definition has_matrix (m : member ty) : bool :=
  match m_major m with Some _ => true | None => false end.

(** [MemberInfo::offset], with its default: line 105. *)
Definition offset_of (m : member ty) : Z :=
  match m_offset m with Some o => o | None => umax end.

Definition has_offset (m : member ty) : bool :=
  match m_offset m with Some _ => true | None => false end.

(** The value of the stride: the second component of [GetArrayStride], lines
    464-479. *)
Definition stride_of (s : option Z) : Z :=
  match s with Some v => v | None => umax end.

(** The stable sort by offset of [GetStructMembers] (lines 749-753), on
    anything that has an offset. *)
Section Sort.
  Context {A : Type} (key : A -> Z).

  Fixpoint insert (x : A) (l : list A) : list A :=
    match l with
    | [] => [x]
    | y :: l' => if key x <=? key y then x :: l else y :: insert x l'
    end.

  Fixpoint sort (l : list A) : list A :=
    match l with
    | [] => []
    | x :: l' => insert x (sort l')
    end.
End Sort.

(** ** Alignments: [GetAlign], lines 521-615

    [relaxed] is [IsRelaxedBlockLayout()], [allow] is [allow_relaxed]. *)

(** The case of vectors, lines 546-558. *)
Definition vector_align (relaxed : bool) (md : mode) (allow : bool)
    (comp n : Z) : Z :=
  if mode_eqb md Scalar || (allow && relaxed) then comp
  else w32 (comp * (if (n =? 3) || (4 <? n) then 4 else n)).

(** The case of matrices, lines 559-587. *)
Definition matrix_align (md : mode) (mc : matrix) (comp rows cols : Z) : Z :=
  if mode_eqb md Scalar then comp
  else
    let align :=
      if mx_col mc then vector_align false md false comp rows
      else w32 (comp * (if cols =? 3 then 4 else cols)) in
    if mode_eqb md Extended then align_to align 16 else align.

Fixpoint get_align (relaxed : bool) (md : mode) (mc : matrix) (allow : bool)
    (t : ty) : Z :=
  match t with
  | TyScalar b => b
  | TyOpaque _ a => a
  | TyVector c n => vector_align relaxed md allow c n
  | TyMatrix c r k => matrix_align md mc c r k
  | TyArray e _ _ | TyRuntimeArray e _ =>
      (* lines 588-595 *)
      let align := get_align relaxed md mc false e in
      if mode_eqb md Extended then align_to align 16 else align
  | TyStruct ms =>
      (* lines 596-606 *)
      fold_left (fun align m =>
        let align :=
          Z.max align (get_align relaxed md (matrix_of m) true (m_type m)) in
        if mode_eqb md Extended then align_to align 16 else align) ms 1
  end.

(** ** Sizes: [GetSize], lines 618-696 *)

Fixpoint get_size (mc : matrix) (t : ty) : Z :=
  match t with
  | TyScalar b => b
  | TyOpaque s _ => s
  | TyVector c n => w32 (c * n)
  | TyMatrix c r k =>
      (* lines 664-676 *)
      if mx_col mc then w32 (k * mx_stride mc)
      else w32 (w32 ((r - 1) * mx_stride mc) + w32 (k * c))
  | TyArray e count stride =>
      (* lines 647-661 *)
      match count with
      | None => 0
      | Some n =>
          let ele_size := get_size mc e in
          if stride_of stride =? umax then ele_size
          else w32 (w32 (w32 (w32 n - 1) * stride_of stride) + ele_size)
      end
  | TyRuntimeArray _ _ => 0
  | TyStruct ms =>
      (* lines 677-687: the last member by offset *)
      let placed :=
        map (fun m => (offset_of m, get_size (matrix_of m) (m_type m))) ms in
      match rev (sort fst placed) with
      | [] => 0
      | (o, s) :: _ => if o =? umax then 0 else w32 (o + s)
      end
  end.

(** ** The checks *)

(** What [CheckStructLayout] uses of a member.  The alignment, the size and
    the check of the type of the member still wait for the matrix constraints
    and, for the check, for the incoming offset. *)
Record info := Info {
  i_offset : Z;
  i_has_offset : bool;
  i_has_matrix : bool;
  i_matrix : matrix;
  i_contains : bool;
  i_runtime : bool;
  i_vector : bool;
  i_padded : bool;
  i_align : matrix -> Z;
  i_size : matrix -> Z;
  i_check : Z -> matrix -> bool
}.

Definition is_runtime (t : ty) : bool :=
  match t with TyRuntimeArray _ _ => true | _ => false end.

Definition is_vector (t : ty) : bool :=
  match t with TyVector _ _ => true | _ => false end.

(** The types whose end is rounded up, lines 896-900. *)
Definition is_padded (t : ty) : bool :=
  match t with TyArray _ _ _ | TyStruct _ => true | _ => false end.

(** [GetStructMembers] for one member: lines 727-748. *)
Definition info_of (relaxed : bool) (md : mode)
    (chk : Z -> matrix -> bool) (m : member ty) : info :=
  Info (offset_of m) (has_offset m) (has_matrix m) (matrix_of m)
    (contains_matrix (m_type m)) (is_runtime (m_type m))
    (is_vector (m_type m)) (is_padded (m_type m))
    (fun mc => get_align relaxed md mc true (m_type m))
    (fun mc => get_size mc (m_type m))
    chk.

(** The first loop of [CheckStructLayout]: lines 803-828. *)
Definition decorated (i : info) : bool :=
  i_has_offset i &&
  (if i_contains i then i_has_matrix i && negb (mx_stride (i_matrix i) =? 0)
   else true).

(** The second loop of [CheckStructLayout]: lines 830-901.  [total] is
    [member_info.size()], [index] is [ordered_index]. *)
Fixpoint check_members (relaxed : bool) (md : mode) (incoming : Z)
    (inherited : matrix) (total : Z) (l : list info) (index next : Z) : bool :=
  match l with
  | [] => true
  | i :: l' =>
      if i_offset i =? umax
      then check_members relaxed md incoming inherited total l' index next
      else
        let mc := if i_has_matrix i then i_matrix i else inherited in
        let align := i_align i mc in
        let size := i_size i mc in
        let place := w32 (incoming + i_offset i) in
        negb (i_runtime i && negb (index =? total - 1)) &&
        is_aligned_to (i_offset i) align &&
        is_aligned_to place align &&
        negb (i_offset i <? next) &&
        (if negb (mode_eqb md Scalar) && relaxed && i_vector i
         then negb (has_improper_straddle place (i_size i no_matrix))
         else true) &&
        i_check i place mc &&
        (let next' := w32 (size + i_offset i) in
         let next'' :=
           if negb (mode_eqb md Scalar) && i_padded i
           then align_to next' align else next' in
         check_members relaxed md incoming inherited total l' (index + 1) next'')
  end.

(** [CheckStructLayout]: lines 797-904. *)
Definition check_struct (relaxed : bool) (md : mode) (incoming : Z)
    (inherited : matrix) (l : list info) : bool :=
  let sorted := sort i_offset l in
  forallb decorated sorted &&
  check_members relaxed md incoming inherited (Z.of_nat (length sorted))
    sorted 0 0.

(** The loop over the elements in [CheckArrayLayout]: lines 958-973.  [todo]
    is how many values of [i] are left to try; the caller starts with the
    sixteen values 0 to 15, because the seventeenth would find the offset of
    the first again ([sixteen_elements] in [ExplicitLayoutProofs.v]).  [seen]
    is the list of the entries that are set. *)
Fixpoint check_elements (todo : nat) (chk : Z -> bool) (stride incoming num i : Z)
    (seen : list Z) : bool :=
  match todo with
  | O => true
  | S todo' =>
      if i <? num then
        let next := w32 (w32 (i * stride) + incoming) in
        if existsb (Z.eqb (next mod 16)) seen then true
        else
          chk next &&
          check_elements todo' chk stride incoming num (i + 1)
            (next mod 16 :: seen)
      else true
  end.

(** [CheckArrayLayout]: lines 912-975.  [num] is the number of elements if it
    is known. *)
Definition check_array (align ele_size : Z) (stride : option Z) (num : Z)
    (incoming : Z) (chk : Z -> bool) : bool :=
  match stride with
  | None => false
  | Some s =>
      if s =? 0 then false
      else if s =? umax then true
      else
        is_aligned_to s align &&
        negb (s <? ele_size) &&
        check_elements 16 chk s incoming (Z.max 1 num) 0 []
  end.

(** [CheckMatrixLayout]: lines 980-1016. *)
Definition check_matrix (md : mode) (mc : matrix) (comp rows cols : Z) : bool :=
  if mx_stride mc =? 0 then true
  else
    is_aligned_to (mx_stride mc) (matrix_align md mc comp rows cols) &&
    negb (mx_stride mc <?
          (if mx_col mc then w32 (comp * rows) else w32 (comp * cols))).

(** [CheckLayout]: lines 1019-1062, without [skip_block_layout]. *)
Fixpoint check_layout (relaxed : bool) (md : mode) (t : ty) (incoming : Z)
    (mc : matrix) : bool :=
  match t with
  | TyStruct ms =>
      check_struct relaxed md incoming mc
        (map (fun m =>
                info_of relaxed md (check_layout relaxed md (m_type m)) m) ms)
  | TyArray e count stride =>
      check_array (get_align relaxed md mc true t) (get_size mc e) stride
        (match count with Some n => w32 n | None => 0 end) incoming
        (fun next => check_layout relaxed md e next mc)
  | TyRuntimeArray e stride =>
      check_array (get_align relaxed md mc true t) (get_size mc e) stride
        0 incoming (fun next => check_layout relaxed md e next mc)
  | TyMatrix c r k => check_matrix md mc c r k
  | TyScalar _ | TyOpaque _ _ | TyVector _ _ => true
  end.

(** How [Run] calls the check for a variable: lines 1111-1116. *)
Definition accepts (relaxed : bool) (md : mode) (t : ty) : bool :=
  check_layout relaxed md t 0 no_matrix.
