(** Model of the iteration counting of loops: source/opt/loop_descriptor.cpp, and the bound the loop
    unroller gives to the residual loop: source/opt/loop_unroller.cpp.

    int64_t values are integers; an operation whose exact result leaves the range of int64_t is
    undefined behaviour ([Undef]), and so is the dereference of a null pointer.

    Simplifications: the instructions the counting does not look into are [LOther]; a constant of a
    type other than integer is [LConstOther]; asserts are off, as in a release build. *)
From Verif Require Import Base.
Local Open Scope Z_scope.

(** The conditions Loop::IsSupportedCondition accepts, loop_descriptor.cpp:96-116. *)
Inductive cmpop := ULT | SLT | UGT | SGT | SGE | UGE | SLE | ULE.

(** An instruction, as far as the counting looks at it.  Operands are ids. *)
Inductive linst :=
| LConst (width : Z) (sgn : bool) (words : list Z)   (* OpConstant of an integer type *)
| LNull (width : Z) (sgn : bool)                     (* OpConstantNull of an integer type *)
| LConstOther                                        (* another declared constant *)
| LPhi (width : Z) (args : list (N * N))             (* OpPhi: pairs of value and parent block *)
| LAdd (a b : N)                                     (* OpIAdd *)
| LSub (a b : N)                                     (* OpISub *)
| LCmp (op : cmpop) (a b : N)                        (* one of the supported conditions *)
| LOther.

(** The instruction that ends a block. *)
Inductive lterm :=
| TBranchCond (cond on_true on_false : N)
| TOther.

(** What the counting reads of the loop and of its function: the definition of an id
    (def_use_mgr()->GetDef), the blocks inside the loop (loop_descriptor.h:192-199), the latch, the
    merge block, the predecessors of the merge block and the last instruction of a block. *)
Record loop := mkLoop {
  lp_def : N -> option linst;
  lp_inside : N -> bool;
  lp_latch : N;
  lp_merge : option N;
  lp_merge_preds : list N;
  lp_term : N -> option lterm
}.

Inductive fres (A : Type) := Found (a : A) | Absent | Undef.
Arguments Found {A} a.
Arguments Absent {A}.
Arguments Undef {A}.

Definition fbind {A B} (r : fres A) (k : A -> fres B) : fres B :=
  match r with Found a => k a | Absent => Absent | Undef => Undef end.

(** A signed 64-bit result. *)
Definition in64 (x : Z) : bool := (- 2 ^ 63 <=? x) && (x <? 2 ^ 63).
Definition s64 {A} (x : Z) (k : Z -> fres A) : fres A := if in64 x then k x else Undef.
(** The conversion to int32_t and to int64_t. *)
Definition to_s32 (x : Z) : Z := (x + 2 ^ 31) mod 2 ^ 32 - 2 ^ 31.
Definition to_s64 (x : Z) : Z := (x + 2 ^ 63) mod 2 ^ 64 - 2 ^ 63.

Definition word0 (ws : list Z) : Z := nth 0 ws 0.
Definition word1 (ws : list Z) : Z := nth 1 ws 0.

(** constants.h:602-607  FindDeclaredConstant: width, signedness and words; an OpConstantNull has
    no words.  [None]: not a declared constant.  [Some None]: a constant that is not an integer. *)
Definition declared_constant (L : loop) (id : N) : option (option (Z * bool * option (list Z))) :=
  match lp_def L id with
  | Some (LConst w s ws) => Some (Some (w, s, Some ws))
  | Some (LNull w s) => Some (Some (w, s, None))
  | Some LConstOther => Some None
  | _ => None
  end.

(** constants.cpp:105-122  GetZeroExtendedValue, converted to int64_t by the caller. *)
Definition zero_extended (w : Z) (ws : option (list Z)) : Z :=
  match ws with
  | None => 0
  | Some ws => if w <=? 32 then word0 ws else to_s64 (word1 ws * 2 ^ 32 + word0 ws)
  end.

(** constants.cpp:124-142  GetSignExtendedValue. *)
Definition sign_extended (w : Z) (ws : option (list Z)) : Z :=
  match ws with
  | None => 0
  | Some ws => if w <=? 32 then to_s32 (word0 ws) else to_s64 (word1 ws * 2 ^ 32 + word0 ws)
  end.

Definition extended (c : Z * bool * option (list Z)) : Z :=
  let '(w, s, ws) := c in if s then sign_extended w ws else zero_extended w ws.

(** loop_descriptor.cpp:36-82  GetInductionStepOperation.  The first value that comes from inside
    the loop. *)
Fixpoint inside_value (L : loop) (args : list (N * N)) : option N :=
  match args with
  | [] => None
  | (v, b) :: args' => if lp_inside L b then Some v else inside_value L args'
  end.

Definition is_op_constant (i : linst) : bool :=
  match i with LConst _ _ _ | LConstOther => true | _ => false end.

(** The step: whether it is a subtraction, and its two operands.  OpConstant of another type than
    integer counts as OpConstant for the test of line 76; the operands of OpIAdd and OpISub are
    integers, so that it does not come up. *)
Definition induction_step (L : loop) (phi : N) (args : list (N * N)) : fres (bool * N * N) :=
  match inside_value L args with
  | None => Absent
  | Some v =>
      match lp_def L v with
      | Some (LAdd a b) | Some (LSub a b) =>
          let sub := match lp_def L v with Some (LSub _ _) => true | _ => false end in
          if negb (a =? phi)%N && negb (b =? phi)%N then Absent
          else match lp_def L a, lp_def L b with
               | Some ia, Some ib =>
                   if negb (is_op_constant ia) && negb (is_op_constant ib) then Absent
                   else Found (sub, a, b)
               | _, _ => Undef
               end
      | _ => Absent
      end
  end.

(** loop_descriptor.cpp:170-203  GetInductionInitValue: the last value that comes from outside. *)
Fixpoint outside_value (L : loop) (args : list (N * N)) (acc : option N) : option N :=
  match args with
  | [] => acc
  | (v, b) :: args' => outside_value L args' (if lp_inside L b then acc else Some v)
  end.

Definition induction_init (L : loop) (args : list (N * N)) : fres Z :=
  match outside_value L args None with
  | None => Absent
  | Some v =>
      match declared_constant L v with
      | None | Some None => Absent
      | Some (Some c) => Found (extended c)
      end
  end.

(** loop_descriptor.cpp:749-838  GetIterations. *)
Definition get_iterations (op : cmpop) (bound init step : Z) : fres Z :=
  if step =? 0 then Found 0
  else
    let finish (diff : Z) : fres Z :=
      let s := Z.abs step in
      let d := Z.abs diff in
      Found (if d mod s =? 0 then d / s else d / s + 1) in
    match op with
    | SLT | ULT =>
        if negb (init <? bound) then Found 0
        else s64 (bound - init) (fun diff =>
             if ((diff <? 0) && (0 <? step)) || ((0 <? diff) && (step <? 0)) then Found 0
             else finish diff)
    | SGT | UGT =>
        if negb (bound <? init) then Found 0
        else s64 (init - bound) (fun diff =>
             if ((diff <? 0) && (step <? 0)) || ((0 <? diff) && (0 <? step)) then Found 0
             else finish diff)
    | SGE | UGE =>
        if negb (bound <=? init) then Found 0
        else s64 (bound - 1) (fun b => s64 (init - b) (fun diff =>
             if ((0 <? diff) && (0 <? step)) || ((diff <? 0) && (step <? 0)) then Found 0
             else finish diff))
    | SLE | ULE =>
        if negb (init <=? bound) then Found 0
        else s64 (bound + 1) (fun b => s64 (b - init) (fun diff =>
             if ((diff <? 0) && (0 <? step)) || ((0 <? diff) && (step <? 0)) then Found 0
             else finish diff))
    end.

Record count := mkCount { c_iterations : Z; c_step : Z; c_init : Z }.

(** loop_descriptor.cpp:658-747  FindNumberOfIterations, for the induction [phi] and the conditional
    branch on [cond]. *)
Definition find_number_of_iterations (L : loop) (phi cond : N) : fres count :=
  match lp_def L cond with
  | Some (LCmp op _ rhs) =>
      match declared_constant L rhs with
      | None | Some None => Absent
      | Some (Some (w, s, ws)) =>
          if 64 <? w then Absent
          else
            let bound := extended (w, s, ws) in
            match lp_def L phi with
            | Some (LPhi _ args) =>
                fbind (induction_step L phi args) (fun st =>
                let '(sub, _, b) := st in
                match declared_constant L b with
                | None => Absent
                | Some (Some (_, ssgn, Some sws)) =>
                    (* GetS32BitValue and GetU32BitValue read the first word. *)
                    let v := if ssgn then to_s32 (word0 sws) else word0 sws in
                    let step := if sub then - v else v in
                    fbind (induction_init L args) (fun init =>
                    fbind (get_iterations op bound init step) (fun n =>
                    if n <=? 0 then Absent else Found (mkCount n step init)))
                | Some _ => Undef
                end)
            | _ => Undef
            end
      end
  | _ => Undef
  end.

(** loop_descriptor.cpp:619-656  FindConditionBlock.  The only predecessor of the merge block that is
    inside the loop. *)
Fixpoint only_inside (L : loop) (ps : list N) (acc : option N) : option (option N) :=
  match ps with
  | [] => Some acc
  | p :: ps' =>
      if lp_inside L p then match acc with Some _ => None | None => only_inside L ps' (Some p) end
      else only_inside L ps' acc
  end.

Definition find_condition_block (L : loop) : option N :=
  match lp_merge L with
  | None => None
  | Some m =>
      match only_inside L (lp_merge_preds L) None with
      | Some (Some p) =>
          match lp_term L p with
          | Some (TBranchCond _ t f) => if (t =? m)%N || (f =? m)%N then Some p else None
          | _ => None
          end
      | _ => None
      end
  end.

(** loop_descriptor.cpp:860-925  FindConditionVariable. *)
Definition find_condition_variable (L : loop) (block : N) : fres N :=
  match lp_term L block with
  | Some (TBranchCond c _ _) =>
      match lp_def L c with
      | Some (LCmp _ v _) =>
          match lp_def L v with
          | Some (LPhi _ [(_, l1); (_, l2)]) =>
              if negb (lp_inside L l1) && negb (lp_inside L l2) then Absent
              else if negb (l1 =? lp_latch L)%N && negb (l2 =? lp_latch L)%N then Absent
              else fbind (find_number_of_iterations L v c) (fun _ => Found v)
          | _ => Absent
          end
      | _ => Absent
      end
  | _ => Absent
  end.

(** loop_unroller.cpp:347-372 and 1046-1067: the way a user of the loop asks for its count. *)
Definition loop_count (L : loop) : fres count :=
  match find_condition_block L with
  | None => Absent
  | Some b =>
      fbind (find_condition_variable L b) (fun v =>
      match lp_term L b with
      | Some (TBranchCond c _ _) => find_number_of_iterations L v c
      | _ => Absent
      end)
  end.

(** loop_descriptor.cpp:118-146  GetResidualConditionValue.  The product of a size_t and an int64_t
    is a size_t, and the sum is converted back to int64_t. *)
Definition residual_value (op : cmpop) (init step n factor : Z) : Z :=
  let r := to_s64 (init + (n mod factor) * step) in
  match op with
  | SGE | UGE => r - 1
  | SLE | ULE => r + 1
  | _ => r
  end.

(** loop_unroller.cpp:450-473: the constant that becomes the bound of the first loop, as the 32 bits of
    it.  GetSintConstant and GetUintConstant of the value converted to int32_t. *)
Definition residual_bound (op : cmpop) (init step n factor : Z) : Z :=
  residual_value op init step n factor mod 2 ^ 32.
