(** Model of the operand-pattern functions of source/operand.cpp.
    A spv_operand_pattern_t is a std::vector used as a stack whose top is its back; it is
    represented by a list whose head is the back of the vector. *)
From Verif Require Import Base.
From Verif Require Export OperandTypes.
Local Open Scope N_scope.

Definition pattern := list otype.
Definition is_none (t : otype) : bool := otype_eqb t T_NONE.

(** operand.cpp:251-264  spvPushOperandTypes (span overload): walks the types backwards and
    pushes those that are not NONE. *)
Definition push_operand_types (types : list otype) (p : pattern) : pattern :=
  fold_left (fun acc t => if is_none t then acc else t :: acc) (rev types) p.

(** operand.cpp:239-249  spvPushOperandTypes (array overload): [None] when no NONE
    terminates the array (a read past its end). *)
Fixpoint array_until_none (types : list otype) : option (list otype) :=
  match types with
  | [] => None
  | t :: r => if is_none t then Some [] else option_map (cons t) (array_until_none r)
  end.
Definition push_operand_array (types : list otype) (p : pattern) : option pattern :=
  match array_until_none types with
  | Some ts => Some (fold_left (fun acc t => t :: acc) (rev ts) p)
  | None => None
  end.

(** operand.cpp:266-280  spvPushOperandTypesForMask: scans the bits of the mask from 31 to 0
    and pushes the operands of every set bit that has an entry. *)
Fixpoint push_for_mask_loop (lookup : otype -> N -> option (list otype)) (ty : otype) (mask : N)
    (bits : nat) (p : pattern) : pattern :=
  match bits with
  | O => p
  | S b =>
      let candidate := N.shiftl 1 (N.of_nat b) in
      let p' := if negb (N.land candidate mask =? 0)
                then match lookup ty candidate with
                     | Some ts => push_operand_types ts p
                     | None => p
                     end
                else p in
      push_for_mask_loop lookup ty mask b p'
  end.
Definition push_for_mask lookup ty mask p := push_for_mask_loop lookup ty mask 32 p.

(** operand.cpp:424-456  spvExpandOperandSequenceOnce: the new pattern, or None for "false". *)
Definition expand_once (t : otype) (p : pattern) : option pattern :=
  match t with
  | T_VARIABLE_ID => Some (T_OPTIONAL_ID :: t :: p)
  | T_VARIABLE_LITERAL_INTEGER => Some (T_OPTIONAL_LITERAL_INTEGER :: t :: p)
  | T_VARIABLE_LITERAL_INTEGER_ID => Some (T_OPTIONAL_TYPED_LITERAL_INTEGER :: T_ID :: t :: p)
  | T_VARIABLE_ID_LITERAL_INTEGER => Some (T_OPTIONAL_ID :: T_LITERAL_INTEGER :: t :: p)
  | T_VARIABLE_CAPABILITY => Some (T_OPTIONAL_CAPABILITY :: t :: p)
  | _ => None
  end.

(** operand.cpp:458-467  spvTakeFirstMatchableOperand: the do-while loop, one iteration per
    unit of fuel.  [None]: pop from an empty pattern (undefined) or fuel exhausted. *)
Fixpoint take_first_loop (fuel : nat) (p : pattern) : option (otype * pattern) :=
  match fuel, p with
  | S f, t :: r =>
      match expand_once t r with
      | Some p' => take_first_loop f p'
      | None => Some (t, r)
      end
  | _, _ => None
  end.
Definition take_first_matchable (p : pattern) : option (otype * pattern) := take_first_loop 2 p.

(** operand.cpp:469-482  spvAlternatePatternFollowingImmediate.  crbegin is the top of the
    stack, so the distance found is the index in our list; alternatePattern[1] is counted
    from the front of the vector, i.e. the last but one element of our list. *)
Fixpoint find_result_id (p : pattern) : option nat :=
  match p with
  | [] => None
  | t :: r => if otype_eqb t T_RESULT_ID then Some O
              else match find_result_id r with Some k => Some (S k) | None => None end
  end.
Definition alternate_pattern (p : pattern) : pattern :=
  match find_result_id p with
  | Some d => rev (update_nth (repeat T_OPTIONAL_CIV (d + 2)) 1 T_RESULT_ID)
  | None => [T_OPTIONAL_CIV]
  end.
