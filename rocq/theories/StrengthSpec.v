(** Specification of the strength reduction pass: what a module says about the values of its ids. *)
From Verif Require Import Base StrengthReduction.
Local Open Scope Z_scope.

(** [t] is a 32-bit integer type of the module. *)
Definition int32_type (m : smodule) (t : N) : Prop :=
  exists i signed, In i (sm_globals m) /\ si_op i = STypeInt 32 signed /\ si_result i = t.

(** What an instruction demands of the values of the ids at one point of an execution.  A 32-bit
    multiplication gives the product modulo 2^32; a 32-bit shift needs a shift amount below 32; a
    constant has the value written in it.  Everything else (other opcodes, other types) is left to an
    arbitrary relation [other] between its operands and its result, so that a statement for every
    [other] is one for whatever these instructions do. *)
Definition obeys (other : sop -> N -> list Z -> Z -> Prop) (m : smodule) (env : N -> Z) (i : sinst) : Prop :=
  match si_op i, si_args i with
  | STypeInt _ _, _ => True
  | SConstant v, _ => (int32_type m (si_type i) -> env (si_result i) = v)
      /\ (~ int32_type m (si_type i) -> other (SConstant v) (si_type i) (map env (si_args i)) (env (si_result i)))
  | SIMul, [a; b] => (int32_type m (si_type i) -> env (si_result i) = (env a * env b) mod 2 ^ 32)
      /\ (~ int32_type m (si_type i) -> other SIMul (si_type i) (map env (si_args i)) (env (si_result i)))
  | SShl, [a; b] =>
      (int32_type m (si_type i) -> 0 <= env b < 32 /\ env (si_result i) = (env a * 2 ^ env b) mod 2 ^ 32)
      /\ (~ int32_type m (si_type i) -> other SShl (si_type i) (map env (si_args i)) (env (si_result i)))
  | op, args => other op (si_type i) (map env args) (env (si_result i))
  end.
(** A possible assignment of values. *)
Definition sexecution other (m : smodule) (env : N -> Z) : Prop :=
  forall i, In i (sm_globals m ++ sm_body m) -> obeys other m env i.

(** A valid module, as far as the pass depends on it: result ids are distinct and below the bound (0
    stands for no result); operands are defined; type ids are below the bound, and a constant or a multiplication has one; the word of a constant fits 32 bits; a
    32-bit multiplication has two operands, and one that is a constant has a 32-bit integer type. *)
Record smodule_ok (m : smodule) : Prop := {
  sok_bound : (0 < sm_bound m)%N;
  sok_distinct : NoDup (filter (fun r => negb (N.eqb r 0)) (map si_result (sm_globals m ++ sm_body m)));
  sok_results : forall i, In i (sm_globals m ++ sm_body m) -> (si_result i < sm_bound m)%N;
  sok_has_result : forall i, In i (sm_globals m ++ sm_body m) ->
      (match si_op i with SOther _ => False | _ => True end) -> (0 < si_result i)%N;
  sok_types : forall i, In i (sm_globals m ++ sm_body m) -> (si_type i < sm_bound m)%N;
  sok_typed : forall i, In i (sm_globals m ++ sm_body m) ->
      (match si_op i with SConstant _ | SIMul => True | _ => False end) -> (0 < si_type i)%N;
  sok_args : forall i a, In i (sm_globals m ++ sm_body m) -> In a (si_args i) ->
               (0 < a)%N /\ In a (map si_result (sm_globals m ++ sm_body m));
  sok_words : forall i v, In i (sm_globals m ++ sm_body m) -> si_op i = SConstant v -> 0 <= v < 2 ^ 32;
  sok_mul : forall i, In i (sm_globals m ++ sm_body m) -> si_op i = SIMul -> int32_type m (si_type i) ->
      length (si_args i) = 2%nat /\
      forall a d v, In a (si_args i) -> In d (sm_globals m ++ sm_body m) -> si_result d = a ->
        si_op d = SConstant v -> int32_type m (si_type d)
}.

(** An instruction of the module after the pass stands for the one before it: it is the same opcode
    with the same result, or a multiplication that became a shift; the type is the same. *)
Definition stands_for (i' i : sinst) : Prop :=
  si_type i' = si_type i /\
  ((si_op i' = si_op i /\ si_result i' = si_result i /\ length (si_args i') = length (si_args i))
   \/ (si_op i = SIMul /\ si_op i' = SShl)).
