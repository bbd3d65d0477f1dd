(** Model of the folding of integer and boolean instructions to constants:
    source/opt/fold.cpp, source/opt/const_folding_rules.cpp and the parts of
    source/opt/constants.{h,cpp}, source/opt/instruction.cpp and source/util/bitutils.h they use.

    Machine words are [Z] values in range.  Simplifications common to the whole file: floating
    point constants, matrices, cooperative matrices, composite extraction and insertion and the
    floating-point rules are left out; the extended instruction set id and number of an OpExtInst
    are folded into the opcode, so that its arguments start at position 0; the creation of new
    constant instructions is reduced to the constant they define, so running out of ids
    (id_overflow) is not modelled. *)
From Verif Require Import Base.
Local Open Scope Z_scope.

(** The opcodes of IsFoldableOpcode (fold.cpp:521-563) and the integer GLSL.std.450 instructions
    for which const_folding_rules.cpp:2191-2230 adds rules. *)
Inductive fop :=
| FIAdd | FISub | FIMul | FUDiv | FSDiv | FUMod | FSRem | FSMod | FSNegate
| FShrL | FShrA | FShl | FOr | FAnd | FXor | FNot
| FLogEq | FLogNe | FLogOr | FLogAnd | FLogNot
| FIEq | FINe | FULt | FSLt | FUGt | FSGt | FULe | FSLe | FUGe | FSGe
| FSelect | FSConvert | FUConvert
| FSMin | FUMin | FSMax | FUMax | FSClamp | FUClamp
| FOtherOp.

(** OpTypeBool, OpTypeInt and vectors of them (types.h Bool, Integer, Vector). *)
Inductive ety := EBool | EInt (width : Z) (signed : bool).
Inductive fty := TScalar (e : ety) | TVector (e : ety) (n : nat).

(** constants.h:142-216, 269-289, 455-480  BoolConstant, IntConstant and NullConstant of a scalar
    type, *)
Inductive sconst := SCBool (b : bool) | SCInt (width : Z) (signed : bool) (words : list Z)
                  | SCNull (e : ety).
(** constants.h:345-380, 455-480  and VectorConstant and NullConstant of a vector type. *)
Inductive fconst := CScalar (c : sconst) | CVector (e : ety) (comps : list sconst)
                  | CNullVector (e : ety) (n : nat).

(** Outcomes: no constant (nullptr), a constant, or a failed assertion or undefined C++
    operation. *)
Inductive fres (A : Type) := FNone | FBad | FSome (a : A).
Arguments FNone {A}. Arguments FBad {A}. Arguments FSome {A} a.
Definition fbind {A B} (r : fres A) (k : A -> fres B) : fres B :=
  match r with FNone => FNone | FBad => FBad | FSome a => k a end.
Notation "'dof' x <- r ; k" := (fbind r (fun x => k)) (at level 200, x pattern, r at level 100, k at level 200).
(** The next rule is tried when a rule returns nullptr. *)
Definition forelse {A} (r s : fres A) : fres A := match r with FNone => s | _ => r end.

(** The module as the folder sees it: the types of ids, the constants ids are declared as
    (ConstantManager::FindDeclaredConstant), and the operand of the ids defined by OpSNegate. *)
Record fmodule := mkFModule {
  fm_type : N -> option fty;
  fm_const : N -> option fconst;
  fm_snegate : N -> option N
}.
Record finst := mkFInst {
  fi_op : fop;
  fi_type : fty;
  fi_args : list N;
  fi_fp_allowed : bool      (* instruction.cpp:830  IsFloatingPointFoldingAllowed *)
}.

(** *** Machine integers *)
Definition u32 (x : Z) : Z := x mod 2 ^ 32.
Definition u64 (x : Z) : Z := x mod 2 ^ 64.
(** static_cast<int32_t> of a uint32_t and static_cast<int64_t> of a uint64_t. *)
Definition s32 (x : Z) : Z := if x <? 2 ^ 31 then x else x - 2 ^ 32.
Definition s64 (x : Z) : Z := if x <? 2 ^ 63 then x else x - 2 ^ 64.
Definition b2z (b : bool) : Z := if b then 1 else 0.
(** static_cast<bool> of a uint32_t *)
Definition z2b (x : Z) : bool := negb (x =? 0).

(** *** constants.h, constants.cpp *)

Definition ety_eqb (a b : ety) : bool :=
  match a, b with
  | EBool, EBool => true
  | EInt w s, EInt w' s' => (w =? w') && Bool.eqb s s'
  | _, _ => false
  end.
Fixpoint zlist_eqb (a b : list Z) : bool :=
  match a, b with
  | [], [] => true
  | x :: a', y :: b' => (x =? y) && zlist_eqb a' b'
  | _, _ => false
  end.
(** Equality of constants is equality of pointers, constants being registered once per value
    (constants.h:500-560 ConstantEqual; constants.cpp:434-438 GetConstant). *)
Definition sconst_eqb (a b : sconst) : bool :=
  match a, b with
  | SCBool x, SCBool y => Bool.eqb x y
  | SCInt w s l, SCInt w' s' l' => (w =? w') && Bool.eqb s s' && zlist_eqb l l'
  | SCNull e, SCNull e' => ety_eqb e e'
  | _, _ => false
  end.
Fixpoint sconsts_eqb (a b : list sconst) : bool :=
  match a, b with
  | [], [] => true
  | x :: a', y :: b' => sconst_eqb x y && sconsts_eqb a' b'
  | _, _ => false
  end.
Definition fconst_eqb (a b : fconst) : bool :=
  match a, b with
  | CScalar x, CScalar y => sconst_eqb x y
  | CVector e l, CVector e' l' => ety_eqb e e' && sconsts_eqb l l'
  | CNullVector e n, CNullVector e' n' => ety_eqb e e' && Nat.eqb n n'
  | _, _ => false
  end.

Definition sconst_type (c : sconst) : ety :=
  match c with SCBool _ => EBool | SCInt w s _ => EInt w s | SCNull e => e end.

(** constants.h:158-167, 304-311, 468  IsZero *)
Definition sconst_is_zero (c : sconst) : bool :=
  match c with
  | SCBool b => negb b
  | SCInt _ _ ws => forallb (fun v => v =? 0) ws
  | SCNull _ => true
  end.
Definition fconst_is_zero (c : fconst) : bool :=
  match c with
  | CScalar s => sconst_is_zero s
  | CVector _ l => forallb sconst_is_zero l
  | CNullVector _ _ => true
  end.

(** constants.h:169-174  GetU32BitValue, 176-182 GetU64BitValue; FBad is the failed assert. *)
Definition get_u32_words (ws : list Z) : fres Z := match ws with [x] => FSome x | _ => FBad end.
Definition get_u64_words (ws : list Z) : fres Z :=
  match ws with [lo; hi] => FSome (hi * 2 ^ 32 + lo) | _ => FBad end.
(** constants.h:203-208  GetS32BitValue, 210-216 GetS64BitValue *)
Definition get_s32_words (ws : list Z) : fres Z := dof x <- get_u32_words ws; FSome (s32 x).
Definition get_s64_words (ws : list Z) : fres Z := dof x <- get_u64_words ws; FSome (s64 x).

(** constants.cpp:105-122  GetZeroExtendedValue *)
Definition get_zext (c : sconst) : fres Z :=
  match c with
  | SCInt w _ ws => if w <=? 32 then get_u32_words ws
                    else if w <=? 64 then get_u64_words ws else FBad
  | SCNull (EInt w _) => if w <=? 64 then FSome 0 else FBad
  | _ => FBad
  end.
(** constants.cpp:124-142  GetSignExtendedValue, as the mathematical value of the int64_t *)
Definition get_sext (c : sconst) : fres Z :=
  match c with
  | SCInt w _ ws => if w <=? 32 then get_s32_words ws
                    else if w <=? 64 then get_s64_words ws else FBad
  | SCNull (EInt w _) => if w <=? 64 then FSome 0 else FBad
  | _ => FBad
  end.

(** bitutils.h:187-198 SignExtendValue and 203-207 ZeroExtendValue on uint64_t, for fewer than 64
    bits (SetHighBits and ClearHighBits written arithmetically). *)
Definition sign_extend_value (v bits : Z) : Z :=
  if Z.testbit v (bits - 1) then v mod 2 ^ bits + (2 ^ 64 - 2 ^ bits) else v mod 2 ^ bits.
Definition zero_extend_value (v bits : Z) : Z := v mod 2 ^ bits.

(** constants.cpp:694-714  GenerateIntegerConstant *)
Definition gen_int (width : Z) (signed : bool) (result : Z) : fres sconst :=
  if width =? 64 then FSome (SCInt width signed [u32 result; u32 (result / 2 ^ 32)])
  else if width <=? 32 then
    let r := if signed then sign_extend_value result width else zero_extend_value result width in
    FSome (SCInt width signed [u32 r])
  else FBad.

(** constants.cpp:658-681  GetIntConst *)
Definition get_int_const (val width : Z) (signed : bool) : sconst :=
  let v := if signed then u64 (s64 (u64 (val * 2 ^ (64 - width))) / 2 ^ (64 - width))
           else if width <? 64 then val mod 2 ^ width else val in
  if width <=? 32 then SCInt width signed [u32 v]
  else SCInt width signed [u32 v; u32 (v / 2 ^ 32)].

(** constants.cpp:716-735  GetVectorComponents *)
Definition vector_components (c : fconst) : fres (list sconst) :=
  match c with
  | CScalar _ => FBad
  | CVector _ l => FSome l
  | CNullVector e n => FSome (repeat (SCNull e) n)
  end.

(** constants.cpp:255-276  CreateConstant for a vector type: all components must have one type. *)
Definition mk_vector (e : ety) (l : list sconst) : fres fconst :=
  match l with
  | [] => FNone
  | c :: _ => if forallb (fun x => ety_eqb (sconst_type x) (sconst_type c)) l
              then FSome (CVector e l) else FNone
  end.

(** constants.cpp:247-252  CreateConstant for a scalar type and one word. *)
Definition mk_scalar (e : ety) (word : Z) : sconst :=
  match e with EBool => SCBool (z2b word) | EInt w s => SCInt w s [word] end.

(** constants.cpp:689-692  GetNullConstId, as the constant *)
Definition null_const (t : fty) : fconst :=
  match t with TScalar e => CScalar (SCNull e) | TVector e n => CNullVector e n end.

(** constants.cpp:226-240 GetDefiningInstruction with a type id: the constant instruction found or
    built has that type and the words or component ids of the constant. *)
Definition retype (t : fty) (c : fconst) : fconst :=
  match t, c with
  | TScalar (EInt w s), CScalar (SCInt _ _ ws) => CScalar (SCInt w s ws)
  | TScalar e, CScalar (SCNull _) => CScalar (SCNull e)
  | TVector e _, CVector _ l => CVector e l
  | TVector e _, CNullVector _ n => CNullVector e n
  | _, _ => c
  end.

(** *** const_folding_rules.cpp: scalar rules *)

(** const_folding_rules.cpp:94-107  NegateIntConst; negating the smallest int64_t overflows. *)
Definition negate_int_const (e : ety) (v : sconst) : fres sconst :=
  match e with
  | EBool => FBad
  | EInt w s =>
      match v with
      | SCNull _ => FSome v
      | _ => dof x <- get_sext v;
             if x =? - 2 ^ 63 then FBad else FSome (get_int_const (u64 (- x)) w s)
      end
  end.

(** The arithmetic lambdas of const_folding_rules.cpp:2141-2187 on uint64_t values. *)
Definition rule_add (a b : Z) : fres Z := FSome (u64 (a + b)).
Definition rule_sub (a b : Z) : fres Z := FSome (u64 (a - b)).
Definition rule_mul (a b : Z) : fres Z := FSome (u64 (a * b)).
Definition rule_udiv (a b : Z) : fres Z := FSome (if b =? 0 then 0 else a / b).
Definition rule_umod (a b : Z) : fres Z := FSome (if b =? 0 then 0 else a mod b).
(** The quotient and the remainder of the smallest int64_t by -1 overflow. *)
Definition overflows (a b : Z) : bool := (a =? - 2 ^ 63) && (b =? -1).
Definition rule_sdiv (a b : Z) : fres Z :=
  if b =? 0 then FSome 0
  else if overflows (s64 a) (s64 b) then FBad else FSome (u64 (Z.quot (s64 a) (s64 b))).
Definition rule_srem (a b : Z) : fres Z :=
  if b =? 0 then FSome 0
  else if overflows (s64 a) (s64 b) then FBad else FSome (u64 (Z.rem (s64 a) (s64 b))).
Definition rule_smod (a b : Z) : fres Z :=
  if b =? 0 then FSome 0
  else if overflows (s64 a) (s64 b) then FBad
  else let result := Z.rem (s64 a) (s64 b) in
       let result := if Bool.eqb (s64 b <? 0) (result <? 0) then result else result + s64 b in
       FSome (u64 result).

(** const_folding_rules.cpp:1998-2025  FoldBinaryIntegerOperation *)
Definition binary_integer (is_signed : bool) (op : Z -> Z -> fres Z)
  (e : ety) (a b : sconst) : fres sconst :=
  match e, sconst_type a, sconst_type b with
  | EInt w s, EInt wa _, EInt wb _ =>
      if (w =? wa) && (w =? wb) then
        dof ia <- (if is_signed then dof x <- get_sext a; FSome (u64 x) else get_zext a);
        dof ib <- (if is_signed then dof x <- get_sext b; FSome (u64 x) else get_zext b);
        dof r <- op ia ib;
        gen_int w s r
      else FBad
  | _, _, _ => FBad
  end.

(** const_folding_rules.cpp:2028-2038  FoldScalarSConvert *)
Definition scalar_sconvert (e : ety) (a : sconst) : fres sconst :=
  match e with
  | EInt w s => dof v <- get_sext a; gen_int w s (u64 v)
  | EBool => FBad
  end.
(** const_folding_rules.cpp:2041-2056  FoldScalarUConvert *)
Definition scalar_uconvert (e : ety) (a : sconst) : fres sconst :=
  match e, sconst_type a with
  | EInt w s, EInt wa _ => dof v <- get_zext a; gen_int w s (v mod 2 ^ wa)
  | _, _ => FBad
  end.

(** The operand values FoldMin and FoldMax compare (const_folding_rules.cpp:1605-1641): the
    signedness is that of the result type. *)
Definition minmax_value (w : Z) (s : bool) (c : sconst) : fres Z :=
  if w <=? 32 then
    match c with
    | SCInt _ _ ws => if s then get_s32_words ws else get_u32_words ws
    | SCNull _ => FSome 0
    | SCBool _ => FBad
    end
  else if w =? 64 then
    match c with
    | SCInt 64 _ ws => if s then get_s64_words ws else get_u64_words ws
    | SCNull (EInt 64 _) => FSome 0
    | _ => FBad
    end
  else FNone.
(** const_folding_rules.cpp:1601-1642  FoldMin on integers *)
Definition scalar_min (e : ety) (a b : sconst) : fres sconst :=
  match e with
  | EInt w s => dof va <- minmax_value w s a; dof vb <- minmax_value w s b;
                FSome (if va <? vb then a else b)
  | EBool => FNone
  end.
(** const_folding_rules.cpp:1656-1697  FoldMax on integers *)
Definition scalar_max (e : ety) (a b : sconst) : fres sconst :=
  match e with
  | EInt w s => dof va <- minmax_value w s a; dof vb <- minmax_value w s b;
                FSome (if vb <? va then a else b)
  | EBool => FNone
  end.

(** *** const_folding_rules.cpp: rules on instructions *)

(** The component loops of const_folding_rules.cpp:703-709 and 756-763. *)
Fixpoint map_rule1 (r : sconst -> fres sconst) (l : list sconst) : fres (list sconst) :=
  match l with
  | [] => FSome []
  | a :: l' => dof c <- r a; dof cs <- map_rule1 r l'; FSome (c :: cs)
  end.
Fixpoint map_rule2 (r : sconst -> sconst -> fres sconst) (l m : list sconst) : fres (list sconst) :=
  match l, m with
  | [], _ => FSome []
  | a :: l', b :: m' => dof c <- r a b; dof cs <- map_rule2 r l' m'; FSome (c :: cs)
  | _ :: _, [] => FBad
  end.

(** A scalar constant passed to a scalar rule; the rules assert an integer type. *)
Definition as_scalar (c : fconst) : fres sconst :=
  match c with CScalar s => FSome s | _ => FBad end.

(** const_folding_rules.cpp:677-725  FoldUnaryOp *)
Definition fold_unary_op (rule : ety -> sconst -> fres sconst) (t : fty) (arg : option fconst)
  : fres fconst :=
  match arg with
  | None => FNone
  | Some a =>
      match t with
      | TVector e _ => dof l <- vector_components a; dof r <- map_rule1 (rule e) l; mk_vector e r
      | TScalar e => dof s <- as_scalar a; dof r <- rule e s; FSome (CScalar r)
      end
  end.
(** const_folding_rules.cpp:727-777  FoldBinaryOp, and 796-843  FoldFPBinaryOp (which has no
    assertion that the component counts agree). *)
Definition fold_binary_op (rule : ety -> sconst -> sconst -> fres sconst) (t : fty)
  (arg1 arg2 : option fconst) : fres fconst :=
  match arg1, arg2 with
  | Some a, Some b =>
      match t with
      | TVector e _ => dof l <- vector_components a; dof m <- vector_components b;
                       dof r <- map_rule2 (rule e) l m; mk_vector e r
      | TScalar e => dof s <- as_scalar a; dof s' <- as_scalar b; dof r <- rule e s s'; FSome (CScalar r)
      end
  | _, _ => FNone
  end.

(** const_folding_rules.cpp:994-1017  FoldRedundantSub *)
Definition fold_redundant_sub (i : finst) : fres fconst :=
  match fi_args i with
  | a :: b :: _ => if N.eqb a b then FSome (null_const (fi_type i)) else FNone
  | _ => FBad
  end.

(** const_folding_rules.cpp:1079-1118  GetConstantUniformValue for an integer *)
Definition uniform_value (t : fty) (v : Z) : fres fconst :=
  match t with
  | TScalar (EInt w s) => dof c <- gen_int w s v; FSome (CScalar c)
  | TVector (EInt w s) n => dof c <- gen_int w s v; mk_vector (EInt w s) (repeat c n)
  | _ => FNone
  end.

(** const_folding_rules.cpp:1124-1180  FoldRedundantDiv *)
Definition fold_redundant_div (m : fmodule) (i : finst) (c0 c1 : option fconst) : fres fconst :=
  match c0, c1 with
  | None, None =>
      match fi_args i with
      | a :: b :: _ =>
          if N.eqb a b then uniform_value (fi_type i) 1
          else match fi_op i with
               | FUDiv => FNone
               | _ =>
                   if match fm_snegate m a with Some x => N.eqb x b | None => false end
                   then uniform_value (fi_type i) (2 ^ 64 - 1)
                   else if match fm_snegate m b with Some x => N.eqb x a | None => false end
                   then uniform_value (fi_type i) (2 ^ 64 - 1)
                   else FNone
               end
      | _ => FBad
      end
  | _, _ => FNone
  end.

(** const_folding_rules.cpp:1259-1278  FoldInvariantSelect *)
Definition fold_invariant_select (c1 c2 : option fconst) : fres fconst :=
  match c1, c2 with
  | Some a, Some b =>
      if fconst_eqb a b then FSome a
      else if fconst_is_zero a && fconst_is_zero b then FSome a else FNone
  | _, _ => FNone
  end.

(** const_folding_rules.cpp:1772-1795  FoldClamp1 *)
Definition fold_clamp1 (t : fty) (x lo hi : option fconst) : fres fconst :=
  match x, lo, hi with
  | Some _, Some _, Some _ =>
      dof temp <- fold_binary_op scalar_max t x lo;
      fold_binary_op scalar_min t (Some temp) hi
  | _, _, _ => FNone
  end.
(** const_folding_rules.cpp:1798-1823  FoldClamp2 *)
Definition fold_clamp2 (t : fty) (x lo : option fconst) : fres fconst :=
  match x, lo with
  | Some _, Some l =>
      match fold_binary_op scalar_max t x lo with
      | FBad => FBad
      | FNone => FNone
      | FSome temp => if fconst_eqb temp l then FSome l else FNone
      end
  | _, _ => FNone
  end.
(** const_folding_rules.cpp:1826-1851  FoldClamp3 *)
Definition fold_clamp3 (t : fty) (x hi : option fconst) : fres fconst :=
  match x, hi with
  | Some _, Some h =>
      match fold_binary_op scalar_min t x hi with
      | FBad => FBad
      | FNone => FNone
      | FSome temp => if fconst_eqb temp h then FSome h else FNone
      end
  | _, _ => FNone
  end.

Definition arg_at {A} (l : list (option A)) (i : nat) : option A := nth i l None.

(** const_folding_rules.cpp:2059-2230  the rules registered for each opcode, in order; GLSL rules
    apply when GLSL.std.450 is imported, which an OpExtInst of it presupposes. *)
Definition const_rules (m : fmodule) (i : finst) (cs : list (option fconst)) : fres fconst :=
  let t := fi_type i in
  let c0 := arg_at cs 0 in let c1 := arg_at cs 1 in let c2 := arg_at cs 2 in
  match fi_op i with
  | FSConvert => fold_unary_op scalar_sconvert t c0
  | FUConvert => fold_unary_op scalar_uconvert t c0
  | FSelect => fold_invariant_select c1 c2
  | FSNegate => fold_unary_op negate_int_const t c0
  | FIAdd => fold_binary_op (binary_integer false rule_add) t c0 c1
  | FISub => forelse (fold_binary_op (binary_integer false rule_sub) t c0 c1) (fold_redundant_sub i)
  | FIMul => fold_binary_op (binary_integer false rule_mul) t c0 c1
  | FUDiv => forelse (fold_binary_op (binary_integer false rule_udiv) t c0 c1)
                     (fold_redundant_div m i c0 c1)
  | FSDiv => forelse (fold_binary_op (binary_integer true rule_sdiv) t c0 c1)
                     (fold_redundant_div m i c0 c1)
  | FUMod => fold_binary_op (binary_integer false rule_umod) t c0 c1
  | FSRem => fold_binary_op (binary_integer true rule_srem) t c0 c1
  | FSMod => fold_binary_op (binary_integer true rule_smod) t c0 c1
  | FSMin | FUMin => if fi_fp_allowed i then fold_binary_op scalar_min t c0 c1 else FNone
  | FSMax | FUMax => if fi_fp_allowed i then fold_binary_op scalar_max t c0 c1 else FNone
  | FSClamp | FUClamp =>
      forelse (fold_clamp1 t c0 c1 c2) (forelse (fold_clamp2 t c0 c1) (fold_clamp3 t c0 c2))
  | _ => FNone
  end.

(** *** fold.cpp *)

(** fold.cpp:44-68  UnaryOperate *)
Definition unary_operate (o : fop) (a : Z) : fres Z :=
  match o with
  | FSNegate => FSome (if s32 a =? - 2 ^ 31 then u32 (s32 a) else u32 (- s32 a))
  | FNot => FSome (2 ^ 32 - 1 - a)
  | FLogNot => FSome (b2z (negb (z2b a)))
  | FUConvert => FSome a
  | FSConvert => FSome a
  | _ => FBad
  end.
(** fold.cpp:70-150  BinaryOperate *)
Definition binary_operate (o : fop) (a b : Z) : fres Z :=
  match o with
  | FShrL => FSome (if 32 <=? b then 0 else a / 2 ^ b)
  | FShrA => FSome (if 32 <? b then 0
                    else if b =? 32 then (if 0 <=? s32 a then 0 else 2 ^ 32 - 1)
                    else u32 (s32 a / 2 ^ b))
  | FShl => FSome (if 32 <=? b then 0 else u32 (a * 2 ^ b))
  | FOr => FSome (Z.lor a b)
  | FAnd => FSome (Z.land a b)
  | FXor => FSome (Z.lxor a b)
  | FLogEq => FSome (b2z (Bool.eqb (z2b a) (z2b b)))
  | FLogNe => FSome (b2z (negb (Bool.eqb (z2b a) (z2b b))))
  | FLogOr => FSome (b2z (z2b a || z2b b))
  | FLogAnd => FSome (b2z (z2b a && z2b b))
  | FIEq => FSome (b2z (a =? b))
  | FINe => FSome (b2z (negb (a =? b)))
  | FULt => FSome (b2z (a <? b))
  | FSLt => FSome (b2z (s32 a <? s32 b))
  | FUGt => FSome (b2z (b <? a))
  | FSGt => FSome (b2z (s32 b <? s32 a))
  | FULe => FSome (b2z (a <=? b))
  | FSLe => FSome (b2z (s32 a <=? s32 b))
  | FUGe => FSome (b2z (b <=? a))
  | FSGe => FSome (b2z (s32 b <=? s32 a))
  | _ => FBad
  end.
(** fold.cpp:152-162  TernaryOperate *)
Definition ternary_operate (o : fop) (a b c : Z) : fres Z :=
  match o with FSelect => FSome (if z2b a then b else c) | _ => FBad end.
(** fold.cpp:164-178  OperateWords *)
Definition operate_words (o : fop) (ws : list Z) : fres Z :=
  match ws with
  | [a] => unary_operate o a
  | [a; b] => binary_operate o a b
  | [a; b; c] => ternary_operate o a b c
  | _ => FBad
  end.

(** The raw word of a scalar constant (fold.cpp:212-222): a ScalarConstant of one word, or 0. *)
Definition scalar_word (c : sconst) : fres Z :=
  match c with
  | SCBool b => FSome (b2z b)
  | SCInt _ _ ws => get_u32_words ws
  | SCNull _ => FSome 0
  end.
Fixpoint mapf {A B} (f : A -> fres B) (l : list A) : fres (list B) :=
  match l with
  | [] => FSome []
  | a :: l' => dof b <- f a; dof bs <- mapf f l'; FSome (b :: bs)
  end.
(** fold.cpp:206-228  FoldScalars *)
Definition fold_scalars (o : fop) (cs : list fconst) : fres Z :=
  dof ws <- mapf (fun c => match c with
                           | CScalar s => scalar_word s
                           | CNullVector _ _ => FSome 0
                           | CVector _ _ => FBad
                           end) cs;
  operate_words o ws.

(** fold.cpp:483-516  one operand of one dimension in FoldVectors.  A null component of a vector
    constant fails the assertion at line 504, the test at line 501 being made on the operand. *)
Definition vector_word (d : nat) (c : fconst) : fres Z :=
  match c with
  | CVector _ l =>
      match nth_error l d with
      | Some (SCBool b) => FSome (b2z b)
      | Some (SCInt _ _ ws) => get_u32_words ws
      | Some (SCNull _) => FBad
      | None => FBad
      end
  | CNullVector _ _ => FSome 0
  | CScalar (SCNull _) => FSome 0
  | CScalar _ => FBad
  end.
(** fold.cpp:476-519  FoldVectors *)
Definition fold_vectors (o : fop) (dims : nat) (cs : list fconst) : fres (list Z) :=
  mapf (fun d => dof ws <- mapf (vector_word d) cs; operate_words o ws) (seq 0 dims).

(** fold.cpp:230-412  FoldBinaryIntegerOpToConstant: [c0] and [c1] are the words of the operands
    that are IntConstants. *)
Definition int_words (c : option fconst) : option (list Z) :=
  match c with Some (CScalar (SCInt _ _ ws)) => Some ws | _ => None end.
Definition words_zero (c : option (list Z)) : bool :=
  match c with Some ws => forallb (fun v => v =? 0) ws | None => false end.
Definition words_test (f : list Z -> fres Z) (p : Z -> bool) (c : option (list Z)) : fres bool :=
  match c with None => FSome false | Some ws => dof x <- f ws; FSome (p x) end.
Definition either (t0 t1 : fres bool) (v : Z) : fres Z :=
  dof b0 <- t0;
  if b0 then FSome v else dof b1 <- t1; if b1 then FSome v else FNone.
Definition fold_binary_integer (o : fop) (k0 k1 : option fconst) : fres Z :=
  let c0 := int_words k0 in let c1 := int_words k1 in
  let u p c := words_test get_u32_words p c in
  let s p c := words_test get_s32_words p c in
  let is_min := fun x => x =? - 2 ^ 31 in
  let is_max := fun x => x =? 2 ^ 31 - 1 in
  let is_umax := fun x => x =? 2 ^ 32 - 1 in
  let is_0 := fun x => x =? 0 in
  match o with
  | FIMul | FUDiv | FSDiv | FSRem | FSMod | FUMod | FAnd =>
      if words_zero c0 || words_zero c1 then FSome 0 else FNone
  | FShrL | FShl => dof b <- u (fun x => 32 <=? x) c1; if b then FSome 0 else FNone
  | FOr => either (u is_umax c0) (u is_umax c1) (2 ^ 32 - 1)
  | FULt => either (u is_umax c0) (u is_0 c1) 0
  | FSLt => either (s is_max c0) (s is_min c1) 0
  | FUGt => either (FSome (words_zero c0)) (u is_umax c1) 0
  | FSGt => either (s is_min c0) (s is_max c1) 0
  | FULe => either (FSome (words_zero c0)) (u is_umax c1) 1
  | FSLe => either (s is_min c0) (s is_max c1) 1
  | FUGe => either (u is_umax c0) (u is_0 c1) 1
  | FSGe => either (s is_max c0) (s is_min c1) 1
  | _ => FNone
  end.

(** fold.cpp:414-460  FoldBinaryBooleanOpToConstant *)
Definition bool_const (c : option fconst) : option bool :=
  match c with Some (CScalar (SCBool b)) => Some b | _ => None end.
Definition fold_binary_boolean (o : fop) (k0 k1 : option fconst) : fres Z :=
  let is b c := match bool_const c with Some x => Bool.eqb x b | None => false end in
  match o with
  | FLogOr => if is true k0 || is true k1 then FSome 1 else FNone
  | FLogAnd => if is false k0 || is false k1 then FSome 0 else FNone
  | _ => FNone
  end.

(** fold.cpp:462-474  FoldIntegerOpToConstant *)
Definition fold_integer_op (o : fop) (cs : list (option fconst)) : fres Z :=
  match cs with
  | [k0; k1] => forelse (fold_binary_integer o k0 k1) (fold_binary_boolean o k0 k1)
  | _ => FNone
  end.

(** fold.cpp:521-563  IsFoldableOpcode *)
Definition foldable_opcode (o : fop) : bool :=
  match o with
  | FSMin | FUMin | FSMax | FUMax | FSClamp | FUClamp | FOtherOp => false
  | _ => true
  end.
(** fold.cpp:667-678 IsFoldableScalarType, 680-691 IsFoldableVectorType *)
Definition foldable_scalar_ety (e : ety) : bool :=
  match e with EBool => true | EInt w _ => w =? 32 end.
Definition foldable_scalar_type (t : fty) : bool :=
  match t with TScalar e => foldable_scalar_ety e | TVector _ _ => false end.
Definition foldable_vector_type (t : fty) : bool :=
  match t with TVector e _ => foldable_scalar_ety e | TScalar _ => false end.
Definition args_satisfy (m : fmodule) (p : fty -> bool) (i : finst) : bool :=
  forallb (fun id => match fm_type m id with Some t => p t | None => false end) (fi_args i).
(** instruction.cpp:786-806  IsFoldableByFoldScalar *)
Definition foldable_by_scalar (m : fmodule) (i : finst) : bool :=
  foldable_opcode (fi_op i) && foldable_scalar_type (fi_type i)
  && args_satisfy m foldable_scalar_type i.
(** instruction.cpp:808-828  IsFoldableByFoldVector *)
Definition foldable_by_vector (m : fmodule) (i : finst) : bool :=
  foldable_opcode (fi_op i) && foldable_vector_type (fi_type i)
  && args_satisfy m foldable_vector_type i.

Fixpoint all_some {A} (l : list (option A)) : option (list A) :=
  match l with
  | [] => Some []
  | Some a :: l' => match all_some l' with Some r => Some (a :: r) | None => None end
  | None :: _ => None
  end.

(** fold.cpp:574-661  FoldInstructionToConstant; [id_map] is the caller's map of ids (the identity
    in FoldInstruction, fold.cpp:181-187; the constant values known to the propagation in
    ccp_pass.cpp). *)
Definition fold_to_constant (m : fmodule) (id_map : N -> N) (i : finst) : fres fconst :=
  let cs := map (fun id => fm_const m (id_map id)) (fi_args i) in
  match const_rules m i cs with
  | FBad => FBad
  | FSome c => FSome (retype (fi_type i) c)
  | FNone =>
      if foldable_by_scalar m i then
        dof v <- match all_some cs with
                 | Some l => fold_scalars (fi_op i) l
                 | None => fold_integer_op (fi_op i) cs
                 end;
        match fi_type i with
        | TScalar e => FSome (CScalar (mk_scalar e v))
        | TVector _ _ => FBad
        end
      else if foldable_by_vector m i then
        match all_some cs, fi_type i with
        | Some l, TVector e n =>
            dof vs <- fold_vectors (fi_op i) n l;
            mk_vector e (map (mk_scalar e) vs)
        | _, _ => FNone
        end
      else FNone
  end.
