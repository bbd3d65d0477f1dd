(** Model of the rewriting rules for integer and boolean instructions:
    source/opt/folding_rules.cpp, as registered by FoldingRules::AddFoldingRules
    (folding_rules.cpp:4546-4727) and applied by InstructionFolder::FoldInstructionInternal
    (fold.cpp:189-199).

    Simplifications common to the whole file: types, constants and opcodes are those of Fold.v, so
    floating point types, matrices and cooperative matrices are left out and the tests on them
    (HasFloatingPoint, IsFloatingPointFoldingAllowed, IsCooperativeMatrix) are dropped; a constant
    or an instruction that a rule creates is referred to by its content instead of by a fresh id,
    so running out of ids is not modelled. *)
From Verif Require Import Base Fold.
Local Open Scope Z_scope.

(** The opcode of an instruction: one of the foldable ones, OpCopyObject, OpBitcast, OpVectorShuffle
    (with its literals), or anything else (constants, parameters, loads, phis ...). *)
Inductive rop := ROp (o : fop) | RCopy | RBitcast | RShuffle (literals : list nat) | ROther.
Record rinst := mkRInst { ri_op : rop; ri_type : fty; ri_args : list N }.

(** The module as the rules see it: DefUseManager::GetDef, ConstantManager::FindDeclaredConstant,
    DefUseManager::NumUses, and whether the target environment is SPIR-V 1.4 or later. *)
Record rmodule := mkRModule {
  rm_def : N -> option rinst;
  rm_const : N -> option fconst;
  rm_uses : N -> nat;
  rm_version_1_4 : bool
}.

(** An operand of the rewritten instruction: an id of the module, a constant of the constant
    manager, or an instruction inserted before it (InstructionBuilder::AddBinaryOp). *)
Inductive rarg := AId (id : N) | AConst (c : fconst) | ANew (o : fop) (t : fty) (a b : N).
(** The rewritten instruction: SetOpcode and SetInOperands; its type is unchanged. *)
Record rnew := mkRNew { rn_op : rop; rn_args : list rarg }.

(** [FNone]: the rule returns false; [FSome]: it returns true; [FBad]: failed assertion, null
    pointer or index out of range. *)
Definition rule := rmodule -> rinst -> fres rnew.

(** *** Accessors *)

(** Instruction::GetSingleWordInOperand *)
Definition in_op (i : rinst) (k : nat) : fres N :=
  match nth_error (ri_args i) k with Some x => FSome x | None => FBad end.
(** DefUseManager::GetDef, dereferenced *)
Definition get_def (m : rmodule) (id : N) : fres rinst :=
  match rm_def m id with Some i => FSome i | None => FBad end.
(** constants.cpp:157-172  GetOperandConstants, and an element of its result. *)
Definition cst (m : rmodule) (i : rinst) (k : nat) : option fconst :=
  match nth_error (ri_args i) k with Some x => rm_const m x | None => None end.
(** folding_rules.cpp:118-121  ConstInput *)
Definition const_input (m : rmodule) (i : rinst) : option fconst :=
  match cst m i 0 with Some c => Some c | None => cst m i 1 end.
(** folding_rules.cpp:123-128  NonConstInput, as the id of the instruction. *)
Definition non_const_input (m : rmodule) (i : rinst) : fres N :=
  in_op i (match cst m i 0 with Some _ => 1 | None => 0 end)%nat.

Definition element (t : fty) : ety := match t with TScalar e => e | TVector e _ => e end.
(** folding_rules.cpp:79-91  ElementWidth; its assertion fails on booleans. *)
Definition element_width (t : fty) : fres Z :=
  match element t with EInt w _ => FSome w | EBool => FBad end.
(** The test common to many rules: width 32 or 64 only. *)
Definition check_width (t : fty) (k : fres rnew) : fres rnew :=
  dof w <- element_width t; if negb (w =? 32) && negb (w =? 64) then FNone else k.

Definition fconst_type (c : fconst) : fty :=
  match c with
  | CScalar s => TScalar (sconst_type s)
  | CVector e l => TVector e (length l)
  | CNullVector e n => TVector e n
  end.
(** Type::IsSame, types having no decorations here. *)
Definition fty_eqb (a b : fty) : bool :=
  match a, b with
  | TScalar x, TScalar y => ety_eqb x y
  | TVector x n, TVector y n' => ety_eqb x y && Nat.eqb n n'
  | _, _ => false
  end.
Definition rop_is (i : rinst) (o : fop) : bool :=
  match ri_op i, o with
  | ROp FIAdd, FIAdd | ROp FISub, FISub | ROp FIMul, FIMul | ROp FSDiv, FSDiv
  | ROp FSNegate, FSNegate | ROp FShl, FShl | ROp FShrL, FShrL | ROp FOr, FOr | ROp FXor, FXor
  | ROp FAnd, FAnd | ROp FSelect, FSelect | ROp FLogNot, FLogNot => true
  | _, _ => false
  end.

(** *** Constants *)

(** constants.cpp:66-76 GetU32, 78-88 GetU64 *)
Definition get_u32c (c : sconst) : fres Z :=
  match c with
  | SCInt w _ ws => if w =? 32 then get_u32_words ws else FBad
  | SCNull (EInt w _) => if w =? 32 then FSome 0 else FBad
  | _ => FBad
  end.
Definition get_u64c (c : sconst) : fres Z :=
  match c with
  | SCInt w _ ws => if w =? 64 then get_u64_words ws else FBad
  | SCNull (EInt w _) => if w =? 64 then FSome 0 else FBad
  | _ => FBad
  end.
(** folding_rules.cpp:131-136  ExtractInts *)
Definition extract_ints (v : Z) : list Z := [u32 v; u32 (v / 2 ^ 32)].

(** folding_rules.cpp:268-285  NegateIntegerConstant *)
Definition negate_int (c : sconst) : fres sconst :=
  match sconst_type c with
  | EInt w s =>
      if w =? 64 then dof x <- get_u64c c; FSome (SCInt w s (extract_ints (u64 (0 - x))))
      else if w =? 32 then dof x <- get_u32c c; FSome (SCInt w s [u32 (0 - x)])
      else FBad
  | EBool => FBad
  end.
(** GetDefiningInstruction of the constant built by ConstantManager::GetConstant; a null pointer
    when CreateConstant refuses the components. *)
Definition built (r : fres fconst) : fres fconst := match r with FNone => FBad | _ => r end.
(** folding_rules.cpp:288-312 NegateVectorConstant, 315-325 NegateConstant *)
Definition negate_const (c : fconst) : fres fconst :=
  match c with
  | CScalar s => dof x <- negate_int s; FSome (CScalar x)
  | CNullVector _ _ => FSome c
  | CVector e l => dof r <- mapf negate_int l; built (mk_vector e r)
  end.

(** folding_rules.cpp:641-693  PerformIntegerOperation *)
Definition word_operation (o : fop) (bound a b : Z) : fres Z :=
  match o with
  | FIMul => FSome ((a * b) mod bound)
  | FIAdd => FSome ((a + b) mod bound)
  | FISub => FSome ((a - b) mod bound)
  | FXor => FSome (Z.lxor a b)
  | FOr => FSome (Z.lor a b)
  | FAnd => FSome (Z.land a b)
  | _ => FBad
  end.
Definition perform_int (o : fop) (a b : sconst) : fres sconst :=
  match sconst_type a with
  | EInt w s =>
      if w =? 64 then
        dof x <- get_u64c a; dof y <- get_u64c b; dof v <- word_operation o (2 ^ 64) x y;
        FSome (SCInt w s (extract_ints v))
      else if w =? 32 then
        dof x <- get_u32c a; dof y <- get_u32c b; dof v <- word_operation o (2 ^ 32) x y;
        FSome (SCInt w s [v])
      else FBad
  | EBool => FBad
  end.
(** folding_rules.cpp:698-747  PerformOperation: the component of a vector constant, *)
Definition comp_at (c : fconst) (k : nat) : fres sconst :=
  match c with
  | CVector _ l => match nth_error l k with Some x => FSome x | None => FBad end
  | CNullVector e _ => FSome (SCNull e)
  | CScalar _ => FBad
  end.
(** its loop over the components, *)
Fixpoint comp_pairs {A} (f : sconst -> sconst -> fres A) (a b : fconst) (start count : nat)
  : fres (list A) :=
  match count with
  | O => FSome []
  | S count' =>
      dof x <- comp_at a start; dof y <- comp_at b start; dof r <- f x y;
      dof rs <- comp_pairs f a b (S start) count'; FSome (r :: rs)
  end.
(** and the whole. *)
Definition perform_op (o : fop) (a b : fconst) : fres fconst :=
  match fconst_type a with
  | TVector e n => dof l <- comp_pairs (perform_int o) a b 0 n; built (mk_vector e l)
  | TScalar _ =>
      match a, b with
      | CScalar x, CScalar y => dof r <- perform_int o x y; FSome (CScalar r)
      | _, _ => FBad
      end
  end.

(** *** Rules on OpSNegate *)

(** folding_rules.cpp:407-432  MergeNegateArithmetic *)
Definition merge_negate : rule := fun m i =>
  dof a <- in_op i 0; dof op <- get_def m a;
  if rop_is op FSNegate then dof x <- in_op op 0; FSome (mkRNew RCopy [AId x]) else FNone.

(** folding_rules.cpp:442-499  MergeNegateMulDivArithmetic *)
Definition merge_negate_mul_div : rule := fun m i =>
  dof a <- in_op i 0; dof op <- get_def m a;
  check_width (ri_type i)
    (if rop_is op FIMul || rop_is op FSDiv then
       match const_input m op with
       | None => FNone
       | Some c =>
           let zero_is_variable := match cst m op 0 with None => true | Some _ => false end in
           dof neg <- negate_const c;
           dof non_const <- in_op op (if zero_is_variable then 0 else 1)%nat;
           if rop_is op FSDiv then
             FSome (mkRNew (ROp FSDiv)
               (if zero_is_variable then [AId non_const; AConst neg] else [AConst neg; AId non_const]))
           else FSome (mkRNew (ROp FIMul) [AId non_const; AConst neg])
       end
     else FNone).

(** folding_rules.cpp:509-571  MergeNegateAddSubArithmetic *)
Definition merge_negate_add_sub : rule := fun m i =>
  dof a <- in_op i 0; dof op <- get_def m a;
  check_width (ri_type i)
    (if rop_is op FIAdd || rop_is op FISub then
       match const_input m op with
       | None => FNone
       | Some c =>
           let zero_is_variable := match cst m op 0 with None => true | Some _ => false end in
           let is_add := rop_is op FIAdd in
           let swap_operands := negb is_add || zero_is_variable in
           dof x <- in_op op 0; dof y <- in_op op 1;
           dof const_id <- (if is_add then dof n <- negate_const c; FSome (AConst n)
                            else FSome (AId (if zero_is_variable then y else x)));
           let op0 := if zero_is_variable then AId x else const_id in
           let op1 := if zero_is_variable then const_id else AId y in
           FSome (mkRNew (ROp FISub) (if swap_operands then [op1; op0] else [op0; op1]))
       end
     else FNone).

(** *** Rules on OpIMul and OpSDiv *)

(** folding_rules.cpp:755-801  MergeMulMulArithmetic *)
Definition merge_mul_mul : rule := fun m i =>
  check_width (ri_type i)
    match const_input m i with
    | None => FNone
    | Some c1 =>
        dof o <- non_const_input m i; dof other <- get_def m o;
        if rop_is other FIMul then
          match const_input m other with
          | None => FNone
          | Some c2 =>
              dof merged <- perform_op FIMul c1 c2;
              dof x <- in_op other (match cst m other 0 with None => 0 | Some _ => 1 end)%nat;
              FSome (mkRNew (ROp FIMul) [AId x; AConst merged])
          end
        else FNone
    end.

(** folding_rules.cpp:892-929  MergeMulNegateArithmetic *)
Definition merge_mul_negate : rule := fun m i =>
  check_width (ri_type i)
    match const_input m i with
    | None => FNone
    | Some c1 =>
        dof o <- non_const_input m i; dof other <- get_def m o;
        if rop_is other FSNegate then
          dof neg <- negate_const c1; dof x <- in_op other 0;
          FSome (mkRNew (ROp FIMul) [AId x; AConst neg])
        else FNone
    end.

(** folding_rules.cpp:932-970  IsFoldableNegation, MergeDivMulDoubleNegative *)
Definition merge_div_mul_double_negative : rule := fun m i =>
  dof a <- in_op i 0; dof b <- in_op i 1; dof lhs <- get_def m a; dof rhs <- get_def m b;
  if rop_is lhs FSNegate && rop_is rhs FSNegate then
    dof x <- in_op lhs 0; dof y <- in_op rhs 0; FSome (mkRNew (ri_op i) [AId x; AId y])
  else FNone.

(** folding_rules.cpp:2026-2051  IntMultipleBy1: one iteration; [inl] leaves the loop. *)
Definition int_one (c : option fconst) : fres (option bool) :=
  match c with
  | Some (CScalar (SCInt w _ ws)) =>
      if w =? 32 then dof x <- get_u32_words ws; FSome (Some (x =? 1))
      else if w =? 64 then dof x <- get_u64_words ws; FSome (Some (x =? 1))
      else FSome None
  | _ => FSome (Some false)
  end.
Definition int_multiple_by_1 : rule := fun m i =>
  dof r0 <- int_one (cst m i 0);
  match r0 with
  | None => FNone
  | Some true => dof y <- in_op i 1; FSome (mkRNew RCopy [AId y])
  | Some false =>
      dof r1 <- int_one (cst m i 1);
      match r1 with
      | Some true => dof x <- in_op i 0; FSome (mkRNew RCopy [AId x])
      | _ => FNone
      end
  end.

(** *** Rules on OpIAdd and OpISub *)

(** folding_rules.cpp:1166-1194  MergeAddNegateArithmetic *)
Definition merge_add_negate : rule := fun m i =>
  dof a <- in_op i 0; dof b <- in_op i 1; dof lhs <- get_def m a; dof rhs <- get_def m b;
  if rop_is lhs FSNegate then dof x <- in_op lhs 0; FSome (mkRNew (ROp FISub) [AId b; AId x])
  else if rop_is rhs FSNegate then dof x <- in_op rhs 0; FSome (mkRNew (ROp FISub) [AId a; AId x])
  else FNone.

(** folding_rules.cpp:1200-1239  MergeSubNegateArithmetic *)
Definition merge_sub_negate : rule := fun m i =>
  dof a <- in_op i 0; dof b <- in_op i 1; dof lhs <- get_def m a; dof rhs <- get_def m b;
  if rop_is rhs FSNegate then dof x <- in_op rhs 0; FSome (mkRNew (ROp FIAdd) [AId a; AId x])
  else check_width (ri_type i)
    match cst m i 1 with
    | Some c => if rop_is lhs FSNegate then
                  dof neg <- negate_const c; dof x <- in_op lhs 0;
                  FSome (mkRNew (ROp FISub) [AConst neg; AId x])
                else FNone
    | None => FNone
    end.

(** folding_rules.cpp:1247-1292  MergeAddAddArithmetic *)
Definition merge_add_add : rule := fun m i =>
  check_width (ri_type i)
    match const_input m i with
    | None => FNone
    | Some c1 =>
        dof o <- non_const_input m i; dof other <- get_def m o;
        if rop_is other FIAdd then
          match const_input m other with
          | None => FNone
          | Some c2 =>
              dof x <- non_const_input m other; dof merged <- perform_op FIAdd c1 c2;
              FSome (mkRNew (ROp FIAdd) [AId x; AConst merged])
          end
        else FNone
    end.

(** folding_rules.cpp:1300-1357  MergeAddSubArithmetic *)
Definition merge_add_sub : rule := fun m i =>
  check_width (ri_type i)
    match const_input m i with
    | None => FNone
    | Some c1 =>
        dof o <- non_const_input m i; dof other <- get_def m o;
        if rop_is other FISub then
          match const_input m other with
          | None => FNone
          | Some c2 =>
              match cst m other 0 with
              | None => dof x <- in_op other 0; dof merged <- perform_op FISub c1 c2;
                        FSome (mkRNew (ROp FIAdd) [AId x; AConst merged])
              | Some _ => dof merged <- perform_op FIAdd c1 c2; dof x <- in_op other 1;
                          FSome (mkRNew (ROp FISub) [AConst merged; AId x])
              end
          end
        else FNone
    end.

(** folding_rules.cpp:1365-1428  MergeSubAddArithmetic *)
Definition merge_sub_add : rule := fun m i =>
  check_width (ri_type i)
    match const_input m i with
    | None => FNone
    | Some c1 =>
        dof o <- non_const_input m i; dof other <- get_def m o;
        if rop_is other FIAdd then
          match const_input m other with
          | None => FNone
          | Some c2 =>
              dof x <- non_const_input m other;
              match cst m i 0 with
              | None => dof merged <- perform_op FISub c2 c1;
                        FSome (mkRNew (ROp FIAdd) [AId x; AConst merged])
              | Some _ => dof merged <- perform_op FISub c1 c2;
                          FSome (mkRNew (ROp FISub) [AConst merged; AId x])
              end
          end
        else FNone
    end.

(** folding_rules.cpp:1436-1506  MergeSubSubArithmetic *)
Definition merge_sub_sub : rule := fun m i =>
  check_width (ri_type i)
    match const_input m i with
    | None => FNone
    | Some c1 =>
        dof o <- non_const_input m i; dof other <- get_def m o;
        if rop_is other FISub then
          match const_input m other with
          | None => FNone
          | Some c2 =>
              dof x <- non_const_input m other;
              let first := match cst m i 0 with Some _ => true | None => false end in
              let other_first := match cst m other 0 with Some _ => true | None => false end in
              dof merged <- (if negb other_first then perform_op FIAdd c1 c2
                             else if negb first then perform_op FISub c2 c1
                             else perform_op FISub c1 c2);
              let op := if first && other_first then FIAdd else FISub in
              FSome (mkRNew (ROp op) (if xorb (negb first) (negb other_first)
                                      then [AConst merged; AId x] else [AId x; AConst merged]))
          end
        else FNone
    end.

(** folding_rules.cpp:1510-1526  MergeGenericAddendSub *)
Definition generic_addend_sub (m : rmodule) (addend sub : N) : fres rnew :=
  dof s <- get_def m sub;
  if rop_is s FISub then
    dof y <- in_op s 1;
    if N.eqb addend y then dof x <- in_op s 0; FSome (mkRNew RCopy [AId x]) else FNone
  else FNone.
(** folding_rules.cpp:1534-1557  MergeGenericAddSubArithmetic *)
Definition merge_generic_add_sub : rule := fun m i =>
  check_width (ri_type i)
    (dof a <- in_op i 0; dof b <- in_op i 1;
     forelse (generic_addend_sub m a b) (generic_addend_sub m b a)).

(** folding_rules.cpp:1563-1584  FactorAddSubMulsOpnds *)
Definition factor_opnds (i : rinst) (o : fop) (f00 f01 f10 f11 : N) : fres rnew :=
  if N.eqb f00 f10 then FSome (mkRNew (ROp FIMul) [AId f00; ANew o (ri_type i) f01 f11]) else FNone.
(** folding_rules.cpp:1590-1638  FactorAddSubMuls, with its loop over the operand orders. *)
Definition factor_add_sub_muls (o : fop) : rule := fun m i =>
  dof a <- in_op i 0; dof lhs <- get_def m a;
  if negb (rop_is lhs FIMul) then FNone else
  dof b <- in_op i 1; dof rhs <- get_def m b;
  if negb (rop_is rhs FIMul) then FNone else
  if (1 <? rm_uses m a)%nat || (1 <? rm_uses m b)%nat then FNone else
  dof l0 <- in_op lhs 0; dof l1 <- in_op lhs 1; dof r0 <- in_op rhs 0; dof r1 <- in_op rhs 1;
  forelse (factor_opnds i o l0 l1 r0 r1)
    (forelse (factor_opnds i o l0 l1 r1 r0)
       (forelse (factor_opnds i o l1 l0 r0 r1) (factor_opnds i o l1 l0 r1 r0))).

(** folding_rules.cpp:1650-1725  ReassociateNestedGenericInt *)
Definition reassociate_nested (o : fop) : rule := fun m i =>
  match cst m i 0, cst m i 1 with
  | None, None =>
      check_width (ri_type i)
        (dof a <- in_op i 0; dof b <- in_op i 1; dof lhs <- get_def m a; dof rhs <- get_def m b;
         if negb (rop_is lhs o) || negb (rop_is rhs o) then FNone else
         match const_input m lhs with
         | None => FNone
         | Some cl =>
             match const_input m rhs with
             | None => FNone
             | Some cr =>
                 dof merged <- perform_op o cl cr;
                 dof x <- non_const_input m lhs; dof y <- non_const_input m rhs;
                 FSome (mkRNew (ROp o) [AConst merged; ANew o (ri_type i) x y])
             end
         end)
  | _, _ => FNone
  end.

(** folding_rules.cpp:1878-2024  ReassociateNestedAddSub; [is_sub]: the instruction is an OpISub. *)
Definition reassociate_add_sub (is_sub : bool) : rule := fun m i =>
  match cst m i 0, cst m i 1 with
  | None, None =>
      check_width (ri_type i)
        (dof a <- in_op i 0; dof b <- in_op i 1; dof lhs <- get_def m a; dof rhs <- get_def m b;
         let lhs_is_sub := rop_is lhs FISub in let rhs_is_sub := rop_is rhs FISub in
         if negb (rop_is lhs FIAdd || lhs_is_sub) || negb (rop_is rhs FIAdd || rhs_is_sub)
         then FNone else
         match const_input m lhs with
         | None => FNone
         | Some cl =>
             match const_input m rhs with
             | None => FNone
             | Some cr =>
                 let l0 := match cst m lhs 0 with Some _ => true | None => false end in
                 let r0 := match cst m rhs 0 with Some _ => true | None => false end in
                 let const_lhs_neg := if l0 then false else lhs_is_sub in
                 let const_rhs_neg := if r0 then false else rhs_is_sub in
                 dof x <- in_op lhs (if l0 then 1 else 0)%nat;
                 let x_neg := if l0 then lhs_is_sub else false in
                 dof y <- in_op rhs (if r0 then 1 else 0)%nat;
                 let y_neg := if r0 then rhs_is_sub else false in
                 let const_rhs_neg := if is_sub then negb const_rhs_neg else const_rhs_neg in
                 let y_neg := if is_sub then negb y_neg else y_neg in
                 dof cl' <- (if const_lhs_neg then negate_const cl else FSome cl);
                 dof cr' <- (if const_rhs_neg then negate_const cr else FSome cr);
                 dof merged <- perform_op FIAdd cl' cr';
                 let t := ri_type i in
                 FSome match x_neg, y_neg with
                       | false, false => mkRNew (ROp FIAdd) [AConst merged; ANew FIAdd t x y]
                       | true, false => mkRNew (ROp FIAdd) [AConst merged; ANew FISub t y x]
                       | false, true => mkRNew (ROp FIAdd) [AConst merged; ANew FISub t x y]
                       | true, true => mkRNew (ROp FISub) [AConst merged; ANew FIAdd t x y]
                       end
             end
         end)
  | _, _ => FNone
  end.

(** *** Redundant operations *)

(** folding_rules.cpp:3775-3798  RedundantBinaryOpWithZeroOperand *)
Definition redundant_zero (arg fold_to : nat) : rule := fun m i =>
  match cst m i arg with
  | Some c =>
      if fconst_is_zero c then
        dof x <- in_op i fold_to;
        FSome (mkRNew (if fty_eqb (ri_type i) (fconst_type c) then RCopy else RBitcast) [AId x])
      else FNone
  | None => FNone
  end.

(** folding_rules.cpp:3850-3884  ReassociateCommutiveOp *)
Definition reassociate_commutative (o : fop) : rule := fun m i =>
  dof w <- element_width (ri_type i);
  if negb (w =? 32) then FNone else
  match const_input m i with
  | None => FNone
  | Some c1 =>
      dof p <- non_const_input m i; dof other <- get_def m p;
      if rop_is other o then
        match const_input m other with
        | None => FNone
        | Some c2 =>
            dof x <- non_const_input m other; dof merged <- perform_op o c1 c2;
            FSome (mkRNew (ROp o) [AId x; AConst merged])
        end
      else FNone
  end.

(** folding_rules.cpp:3901-3910  IsAllInt1 *)
Definition sconst_is_1 (c : sconst) : fres bool :=
  match c with SCInt _ _ _ => dof x <- get_sext c; FSome (x =? 1) | _ => FSome false end.
Fixpoint all_1 (l : list sconst) : fres bool :=
  match l with
  | [] => FSome true
  | c :: l' => dof b <- sconst_is_1 c; if b then all_1 l' else FSome false
  end.
Definition is_all_int1 (c : fconst) : fres bool :=
  match c with
  | CScalar s => sconst_is_1 s
  | CVector _ l => all_1 l
  | CNullVector _ _ => FSome false
  end.
(** folding_rules.cpp:3913-3937  RedundantSUDiv *)
Definition redundant_div : rule := fun m i =>
  match cst m i 1 with
  | Some c =>
      dof one <- is_all_int1 c;
      if one then
        dof x <- in_op i 0;
        FSome (mkRNew (if fty_eqb (ri_type i) (fconst_type c) then RCopy else RBitcast) [AId x])
      else FNone
  | None => FNone
  end.
(** folding_rules.cpp:3940-3959  RedundantSUMod *)
Definition redundant_mod : rule := fun m i =>
  match cst m i 1 with
  | Some c =>
      dof one <- is_all_int1 c;
      if one then FSome (mkRNew RCopy [AConst (null_const (ri_type i))]) else FNone
  | None => FNone
  end.

(** *** Rules on OpBitwiseAnd *)

(** folding_rules.cpp:3961-4013  ForEachIntegerConstantPair, the pairs its callback is applied to,
    with the width of the word type. *)
Definition word_pair (a b : sconst) : fres (Z * Z * Z) :=
  match sconst_type a with
  | EInt w _ =>
      if w =? 32 then dof x <- get_u32c a; dof y <- get_u32c b; FSome (32, x, y)
      else if w =? 64 then dof x <- get_u64c a; dof y <- get_u64c b; FSome (64, x, y)
      else FBad
  | EBool => FBad
  end.
Definition constant_pairs (a b : fconst) : fres (list (Z * Z * Z)) :=
  match fconst_type a with
  | TVector _ n => comp_pairs word_pair a b 0 n
  | TScalar _ =>
      match a, b with CScalar x, CScalar y => dof p <- word_pair x y; FSome [p] | _, _ => FBad end
  end.

(** folding_rules.cpp:4020-4073  RedundantAndOrXor *)
Definition redundant_and_or_xor : rule := fun m i =>
  check_width (ri_type i)
    match const_input m i with
    | None => FNone
    | Some c1 =>
        dof p <- non_const_input m i; dof other <- get_def m p;
        if rop_is other FOr || rop_is other FXor then
          match const_input m other with
          | None => FNone
          | Some c2 =>
              dof l <- constant_pairs c1 c2;
              if rop_is other FOr && forallb (fun '(_, x, y) => Z.land x y =? x) l
              then FSome (mkRNew RCopy [AConst c1])
              else if forallb (fun '(_, x, y) => Z.land x y =? 0) l
              then dof x <- non_const_input m other;
                   FSome (mkRNew (ROp FAnd) [AId x; AConst c1])
              else FNone
          end
        else FNone
    end.

(** bitutils.h:211-219  LSB on an unsigned type of [w] bits *)
Definition lsb (w v : Z) : Z := Z.land v ((2 ^ w - 1 - v + 1) mod 2 ^ w).
(** folding_rules.cpp:4078-4128  RedundantAndAddSub *)
Definition redundant_and_add_sub : rule := fun m i =>
  check_width (ri_type i)
    match const_input m i with
    | None => FNone
    | Some c1 =>
        dof p <- non_const_input m i; dof other <- get_def m p;
        if rop_is other FIAdd || rop_is other FISub then
          match const_input m other with
          | None => FNone
          | Some c2 =>
              if rop_is other FISub && match cst m other 0 with Some _ => true | None => false end
              then FNone else
              dof l <- constant_pairs c1 c2;
              if forallb (fun '(w, x, y) => x <? lsb w y) l
              then dof x <- non_const_input m other;
                   FSome (mkRNew (ROp FAnd) [AId x; AConst c1])
              else FNone
          end
        else FNone
    end.

(** folding_rules.cpp:4159-4182  get_value_u64 and can_fold_component of RedundantAndShift *)
Definition shift_component (right : bool) (width : Z) (mask shift : sconst) : fres bool :=
  match sconst_type mask, sconst_type shift with
  | EInt _ _, EInt _ _ =>
      dof lhs <- get_zext mask; dof rhs <- get_zext shift;
      if width <=? rhs then FSome false else
      let lhs_masked := Z.land lhs (2 ^ width - 1) in
      FSome (if right then Z.land (u64 (lhs_masked * 2 ^ rhs)) (2 ^ width - 1) =? 0
             else Z.land (lhs_masked / 2 ^ rhs) (2 ^ width - 1) =? 0)
  | _, _ => FSome false
  end.
(** The loop of folding_rules.cpp:4194-4198. *)
Fixpoint shift_components (right : bool) (width : Z) (masks shifts : list sconst) (count : nat)
  : fres bool :=
  match count with
  | O => FSome true
  | S count' =>
      match masks, shifts with
      | a :: masks', b :: shifts' =>
          dof r <- shift_component right width a b;
          if r then shift_components right width masks' shifts' count' else FSome false
      | _, _ => FBad
      end
  end.
(** folding_rules.cpp:4134-4211  RedundantAndShift *)
Definition redundant_and_shift : rule := fun m i =>
  dof width <- element_width (ri_type i);
  if negb ((width =? 8) || (width =? 16) || (width =? 32) || (width =? 64)) then FNone else
  match const_input m i with
  | None => FNone
  | Some c1 =>
      dof p <- non_const_input m i; dof other <- get_def m p;
      let right := rop_is other FShrL in
      if negb (rop_is other FShl || right) then FNone else
      match cst m other 0, cst m other 1 with
      | None, Some c2 =>
          dof ok <-
            match ri_type i with
            | TVector _ n =>
                match fconst_type c2 with
                | TVector _ n' =>
                    if Nat.eqb n' n then
                      dof l <- vector_components c1; dof l' <- vector_components c2;
                      shift_components right width l l' n
                    else FSome false
                | TScalar _ => FSome false
                end
            | TScalar _ =>
                match c1, c2 with
                | CScalar x, CScalar y => shift_component right width x y
                | _, _ => FSome false
                end
            end;
          if ok then FSome (mkRNew RCopy [AConst (null_const (ri_type i))]) else FNone
      | _, _ => FNone
      end
  end.

(** *** Selection and boolean rules *)

(** folding_rules.cpp:3305-3393  MergeBinaryOpSelect.  The two instructions it inserts are then
    folded by FoldInstruction (folding_rules.cpp:3368-3383); they are kept unfolded here, as their
    folding is the subject of Fold.v. *)
Definition merge_binary_op_select (o : fop) : rule := fun m i =>
  match const_input m i with
  | None => FNone
  | Some _ =>
      dof p <- non_const_input m i; dof sel <- get_def m p;
      if negb (rop_is sel FSelect) then FNone else
      match cst m sel 1, cst m sel 2 with
      | Some _, Some _ =>
          dof c <- in_op sel 0; dof x <- in_op sel 1; dof y <- in_op sel 2;
          dof cond <- get_def m c;
          if match ri_type i with TVector _ _ => true | TScalar _ => false end &&
             match ri_type cond with TVector _ _ => false | TScalar _ => true end &&
             negb (rm_version_1_4 m)
          then FNone else
          dof args <-
            match cst m i 0 with
            | Some _ => dof k <- in_op i 0;
                        FSome [ANew o (ri_type i) k x; ANew o (ri_type i) k y]
            | None => dof k <- in_op i 1;
                      FSome [ANew o (ri_type i) x k; ANew o (ri_type i) y k]
            end;
          FSome (mkRNew (ROp FSelect) (AId c :: args))
      | _, _ => FNone
      end
  end.

(** BoolConstant::value, of a component that may be null. *)
Definition bool_value (c : sconst) : fres bool :=
  match c with SCBool b => FSome b | SCNull _ => FSome false | SCInt _ _ _ => FBad end.
(** folding_rules.cpp:3045-3109  RedundantSelect *)
Definition redundant_select : rule := fun m i =>
  dof t <- in_op i 1; dof f <- in_op i 2;
  if N.eqb t f then FSome (mkRNew RCopy [AId t]) else
  match cst m i 0 with
  | None => FNone
  | Some (CScalar c) => dof b <- bool_value c; FSome (mkRNew RCopy [AId (if b then t else f)])
  | Some (CNullVector _ _) => FSome (mkRNew RCopy [AId f])
  | Some (CVector _ l) =>
      dof bs <- mapf bool_value l;
      let size := length l in
      FSome (mkRNew (RShuffle (map (fun '(b, k) => if b : bool then k else (k + size)%nat)
                                   (combine bs (seq 0 size)))) [AId t; AId f])
  end.

(** folding_rules.cpp:3111-3136  GetBoolConstantKind *)
Definition sbool_kind (c : sconst) : option bool :=
  match c with SCBool b => Some b | SCNull _ => Some false | SCInt _ _ _ => None end.
Definition obool_eqb (a b : option bool) : bool :=
  match a, b with Some x, Some y => Bool.eqb x y | None, None => true | _, _ => false end.
Definition bool_kind (c : fconst) : option bool :=
  match c with
  | CScalar s => sbool_kind s
  | CNullVector _ _ => Some false
  | CVector _ [] => None
  | CVector _ (c0 :: l) =>
      match sbool_kind c0 with
      | None => None
      | Some b => if forallb (fun x => obool_eqb (sbool_kind x) (Some b)) l then Some b else None
      end
  end.
Definition obool_kind (c : option fconst) : option bool :=
  match c with Some c => bool_kind c | None => None end.

(** folding_rules.cpp:3141-3180  FoldConstantBooleanSelect; type ids are compared as types, unique
    types having unique ids. *)
Definition constant_boolean_select : rule := fun m i =>
  match cst m i 1, cst m i 2 with
  | Some c1, Some c2 =>
      dof c <- in_op i 0; dof cond <- get_def m c;
      if negb (fty_eqb (ri_type i) (ri_type cond)) then FNone else
      match bool_kind c1, bool_kind c2 with
      | Some true, Some false => FSome (mkRNew RCopy [AId c])
      | Some false, Some true => FSome (mkRNew (ROp FLogNot) [AId c])
      | _, _ => FNone
      end
  | _, _ => FNone
  end.

(** folding_rules.cpp:3190-3204 RedundantLogicalAnd, 3209-3223 RedundantLogicalOr *)
Definition redundant_logical (neutral : bool) : rule := fun m i =>
  if obool_eqb (obool_kind (const_input m i)) (Some neutral)
  then dof x <- non_const_input m i; FSome (mkRNew RCopy [AId x]) else FNone.

(** folding_rules.cpp:3227-3242  RedundantLogicalNot *)
Definition redundant_logical_not : rule := fun m i =>
  dof a <- in_op i 0; dof child <- get_def m a;
  if rop_is child FLogNot then dof x <- in_op child 0; FSome (mkRNew RCopy [AId x]) else FNone.

(** folding_rules.cpp:3403-3507  FoldLogicalNotComparison: the opposite comparison, *)
Definition opposite (o : fop) : option fop :=
  match o with
  | FIEq => Some FINe | FINe => Some FIEq
  | FLogEq => Some FLogNe | FLogNe => Some FLogEq
  | FUGt => Some FULe | FULe => Some FUGt | FSGt => Some FSLe | FSLe => Some FSGt
  | FULt => Some FUGe | FUGe => Some FULt | FSLt => Some FSGe | FSGe => Some FSLt
  | _ => None
  end.
(** and the rule. *)
Definition logical_not_comparison : rule := fun m i =>
  dof a <- in_op i 0; dof child <- get_def m a;
  if (1 <? rm_uses m a)%nat then FNone else
  match ri_op child with
  | ROp o =>
      match opposite o with
      | Some o' => dof x <- in_op child 0; dof y <- in_op child 1;
                   FSome (mkRNew (ROp o') [AId x; AId y])
      | None => FNone
      end
  | _ => FNone
  end.

(** folding_rules.cpp:3516-3551  RedundantLogicalEqual *)
Definition redundant_logical_equal (equal : bool) : rule := fun m i =>
  match const_input m i with
  | None => FNone
  | Some c =>
      dof a <- in_op i 0; dof d <- get_def m a;
      if negb (fty_eqb (ri_type i) (ri_type d)) then FNone else
      match bool_kind c with
      | None => FNone
      | Some b =>
          dof x <- non_const_input m i;
          FSome (mkRNew (if (if equal then b else negb b) then RCopy else ROp FLogNot) [AId x])
      end
  end.

(** *** folding_rules.cpp:4546-4727  AddFoldingRules: the rules of each opcode, in order *)
Definition rules_of (o : fop) : list rule :=
  let rhs0 := redundant_zero 1 0 in let lhs0 := redundant_zero 0 1 in
  let lhs0_to_0 := redundant_zero 0 0 in
  let select := merge_binary_op_select o in
  match o with
  | FOr | FXor => [rhs0; lhs0; reassociate_commutative o; reassociate_nested o; select]
  | FAnd => [reassociate_commutative o; reassociate_nested o; select;
             redundant_and_or_xor; redundant_and_add_sub; redundant_and_shift]
  | FShrL | FShrA | FShl => [rhs0; lhs0_to_0; select]
  | FIAdd => [rhs0; lhs0; select; merge_add_negate; merge_add_add; merge_add_sub;
              merge_generic_add_sub; reassociate_add_sub false; factor_add_sub_muls o]
  | FISub => [rhs0; select; merge_sub_negate; merge_sub_add; merge_sub_sub;
              reassociate_add_sub true; factor_add_sub_muls o]
  | FIMul => [reassociate_nested o; select; int_multiple_by_1; merge_mul_mul; merge_mul_negate;
              merge_div_mul_double_negative]
  | FSDiv => [lhs0_to_0; select; redundant_div; merge_div_mul_double_negative]
  | FUDiv => [lhs0_to_0; select; redundant_div]
  | FSMod | FUMod => [lhs0_to_0; redundant_mod]
  | FSNegate => [merge_negate; merge_negate_mul_div; merge_negate_add_sub]
  | FSelect => [redundant_select; constant_boolean_select]
  | FLogAnd => [select; redundant_logical true]
  | FLogOr => [select; redundant_logical false]
  | FLogNot => [redundant_logical_not; logical_not_comparison]
  | FLogEq => [select; redundant_logical_equal true]
  | FLogNe => [select; redundant_logical_equal false]
  | FIEq | FINe | FULt | FSLt | FUGt | FSGt | FULe | FSLe | FUGe | FSGe => [select]
  | _ => []
  end.
(** fold.cpp:193-199  the rules are tried in order. *)
Fixpoint first_rule (l : list rule) : rule := fun m i =>
  match l with [] => FNone | r :: l' => forelse (r m i) (first_rule l' m i) end.
Definition apply_rules : rule := fun m i =>
  match ri_op i with ROp o => first_rule (rules_of o) m i | _ => FNone end.
