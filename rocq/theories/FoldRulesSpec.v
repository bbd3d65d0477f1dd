(** What it means for a rewriting of an instruction to preserve its value.  The meaning of the
    opcodes ([component_value]), of constants ([const_value]) and the typing rules ([well_typed])
    are those of FoldSpec.v. *)
From Verif Require Import Base Fold FoldSpec FoldRules.
Local Open Scope Z_scope.

(** The type of an id is the type of the instruction that defines it. *)
Definition rtype (m : rmodule) (id : N) : option fty := option_map ri_type (rm_def m id).
Definition typed_args (m : rmodule) (i : rinst) (o : fop) : Prop :=
  exists ts, Forall2 (fun id t => rtype m id = Some t) (ri_args i) ts /\ well_typed o (ri_type i) ts.

(** A module in which every instruction obeys the typing rules and every constant is encoded as
    the specification says, and an instruction of such a module. *)
Definition rmodule_ok (m : rmodule) : Prop :=
  forall id i, rm_def m id = Some i ->
    fty_ok (ri_type i) /\
    (forall c, rm_const m id = Some c -> const_ok (ri_type i) c) /\
    (forall o, ri_op i = ROp o -> typed_args m i o).
Definition rinst_ok (m : rmodule) (i : rinst) : Prop :=
  fty_ok (ri_type i) /\ forall o, ri_op i = ROp o -> typed_args m i o.

Definition width_of (m : rmodule) (id : N) : Z :=
  match rtype m id with Some t => ewidth (elem t) | None => 0 end.
(** Component [d] of the result of an instruction, [None] if it is undefined. *)
Definition inst_value (m : rmodule) (env : N -> list Z) (i : rinst) (d : nat) : option Z :=
  match ri_op i with
  | ROp o => component_value o (ewidth (elem (ri_type i)))
               (map (fun id => (width_of m id, component d (env id))) (ri_args i))
  | _ => None
  end.

(** An execution gives every id that dominates the instruction a value of its type: constants their
    own, and results of instructions what the instruction computes from its operands, which is
    defined: an execution in which an operand is computed by, say, a division by zero is undefined
    from there on.  (In static single assignment form the operands of a dominating instruction
    still have, when the dominated one is executed, the values it was computed from.) *)
Definition rexecution (m : rmodule) (env : N -> list Z) : Prop :=
  (forall id t, rtype m id = Some t -> value_ok t (env id)) /\
  (forall id c, rm_const m id = Some c -> env id = const_value c) /\
  (forall id i o d, rm_def m id = Some i -> ri_op i = ROp o -> (d < dims (ri_type i))%nat ->
     inst_value m env i d = Some (component d (env id))).

(** The value of an operand of the rewritten instruction, with its width. *)
Definition arg_value (m : rmodule) (env : N -> list Z) (d : nat) (a : rarg) : option (Z * Z) :=
  match a with
  | AId id => Some (width_of m id, component d (env id))
  | AConst c => Some (ewidth (elem (fconst_type c)), component d (const_value c))
  | ANew o t x y =>
      option_map (pair (ewidth (elem t)))
        (component_value o (ewidth (elem t))
           [(width_of m x, component d (env x)); (width_of m y, component d (env y))])
  end.
Fixpoint all_some {A} (l : list (option A)) : option (list A) :=
  match l with
  | [] => Some []
  | Some a :: l' => option_map (cons a) (all_some l')
  | None :: _ => None
  end.
(** The components of an operand of OpVectorShuffle. *)
Definition arg_dims (m : rmodule) (a : rarg) : nat :=
  match a with
  | AId id => match rtype m id with Some t => dims t | None => 0 end
  | AConst c => dims (fconst_type c)
  | ANew _ t _ _ => dims t
  end.
(** Component [d] of the rewritten instruction, whose type is [t].  The operand of OpSelect that is
    not selected may be undefined. *)
Definition new_value (m : rmodule) (env : N -> list Z) (t : fty) (n : rnew) (d : nat) : option Z :=
  match rn_op n, rn_args n with
  | ROp FSelect, [c; a; b] =>
      match arg_value m env d c with
      | Some (_, v) => option_map snd (arg_value m env d (if v =? 0 then b else a))
      | None => None
      end
  | ROp o, args =>
      match all_some (map (arg_value m env d) args) with
      | Some l => component_value o (ewidth (elem t)) l
      | None => None
      end
  | RCopy, [a] => option_map snd (arg_value m env d a)
  | RBitcast, [a] =>
      match arg_value m env d a with
      | Some (w, v) => if w =? ewidth (elem t) then Some v else None
      | None => None
      end
  | RShuffle literals, [a; b] =>
      match nth_error literals d with
      | Some k => option_map snd (if (k <? arg_dims m a)%nat then arg_value m env k a
                                  else arg_value m env (k - arg_dims m a) b)
      | None => None
      end
  | _, _ => None
  end.

(** The cases in which the rules are known to change the value; each is refuted in P_FoldRules.v.
    [smallest w v]: the pattern [v] is that of the smallest signed number. *)
Definition smallest (w v : Z) : Prop := v = 2 ^ (w - 1).
Definition defined_as (m : rmodule) (id : N) (o : fop) (args : list N) : Prop :=
  exists i, rm_def m id = Some i /\ ri_op i = ROp o /\ ri_args i = args.
Definition rule_deviation (m : rmodule) (env : N -> list Z) (i : rinst) (d : nat) : Prop :=
  let w := ewidth (elem (ri_type i)) in
  let val id := component d (env id) in
  match ri_op i, ri_args i with
  (* -(x / y) with a constant x or y *)
  | ROp FSNegate, [a] => exists x y, defined_as m a FSDiv [x; y] /\ smallest w (val x) /\
      ((rm_const m x <> None /\ val y <> 1) \/ (rm_const m x = None /\ (smallest w (val y) \/ val y = 1)))
  (* (-x) / (-y) *)
  | ROp FSDiv, [a; b] => exists x y, defined_as m a FSNegate [x] /\ defined_as m b FSNegate [y] /\
      smallest w (val x) /\ ~ smallest w (val y)
  | _, _ => False
  end.

(** The typing rules of the rewritten instruction; [strict]: the operand of OpCopyObject has the
    type of the result, as the specification requires, otherwise it may differ in signedness. *)
Definition arg_type (m : rmodule) (a : rarg) : option fty :=
  match a with
  | AId id => rtype m id
  | AConst c => Some (fconst_type c)
  | ANew _ t _ _ => Some t
  end.
Definition arg_ok (m : rmodule) (a : rarg) : Prop :=
  match a with
  | AId _ => True
  | AConst c => const_ok (fconst_type c) c
  | ANew o t x y => exists tx ty, rtype m x = Some tx /\ rtype m y = Some ty /\ well_typed o t [tx; ty]
  end.
Definition new_well_typed (strict : bool) (m : rmodule) (t : fty) (n : rnew) : Prop :=
  Forall (arg_ok m) (rn_args n) /\
  exists ts, Forall2 (fun a ta => arg_type m a = Some ta) (rn_args n) ts /\
  match rn_op n, ts with
  | ROp o, _ => well_typed o t ts
  | RCopy, [a] => a = t \/ (strict = false /\ like t a)
  | RBitcast, [a] => like t a
  | RShuffle literals, [a; b] =>
      exists e n', t = TVector e n' /\ a = t /\ b = t /\ length literals = n' /\
      Forall (fun k => (k < n' + n')%nat) literals
  | _, _ => False
  end.
(** No two integer types of the module differ only in their signedness. *)
Definition one_signedness (m : rmodule) (i : rinst) : Prop :=
  forall x t, rtype m x = Some t -> like (ri_type i) t -> t = ri_type i.
