(** What the SPIR-V specification says about integer and boolean instructions, independently of
    how the folder computes.  A value of a [w]-bit integer type is its bit pattern, a number in
    [0, 2^w); a boolean is 0 or 1; a value of any type is the list of its components. *)
From Verif Require Import Base Fold.
Local Open Scope Z_scope.

Definition ewidth (e : ety) : Z := match e with EBool => 1 | EInt w _ => w end.
(** The pattern read as a signed number. *)
Definition sval (w x : Z) : Z := if x <? 2 ^ (w - 1) then x else x - 2 ^ w.

(** One component of the result: the operands are given with their widths, [wr] is the width of
    the result.  [None] is an undefined result (division by zero, the overflowing division of the
    smallest value by -1, a shift by at least the width, a clamp with an empty range). *)
Definition division_defined (w a b : Z) : bool :=
  negb (b =? 0) && negb ((sval w a =? - 2 ^ (w - 1)) && (sval w b =? -1)).
Definition component_value (o : fop) (wr : Z) (args : list (Z * Z)) : option Z :=
  match o, args with
  | FIAdd, [(_, a); (_, b)] => Some ((a + b) mod 2 ^ wr)
  | FISub, [(_, a); (_, b)] => Some ((a - b) mod 2 ^ wr)
  | FIMul, [(_, a); (_, b)] => Some ((a * b) mod 2 ^ wr)
  | FSNegate, [(_, a)] => Some ((- a) mod 2 ^ wr)
  | FUDiv, [(_, a); (_, b)] => if b =? 0 then None else Some (a / b)
  | FUMod, [(_, a); (_, b)] => if b =? 0 then None else Some (a mod b)
  | FSDiv, [(w, a); (_, b)] => (* rounds towards zero *)
      if division_defined w a b then Some (Z.quot (sval w a) (sval w b) mod 2 ^ wr) else None
  | FSRem, [(w, a); (_, b)] => (* sign of the dividend *)
      if division_defined w a b then Some (Z.rem (sval w a) (sval w b) mod 2 ^ wr) else None
  | FSMod, [(w, a); (_, b)] => (* sign of the divisor *)
      if division_defined w a b then Some ((sval w a mod sval w b) mod 2 ^ wr) else None
  | FShrL, [(w, a); (_, b)] => if b <? w then Some (a / 2 ^ b) else None
  | FShrA, [(w, a); (_, b)] => if b <? w then Some ((sval w a / 2 ^ b) mod 2 ^ wr) else None
  | FShl, [(w, a); (_, b)] => if b <? w then Some ((a * 2 ^ b) mod 2 ^ wr) else None
  | FOr, [(_, a); (_, b)] => Some (Z.lor a b)
  | FAnd, [(_, a); (_, b)] => Some (Z.land a b)
  | FXor, [(_, a); (_, b)] => Some (Z.lxor a b)
  | FNot, [(_, a)] => Some (2 ^ wr - 1 - a)
  | FLogEq, [(_, a); (_, b)] => Some (if a =? b then 1 else 0)
  | FLogNe, [(_, a); (_, b)] => Some (if a =? b then 0 else 1)
  | FLogOr, [(_, a); (_, b)] => Some (Z.max a b)
  | FLogAnd, [(_, a); (_, b)] => Some (Z.min a b)
  | FLogNot, [(_, a)] => Some (1 - a)
  | FIEq, [(_, a); (_, b)] => Some (if a =? b then 1 else 0)
  | FINe, [(_, a); (_, b)] => Some (if a =? b then 0 else 1)
  | FULt, [(_, a); (_, b)] => Some (if a <? b then 1 else 0)
  | FUGt, [(_, a); (_, b)] => Some (if b <? a then 1 else 0)
  | FULe, [(_, a); (_, b)] => Some (if a <=? b then 1 else 0)
  | FUGe, [(_, a); (_, b)] => Some (if b <=? a then 1 else 0)
  | FSLt, [(w, a); (_, b)] => Some (if sval w a <? sval w b then 1 else 0)
  | FSGt, [(w, a); (_, b)] => Some (if sval w b <? sval w a then 1 else 0)
  | FSLe, [(w, a); (_, b)] => Some (if sval w a <=? sval w b then 1 else 0)
  | FSGe, [(w, a); (_, b)] => Some (if sval w b <=? sval w a then 1 else 0)
  | FSelect, [(_, c); (_, a); (_, b)] => Some (if c =? 0 then b else a)
  | FSConvert, [(w, a)] => Some (sval w a mod 2 ^ wr)
  | FUConvert, [(_, a)] => Some (a mod 2 ^ wr)
  | FUMin, [(_, a); (_, b)] => Some (Z.min a b)
  | FUMax, [(_, a); (_, b)] => Some (Z.max a b)
  | FSMin, [(w, a); (_, b)] => Some (if sval w a <? sval w b then a else b)
  | FSMax, [(w, a); (_, b)] => Some (if sval w a <? sval w b then b else a)
  | FUClamp, [(_, x); (_, lo); (_, hi)] =>
      if lo <=? hi then Some (Z.min (Z.max x lo) hi) else None
  | FSClamp, [(w, x); (_, lo); (_, hi)] =>
      if sval w lo <=? sval w hi
      then Some (if sval w x <? sval w lo then lo else if sval w hi <? sval w x then hi else x)
      else None
  | _, _ => None
  end.

(** The value of constants. *)
Definition sconst_value (c : sconst) : Z :=
  match c with
  | SCBool b => if b then 1 else 0
  | SCInt w _ [x] => x mod 2 ^ w
  | SCInt w _ [lo; hi] => (lo + hi * 2 ^ 32) mod 2 ^ w
  | SCInt _ _ _ => 0
  | SCNull _ => 0
  end.
Definition const_value (c : fconst) : list Z :=
  match c with
  | CScalar s => [sconst_value s]
  | CVector _ l => map sconst_value l
  | CNullVector _ n => repeat 0 n
  end.

(** The words of an OpConstant (SPIR-V 2.2.1): low-order word first, signed types narrower than a
    word sign-extended and unsigned ones zero-extended. *)
Definition encode (w : Z) (s : bool) (v : Z) : list Z :=
  if w <=? 32 then [if s && (2 ^ (w - 1) <=? v) then v + (2 ^ 32 - 2 ^ w) else v]
  else [v mod 2 ^ 32; v / 2 ^ 32].
Definition width_ok (w : Z) : Prop := w = 8 \/ w = 16 \/ w = 32 \/ w = 64.
Definition ety_ok (e : ety) : Prop := match e with EBool => True | EInt w _ => width_ok w end.
Definition sconst_ok (e : ety) (c : sconst) : Prop :=
  match c with
  | SCBool _ => e = EBool
  | SCInt w s ws => e = EInt w s /\ exists v, 0 <= v < 2 ^ w /\ ws = encode w s v
  | SCNull e' => e = e'
  end.
Definition const_ok (t : fty) (c : fconst) : Prop :=
  match t, c with
  | TScalar e, CScalar s => sconst_ok e s
  | TVector e n, CVector e' l => e = e' /\ length l = n /\ Forall (sconst_ok e) l
  | TVector e n, CNullVector e' n' => e = e' /\ n = n'
  | _, _ => False
  end.

Definition elem (t : fty) : ety := match t with TScalar e => e | TVector e _ => e end.
Definition dims (t : fty) : nat := match t with TScalar _ => 1 | TVector _ n => n end.
Definition fty_ok (t : fty) : Prop :=
  ety_ok (elem t) /\ match t with TVector _ n => (2 <= n)%nat | _ => True end.

(** The typing rules of the instructions. *)
Definition same_shape (t t' : fty) : Prop :=
  match t, t' with
  | TScalar _, TScalar _ => True
  | TVector _ n, TVector _ n' => n = n'
  | _, _ => False
  end.
Definition is_int (t : fty) : Prop := match elem t with EInt _ _ => True | EBool => False end.
Definition is_bool (t : fty) : Prop := elem t = EBool.
Definition is_unsigned (t : fty) : Prop := match elem t with EInt _ s => s = false | EBool => False end.
(** [t] is an integer type of the shape and width of [r]. *)
Definition like (r t : fty) : Prop :=
  is_int r /\ is_int t /\ same_shape r t /\ ewidth (elem r) = ewidth (elem t).
Definition well_typed (o : fop) (r : fty) (args : list fty) : Prop :=
  match o, args with
  | (FIAdd | FISub | FIMul | FSDiv | FSRem | FSMod | FOr | FAnd | FXor
     | FSMin | FUMin | FSMax | FUMax), [a; b] => like r a /\ like r b
  | (FUDiv | FUMod), [a; b] => a = r /\ b = r /\ is_unsigned r
  | (FSNegate | FNot), [a] => like r a
  | (FSClamp | FUClamp), [a; b; c] => like r a /\ like r b /\ like r c
  | (FShrL | FShrA | FShl), [a; b] => like r a /\ is_int b /\ same_shape r b
  | (FLogEq | FLogNe | FLogOr | FLogAnd), [a; b] => a = r /\ b = r /\ is_bool r
  | FLogNot, [a] => a = r /\ is_bool r
  | (FIEq | FINe | FULt | FSLt | FUGt | FSGt | FULe | FSLe | FUGe | FSGe), [a; b] =>
      is_bool r /\ is_int a /\ same_shape r a /\ like a b
  | FSelect, [c; a; b] => a = r /\ b = r /\ is_bool c /\ (same_shape r c \/ c = TScalar EBool)
  | FSConvert, [a] => is_int r /\ is_int a /\ same_shape r a
  | FUConvert, [a] => is_int r /\ is_int a /\ same_shape r a /\ is_unsigned r
  | _, _ => False
  end.

(** A module whose constants are encoded as the specification says. *)
Definition module_ok (m : fmodule) : Prop :=
  forall id t, fm_type m id = Some t ->
    fty_ok t /\ forall c, fm_const m id = Some c -> const_ok t c.
Definition inst_ok (m : fmodule) (i : finst) : Prop :=
  fty_ok (fi_type i) /\
  exists ts, Forall2 (fun id t => fm_type m id = Some t) (fi_args i) ts /\
             well_typed (fi_op i) (fi_type i) ts.

(** An execution gives every id a value of its type: constants their own, results of OpSNegate the
    negation of their operand; the caller's map sends ids to ids of the same type that have the
    same value in every such execution. *)
Definition value_ok (t : fty) (v : list Z) : Prop :=
  length v = dims t /\ Forall (fun x => 0 <= x < 2 ^ ewidth (elem t)) v.
Definition execution (m : fmodule) (id_map : N -> N) (env : N -> list Z) : Prop :=
  (forall id t, fm_type m id = Some t -> value_ok t (env id)) /\
  (forall id c, fm_const m id = Some c -> env id = const_value c) /\
  (forall id x t, fm_snegate m id = Some x -> fm_type m id = Some t ->
     env id = map (fun v => (- v) mod 2 ^ ewidth (elem t)) (env x)) /\
  (forall id, env (id_map id) = env id).
Definition id_map_ok (m : fmodule) (id_map : N -> N) : Prop :=
  forall id, fm_type m (id_map id) = fm_type m id.

(** Component [d] of an operand; a scalar condition of OpSelect applies to every component. *)
Definition component (d : nat) (v : list Z) : Z :=
  match v with [x] => x | _ => nth d v 0 end.
Definition arg_width (m : fmodule) (id : N) : Z :=
  match fm_type m id with Some t => ewidth (elem t) | None => 0 end.
Definition arg_signed (m : fmodule) (id : N) : bool :=
  match fm_type m id with Some (TScalar (EInt _ s)) => s | Some (TVector (EInt _ s) _) => s | _ => false end.
Definition type_signed (t : fty) : bool := match elem t with EInt _ s => s | EBool => false end.
Definition result_component (m : fmodule) (i : finst) (env : N -> list Z) (d : nat) : option Z :=
  component_value (fi_op i) (ewidth (elem (fi_type i)))
    (map (fun id => (arg_width m id, component d (env id))) (fi_args i)).

(** The cases in which the folder is known not to follow the specification; each is refuted in
    P_Fold.v.  An argument is given as its width, whether its type is a signed one, and its value;
    [rs] tells whether the result type is a signed one. *)
Definition high_narrow_unsigned (x : Z * bool * Z) : Prop :=
  let '(w, s, v) := x in w < 32 /\ s = false /\ 2 ^ (w - 1) <= v.
Definition high_narrow_signed (x : Z * bool * Z) : Prop :=
  let '(w, s, v) := x in w < 32 /\ s = true /\ 2 ^ (w - 1) <= v.
Definition known_deviation (o : fop) (rs : bool) (args : list (Z * bool * Z)) : Prop :=
  match o with
  | FSRem | FSConvert => Exists high_narrow_unsigned args
  | FSDiv => Exists high_narrow_unsigned args \/
             match args with [(w, _, a); (_, _, b)] => a = 2 ^ (w - 1) /\ b = 2 ^ (w - 1) | _ => False end
  | FSMod => Exists high_narrow_unsigned args \/
             match args with
             | [(w, _, a); (_, _, b)] => sval w b < 0 /\ Z.rem (sval w a) (sval w b) = 0
             | _ => False
             end
  | FSMin | FSMax | FSClamp => rs = false \/ Exists high_narrow_unsigned args
  | FUMin | FUMax | FUClamp => rs = true \/ Exists high_narrow_signed args
  | _ => False
  end.
Definition deviation_at (m : fmodule) (i : finst) (env : N -> list Z) (d : nat) : Prop :=
  known_deviation (fi_op i) (type_signed (fi_type i))
    (map (fun id => (arg_width m id, arg_signed m id, component d (env id))) (fi_args i)).

(** The operations of C++ that the folder must not perform: it does not perform any on types of at
    most 32 bits, when no vector constant has an OpConstantNull as component. *)
Definition narrow_type (t : fty) : Prop := ewidth (elem t) <= 32.
Definition plain_const (c : fconst) : Prop :=
  match c with
  | CVector _ l => forall e, ~ In (SCNull e) l
  | _ => True
  end.
Definition narrow_inst (m : fmodule) (id_map : N -> N) (i : finst) : Prop :=
  narrow_type (fi_type i) /\
  (forall id t, In id (fi_args i) -> fm_type m id = Some t -> narrow_type t) /\
  (forall id c, In id (fi_args i) -> fm_const m (id_map id) = Some c -> plain_const c).

(** Rules that may return one of their operands: the result is encoded as its type requires when
    the operands have that type. *)
Definition returns_operand (o : fop) : bool :=
  match o with
  | FSNegate | FSMin | FUMin | FSMax | FUMax | FSClamp | FUClamp => true
  | _ => false
  end.
Definition operands_of_result_type (m : fmodule) (i : finst) : Prop :=
  forall id t, In id (fi_args i) -> fm_type m id = Some t -> elem t = elem (fi_type i).
