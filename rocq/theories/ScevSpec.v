(** Specification of scalar evolution expressions: the value of an expression. *)
From Verif Require Import Base Scev.
Local Open Scope Z_scope.

(** The value of an expression for an assignment [env] of the unknowns and iteration counts [it] of
    the loops (0 in the first iteration).  A recurrence is worth offset + coefficient * iteration.
    An expression that could not be computed has no value. *)
Inductive value_of (env : N -> Z) (it : N -> Z) : node -> Z -> Prop :=
| V_const v : value_of env it (NConst v) v
| V_unknown i : value_of env it (NUnknown i) (env i)
| V_rec l o c x y : value_of env it o x -> value_of env it c y ->
                    value_of env it (NRec l o c) (x + y * it l)
| V_add cs vs : Forall2 (value_of env it) cs vs -> value_of env it (NAdd cs) (fold_right Z.add 0 vs)
| V_mul a b x y : value_of env it a x -> value_of env it b y -> value_of env it (NMul a b) (x * y)
| V_neg a x : value_of env it a x -> value_of env it (NNeg a) (- x).

(** The expression has a value. *)
Definition computable (n : node) : Prop := forall env it, exists v, value_of env it n v.

(** The value of the expression changes with the iteration of loop [l]. *)
Definition varies_with (n : node) (l : N) : Prop :=
  exists env it it' v v',
    (forall k, k <> l -> it k = it' k) /\
    value_of env it n v /\ value_of env it' n v' /\ v <> v'.

(** No recurrence occurs in the expression. *)
Fixpoint rec_free (n : node) : Prop :=
  match n with
  | NConst _ | NUnknown _ | NCant => True
  | NRec _ _ _ => False
  | NAdd cs => fold_right (fun c P => rec_free c /\ P) True cs
  | NMul a b => rec_free a /\ rec_free b
  | NNeg a => rec_free a
  end.

(** What an expression is a sum of: its terms (unknowns and recurrences) with their integer
    multiplicities, and products of another form, with whether they are subtracted. *)
Definition scaled (a b : node) : option (node * Z) :=
  match a, b with
  | NUnknown _, NConst v | NRec _ _ _, NConst v => Some (a, v)
  | NConst v, NUnknown _ | NConst v, NRec _ _ _ => Some (b, v)
  | _, _ => None
  end.
Fixpoint terms (n : node) : list (node * Z) :=
  match n with
  | NUnknown _ | NRec _ _ _ => [(n, 1)]
  | NMul a b => match scaled a b with Some (t, v) => [(t, v)] | None => [] end
  | NAdd cs => flat_map terms cs
  | NNeg a => map (fun '(t, v) => (t, - v)) (terms a)
  | _ => []
  end.
Fixpoint products (n : node) : list (node * bool) :=
  match n with
  | NMul a b => match scaled a b with Some _ => [] | None => [(n, false)] end
  | NAdd cs => flat_map products cs
  | NNeg a => map (fun '(p, b) => (p, negb b)) (products a)
  | _ => []
  end.
(** The total multiplicity of a term. *)
Definition net (n t : node) : Z :=
  fold_right Z.add 0 (map (fun '(u, v) => if node_eqb u t then v else 0) (terms n)).
(** The expression is a linear combination of unknowns and a constant. *)
Definition linear (n : node) : Prop := rec_free n /\ products n = [].

(** The sums of terms the simplification handles correctly: products of another form are not
    subtracted and do not depend on iterations; recurrences that are present have an offset that is
    a linear combination of unknowns and a coefficient that does not depend on iterations; a
    recurrence with an offset other than 0 occurs with multiplicity 1 or -1; the value really
    depends on the iteration of the loop of each recurrence (so that coefficients do not cancel);
    and when an unknown is subtracted, the recurrences all belong to one loop, or each to its own. *)
Record simple_sum (n : node) : Prop := {
  ss_computable : computable n;
  ss_products : forall p b, In (p, b) (products n) -> rec_free p /\ b = false;
  ss_recs : forall l o c, net n (NRec l o c) <> 0 ->
      linear o /\ rec_free c /\ (forall p b, In (p, b) (products c) -> b = false);
  ss_offsets : forall l o c, net n (NRec l o c) <> 0 ->
      net n (NRec l o c) = 1 \/ net n (NRec l o c) = -1 \/ o = NConst 0;
  ss_varies : forall l o c, net n (NRec l o c) <> 0 -> varies_with n l;
  ss_subtracted : forall i, net n (NUnknown i) = -1 ->
      (forall l o c l' o' c', net n (NRec l o c) <> 0 -> net n (NRec l' o' c') <> 0 -> l = l') \/
      (forall l o c o' c', net n (NRec l o c) <> 0 -> net n (NRec l o' c') <> 0 -> o = o' /\ c = c')
}.
