(** Model of source/fuzz/equivalence_relation.h: EquivalenceRelation.

    Values are numbers: the code identifies a value with the canonical pointer that
    [value_set_] keeps for it (equality by PointerEqualsT), so distinct numbers stand
    for values that are not equal.  [None] is a failed assertion (a precondition of
    the header) or lack of fuel (one unit per loop iteration). *)
From Verif Require Import Base NamedIds.
Local Open Scope N_scope.

(** equivalence_relation.h:222-243 owned_values_, parent_, children_ *)
Record relation := {
  owned : list N;
  parent : N -> N;
  children : N -> list N }.

Definition empty_relation : relation := {| owned := []; parent := fun v => v; children := fun _ => [] |}.

Definition upd {B} (f : N -> B) (k : N) (v : B) : N -> B := fun x => if N.eqb x k then v else f x.

(** std::find and vector::erase of the first occurrence; None when there is none *)
Fixpoint erase_first (x : N) (l : list N) : option (list N) :=
  match l with
  | [] => None
  | y :: t => if N.eqb y x then Some t else option_map (cons y) (erase_first x t)
  end.

(** equivalence_relation.h:168-170 Exists *)
Definition exists_value (r : relation) (v : N) : bool := mem v (owned r).

(** equivalence_relation.h:185-187 *)
Fixpoint chase (fuel : nat) (par : N -> N) (v : N) : option N :=
  match fuel with
  | O => None
  | S f => if N.eqb (par v) v then Some v else chase f par (par v)
  end.

(** equivalence_relation.h:195-206 path compression *)
Fixpoint compress (fuel : nat) (r : relation) (result current : N) : option relation :=
  match fuel with
  | O => None
  | S f =>
      if N.eqb (parent r current) result then Some r
      else
        let next := parent r current in
        let par := upd (parent r) current result in
        let kids := upd (children r) result (children r result ++ [current]) in
        match erase_first current (kids next) with
        | None => None
        | Some l => compress f {| owned := owned r; parent := par; children := upd kids next l |} result next
        end
  end.

(** equivalence_relation.h:175-208 Find: the (mutable) relation after the call and the representative *)
Definition find (r : relation) (v : N) : option (relation * N) :=
  if exists_value r v then
    let fuel := S (length (owned r)) in
    match chase fuel (parent r) v with
    | None => None
    | Some result =>
        match compress fuel r result v with
        | None => None
        | Some r' => Some (r', result)
        end
    end
  else None.

(** equivalence_relation.h:104-121 Register *)
Definition register (r : relation) (v : N) : option relation :=
  if exists_value r v then None
  else Some {| owned := owned r ++ [v]; parent := upd (parent r) v v; children := upd (children r) v [] |}.

(** equivalence_relation.h:75-99 MakeEquivalent *)
Definition make_equivalent (r : relation) (v1 v2 : N) : option relation :=
  if exists_value r v1 && exists_value r v2 then
    if N.eqb v1 v2 then Some r
    else
      match find r v1 with
      | None => None
      | Some (r, rep1) =>
          match find r v2 with
          | None => None
          | Some (r, rep2) =>
              if N.eqb rep1 rep2 then Some r
              else Some {| owned := owned r; parent := upd (parent r) rep1 rep2;
                           children := upd (children r) rep2 (children r rep2 ++ [rep1]) |}
          end
      end
  else None.

(** equivalence_relation.h:124-132 GetEquivalenceClassRepresentatives *)
Definition representatives (r : relation) : list N := filter (fun v => N.eqb (parent r v) v) (owned r).

(** equivalence_relation.h:144-152; the stack has its back() first *)
Fixpoint class_loop (fuel : nat) (kids : N -> list N) (stack result : list N) : option (list N) :=
  match fuel with
  | O => None
  | S f =>
      match stack with
      | [] => Some result
      | item :: rest => class_loop f kids (rev (kids item) ++ rest) (result ++ [item])
      end
  end.
(** equivalence_relation.h:136-154 GetEquivalenceClass *)
Definition equivalence_class (r : relation) (v : N) : option (relation * list N) :=
  match find r v with
  | None => None
  | Some (r', rep) =>
      match class_loop (S (length (owned r'))) (children r') [rep] [] with
      | None => None
      | Some l => Some (r', l)
      end
  end.

(** equivalence_relation.h:159-161 IsEquivalent.  The order in which the two calls of Find are
    evaluated is unspecified; the model evaluates the left one first. *)
Definition is_equivalent (r : relation) (v1 v2 : N) : option (relation * bool) :=
  match find r v1 with
  | None => None
  | Some (r, rep1) =>
      match find r v2 with
      | None => None
      | Some (r, rep2) => Some (r, N.eqb rep1 rep2)
      end
  end.

(** A history of calls. *)
Inductive call :=
| Register (v : N)
| MakeEquivalent (v1 v2 : N)
| IsEquivalent (v1 v2 : N)
| GetEquivalenceClass (v : N).

Definition do_call (r : relation) (c : call) : option relation :=
  match c with
  | Register v => register r v
  | MakeEquivalent a b => make_equivalent r a b
  | IsEquivalent a b => option_map fst (is_equivalent r a b)
  | GetEquivalenceClass v => option_map fst (equivalence_class r v)
  end.
Fixpoint run (r : relation) (cs : list call) : option relation :=
  match cs with
  | [] => Some r
  | c :: cs' => match do_call r c with Some r' => run r' cs' | None => None end
  end.
