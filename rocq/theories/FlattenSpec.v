(** What annotations say. *)
From Verif Require Import Base Flatten.
Local Open Scope N_scope.

(** the decoration [d] is on [t], or on its member *)
Inductive applied (l : list inst) (d : list N) : N -> option N -> Prop :=
| Ap_direct t : In (Decorate t d) l -> ~ In (Group t) l -> applied l d t None
| Ap_member t m : In (MemberDecorate t m d) l -> applied l d t (Some m)
| Ap_group g ts t : In (Group g) l -> In (Decorate g d) l -> In (GroupDecorate g ts) l -> In t ts -> applied l d t None
| Ap_group_member g ps t m : In (Group g) l -> In (Decorate g d) l -> In (GroupMember g ps) l -> In (t, m) ps -> applied l d t (Some m).
(** how often it is *)
Definition pair_dec (p q : N * N) : {p = q} + {p <> q}.
Proof. decide equality; apply N.eq_dec. Defined.
Definition given (g t : N) (o : option N) (i : inst) : nat :=
  match i, o with
  | GroupDecorate g' ts, None => if N.eq_dec g' g then count_occ N.eq_dec ts t else O
  | GroupMember g' ps, Some m => if N.eq_dec g' g then count_occ pair_dec ps (t, m) else O
  | _, _ => O
  end.
Definition times (l : list inst) (d : list N) (t : N) (o : option N) : nat :=
  list_sum (map (fun i => match i with
    | Decorate g d' => if list_eq_dec N.eq_dec d' d then (if existsb (fun j => match j with Group h => (h =? g)%N | _ => false end) l then list_sum (map (given g t o) l) else match o with None => if N.eq_dec g t then 1 else 0 | Some _ => 0 end) else 0
    | MemberDecorate t' m d' => if list_eq_dec N.eq_dec d' d then match o with Some m' => if pair_dec (t', m) (t, m') then 1 else 0 | None => 0 end else 0
    | _ => 0 end)%nat l).
(** only groups are used as groups; their targets, and the targets of all other decorations than OpDecorate, are not groups (the validator checks all of this: validate_annotation.cpp:393-397, 547-625) *)
Record valid (l : list inst) : Prop := {
  va_group : forall g ts, In (GroupDecorate g ts) l -> In (Group g) l;
  va_group_member : forall g ps, In (GroupMember g ps) l -> In (Group g) l;
  va_target : forall g ts t, In (GroupDecorate g ts) l -> In t ts -> ~ In (Group t) l;
  va_struct : forall g ps t m, In (GroupMember g ps) l -> In (t, m) ps -> ~ In (Group t) l;
  va_member : forall t m d, In (MemberDecorate t m d) l -> ~ In (Group t) l;
  va_other : forall k t d, In (Other k t d) l -> ~ In (Group t) l }.
(** an instruction that has to do with groups *)
Definition grouped (l : list inst) (i : inst) : Prop := match i with Group _ | GroupDecorate _ _ | GroupMember _ _ => True | Decorate t _ => In (Group t) l | _ => False end.
(** an instruction that applies a decoration to something that is not a group *)
Definition plain (l : list inst) (i : inst) : Prop := match i with Decorate t _ | MemberDecorate t _ _ | Other _ t _ => ~ In (Group t) l | _ => False end.
Definition target (s : debug) : N := match s with Name t _ | MemberName t _ _ => t end.
