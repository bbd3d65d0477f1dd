(** What a history of calls means, independent of the union-find structure. *)
From Verif Require Import Base EquivRel.

Definition registered (cs : list call) : list N :=
  flat_map (fun c => match c with Register v => [v] | _ => [] end) cs.

(** The smallest equivalence relation containing the merged pairs. *)
Inductive equivalent (cs : list call) : N -> N -> Prop :=
| eq_merged a b : In (MakeEquivalent a b) cs -> equivalent cs a b
| eq_refl_ a : equivalent cs a a
| eq_sym_ a b : equivalent cs a b -> equivalent cs b a
| eq_trans_ a b c : equivalent cs a b -> equivalent cs b c -> equivalent cs a c.

(** The preconditions stated in the header: values are registered once, before being used. *)
Inductive legal : list call -> Prop :=
| legal_nil : legal []
| legal_register cs v : legal cs -> ~ In v (registered cs) -> legal (cs ++ [Register v])
| legal_merge cs a b : legal cs -> In a (registered cs) -> In b (registered cs) -> legal (cs ++ [MakeEquivalent a b])
| legal_query cs a b : legal cs -> In a (registered cs) -> In b (registered cs) -> legal (cs ++ [IsEquivalent a b])
| legal_class cs a : legal cs -> In a (registered cs) -> legal (cs ++ [GetEquivalenceClass a]).
