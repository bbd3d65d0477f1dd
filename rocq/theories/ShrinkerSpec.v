(** Vocabulary for the shrinker's properties. *)
From Verif Require Import Base LcsSpec.

(** [out] keeps some of the transformations of [orig], in order; only AddFunction transformations may
    have been replaced, by AddFunction transformations. *)
Definition shrunk_from {T} (is_add_function : T -> bool) (orig out : list T) : Prop :=
  exists kept, subsequence kept orig /\
    Forall2 (fun a b => a = b \/ (is_add_function a = true /\ is_add_function b = true)) kept out.
