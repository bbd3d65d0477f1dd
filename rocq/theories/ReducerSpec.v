(** Vocabulary for the reducer's properties. *)
From Verif Require Import Base Reducer.
Local Open Scope N_scope.

(** The answers in the list of calls are those of the interestingness function. *)
Definition faithful (interesting : interestingness) (calls : list question) : Prop :=
  forall before b step answer after,
    calls = before ++ (b, step, answer) :: after -> answer = interesting before b step.

(** The binary was tested and accepted in one of the calls. *)
Definition accepted (calls : list question) (b : binary) : Prop := exists step, In (b, step, true) calls.
Definition rejected (calls : list question) (b : binary) : Prop := exists step, In (b, step, false) calls.

(** Serialising a module always yields words (the header at least). *)
Definition writes_modules (f : finder) : Prop := forall b i j, apply_range f b i j <> [].
(** A module has fewer than 2^32 opportunities. *)
Definition counts_in_range (f : finder) : Prop := forall b, opportunities f b < 2 ^ 32.

(** No single opportunity of the pass can be taken any more: every candidate was found invalid or
    uninteresting. *)
Definition exhausted (validate : binary -> bool) (calls : list question) (f : finder) (b : binary) : Prop :=
  forall i, i < opportunities f b ->
    validate (apply_range f b i (i + 1)) = false \/ rejected calls (apply_range f b i (i + 1)).
