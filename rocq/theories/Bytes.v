(** Spelling out byte strings. *)
From Coq Require Import String Ascii.
From Verif Require Import Base.
Definition bytes (s : string) : list N := map N_of_ascii (list_ascii_of_string s).
