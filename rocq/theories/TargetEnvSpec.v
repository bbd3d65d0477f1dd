(** Target environments: what the recognisers should do. *)
From Coq Require Import String.
From Verif Require Import Base Bytes TextLex ParseNumber TargetEnv.
Local Open Scope list_scope.
Local Open Scope N_scope.

Definition prefix_of (b s : list N) : Prop := exists rest, s = b ++ rest.

(** The lines of a text, without the newlines. *)
Fixpoint lines_of (s : list N) : list (list N) :=
  match s with
  | [] => [[]]
  | c :: s' => match lines_of s' with
               | l :: ls => if c =? 10 then [] :: l :: ls else (c :: l) :: ls
               | [] => []
               end
  end.
Definition blank (l : list N) : Prop := Forall (fun c => is_space c = true) l.
(** A line that is blank, or blank up to a semicolon. *)
Definition header_line (l : list N) : Prop :=
  blank l \/ exists pre rest, blank pre /\ l = pre ++ 59 :: rest.
(** A line that announces version 1.[minor] with a one-digit minor version. *)
Definition announces (l : list N) (minor : N) : Prop :=
  exists pre rest, blank pre /\ l = pre ++ bytes "; Version: 1." ++ [48 + minor] ++ rest /\
    minor <= 9 /\ match rest with c :: _ => is_digit c = false | [] => True end.
(** The released version 1.[minor] as a target environment. *)
Definition universal (minor : N) (e : target_env) : Prop :=
  match minor with
  | 0 => e = UNIVERSAL_1_0 | 1 => e = UNIVERSAL_1_1 | 2 => e = UNIVERSAL_1_2 | 3 => e = UNIVERSAL_1_3
  | 4 => e = UNIVERSAL_1_4 | 5 => e = UNIVERSAL_1_5 | 6 => e = UNIVERSAL_1_6 | _ => False
  end.
(** [l] names a released version. *)
Definition version_line (l : list N) : Prop := exists minor e, announces l minor /\ universal minor e.

(** The version word of SPIR-V 1.[minor]. *)
Definition spirv_word (minor : N) : N := 65536 + 256 * minor.
