(** Specification side of the assembly text format: what a word is, what may stand
    between words.  Independent of the reader's control flow. *)
From Verif Require Import Base.
Local Open Scope N_scope.

(** White space: blank, tab, carriage return, newline. *)
Definition white (c : N) : Prop := c = 32 \/ c = 9 \/ c = 13 \/ c = 10.
(** Characters with a meaning of their own: white space, ';' ',' '(' ')', the quote (34),
    the backslash (92) and NUL. *)
Definition special (c : N) : Prop :=
  white c \/ c = 59 \/ c = 44 \/ c = 40 \/ c = 41 \/ c = 34 \/ c = 92 \/ c = 0.

(** The inside of a quoted string: any characters, quotes and backslashes escaped. *)
Inductive string_body : list N -> Prop :=
  | sb_nil : string_body []
  | sb_char c s : c <> 34 -> c <> 92 -> c <> 0 -> string_body s -> string_body (c :: s)
  | sb_esc c s : c <> 0 -> string_body s -> string_body (92 :: c :: s).
(** A (possibly empty) run of plain characters, escaped characters and quoted strings. *)
Inductive word_body : list N -> Prop :=
  | wb_nil : word_body []
  | wb_plain c w : ~ special c -> word_body w -> word_body (c :: w)
  | wb_esc c w : c <> 0 -> word_body w -> word_body (92 :: c :: w)
  | wb_string s w : string_body s -> word_body w -> word_body (34 :: s ++ 34 :: w).
(** A word is a non-empty one. *)
Definition word (w : list N) : Prop := word_body w /\ w <> [].

(** The body of a comment: no newline, no NUL. *)
Definition comment_body (s : list N) : Prop := Forall (fun c => c <> 10 /\ c <> 0) s.
(** What may stand between two words: white space and complete comments. *)
Inductive gap : list N -> Prop :=
  | gap_nil : gap []
  | gap_white c g : white c -> gap g -> gap (c :: g)
  | gap_comment s g : comment_body s -> gap g -> gap (59 :: s ++ 10 :: g).
(** What may end the text: a gap, possibly followed by a comment that is cut off by the end
    of the text, or by a NUL (after which everything is ignored). *)
Inductive ending : list N -> Prop :=
  | end_gap g : gap g -> ending g
  | end_comment g s : gap g -> comment_body s -> ending (g ++ 59 :: s)
  | end_nul g rest : gap g -> ending (g ++ 0 :: rest)
  | end_comment_nul g s rest : gap g -> comment_body s -> ending (g ++ 59 :: s ++ 0 :: rest).

(** [layout ws text]: the text consists of exactly the words [ws], separated by non-empty gaps. *)
Inductive layout : list (list N) -> list N -> Prop :=
  | lay_end g : ending g -> layout [] g
  | lay_last g w e : gap g -> word w -> ending e -> layout [w] (g ++ w ++ e)
  | lay_word g w ws sep text :
      gap g -> word w -> gap sep -> sep <> [] -> ws <> [] ->
      layout ws text -> layout (w :: ws) (g ++ w ++ sep ++ text).
