(** Model of the word splitter and literal reader of the assembler:
    source/text_handler.cpp, source/text.cpp.

    A text is a list of bytes; a position in it is represented by the part of the text
    that has not been read yet (index = length of the text minus length of the rest;
    line and column numbers, used only in diagnostics, are not modelled). *)
From Verif Require Import Base.
Local Open Scope N_scope.

Definition c_nul : N := 0.        Definition c_tab : N := 9.
Definition c_nl : N := 10.        Definition c_cr : N := 13.
Definition c_space : N := 32.     Definition c_bang : N := 33.
Definition c_quote : N := 34.     Definition c_percent : N := 37.
Definition c_lparen : N := 40.    Definition c_rparen : N := 41.
Definition c_comma : N := 44.     Definition c_minus : N := 45.
Definition c_dot : N := 46.       Definition c_semi : N := 59.
Definition c_bslash : N := 92.    Definition c_underscore : N := 95.

(** text_handler.cpp:40-57 advanceLine and 64-89 advance, fused into one recursion over the
    rest of the text: [in_comment] says that the loop of advanceLine is running.  The result
    is (END_OF_STREAM?, rest). *)
Fixpoint advance_mode (in_comment : bool) (l : list N) : bool * list N :=
  match l with
  | [] => (true, [])
  | ch :: t =>
      if ch =? c_nul then (true, l)
      else if in_comment then
        if ch =? c_nl then advance_mode false t else advance_mode true t
      else if ch =? c_semi then advance_mode true t
      else if (ch =? c_space) || (ch =? c_tab) || (ch =? c_cr) || (ch =? c_nl)
      then advance_mode false t
      else (false, l)
  end.
Definition advance (l : list N) : bool * list N := advance_mode false l.

(** text_handler.cpp:120-127  the characters that end a word outside quotes *)
Definition is_delim (ch : N) : bool :=
  (ch =? c_space) || (ch =? c_semi) || (ch =? c_comma) || (ch =? c_lparen) ||
  (ch =? c_rparen) || (ch =? c_tab) || (ch =? c_nl) || (ch =? c_cr).

(** text_handler.cpp:107-143  the loop of getWord: (word, rest) *)
Fixpoint get_word_loop (quoting escaping : bool) (l : list N) : list N * list N :=
  match l with
  | [] => ([], [])
  | ch :: t =>
      if ch =? c_bslash then
        let '(w, r) := get_word_loop quoting (negb escaping) t in (ch :: w, r)
      else if ch =? c_nul then ([], l)
      else if is_delim ch && negb (escaping || quoting) then ([], l)
      else
        let quoting := if (ch =? c_quote) && negb escaping then negb quoting else quoting in
        let '(w, r) := get_word_loop quoting false t in (ch :: w, r)
  end.
(** text_handler.cpp:97-144  getWord (text->length <> 0 holds in all callers once
    advance has succeeded) *)
Definition get_word (l : list N) : list N * list N := get_word_loop false false l.

(** text_handler.cpp:148-154  startsWithOp *)
Definition starts_with_op (l : list N) : bool :=
  match l with
  | ch0 :: ch1 :: ch2 :: _ => (ch0 =? 79) && (ch1 =? 112) && (65 <=? ch2) && (ch2 <=? 90)
  | _ => false
  end.

(** The idiom "advance(); getWord(&word, &next); setPosition(next)" used by every reader of
    operands (text.cpp:686-689, 696-698, 778-827): the next word and the rest, or None at the
    end of the stream. *)
Definition next_word (l : list N) : option (list N * list N) :=
  let '(eos, r) := advance l in
  if eos then None else Some (get_word r).
(** The first [n] words delivered by repeating that idiom. *)
Fixpoint words (n : nat) (l : list N) : list (list N) :=
  match n with
  | O => []
  | S n' => match next_word l with
            | None => []
            | Some (w, r) => w :: words n' r
            end
  end.

(** text_handler.cpp:242-259  isStartOfNewInst.  [None]: front() of an empty std::string. *)
Definition is_start_of_new_inst (l : list N) : option bool :=
  let '(eos, pos) := advance l in
  if eos then Some false
  else if starts_with_op pos then Some true
  else
    let '(word, pos) := get_word l in
    match word with
    | [] => None
    | ch :: _ =>
        if negb (ch =? c_percent) then Some false
        else
          let '(eos, pos) := advance pos in
          if eos then Some false
          else
            let '(word, pos) := get_word pos in
            if negb (if list_eq_dec N.eq_dec word [61] then true else false) then Some false
            else
              let '(eos, pos) := advance pos in
              if eos then Some false else Some (starts_with_op pos)
    end.

(** *** Literals *)

Definition is_digit (c : N) : bool := (48 <=? c) && (c <=? 57).

(** text.cpp:73-101  the classification loop of spvTextToLiteral:
    (isSigned, numPeriods, isString); [first] is "index == 0". *)
Fixpoint classify (first : bool) (l : list N) (sgn : bool) (periods : nat) (str : bool)
  : bool * nat * bool :=
  match l with
  | [] => (sgn, periods, str)
  | c :: t =>
      if is_digit c then classify false t sgn periods str
      else if c =? c_dot then classify false t sgn (S periods) str
      else if c =? c_minus then
        if first then classify false t true periods str else classify false t sgn periods true
      else (sgn, periods, true)
  end.

Inductive literal : Type :=
  | Lit_string (s : list N)
  | Lit_float (text : list N)      (* value produced by strtod, not modelled *)
  | Lit_int (text : list N)        (* isSigned: value produced by strtoll *)
  | Lit_uint (value : N).          (* value produced by strtoull (saturating) *)
Inductive lit_result : Type :=
  | Lit_ok (l : literal)
  | Lit_failed_match
  | Lit_out_of_memory.

(** spirv_constant.h:45-50  SPV_LIMIT_LITERAL_STRING_BYTES_MAX *)
Definition literal_string_bytes_max : N := 262140.

(** text.cpp:108-119  copying the characters between the quotes, dropping the escapes *)
Fixpoint unescape (l : list N) (escaping : bool) (acc : list N) (size : N) : option (list N) :=
  match l with
  | [] => Some acc
  | c :: t =>
      if (c =? c_bslash) && negb escaping then unescape t true acc size
      else if literal_string_bytes_max <=? size then None
      else unescape t false (acc ++ [c]) (size + 1)
  end.

(** strtoull on a text of decimal digits, saturating at 2^64-1 *)
Definition strtoull_digits (l : list N) : N :=
  N.min (fold_left (fun a c => 10 * a + (c - 48)) l 0) (2 ^ 64 - 1).

(** text.cpp:65-155  spvTextToLiteral.  The text is the C string, so it contains no NUL
    (callers pass getWord results, which contain none). *)
Definition text_to_literal (text : list N) : lit_result :=
  match text with
  | [] => Lit_failed_match
  | c0 :: _ =>
      let '(sgn, periods, str) := classify true text false 0%nat false in
      let len := length text in
      if str || Nat.ltb 1 periods || (sgn && Nat.eqb len 1) then
        if Nat.ltb len 2 || negb (c0 =? c_quote) || negb (last text 0 =? c_quote)
        then Lit_failed_match
        else match unescape (removelast (tl text)) false [] 0 with
             | None => Lit_out_of_memory
             | Some s => Lit_ok (Lit_string s)
             end
      else if Nat.eqb periods 1 then Lit_ok (Lit_float text)
      else if sgn then Lit_ok (Lit_int text)
      else Lit_ok (Lit_uint (strtoull_digits text))
  end.

(** disassemble.cpp:943-954  the text written for a literal string (without colours) *)
Definition escape_char (c : N) : list N :=
  if (c =? c_quote) || (c =? c_bslash) then [c_bslash; c] else [c].
Definition print_string (s : list N) : list N :=
  c_quote :: flat_map escape_char s ++ [c_quote].
