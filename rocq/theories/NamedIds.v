(** Model of id naming in the assembler: AssemblyContext::spvNamedIdAssignOrGet,
    GetNumericIds, getBound (source/text_handler.cpp) and spvIsValidID (source/text.cpp). *)
From Verif Require Import Base TextLex ParseNumber.
Local Open Scope N_scope.

(** text.cpp:47-49 spvIsValidIDCharacter (isalnum in the "C" locale), 52-61 spvIsValidID *)
Definition is_id_char (c : N) : bool :=
  (c =? 95) || ((48 <=? c) && (c <=? 57)) || ((65 <=? c) && (c <=? 90)) || ((97 <=? c) && (c <=? 122)).
Definition is_valid_id (name : list N) : bool :=
  match name with [] => false | _ => forallb is_id_char name end.

Definition name_eqb (a b : list N) : bool := if list_eq_dec N.eq_dec a b then true else false.

(** text_handler.h:257-267  named_ids_, bound_, next_id_, ids_to_preserve_ *)
Record id_ctx : Type := mkIdCtx {
  named : list (list N * N);
  bound : N;
  next_id : N;
  preserve : list N
}.
(** text_handler.h:124-131  the constructor *)
Definition init_ctx (ids_to_preserve : list N) : id_ctx := mkIdCtx [] 1 1 ids_to_preserve.

Fixpoint find_name (m : list (list N * N)) (name : list N) : option N :=
  match m with
  | [] => None
  | (k, v) :: m' => if name_eqb k name then Some v else find_name m' name
  end.
Definition mem (x : N) (l : list N) : bool := existsb (N.eqb x) l.
Definition succ32 (x : N) : N := (x + 1) mod 2 ^ 32.

(** text_handler.cpp:211-216  the search for an id outside the preserved set; one unit of fuel
    per loop iteration, None is out of fuel.  Returns (id, new next_id_). *)
Fixpoint fresh_id (fuel : nat) (next : N) (keep : list N) : option (N * N) :=
  match fuel with
  | O => None
  | S f => let id := next in
           let next := succ32 next in
           if mem id keep then fresh_id f next keep else Some (id, next)
  end.

(** text_handler.cpp:198-224  spvNamedIdAssignOrGet *)
Definition assign_or_get (c : id_ctx) (name : list N) : option (id_ctx * N) :=
  let preserved :=
    match preserve c with
    | [] => None
    | _ => match parse_number_unsigned 32 name with
           | Some id => if mem id (preserve c) then Some id else None
           | None => None
           end
    end in
  match preserved with
  | Some id => Some (mkIdCtx (named c) (N.max (bound c) (succ32 id)) (next_id c) (preserve c), id)
  | None =>
      match find_name (named c) name with
      | Some id => Some (c, id)
      | None =>
          match fresh_id (S (length (preserve c))) (next_id c) (preserve c) with
          | None => None
          | Some (id, next) =>
              Some (mkIdCtx (named c ++ [(name, id)]) (N.max (bound c) (succ32 id)) next (preserve c), id)
          end
      end
  end.

(** The sequence of calls made while assembling: the ids returned, and the final context. *)
Fixpoint name_ids (c : id_ctx) (names : list (list N)) : option (list N * id_ctx) :=
  match names with
  | [] => Some ([], c)
  | n :: rest =>
      match assign_or_get c n with
      | None => None
      | Some (c1, id) =>
          match name_ids c1 rest with
          | None => None
          | Some (ids, c2) => Some (id :: ids, c2)
          end
      end
  end.

(** text_handler.cpp:446-453  GetNumericIds *)
Fixpoint numeric_ids (m : list (list N * N)) : list N :=
  match m with
  | [] => []
  | (name, _) :: m' =>
      match parse_number_unsigned 32 name with
      | Some id => if mem id (numeric_ids m') then numeric_ids m' else id :: numeric_ids m'
      | None => numeric_ids m'
      end
  end.

(** text.cpp:910-945, 961 as far as ids are concerned: with the option, a dry run collects the
    numeric ids first.  Returns the ids in order of occurrence and the header bound. *)
Definition number_names (preserve_numeric_ids : bool) (names : list (list N)) : option (list N * N) :=
  let keep :=
    if preserve_numeric_ids then
      match name_ids (init_ctx []) names with
      | Some (_, c) => Some (numeric_ids (named c))
      | None => None
      end
    else Some [] in
  match keep with
  | None => None
  | Some keep => match name_ids (init_ctx keep) names with
                 | Some (ids, c) => Some (ids, bound c)
                 | None => None
                 end
  end.
