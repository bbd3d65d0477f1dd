(** Model of the strength reduction pass: source/opt/strength_reduction_pass.cpp.

    Simplifications: the blocks of all functions are one list of instructions, in order; of the
    instructions only the opcodes the pass looks at are told apart, the others keep an opaque code
    (opcode and literals); the analyses the pass maintains (def-use manager) are recomputed. *)
From Verif Require Import Base.
Local Open Scope Z_scope.

Inductive sop := STypeInt (w : Z) (signed : bool) | SConstant (word : Z) | SIMul | SShl | SOther (code : N).
Record sinst := mkSI { si_op : sop; si_type : N; si_result : N; si_args : list N }.
(** The module: types_values_, the instructions of the functions, the id bound. *)
Record smodule := mkSM { sm_globals : list sinst; sm_body : list sinst; sm_bound : N }.

(** Outcomes: a failed assertion, a null pointer or a loop that does not end; Status::Failure; the
    rest. *)
Inductive sres (A : Type) := SBad | SFailure | SOk (a : A).
Arguments SBad {A}. Arguments SFailure {A}. Arguments SOk {A} a.
Definition sbind {A B} (x : sres A) (k : A -> sres B) : sres B :=
  match x with SBad => SBad | SFailure => SFailure | SOk a => k a end.
Notation "'dos' x <- a ; b" := (sbind a (fun x => b)) (at level 200, x pattern, right associativity).

(** strength_reduction_pass.cpp:32-41  CountTrailingZeros; [None]: the fuel ran out (the loop does
    not end on 0). *)
Fixpoint count_trailing_zeros (fuel : nat) (v : Z) : option Z :=
  match fuel with
  | O => None
  | S fuel' => if Z.land v 1 =? 0 then option_map (Z.add 1) (count_trailing_zeros fuel' (v / 2))
               else Some 0
  end.
(** strength_reduction_pass.cpp:44-50  IsPowerOf2 *)
Definition is_power_of_2 (v : Z) : bool :=
  if v =? 0 then false else Z.land (v - 1) v =? 0.

(** The state of the pass: the module and the members of the class (strength_reduction_pass.h:53-59). *)
Record sstate := mkSS {
  ss_module : smodule;
  ss_int32 : N;
  ss_uint32 : N;
  ss_constants : list N  (* constant_ids_[33] *)
}.
Fixpoint set_nth (k : nat) (v : N) (l : list N) : list N :=
  match l, k with
  | [], _ => []
  | _ :: l', O => v :: l'
  | x :: l', S k' => x :: set_nth k' v l'
  end.

(** type_manager.h  GetId of an integer type: the id of its OpTypeInt, 0 if there is none. *)
Fixpoint find_int_type (signed : bool) (l : list sinst) : N :=
  match l with
  | [] => 0%N
  | i :: l' => match si_op i with
               | STypeInt w s => if (w =? 32) && Bool.eqb s signed then si_result i else find_int_type signed l'
               | _ => find_int_type signed l'
               end
  end.
(** strength_reduction_pass.cpp:123-141  FindIntTypesAndConstants *)
Fixpoint find_constants (uint32 : N) (l : list sinst) (ids : list N) : list N :=
  match l with
  | [] => ids
  | i :: l' =>
      find_constants uint32 l'
        match si_op i with
        | SConstant v => if N.eqb (si_type i) uint32 && (v <=? 32) then set_nth (Z.to_nat v) (si_result i) ids else ids
        | _ => ids
        end
  end.
Definition initial_state (m : smodule) : sstate :=
  let u := find_int_type false (sm_globals m) in
  mkSS m (find_int_type true (sm_globals m)) u (find_constants u (sm_globals m) (repeat 0%N 33)).

(** ir_context.h:569-584  IRContext::TakeNextId: 0 when the bound has reached its maximum. *)
Definition take_next_id (limit : N) (m : smodule) : N * smodule :=
  if N.leb limit (sm_bound m) then (0%N, m)
  else (sm_bound m, mkSM (sm_globals m) (sm_body m) (sm_bound m + 1)).
Definition add_global (m : smodule) (i : sinst) : smodule :=
  mkSM (sm_globals m ++ [i]) (sm_body m) (sm_bound m).

(** strength_reduction_pass.cpp:143-171  GetConstantId, with TypeManager::GetTypeInstruction adding
    the missing OpTypeInt. *)
Definition get_constant_id (limit : N) (val : Z) (s : sstate) : sres (N * sstate) :=
  match nth_error (ss_constants s) (Z.to_nat val) with
  | None => SBad
  | Some id =>
      if N.eqb id 0 then
        let '(uint, m) :=
          if N.eqb (ss_uint32 s) 0 then
            let '(t, m) := take_next_id limit (ss_module s) in
            if N.eqb t 0 then (0%N, m) else (t, add_global m (mkSI (STypeInt 32 false) 0 t []))
          else (ss_uint32 s, ss_module s) in
        let '(result, m) := take_next_id limit m in
        if N.eqb result 0 then SOk (0%N, mkSS m (ss_int32 s) uint (ss_constants s)) else
        let m := add_global m (mkSI (SConstant val) uint result []) in
        SOk (result, mkSS m (ss_int32 s) uint (set_nth (Z.to_nat val) result (ss_constants s)))
      else SOk (id, s)
  end.

(** DefUseManager::GetDef *)
Definition get_def (m : smodule) (id : N) : option sinst :=
  find (fun i => N.eqb (si_result i) id) (sm_globals m ++ sm_body m).
(** ir_context.cpp:338-341  ReplaceAllUsesWith *)
Definition rename (before after : N) (i : sinst) : sinst :=
  mkSI (si_op i) (si_type i) (si_result i) (map (fun a => if N.eqb a before then after else a) (si_args i)).
Definition replace_all_uses (before after : N) (m : smodule) : smodule :=
  mkSM (map (rename before after) (sm_globals m)) (map (rename before after) (sm_body m)) (sm_bound m).
Fixpoint set_inst (k : nat) (i : sinst) (l : list sinst) : list sinst :=
  match l, k with
  | [], _ => []
  | _ :: l', O => i :: l'
  | x :: l', S k' => x :: set_inst k' i l'
  end.

(** strength_reduction_pass.cpp:79-116  one iteration of the loop over the operands of the [k]th
    instruction; [None]: go on with the next operand. *)
Definition try_operand (limit : N) (k : nat) (inst : sinst) (i : nat) (s : sstate) : sres (option sstate) :=
  match nth_error (si_args inst) i with
  | None => SBad
  | Some id =>
      match get_def (ss_module s) id with
      | None => SBad
      | Some op =>
          match si_op op with
          | SConstant v =>
              if is_power_of_2 v then
                match count_trailing_zeros 32 v with
                | None => SBad
                | Some shift =>
                    dos (c, s1) <- get_constant_id limit shift s;
                    if N.eqb c 0 then SFailure else
                    let '(new_id, m) := take_next_id limit (ss_module s1) in
                    if N.eqb new_id 0 then SFailure else
                    match nth_error (si_args inst) (1 - i) with
                    | None => SBad
                    | Some other =>
                        let m := mkSM (sm_globals m)
                                   (set_inst k (mkSI SShl (si_type inst) new_id [other; c]) (sm_body m)) (sm_bound m) in
                        SOk (Some (mkSS (replace_all_uses (si_result inst) new_id m) (ss_int32 s1)
                                     (ss_uint32 s1) (ss_constants s1)))
                    end
                end
              else SOk None
          | _ => SOk None
          end
      end
  end.
(** strength_reduction_pass.cpp:64-121  ReplaceMultiplyByPowerOf2 *)
Definition replace_multiply (limit : N) (k : nat) (inst : sinst) (s : sstate) : sres sstate :=
  if negb (N.eqb (si_type inst) (ss_int32 s)) && negb (N.eqb (si_type inst) (ss_uint32 s)) then SOk s
  else
    dos r <- try_operand limit k inst 0 s;
    match r with
    | Some s' => SOk s'
    | None => dos r <- try_operand limit k inst 1 s;
              match r with Some s' => SOk s' | None => SOk s end
    end.
(** strength_reduction_pass.cpp:173-195  ScanFunctions, from the [k]th instruction on. *)
Fixpoint scan (limit : N) (count k : nat) (s : sstate) : sres sstate :=
  match count with
  | O => SOk s
  | S count' =>
      match nth_error (sm_body (ss_module s)) k with
      | None => SBad
      | Some inst =>
          match si_op inst with
          | SIMul => dos s' <- replace_multiply limit k inst s; scan limit count' (S k) s'
          | _ => scan limit count' (S k) s
          end
      end
  end.
(** strength_reduction_pass.cpp:54-62  Process *)
Definition strength_reduction (limit : N) (m : smodule) : sres smodule :=
  dos s <- scan limit (length (sm_body m)) 0 (initial_state m); SOk (ss_module s).
