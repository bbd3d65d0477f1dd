(** What the manager of definitions and uses should answer: the definitions registered, and the uses in the instructions
    analysed. *)
From Coq Require Import Sorting.Sorted.
From Verif Require Import Base OperandTypes DefUse.
Local Open Scope N_scope.

(** Operand number [k] of an instruction is a use of [id]. *)
Definition uses_at (c : content) (k id : N) : Prop :=
  exists t, nth_error (c_operands c) (N.to_nat k) = Some (t, id) /\ In t [T_ID; T_TYPE_ID; T_MEMORY_SEMANTICS_ID; T_SCOPE_ID].
Definition mentions (c : content) (id : N) : Prop := exists k, uses_at c k id.

(** The instructions, which of them defines each id, and the instructions analysed, each with its content at that
    time. *)
Record sstate := mkS { s_heap : heap; s_defs : N -> option N; s_analysed : N -> option content }.
Definition s_start : sstate := mkS empty_heap (fun _ => None) (fun _ => None).

(** ** The calls *)
Definition s_change (s : sstate) (i : N) (c : content) : sstate := mkS (upd (s_heap s) i c) (s_defs s) (s_analysed s).
(** Clearing an instruction that has been analysed forgets it and its definition. *)
Definition s_clear (s : sstate) (i : N) : sstate :=
  match s_analysed s i with
  | None => s
  | Some _ => mkS (s_heap s) (if c_result (s_heap s i) =? 0 then s_defs s else upd (s_defs s) (c_result (s_heap s i)) None)
                  (upd (s_analysed s) i None)
  end.
(** Registering a definition forgets the one it replaces. *)
Definition s_def (s : sstate) (i : N) : sstate :=
  let r := c_result (s_heap s i) in
  if r =? 0 then s_clear s i
  else let s := match s_defs s r with Some j => s_clear s j | None => s end in
       mkS (s_heap s) (upd (s_defs s) r (Some i)) (s_analysed s).
Definition s_use (s : sstate) (i : N) : sstate := mkS (s_heap s) (s_defs s) (upd (s_analysed s) i (Some (s_heap s i))).

(** ** When they may be made *)
(** The result id of a registered definition may not change. *)
Definition change_ok (s : sstate) (i : N) (c : content) : Prop := i <> 0 /\ forall id, s_defs s id = Some i -> c_result c = id.
(** An instruction may be cleared unless another one is registered for its result id. *)
Definition clear_ok (s : sstate) (i : N) : Prop :=
  i <> 0 /\ (s_defs s (c_result (s_heap s i)) = Some i \/ s_defs s (c_result (s_heap s i)) = None).
(** A definition may be registered when no analysed instruction uses its id, other than the definition it replaces. *)
Definition def_ok (s : sstate) (i : N) : Prop :=
  i <> 0 /\
  let r := c_result (s_heap s i) in
  r <> 0 -> forall u c, s_analysed s u = Some c -> mentions c r -> s_defs s r = Some u.
(** The ids used must be registered. *)
Definition use_ok (s : sstate) (i : N) : Prop := i <> 0 /\ forall id, mentions (s_heap s i) id -> s_defs s id <> None.

Inductive spec_lines : sstate -> list N -> sstate -> Prop :=
| Lines_nil : forall s, spec_lines s [] s
| Lines_cons : forall s i is s', def_ok s i -> use_ok (s_def s i) i -> spec_lines (s_use (s_def s i) i) is s' -> spec_lines s (i :: is) s'.
Inductive spec_step : sstate -> call -> sstate -> Prop :=
| Spec_Change : forall s i c, change_ok s i c -> spec_step s (Change i c) (s_change s i c)
| Spec_Def : forall s i, def_ok s i -> spec_step s (AnalyzeInstDef i) (s_def s i)
| Spec_Use : forall s i, use_ok s i -> spec_step s (AnalyzeInstUse i) (s_use s i)
| Spec_DefUse : forall s i s', spec_lines s (i :: c_lines (s_heap s i)) s' -> spec_step s (AnalyzeInstDefUse i) s'
| Spec_Update_new : forall s i, c_result (s_heap s i) <> 0 -> s_defs s (c_result (s_heap s i)) = None ->
    def_ok s i -> use_ok (s_def s i) i -> spec_step s (UpdateDefUse i) (s_use (s_def s i) i)
| Spec_Update_known : forall s i, (c_result (s_heap s i) = 0 \/ s_defs s (c_result (s_heap s i)) <> None) ->
    use_ok s i -> spec_step s (UpdateDefUse i) (s_use s i)
| Spec_Clear : forall s i, clear_ok s i -> spec_step s (ClearInst i) (s_clear s i).
Inductive spec_steps : sstate -> list call -> sstate -> Prop :=
| Spec_nil : forall s, spec_steps s [] s
| Spec_cons : forall s c s1 cs s2, spec_step s c s1 -> spec_steps s1 cs s2 -> spec_steps s (c :: cs) s2.

(** ** What the manager answers *)
Definition answers (s : sstate) (m : manager) : Prop :=
  (forall id, get_def m id = match s_defs s id with Some d => d | None => 0 end) /\
  forall id d, s_defs s id = Some d ->
    (exists us,
       for_each_user (s_heap s) m d = Some us /\ StronglySorted N.lt us /\
       (forall u, In u us <-> exists c, s_analysed s u = Some c /\ mentions c id) /\
       num_users (s_heap s) m d = Some (N.of_nat (length us) mod 2 ^ 32)) /\
    (exists ps,
       for_each_use (s_heap s) m d = Some ps /\
       StronglySorted (fun a b => fst a < fst b \/ (fst a = fst b /\ snd a < snd b)) ps /\
       num_uses (s_heap s) m d = Some (N.of_nat (length ps) mod 2 ^ 32) /\
       ((forall u c, s_analysed s u = Some c -> c = s_heap s u) ->
        forall u k, In (u, k) ps <-> s_analysed s u <> None /\ uses_at (s_heap s u) k id)).
