(** What the binding numbers are after conflicts are resolved. *)
From Verif Require Import Base ResolveBindings.
Local Open Scope N_scope.

(** [f] calls [g], directly or not *)
Inductive reaches (calls : N -> list N) (f : N) : N -> Prop :=
| R_self : reaches calls f f
| R_call g h : In g (calls f) -> reaches calls g h -> reaches calls f h.
(** the function, or one that it calls, uses the variable *)
Definition needs (m : module) (f : N) (v : var) : Prop := In v (m_vars m) /\ exists g, reaches (m_calls m) f g /\ m_uses m g (v_id v) = true.
(** the variables are in the same descriptor set, and needed by the same entry point *)
Definition together (m : module) (v w : var) : Prop := v_set v = v_set w /\ exists e, In e (m_entries m) /\ needs m e v /\ needs m e w.
(** the order of variables: by binding number, samplers behind other variables, then by id *)
Definition before (b : bindings) (v w : var) : Prop :=
  b (v_id v) < b (v_id w) \/
  (b (v_id v) = b (v_id w) /\ ((v_type v <> SAMPLER /\ v_type w = SAMPLER) \/ ((v_type v = SAMPLER <-> v_type w = SAMPLER) /\ v_id v < v_id w))).
(** ids are unique, called functions exist, and there is no recursion *)
Record valid (m : module) : Prop := {
  va_ids : NoDup (map v_id (m_vars m));
  va_entries : incl (m_entries m) (m_functions m);
  va_calls : forall f, In f (m_functions m) -> incl (m_calls m f) (m_functions m);
  va_recursion : exists depth : N -> nat, forall f g, In g (m_calls m f) -> (depth g < depth f)%nat }.
(** [b'] resolves the conflicts of [b] *)
Record resolved (m : module) (b b' : bindings) : Prop := {
  re_order : forall v w, together m v w -> before b v w -> b' (v_id v) < b' (v_id w);
  re_grows : forall v, In v (m_vars m) -> b (v_id v) <= b' (v_id v) }.
(** there is room above the binding numbers *)
Definition room (m : module) (b : bindings) : Prop := forall v, In v (m_vars m) -> b (v_id v) + N.of_nat (length (m_vars m)) <= 4294967296.
