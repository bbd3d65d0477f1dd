(** Which functions can be reached by calls, and which variables are used. *)
From Verif Require Import Base CallTree.
Local Open Scope N_scope.

Definition opt (o : option N) : list N := match o with Some x => [x] | None => [] end.
Definition given (o : option N) : bool := match o with Some _ => true | None => false end.
(** The operands of a load from a tensor: pointer, object, layout, memory operands, tensor addressing operands.  An operand follows the mask for each bit that asks for one, in the order of the bits.
    Memory operands with further operands of their own (such as AliasScopeINTEL) are not among these. *)
Record load := { l_pointer : N; l_object : N; l_layout : N; l_memory : N; l_aligned : option N; l_available : option N; l_visible : option N;
  l_tensor : N; l_view : option N; l_decode : option N; l_vector : option N }.
Record load_ok (l : load) : Prop := {
  lo_aligned : N.testbit (l_memory l) 1 = given (l_aligned l);
  lo_available : N.testbit (l_memory l) 3 = given (l_available l);
  lo_visible : N.testbit (l_memory l) 4 = given (l_visible l);
  lo_view : N.testbit (l_tensor l) 0 = given (l_view l);
  lo_decode : N.testbit (l_tensor l) 1 = given (l_decode l);
  lo_vector : N.testbit (l_tensor l) 2 = given (l_vector l) }.
Definition load_words (l : load) : list N :=
  [l_pointer l; l_object l; l_layout l; l_memory l] ++ opt (l_aligned l) ++ opt (l_available l) ++ opt (l_visible l) ++ [l_tensor l] ++ opt (l_view l) ++ opt (l_decode l) ++ opt (l_vector l).
(** the instruction calls the function *)
Inductive calls_inst (g : N) : inst -> Prop :=
| Ca_call l x : calls_inst g (mkinst Call (g :: l) x)
| Ca_element a l x : calls_inst g (mkinst PerElement (a :: g :: l) x)
| Ca_reduce a b l x : calls_inst g (mkinst Reduce (a :: b :: g :: l) x)
| Ca_decode l x : load_ok l -> l_decode l = Some g -> calls_inst g (mkinst LoadTensor (load_words l) x)
| Ca_vector l x : load_ok l -> l_vector l = Some g -> calls_inst g (mkinst LoadTensor (load_words l) x).
(** an instruction with the operands it must have *)
Inductive inst_ok : inst -> Prop :=
| Ok_call g l x : inst_ok (mkinst Call (g :: l) x)
| Ok_element a g l x : inst_ok (mkinst PerElement (a :: g :: l) x)
| Ok_reduce a b g l x : inst_ok (mkinst Reduce (a :: b :: g :: l) x)
| Ok_load l x : load_ok l -> inst_ok (mkinst LoadTensor (load_words l) x)
| Ok_other l x : inst_ok (mkinst OtherOp l x).
(** calls, direct or not *)
Inductive calls (m : module) (f : N) : N -> Prop :=
| Ca_self : calls m f f
| Ca_step fn i g h : In fn (m_funcs m) -> f_id fn = f -> In i (f_insts fn) -> calls_inst g i -> calls m g h -> calls m f h.
(** the function of an entry point, and its interface *)
Definition e_function (e : entry) : N := nth (if e_cond e then 2 else 1)%nat (e_ops e) 0.
Definition e_interface (e : entry) : list N := skipn (if e_cond e then 4 else 3)%nat (e_ops e).
(** functions have different ids, and what is called is a function *)
Record valid (m : module) : Prop := {
  va_ids : NoDup (map f_id (m_funcs m));
  va_insts : forall f i, In f (m_funcs m) -> In i (f_insts f) -> inst_ok i;
  va_calls : forall f i g, In f (m_funcs m) -> In i (f_insts f) -> calls_inst g i -> In g (map f_id (m_funcs m));
  va_entries : forall e, In e (m_entries m) -> In (e_function e) (map f_id (m_funcs m)) }.
(** the function can be called from outside, or by a function that can *)
Definition reachable (m : module) (f : N) : Prop := exists r, ((exists e, In e (m_entries m) /\ e_function e = r) \/ In r (m_exports m) /\ In r (map f_id (m_funcs m))) /\ calls m r f.
(** a variable that must be in the interface, if it is used: not of a function; before version 1.4 inputs and outputs only *)
Definition listed (m : module) (x : N) : Prop := exists c, m_var m x = Some c /\ c <> 7 /\ (m_v14 m = true \/ c = 1 \/ c = 3).
(** the entry point uses the id *)
Definition uses (m : module) (e : entry) (x : N) : Prop := exists fn i, calls m (e_function e) (f_id fn) /\ In fn (m_funcs m) /\ In i (f_insts fn) /\ In x (ids i).
