(** Specification for the linker, in terms of module sections and ids only. *)
From Verif Require Import Base OperandTypes IrModule IrSpec Words Linker.
Local Open Scope N_scope.

(** ** Keeping modules apart *)
Definition all_ids (m : lmodule) : list N := insts_ids (module_insts m).
(** The bound of a module's header is above its ids, and the ids are nonzero words. *)
Definition consistent (m : lmodule) : Prop :=
  1 <= id_bound m < 2 ^ 32 /\ (forall id, In id (all_ids m) -> 0 < id < id_bound m) /\
  Forall (fun i => ids_are_words (body i)) (module_insts m).
(** No id occurs in an attached line instruction or a debug scope. *)
Definition no_line_ids (m : lmodule) : Prop :=
  Forall (fun i => lexical_scope (body i) = 0 /\ inlined_at (body i) = 0 /\ Forall (fun l => line_ids l = []) (lines i)) (module_insts m).
Fixpoint map2 {A B C} (f : A -> B -> C) (l : list A) (l' : list B) : list C :=
  match l, l' with a :: l, b :: l' => f a b :: map2 f l l' | _, _ => [] end.
(** Each module with the ids renamed by its own function. *)
Definition renamed (fs : list (N -> N)) (ms : list lmodule) : list lmodule :=
  map2 (fun f m => for_each_inst (rename_inst f) m) fs ms.
(** Every section of [m] is the concatenation of that section of the modules [ms]; one instruction may have been added at the end
    of the last debug section; the memory model is the first module's. *)
Definition merged (ms : list lmodule) (m : lmodule) : Prop :=
  capabilities m = flat_map capabilities ms /\ extensions m = flat_map extensions ms /\
  ext_inst_imports m = flat_map ext_inst_imports ms /\ memory_model m = hd None (map memory_model ms) /\
  entry_points m = flat_map entry_points ms /\ execution_modes m = flat_map execution_modes ms /\
  debugs1 m = flat_map debugs1 ms /\ debugs2 m = flat_map debugs2 ms /\
  (exists extra, debugs3 m = flat_map debugs3 ms ++ extra /\ insts_ids extra = [] /\ (length extra <= 1)%nat) /\
  annotations m = flat_map annotations ms /\ types_values m = flat_map types_values ms /\ functions m = flat_map functions ms.

(** What linking requires. *)
Definition sum_bounds (ms : list lmodule) : N := fold_right (fun m s => id_bound m - 1 + s) 1 ms.
Definition memory_model_words (m : lmodule) : option (N * N) :=
  match memory_model m with
  | Some i => match operands (body i) with (_, [a]) :: (_, [b]) :: _ => Some (a, b) | _ => None end
  | None => None
  end.
Definition entry_point_name (i : inst) : option (N * list N) :=
  match operands (body i) with (_, [model]) :: _ :: (_, ws) :: _ => Some (model, fst (make_string ws)) | _ => None end.
(** The shape of OpEntryPoint and OpMemoryModel. *)
Definition entry_point_shape (i : inst) : Prop :=
  opcode (body i) <> OpConditionalEntryPointINTEL /\
  exists t model f ws rest, operands (body i) = (t, [model]) :: (T_ID, [f]) :: (T_LITERAL_STRING, ws) :: rest /\ is_id_type t = false.
Definition memory_model_shape (i : inst) : Prop :=
  exists t1 a t2 b, operands (body i) = [(t1, [a]); (t2, [b])] /\ is_id_type t1 = false /\ is_id_type t2 = false.
Definition shapes (m : lmodule) : Prop :=
  Forall entry_point_shape (entry_points m) /\ (forall i, memory_model m = Some i -> memory_model_shape i).
Definition linkable (use_highest : bool) (ms : list lmodule) : Prop :=
  ms <> [] /\ sum_bounds ms < 2 ^ 32 /\
  (use_highest = true \/ exists v, Forall (fun m => version m = v) ms) /\
  (exists ab, Forall (fun m => memory_model_words m = Some ab) ms) /\
  NoDup (map entry_point_name (flat_map entry_points ms)).

(** ** Resolving symbols *)
(** The id an instruction such as OpName or OpDecorate is about. *)
Definition first_id (i : inst) : option N := match operands (body i) with (T_ID, [x]) :: _ => Some x | _ => None end.
Definition decorates (i : inst) : Prop :=
  opcode (body i) = OpDecorate \/ opcode (body i) = OpDecorateId \/ opcode (body i) = OpDecorateString \/ opcode (body i) = OpMemberDecorate.
Definition names (i : inst) : Prop := opcode (body i) = OpName \/ opcode (body i) = OpMemberName.
(** [OpDecorate id LinkageAttributes "name" kind]. *)
Definition linkage_decoration (i : inst) (id : N) (name : list N) (kind : N) : Prop :=
  opcode (body i) = OpDecorate /\
  exists t1 ws t2, operands (body i) = [(T_ID, [id]); (t1, [DecorationLinkageAttributes]); (T_LITERAL_STRING, ws); (t2, [kind])] /\
    is_id_type t1 = false /\ is_id_type t2 = false /\ name = fst (make_string ws).
(** [id] is decorated with BuiltIn. *)
Definition built_in (m : lmodule) (id : N) : Prop :=
  exists i t1 rest, In i (annotations m) /\ opcode (body i) <> OpMemberDecorate /\ operands (body i) = (T_ID, [id]) :: (t1, [DecorationBuiltIn]) :: rest.
(** [id] is linked as [kind] under [name] by the annotation [i]; built-ins are not linked. *)
Definition links_by (m : lmodule) (i : inst) (id : N) (name : list N) (kind : N) : Prop :=
  linkage_decoration i id name kind /\ ~ built_in m id.
Definition links (m : lmodule) (id : N) (name : list N) (kind : N) : Prop := exists i, In i (annotations m) /\ links_by m i id name kind.

(** The shape of decorations, names and capabilities (decoration groups are excluded); ids are defined once; a linkage decoration is on a
    nonzero id, there is one of them per id, and its target has no member decorations. *)
Definition decoration_shape (i : inst) : Prop :=
  decorates i /\ exists id t1 d rest, operands (body i) = (T_ID, [id]) :: (t1, [d]) :: rest /\ is_id_type t1 = false /\
    (opcode (body i) = OpDecorate -> d = DecorationLinkageAttributes -> exists name kind, linkage_decoration i id name kind).
Definition well_formed (m : lmodule) : Prop :=
  Forall decoration_shape (annotations m) /\
  Forall (fun i => names i -> exists id rest, operands (body i) = (T_ID, [id]) :: rest) (debugs2 m) /\
  Forall (fun i => exists t c, operands (body i) = [(t, [c])] /\ is_id_type t = false) (capabilities m) /\
  (forall d1 d2, In d1 (module_insts m) -> In d2 (module_insts m) -> result_id (body d1) = result_id (body d2) -> result_id (body d1) <> 0 -> d1 = d2) /\
  Forall (fun f => opcode (body (f_def f)) = OpFunction) (functions m) /\
  (forall i id name kind, In i (annotations m) -> linkage_decoration i id name kind -> id <> 0) /\
  (forall k1 k2 i1 i2 id n1 kind1 n2 kind2, nth_error (annotations m) k1 = Some i1 -> nth_error (annotations m) k2 = Some i2 ->
     linkage_decoration i1 id n1 kind1 -> linkage_decoration i2 id n2 kind2 -> k1 = k2) /\
  (forall i j id name kind, In i (annotations m) -> In j (annotations m) -> linkage_decoration i id name kind ->
     opcode (body j) = OpMemberDecorate -> first_id j <> Some id) /\
  Forall (fun i => Forall ids_are_words (body i :: lines i)) (module_insts m).

(** The type of a symbol; symbols are the ids of global variables and of functions. *)
Definition symbol_type (m : lmodule) (id t : N) : Prop :=
  exists d, In d (module_insts m) /\ result_id (body d) = id /\
    ((opcode (body d) = OpVariable /\ t = type_id (body d)) \/ (opcode (body d) = OpFunction /\ single_word_in_operand (body d) 1 = Ok t)).

(** Who provides [name]: whoever exports it, or the first that is marked link-once. *)
Definition first_link_once (m : lmodule) (name : list N) (e : N) : Prop :=
  exists l1 i l2, annotations m = l1 ++ i :: l2 /\ links_by m i e name LinkageLinkOnceODR /\
    forall j id, In j l1 -> ~ links_by m j id name LinkageLinkOnceODR.
Definition provides (m : lmodule) (name : list N) (e : N) : Prop :=
  links m e name LinkageExport \/ first_link_once m name e.

(** Two ids have the same decorations, linkage aside: the same sets of (kind of decoration, words after the target). *)
Definition has_decoration (m : lmodule) (id op : N) (ws : list N) : Prop :=
  exists i rest, In i (annotations m) /\ opcode (body i) = op /\ operands (body i) = (T_ID, [id]) :: rest /\
    ~ (exists name kind, linkage_decoration i id name kind) /\ ws = flat_map snd rest.
Definition same_decorations (m : lmodule) (a b : N) : Prop := forall op ws, has_decoration m a op ws <-> has_decoration m b op ws.

(** The condition for success: only symbols are linked, a name has one exporter, which excludes link-once definitions of it, every import
    has a provider (unless linking is partial), and import and provider agree in type and decorations. *)
Definition resolvable (types_match : lmodule -> N -> N -> bool) (allow_partial : bool) (m : lmodule) : Prop :=
  (forall id name kind, links m id name kind -> exists t, symbol_type m id t) /\
  (forall a b name, links m a name LinkageExport -> links m b name LinkageExport -> a = b) /\
  (forall a b name, links m a name LinkageExport -> ~ links m b name LinkageLinkOnceODR) /\
  (allow_partial = true \/ forall id name, links m id name LinkageImport -> exists e, provides m name e) /\
  (forall id name e t t', links m id name LinkageImport -> provides m name e ->
     symbol_type m id t -> symbol_type m e t' -> types_match m t t' = true) /\
  (forall id name e, links m id name LinkageImport -> provides m name e -> same_decorations m id e).

(** Replacing ids where they are used, not where they are defined. *)
Definition subst_operand (s : N -> N) (o : ir_operand) : ir_operand :=
  match fst o with T_RESULT_ID => o | t => if is_id_type t then (t, map s (snd o)) else o end.
Definition subst_line (s : N -> N) (l : line) : line :=
  mkLine (opcode l) (map (subst_operand s) (operands l)) (lexical_scope l) (inlined_at l).
Definition subst_inst (s : N -> N) (i : inst) : inst := mkInst (subst_line s (body i)) (map (subst_line s) (lines i)).

(** [without P l l']: [l'] is what is left of [l] when exactly the elements with [P] go. *)
Inductive without {A} (P : A -> Prop) : list A -> list A -> Prop :=
| w_nil : without P [] []
| w_drop a l l' : P a -> without P l l' -> without P (a :: l) l'
| w_keep a l l' : ~ P a -> without P l l' -> without P (a :: l) (a :: l').

(** [s] sends exactly the imports with a provider to their provider. *)
Definition resolution (m : lmodule) (s : N -> N) : Prop :=
  (forall id name e, links m id name LinkageImport -> provides m name e -> s id = e) /\
  (forall id, s id <> id -> exists name, links m id name LinkageImport /\ provides m name (s id)).
(** A replaced import, or a parameter of a replaced function. *)
Definition dropped_id (m : lmodule) (s : N -> N) (id : N) : Prop :=
  s id <> id \/ exists f p, In f (functions m) /\ s (result_id (body (f_def f))) <> result_id (body (f_def f)) /\
                          In p (f_params f) /\ id = result_id (body p).
Definition dropped_annotation (create_library allow_partial : bool) (m : lmodule) (s : N -> N) (i : inst) : Prop :=
  (exists id, first_id i = Some id /\ dropped_id m s id) \/
  (allow_partial = false /\ exists id name, linkage_decoration i id name LinkageImport) \/
  (create_library = false /\ exists id name kind, linkage_decoration i id name kind /\ (kind = LinkageExport \/ kind = LinkageLinkOnceODR)).
Definition linkage_capability (i : inst) : Prop := exists t, operands (body i) = [(t, [CapabilityLinkage])].
(** The linked module: imports with a provider are replaced by it wherever they are used; their definitions, names and
    decorations are gone, as are the import decorations (unless linking is partial), and, in an executable, the export decorations and
    (unless linking is partial) the first Linkage capability. *)
Definition linked (create_library allow_partial : bool) (m m' : lmodule) (s : N -> N) : Prop :=
  let sub := map (subst_inst s) in
  version m' = version m /\ id_bound m' = id_bound m /\
  extensions m' = sub (extensions m) /\ ext_inst_imports m' = sub (ext_inst_imports m) /\
  memory_model m' = option_map (subst_inst s) (memory_model m) /\
  sampled_image_address_mode m' = option_map (subst_inst s) (sampled_image_address_mode m) /\
  entry_points m' = sub (entry_points m) /\ graph_entry_points m' = sub (graph_entry_points m) /\ execution_modes m' = sub (execution_modes m) /\
  debugs1 m' = sub (debugs1 m) /\ debugs3 m' = sub (debugs3 m) /\ graphs m' = map sub (graphs m) /\
  (exists d, without (fun i => names i /\ exists id, first_id i = Some id /\ dropped_id m s id) (debugs2 m) d /\ debugs2 m' = sub d) /\
  (exists d, without (dropped_annotation create_library allow_partial m s) (annotations m) d /\ annotations m' = sub d) /\
  (exists d, without (fun i => s (result_id (body i)) <> result_id (body i)) (types_values m) d /\ types_values m' = sub d) /\
  (exists d, without (fun f => s (result_id (body (f_def f))) <> result_id (body (f_def f))) (functions m) d /\
     functions m' = map (map_func (subst_inst s)) d) /\
  (create_library = true \/ allow_partial = true -> capabilities m' = sub (capabilities m)) /\
  (create_library = false /\ allow_partial = false ->
     capabilities m' = sub (capabilities m) /\ Forall (fun i => ~ linkage_capability i) (capabilities m) \/
     exists l1 c l2, capabilities m = l1 ++ c :: l2 /\ Forall (fun i => ~ linkage_capability i) l1 /\ linkage_capability c /\
       capabilities m' = sub (l1 ++ l2)).
