(** Model of source/link/linker.cpp: the phases of Link that shift, merge and resolve (1, 2, 3, 5, 6, 7, 8 and 9).

    Simplifications: debug info instructions (OpenCL.DebugInfo.100, NonSemantic.Shader.DebugInfo.100), decoration
    groups (which the linker's own comments exclude) and function variants are left out; the analyses (definitions,
    uses, names, decorations) are computed from the module whenever they are asked for; when several
    errors of one kind are possible, which of them is reported first is not modelled.  The equality of types is a
    parameter. *)
From Verif Require Import Base OperandTypes IrModule Words.
Local Open Scope N_scope.

(** ** Modules *)
(** function.h:39-60: OpFunction, the parameters, and everything after them. *)
Record func := mkFunc { f_def : inst; f_params : list inst; f_rest : list inst }.
(** module.h:30-43 and 320-345, in the order in which module.cpp:88-115 visits the sections. *)
Record lmodule := mkLinkModule {
  version : N;
  id_bound : N;
  capabilities : list inst;
  extensions : list inst;
  ext_inst_imports : list inst;
  memory_model : option inst;
  sampled_image_address_mode : option inst;
  entry_points : list inst;
  graph_entry_points : list inst;
  execution_modes : list inst;
  debugs1 : list inst;
  debugs2 : list inst;
  debugs3 : list inst;
  annotations : list inst;
  types_values : list inst;
  functions : list func;
  graphs : list (list inst) }.
Definition func_insts (f : func) : list inst := f_def f :: f_params f ++ f_rest f.
Definition opt_list {A} (o : option A) : list A := match o with Some a => [a] | None => [] end.
(** module.cpp:88-115 the order of ForEachInst *)
Definition module_insts (m : lmodule) : list inst :=
  capabilities m ++ extensions m ++ ext_inst_imports m ++ opt_list (memory_model m) ++
  opt_list (sampled_image_address_mode m) ++ entry_points m ++ graph_entry_points m ++ execution_modes m ++ debugs1 m ++
  debugs2 m ++ debugs3 m ++ annotations m ++ types_values m ++ flat_map func_insts (functions m) ++ concat (graphs m).
Definition map_func (f : inst -> inst) (g : func) : func := mkFunc (f (f_def g)) (map f (f_params g)) (map f (f_rest g)).
(** What ForEachInst does to a module when [f] is what it does to an instruction. *)
Definition for_each_inst (f : inst -> inst) (m : lmodule) : lmodule :=
  mkLinkModule (version m) (id_bound m) (map f (capabilities m)) (map f (extensions m)) (map f (ext_inst_imports m))
    (option_map f (memory_model m)) (option_map f (sampled_image_address_mode m)) (map f (entry_points m))
    (map f (graph_entry_points m)) (map f (execution_modes m)) (map f (debugs1 m)) (map f (debugs2 m)) (map f (debugs3 m))
    (map f (annotations m)) (map f (types_values m)) (map (map_func f) (functions m)) (map (map f) (graphs m)).

(** ** Results *)
(** The errors Link reports. *)
Inductive link_error :=
| NoModules | TooManyIds | BoundIsZero | VersionConflict | MemoryModelMissing | AddressingModelConflict | MemoryModelConflict
| EntryPointRedefined | SymbolNeverDefined | NotASymbol | ExportAndLinkOnce | TooManyExports | Unresolved
| TypeMismatch | DecorationMismatch.
(** [Fault]: an assertion of the instruction accessors fails (an operand is missing or has another size). *)
Inductive outcome (A : Type) := Ok (a : A) | Failed (e : link_error) | Fault.
Arguments Ok {A} a. Arguments Failed {A} e. Arguments Fault {A}.
Definition bind {A B} (o : outcome A) (f : A -> outcome B) : outcome B :=
  match o with Ok a => f a | Failed e => Failed e | Fault => Fault end.
Notation "x <- o ; k" := (bind o (fun x => k)) (at level 100, o at next level, right associativity).

(** ** Accessors *)
(** SPIR-V's own numbers (they come from the SPIR-V headers). *)
Definition OpDecorate := 71. Definition OpMemberDecorate := 72. Definition OpDecorateId := 332. Definition OpDecorateString := 5632.
Definition OpName := 5. Definition OpMemberName := 6. Definition OpVariable := 59. Definition OpFunction := 54.
Definition OpConditionalEntryPointINTEL := 6249. Definition OpModuleProcessed := 330.
Definition DecorationBuiltIn := 11. Definition DecorationLinkageAttributes := 41.
Definition LinkageExport := 0. Definition LinkageImport := 1. Definition LinkageLinkOnceODR := 2.
Definition CapabilityLinkage := 5.

(** instruction.h:244-249 type_id and result_id *)
Definition type_result_id_count (l : line) : nat :=
  match operands l with
  | (T_TYPE_ID, _) :: (T_RESULT_ID, _) :: _ => 2
  | (T_TYPE_ID, _) :: _ | (T_RESULT_ID, _) :: _ => 1
  | _ => 0
  end.
Definition result_id (l : line) : N :=
  match operands l with
  | (T_TYPE_ID, _) :: (T_RESULT_ID, [w]) :: _ | (T_RESULT_ID, [w]) :: _ => w
  | _ => 0
  end.
Definition type_id (l : line) : N := match operands l with (T_TYPE_ID, [w]) :: _ => w | _ => 0 end.
(** instruction.cpp:183-187 *)
Definition single_word_operand (l : line) (i : nat) : outcome N :=
  match nth_error (operands l) i with Some (_, [w]) => Ok w | _ => Fault end.
(** instruction.h:363-365 *)
Definition single_word_in_operand (l : line) (i : nat) : outcome N := single_word_operand l (i + type_result_id_count l).
(** instruction.h:102-105 AsString *)
Definition operand_string (l : line) (i : nat) : outcome (list N) :=
  match nth_error (operands l) i with Some (T_LITERAL_STRING, ws) => Ok (fst (make_string ws)) | _ => Fault end.

(** ** Phase 1: linker.cpp:164-206 ShiftIdsInModules *)
(** instruction.h:798-801 ForEachId with the lambda of linker.cpp:197 *)
Definition shift_operand (offset : N) (o : ir_operand) : ir_operand :=
  match o with
  | (t, w :: ws) => if is_id_type t then (t, (w + offset) mod 2 ^ 32 :: ws) else o
  | _ => o
  end.
(** linker.cpp:196-198; ForEachInst is called without run_on_debug_line_insts, so the attached line instructions are not visited *)
Definition shift_inst (offset : N) (i : inst) : inst :=
  mkInst (mkLine (opcode (body i)) (map (shift_operand offset) (operands (body i))) (lexical_scope (body i)) (inlined_at (body i))) (lines i).
(** [bound - 1u] on 32 bits *)
Definition bound_minus_1 (m : lmodule) : N := (id_bound m + (2 ^ 32 - 1)) mod 2 ^ 32.
(** linker.cpp:193-203 *)
Fixpoint shift_rest (offset : N) (ms : list lmodule) : list lmodule :=
  match ms with
  | [] => []
  | m :: ms' => for_each_inst (shift_inst offset) m :: shift_rest ((offset + bound_minus_1 m) mod 2 ^ 32) ms'
  end.
(** linker.cpp:179-183, on 64 bits *)
Definition total_bound (ms : list lmodule) : N :=
  fold_left (fun acc m => (acc + id_bound m + (2 ^ 64 - 1)) mod 2 ^ 64) ms 1.
Definition shift_ids_in_modules (ms : list lmodule) : outcome (list lmodule * N) :=
  match ms with
  | [] => Failed NoModules
  | m :: ms' =>
      let bound := total_bound ms in
      if 2 ^ 32 - 1 <? bound then Failed TooManyIds
      else Ok (m :: shift_rest (bound_minus_1 m) ms', bound)
  end.

(** ** Phase 2: linker.cpp:208-245 GenerateHeader: the version *)
Fixpoint linked_version (use_highest : bool) (v : N) (ms : list lmodule) : outcome N :=
  match ms with
  | [] => Ok v
  | m :: ms' =>
      if use_highest then linked_version use_highest (N.max v (version m)) ms'
      else if version m =? v then linked_version use_highest v ms' else Failed VersionConflict
  end.
Definition generate_header (use_highest : bool) (ms : list lmodule) (bound : N) : outcome (N * N) :=
  match ms with
  | [] => Failed NoModules
  | m :: ms' => if bound =? 0 then Failed BoundIsZero else v <- linked_version use_highest (version m) ms'; Ok (v, bound)
  end.

(** ** Phase 3: linker.cpp:247-413 MergeModules *)
(** linker.cpp:284-322: every other module has the first module's addressing and memory model *)
Fixpoint check_memory_models (addressing memory : N) (ms : list lmodule) : outcome unit :=
  match ms with
  | [] => Ok tt
  | m :: ms' =>
      match memory_model m with
      | None => Failed MemoryModelMissing
      | Some i =>
          a <- single_word_operand (body i) 0;
          if negb (a =? addressing) then Failed AddressingModelConflict else
          b <- single_word_operand (body i) 1;
          if negb (b =? memory) then Failed MemoryModelConflict else check_memory_models addressing memory ms'
      end
  end.
(** linker.cpp:329-333 the execution model and the name of an entry point *)
Definition entry_point_key (i : inst) : outcome (N * list N) :=
  model <- single_word_in_operand (body i) 0;
  name <- operand_string (body i) (if opcode (body i) =? OpConditionalEntryPointINTEL then 3 else 2);
  Ok (model, name).
Definition key_eqb (a b : N * list N) : bool := (fst a =? fst b) && (if list_eq_dec N.eq_dec (snd a) (snd b) then true else false).
(** linker.cpp:326-351 *)
Fixpoint check_entry_points (seen : list (N * list N)) (is : list inst) : outcome unit :=
  match is with
  | [] => Ok tt
  | i :: is' =>
      k <- entry_point_key i;
      if existsb (key_eqb k) seen then Failed EntryPointRedefined else check_entry_points (seen ++ [k]) is'
  end.
(** linker.cpp:380-387: OpModuleProcessed from version 1.1 on; [text] is its string as words *)
Definition module_processed (text : list N) (v : N) : list inst :=
  if 0x00010100 <=? v then [mkInst (mkLine OpModuleProcessed [(T_LITERAL_STRING, text)] 0 0) []] else [].
Definition merge_modules (text : list N) (v bound : N) (ms : list lmodule) : outcome lmodule :=
  match ms with
  | [] => Failed NoModules
  | m :: ms' =>
      match memory_model m with
      | None => Failed MemoryModelMissing
      | Some i =>
          a <- single_word_operand (body i) 0;
          b <- single_word_operand (body i) 1;
          _ <- check_memory_models a b ms';
          _ <- check_entry_points [] (flat_map entry_points ms);
          Ok (mkLinkModule v bound (flat_map capabilities ms) (flat_map extensions ms) (flat_map ext_inst_imports ms)
                (Some i) None (flat_map entry_points ms) [] (flat_map execution_modes ms) (flat_map debugs1 ms)
                (flat_map debugs2 ms) (flat_map debugs3 ms ++ module_processed text v)
                (flat_map annotations ms) (flat_map types_values ms) (flat_map functions ms) [])
      end
  end.

(** Phases 1 to 3, linker.cpp:889-908. *)
Definition link_merge (use_highest : bool) (text : list N) (ms : list lmodule) : outcome lmodule :=
  r <- shift_ids_in_modules ms;
  h <- generate_header use_highest (fst r) (snd r);
  merge_modules text (fst h) (snd h) (fst r).

(** ** Phase 5: linker.cpp:415-540 GetImportExportPairs *)
(** linker.cpp:61-68 *)
Record symbol := mkSymbol { s_id : N; s_type : N; s_name : list N; s_params : list N }.
(** def_use_manager.cpp:21-34: the last instruction visited that defines [id] *)
Definition get_def (m : lmodule) (id : N) : option inst :=
  find (fun i => (result_id (body i) =? id) && negb (id =? 0)) (rev (module_insts m)).
(** decoration_manager.cpp:376-386 the direct decorations of [id] *)
Definition is_decoration (l : line) : bool :=
  (opcode l =? OpDecorate) || (opcode l =? OpDecorateId) || (opcode l =? OpDecorateString) || (opcode l =? OpMemberDecorate).
Definition targets (id : N) (i : inst) : bool :=
  match single_word_in_operand (body i) 0 with Ok w => w =? id | _ => false end.
Definition direct_decorations (m : lmodule) (id : N) : list inst :=
  filter (fun i => is_decoration (body i) && targets id i) (annotations m).
(** decoration_manager.cpp:438-443 *)
Definition is_linkage (i : inst) : bool :=
  (opcode (body i) =? OpDecorate) &&
  match single_word_in_operand (body i) 1 with Ok w => w =? DecorationLinkageAttributes | _ => false end.
(** decoration_manager.cpp:425-461 GetDecorationsFor, without the linkage attributes *)
Definition decorations_for (m : lmodule) (id : N) : list inst := filter (fun i => negb (is_linkage i)) (direct_decorations m id).
(** linker.cpp:440-451 *)
Definition is_built_in (m : lmodule) (id : N) : bool :=
  existsb (fun i => match single_word_in_operand (body i) 1 with Ok w => w =? DecorationBuiltIn | _ => false end) (decorations_for m id).
(** linker.cpp:473-481 *)
Definition parameter_ids (m : lmodule) (id : N) : list N :=
  flat_map (fun f => if result_id (body (f_def f)) =? id then map (fun p => result_id (body p)) (f_params f) else []) (functions m).
(** linker.cpp:460-486 *)
Definition symbol_info (m : lmodule) (id : N) (name : list N) : outcome symbol :=
  match get_def m id with
  | None => Failed SymbolNeverDefined
  | Some d =>
      if opcode (body d) =? OpVariable then Ok (mkSymbol id (type_id (body d)) name [])
      else if opcode (body d) =? OpFunction then
        t <- single_word_in_operand (body d) 1; Ok (mkSymbol id t name (parameter_ids m id))
      else Failed NotASymbol
  end.
Definition name_eqb (a b : list N) : bool := if list_eq_dec N.eq_dec a b then true else false.
(** [exports] maps a name to the symbols exported with it, in order; [linkonce] to the first one. *)
Record tables := mkTables { t_imports : list symbol; t_exports : list (list N * list symbol); t_linkonce : list (list N * symbol) }.
Fixpoint add_export (s : symbol) (l : list (list N * list symbol)) : list (list N * list symbol) :=
  match l with
  | [] => [(s_name s, [s])]
  | (n, ss) :: l' => if name_eqb n (s_name s) then (n, ss ++ [s]) :: l' else (n, ss) :: add_export s l'
  end.
Fixpoint lookup {A} (n : list N) (l : list (list N * A)) : option A :=
  match l with [] => None | (k, a) :: l' => if name_eqb k n then Some a else lookup n l' end.
(** linker.cpp:433-496 one annotation *)
Definition collect_one (m : lmodule) (t : tables) (i : inst) : outcome tables :=
  if negb (opcode (body i) =? OpDecorate) then Ok t else
  d <- single_word_in_operand (body i) 1;
  if negb (d =? DecorationLinkageAttributes) then Ok t else
  id <- single_word_in_operand (body i) 0;
  if is_built_in m id then Ok t else
  kind <- single_word_in_operand (body i) 3;
  name <- operand_string (body i) (2 + type_result_id_count (body i));
  s <- symbol_info m id name;
  if kind =? LinkageImport then Ok (mkTables (t_imports t ++ [s]) (t_exports t) (t_linkonce t))
  else if kind =? LinkageExport then Ok (mkTables (t_imports t) (add_export s (t_exports t)) (t_linkonce t))
  else if kind =? LinkageLinkOnceODR then
    match lookup name (t_linkonce t) with
    | None => Ok (mkTables (t_imports t) (t_exports t) (t_linkonce t ++ [(name, s)]))
    | Some _ => Ok t
    end
  else Ok t.
Fixpoint collect (m : lmodule) (t : tables) (is : list inst) : outcome tables :=
  match is with [] => Ok t | i :: is' => t <- collect_one m t i; collect m t is' end.
(** linker.cpp:498-506 *)
Fixpoint add_linkonce (l : list (list N * symbol)) (e : list (list N * list symbol)) : outcome (list (list N * list symbol)) :=
  match l with
  | [] => Ok e
  | (n, s) :: l' => match lookup n e with None => add_linkonce l' (e ++ [(n, [s])]) | Some _ => Failed ExportAndLinkOnce end
  end.
(** linker.cpp:526-537 *)
Fixpoint find_pairs (allow_partial : bool) (imports : list symbol) (e : list (list N * list symbol)) : outcome (list (symbol * symbol)) :=
  match imports with
  | [] => Ok []
  | i :: imports' =>
      match (match lookup (s_name i) e with Some l => l | None => [] end) with
      | [] => if allow_partial then find_pairs allow_partial imports' e else Failed Unresolved
      | x :: _ => l <- find_pairs allow_partial imports' e; Ok ((i, x) :: l)
      end
  end.
Definition get_import_export_pairs (allow_partial : bool) (m : lmodule) : outcome (list (symbol * symbol)) :=
  t <- collect m (mkTables [] [] []) (annotations m);
  e <- add_linkonce (t_linkonce t) (t_exports t);
  (* linker.cpp:515-523; function variants are left out, so several exports are never allowed *)
  if existsb (fun p => (1 <? length (snd p))%nat) e then Failed TooManyExports else
  find_pairs allow_partial (t_imports t) e.

(** ** Phase 6: linker.cpp:542-613 CheckImportExportCompatibility *)
(** decoration_manager.cpp:198-205 the words of a decoration after its target *)
Definition payload (i : inst) : list N := flat_map snd (skipn (S (type_result_id_count (body i))) (operands (body i))).
Definition payloads (op : N) (is : list inst) : list (list N) := map payload (filter (fun i => opcode (body i) =? op) is).
Definition mem_words (w : list N) (l : list (list N)) : bool := existsb (name_eqb w) l.
(** equality of two std::set *)
Definition same_set (a b : list (list N)) : bool := forallb (fun w => mem_words w b) a && forallb (fun w => mem_words w a) b.
(** decoration_manager.cpp:191-247 *)
Definition have_the_same_decorations (m : lmodule) (id1 id2 : N) : bool :=
  let d1 := decorations_for m id1 in let d2 := decorations_for m id2 in
  same_set (payloads OpDecorate d1) (payloads OpDecorate d2) && same_set (payloads OpDecorateId d1) (payloads OpDecorateId d2) &&
  same_set (payloads OpMemberDecorate d1) (payloads OpMemberDecorate d2) && same_set (payloads OpDecorateString d1) (payloads OpDecorateString d2).
Section Compatibility.
(** [types_match m t1 t2]: the types are equal, or (linker.cpp:556-582) differ only in pointer parameters and the option allows that *)
Variable types_match : lmodule -> N -> N -> bool.
Fixpoint check_types (m : lmodule) (l : list (symbol * symbol)) : outcome unit :=
  match l with
  | [] => Ok tt
  | (i, e) :: l' => if types_match m (s_type i) (s_type e) then check_types m l' else Failed TypeMismatch
  end.
Fixpoint check_decorations (m : lmodule) (l : list (symbol * symbol)) : outcome unit :=
  match l with
  | [] => Ok tt
  | (i, e) :: l' => if have_the_same_decorations m (s_id i) (s_id e) then check_decorations m l' else Failed DecorationMismatch
  end.
Definition check_compatibility (m : lmodule) (l : list (symbol * symbol)) : outcome unit :=
  _ <- check_types m l; check_decorations m l.

(** ** Phase 7: linker.cpp:940-947; ir_context.cpp:532-543 KillNamesAndDecorates *)
Definition with_debugs2_annotations (m : lmodule) (d2 ann : list inst) : lmodule :=
  mkLinkModule (version m) (id_bound m) (capabilities m) (extensions m) (ext_inst_imports m) (memory_model m)
    (sampled_image_address_mode m) (entry_points m) (graph_entry_points m) (execution_modes m) (debugs1 m) d2 (debugs3 m) ann
    (types_values m) (functions m) (graphs m).
Definition is_name_of (id : N) (i : inst) : bool :=
  ((opcode (body i) =? OpName) || (opcode (body i) =? OpMemberName)) && targets id i.
Definition kill_names_and_decorates (id : N) (m : lmodule) : lmodule :=
  with_debugs2_annotations m (filter (fun i => negb (is_name_of id i)) (debugs2 m))
    (filter (fun i => negb (is_decoration (body i) && targets id i)) (annotations m)).
Definition kill_all_names (m : lmodule) (l : list (symbol * symbol)) : lmodule :=
  fold_left (fun m p => fold_left (fun m id => kill_names_and_decorates id m) (s_id (fst p) :: s_params (fst p)) m) l m.

(** ** Phase 8: linker.cpp:949-953; ir_context.cpp:338-397 ReplaceAllUsesWith *)
Definition is_use (o : ir_operand) : bool := is_id_type (fst o) && (match fst o with T_RESULT_ID => false | _ => true end).
Definition replace_operand (before after : N) (o : ir_operand) : ir_operand :=
  if is_use o && (match snd o with w :: _ => w =? before | [] => false end) then (fst o, [after]) else o.
Definition replace_line (before after : N) (l : line) : line :=
  mkLine (opcode l) (map (replace_operand before after) (operands l)) (lexical_scope l) (inlined_at l).
(** The uses in attached line instructions are known to the definition-use analysis (def_use_manager.cpp:226-235). *)
Definition replace_inst (before after : N) (i : inst) : inst :=
  mkInst (replace_line before after (body i)) (map (replace_line before after) (lines i)).
Definition replace_all_uses (before after : N) (m : lmodule) : lmodule := for_each_inst (replace_inst before after) m.
Definition rematch (m : lmodule) (l : list (symbol * symbol)) : lmodule :=
  fold_left (fun m p => replace_all_uses (s_id (fst p)) (s_id (snd p)) m) l m.

(** ** Phase 9: linker.cpp:615-721 RemoveLinkageSpecificInstructions *)
Definition with_parts (m : lmodule) (caps ann types : list inst) (funcs : list func) : lmodule :=
  mkLinkModule (version m) (id_bound m) caps (extensions m) (ext_inst_imports m) (memory_model m)
    (sampled_image_address_mode m) (entry_points m) (graph_entry_points m) (execution_modes m) (debugs1 m) (debugs2 m) (debugs3 m) ann
    types funcs (graphs m).
(** linker.cpp:634-643 *)
Definition remove_functions (l : list (symbol * symbol)) (fs : list func) : list func :=
  fold_left (fun fs p => filter (fun f => negb (result_id (body (f_def f)) =? s_id (fst p))) fs) l fs.
(** linker.cpp:645-655 *)
Definition remove_variables (l : list (symbol * symbol)) (is : list inst) : list inst :=
  fold_left (fun is p => filter (fun i => negb (result_id (body i) =? s_id (fst p))) is) l is.
(** linker.cpp:671-689 and 691-705 *)
Definition linkage_kind (i : inst) : option N :=
  if is_linkage i then match single_word_operand (body i) 3 with Ok k => Some k | _ => None end else None.
Definition removed_import (allow_partial : bool) (exported : list N) (i : inst) : bool :=
  match linkage_kind i with
  | Some k => (k =? LinkageImport) &&
              (negb allow_partial || match single_word_operand (body i) 0 with Ok id => existsb (N.eqb id) exported | _ => false end)
  | None => false
  end.
Definition removed_export (i : inst) : bool :=
  match linkage_kind i with Some k => (k =? LinkageExport) || (k =? LinkageLinkOnceODR) | None => false end.
Definition is_linkage_capability (i : inst) : bool :=
  match single_word_in_operand (body i) 0 with Ok c => c =? CapabilityLinkage | _ => false end.
(** linker.cpp:707-718: the first one only *)
Fixpoint remove_linkage_capability (is : list inst) : list inst :=
  match is with [] => [] | i :: is' => if is_linkage_capability i then is' else i :: remove_linkage_capability is' end.
Definition remove_linkage (create_library allow_partial : bool) (l : list (symbol * symbol)) (m : lmodule) : lmodule :=
  let ann := filter (fun i => negb (removed_import allow_partial (if allow_partial then map (fun p => s_id (snd p)) l else []) i)) (annotations m) in
  let ann := if create_library then ann else filter (fun i => negb (removed_export i)) ann in
  let caps := if negb create_library && negb allow_partial then remove_linkage_capability (capabilities m) else capabilities m in
  with_parts m caps ann (remove_variables l (types_values m)) (remove_functions l (functions m)).

(** Phases 5 to 9, linker.cpp:926-958. *)
Definition link_symbols (create_library allow_partial : bool) (m : lmodule) : outcome lmodule :=
  l <- get_import_export_pairs allow_partial m;
  _ <- check_compatibility m l;
  Ok (remove_linkage create_library allow_partial l (rematch (kill_all_names m l) l)).
End Compatibility.
