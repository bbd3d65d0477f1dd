(** C28: linking keeps the ids of different modules apart.  C29: imports are resolved by name. *)
From Verif Require Import Base OperandTypes IrModule IrSpec Words Linker LinkerSpec LinkerProofs LinkerSymbolProofs LinkerResolveProofs.
Local Open Scope N_scope.

(** C28.  The linked module is the concatenation of the modules, section by section, each module with its ids renamed by an injective
    function of its own; no two modules share an id; and the bound is a word above every id.  Missing for the full property: ids in
    attached line instructions and debug scopes of all modules but the first (see [link_line_ids_refuted]); graphs, graph entry points and the sampled
    image address mode, which merging drops. *)
Theorem link_keeps_modules_apart_partial : forall use_highest text ms m',
  Forall consistent ms -> Forall no_line_ids (tl ms) -> N.of_nat (length ms) < 2 ^ 31 -> link_merge use_highest text ms = Ok m' ->
  exists fs, length fs = length ms /\ merged (renamed fs ms) m' /\ id_bound m' < 2 ^ 32 /\
    (forall k f m, nth_error fs k = Some f -> nth_error ms k = Some m ->
       (forall x, 0 < x < id_bound m -> 0 < f x < id_bound m') /\ (forall x y, f x = f y -> x = y)) /\
    (forall j k f g m n x y, nth_error fs j = Some f -> nth_error ms j = Some m -> nth_error fs k = Some g -> nth_error ms k = Some n -> j <> k ->
       0 < x < id_bound m -> 0 < y < id_bound n -> f x <> g y) /\
    (forall id, In id (all_ids m') -> 0 < id < id_bound m').
Proof. exact link_merge_apart. Qed.

(** The version of the linked module is that of one of the modules and is at least that of every module; it is that of all of them unless the
    highest was asked for. *)
Theorem link_version : forall use_highest text ms m', link_merge use_highest text ms = Ok m' ->
  (exists m, In m ms /\ version m' = version m) /\ (forall m, In m ms -> version m <= version m') /\
  (use_highest = false -> forall m, In m ms -> version m = version m').
Proof. exact link_merge_version. Qed.

(** Merging succeeds exactly when there are modules, their ids fit in a word together, their versions agree (or the highest is asked for),
    their memory models agree and no two entry points have the same execution model and name; otherwise it reports an error. *)
Theorem link_merge_succeeds_iff : forall use_highest text ms, Forall consistent ms -> Forall shapes ms -> N.of_nat (length ms) < 2 ^ 31 ->
  ((exists m', link_merge use_highest text ms = Ok m') <-> linkable use_highest ms) /\ link_merge use_highest text ms <> Fault.
Proof.
  intros u t ms H1 H2 H3. destruct (link_merge_spec u t ms H1 H2 H3) as [[[m' E] H]|[[e E] H]].
  - split; [split; eauto | rewrite E; discriminate].
  - split; [|rewrite E; discriminate]. split; [intros [m' E']; congruence | contradiction].
Qed.

(** Too many ids are reported, not wrapped around. *)
Theorem link_too_many_ids : forall use_highest text ms, ms <> [] -> Forall consistent ms -> N.of_nat (length ms) < 2 ^ 31 ->
  2 ^ 32 <= sum_bounds ms -> link_merge use_highest text ms = Failed TooManyIds.
Proof.
  intros u t ms Hne Hc Hl Hb. unfold link_merge, shift_ids_in_modules. destruct ms as [|m ms]; [congruence|]. cbn zeta. rewrite total_bound_ok by assumption.
  destruct (N.ltb_spec (2 ^ 32 - 1) (sum_bounds (m :: ms))); [reflexivity | lia].
Qed.

(** C29.  Resolving symbols succeeds exactly when they are resolvable. *)
Theorem symbols_resolved_iff_resolvable : forall types_match create_library allow_partial m, well_formed m ->
  ((exists m', link_symbols types_match create_library allow_partial m = Ok m') <-> resolvable types_match allow_partial m).
Proof. intros tm c a m H. exact (link_symbols_succeeds m H tm c a). Qed.
(** And then every import that has a provider has been replaced by it, and nothing else has changed except for the linkage information. *)
Theorem symbols_resolved_by_name : forall types_match create_library allow_partial m m', well_formed m ->
  link_symbols types_match create_library allow_partial m = Ok m' ->
  exists s, resolution m s /\ linked create_library allow_partial m m' s.
Proof. intros tm c a m m' Hw H. destruct (link_symbols_result tm c a m m' Hw H) as (s & H1 & _ & H2). eauto. Qed.

Lemma without_incl {A} (P : A -> Prop) l l' : without P l l' -> forall a, In a l' -> In a l /\ ~ P a.
Proof.
  induction 1 as [|a l l' Ha _ IH|a l l' Ha _ IH]; intros b Hb; [destruct Hb | destruct (IH b Hb); split; [right|]; assumption|].
  destruct Hb as [<-|Hb]; [split; [left; reflexivity | exact Ha] | destruct (IH b Hb); split; [right|]; assumption].
Qed.
Lemma linked_insts c a m m' s : linked c a m m' s -> forall i, In i (module_insts m') -> exists j, i = subst_inst s j.
Proof.
  intros (_ & _ & H1 & H2 & H3 & H4 & H5 & H6 & H7 & H8 & H9 & H10 & (d1 & _ & H11) & (d2 & _ & H12) & (d3 & _ & H13) & (d4 & _ & H14) & C1 & C2) i Hi.
  assert (M : forall l, In i (map (subst_inst s) l) -> exists j, i = subst_inst s j) by (intros l H; apply in_map_iff in H as (j & <- & _); eauto).
  assert (C : exists l, capabilities m' = map (subst_inst s) l).
  { destruct c; [exists (capabilities m); apply C1; auto|]. destruct a; [exists (capabilities m); apply C1; auto|].
    destruct (C2 (conj eq_refl eq_refl)) as [[E _]|(l1 & x & l2 & _ & _ & _ & E)]; eauto. }
  destruct C as [lc Hc]. apply module_insts_cases in Hi. rewrite Hc, H1, H2, H3, H4, H5, H6, H7, H8, H9, H10, H11, H12, H13, H14 in Hi.
  assert (Op : forall o, In i (opt_list (option_map (subst_inst s) o)) -> exists j, i = subst_inst s j) by (intros [o|] H; [destruct H as [<-|[]]; eauto | destruct H]).
  repeat (destruct Hi as [Hi|Hi]; [first [exact (M _ Hi) | exact (Op _ Hi) | idtac]|]).
  - apply in_flat_map in Hi as (f & Hf & Hi). apply in_map_iff in Hf as (g & <- & _). rewrite func_insts_map in Hi. exact (M _ Hi).
  - apply in_concat in Hi as (l & Hl & Hi). apply in_map_iff in Hl as (l0 & <- & _). exact (M _ Hi).
Qed.
(** In particular no use, no declaration and no prototype of a resolved import is left. *)
Theorem resolved_imports_are_gone : forall types_match create_library allow_partial m m' id name e, well_formed m ->
  link_symbols types_match create_library allow_partial m = Ok m' -> links m id name LinkageImport -> provides m name e ->
  (forall i l t ws, In i (module_insts m') -> In l (body i :: lines i) -> In (t, ws) (operands l) -> is_id_type t = true -> t <> T_RESULT_ID -> ~ In id ws) /\
  (forall i, In i (types_values m') -> result_id (body i) <> id) /\ (forall f, In f (functions m') -> result_id (body (f_def f)) <> id).
Proof.
  intros tm c a m m' id n e Hw H Hl Hp. destruct (link_symbols_result tm c a m m' Hw H) as (s & Hr & Hi & Hlk).
  assert (Hid : s id <> id).
  { rewrite (proj1 Hr id n e Hl Hp). intros ->. destruct (provides_links m n id Hp) as (k & Hk & Hkk). destruct (links_one m Hw _ _ _ _ _ Hk Hl) as [_ ->]. destruct Hkk; discriminate. }
  split; [|split].
  - intros i l t ws Hin Hl' Ho Ht Hnr Hx. destruct (linked_insts c a m m' s Hlk i Hin) as [j ->].
    assert (Hln : exists k, l = subst_line s k).
    { unfold subst_inst in Hl'. cbn [body lines] in Hl'. destruct Hl' as [<-|Hl']; [eauto|]. apply in_map_iff in Hl' as (k & <- & _). eauto. }
    destruct Hln as [k ->]. unfold subst_line in Ho. cbn [operands] in Ho. apply in_map_iff in Ho as ([t0 w0] & Eo & _).
    assert (exists w, id = s w).
    { unfold subst_operand in Eo. cbn [fst snd] in Eo. destruct t0; cbn [is_id_type] in Eo; inversion Eo; subst; try discriminate; try congruence;
        apply in_map_iff in Hx as (w & <- & _); eauto. }
    destruct H0 as [w ->]. rewrite Hi in Hid. congruence.
  - intros i Hin. destruct Hlk as (_ & _ & _ & _ & _ & _ & _ & _ & _ & _ & _ & _ & _ & _ & (d & Hd & E) & _). rewrite E in Hin. apply in_map_iff in Hin as (j & <- & Hj).
    destruct (without_incl _ _ _ Hd j Hj) as [_ Hn]. rewrite result_id_subst. intro Ex. apply Hn. rewrite Ex. exact Hid.
  - intros f Hin. destruct Hlk as (_ & _ & _ & _ & _ & _ & _ & _ & _ & _ & _ & _ & _ & _ & _ & (d & Hd & E) & _). rewrite E in Hin. apply in_map_iff in Hin as (j & <- & Hj).
    destruct (without_incl _ _ _ Hd j Hj) as [_ Hn]. unfold map_func. cbn [f_def]. rewrite result_id_subst. intro Ex. apply Hn. rewrite Ex. exact Hid.
Qed.

(** ** An example: a library with a function and a program that imports it *)
Definition ins (oc : N) (ops : list ir_operand) : inst := mkInst (mkLine oc ops 0 0) [].
Definition ex_capability := ins 17 [(T_CAPABILITY, [CapabilityLinkage])].
Definition ex_memory_model := ins 14 [(T_ADDRESSING_MODEL, [0]); (T_MEMORY_MODEL, [1])].
Definition ex_void (id : N) := ins 19 [(T_RESULT_ID, [id])].
Definition ex_fn_type (id v : N) := ins 33 [(T_RESULT_ID, [id]); (T_ID, [v])].
Definition ex_function (v id ty : N) := ins OpFunction [(T_TYPE_ID, [v]); (T_RESULT_ID, [id]); (T_FUNCTION_CONTROL, [0]); (T_ID, [ty])].
Definition ex_label (id : N) := ins 248 [(T_RESULT_ID, [id])].
Definition ex_linkage (id kind : N) := ins OpDecorate [(T_ID, [id]); (T_DECORATION, [DecorationLinkageAttributes]); (T_LITERAL_STRING, [102]); (T_LINKAGE_TYPE, [kind])].
Definition ex_name (id : N) := ins OpName [(T_ID, [id]); (T_LITERAL_STRING, [103])].
Definition ex_return := ins 253 []. Definition ex_end := ins 56 [].
Definition ex_library : lmodule :=
  mkLinkModule 0x00010000 5 [ex_capability] [] [] (Some ex_memory_model) None [] [] [] [] [ex_name 3] [] [ex_linkage 3 LinkageExport]
    [ex_void 1; ex_fn_type 2 1] [mkFunc (ex_function 1 3 2) [] [ex_label 4; ex_return; ex_end]] [].
Definition ex_program : lmodule :=
  mkLinkModule 0x00010000 7 [ex_capability] [] [] (Some ex_memory_model) None [] [] [] [] [ex_name 3; ex_name 4] [] [ex_linkage 3 LinkageImport]
    [ex_void 1; ex_fn_type 2 1]
    [mkFunc (ex_function 1 3 2) [] [ex_end];
     mkFunc (ex_function 1 4 2) [] [ex_label 5; ins 57 [(T_TYPE_ID, [1]); (T_RESULT_ID, [6]); (T_ID, [3])]; ex_return; ex_end]] [].
Definition ex_merged : lmodule :=
  mkLinkModule 0x00010000 11 [ex_capability; ex_capability] [] [] (Some ex_memory_model) None [] [] [] [] [ex_name 3; ex_name 7; ex_name 8] []
    [ex_linkage 3 LinkageExport; ex_linkage 7 LinkageImport]
    [ex_void 1; ex_fn_type 2 1; ex_void 5; ex_fn_type 6 5]
    [mkFunc (ex_function 1 3 2) [] [ex_label 4; ex_return; ex_end]; mkFunc (ex_function 5 7 6) [] [ex_end];
     mkFunc (ex_function 5 8 6) [] [ex_label 9; ins 57 [(T_TYPE_ID, [5]); (T_RESULT_ID, [10]); (T_ID, [7])]; ex_return; ex_end]] [].
Definition ex_linked : lmodule :=
  mkLinkModule 0x00010000 11 [ex_capability] [] [] (Some ex_memory_model) None [] [] [] [] [ex_name 3; ex_name 8] [] []
    [ex_void 1; ex_fn_type 2 1; ex_void 5; ex_fn_type 6 5]
    [mkFunc (ex_function 1 3 2) [] [ex_label 4; ex_return; ex_end];
     mkFunc (ex_function 5 8 6) [] [ex_label 9; ins 57 [(T_TYPE_ID, [5]); (T_RESULT_ID, [10]); (T_ID, [3])]; ex_return; ex_end]] [].
Example link_merge_example : Forall consistent [ex_library; ex_program] /\ Forall no_line_ids (tl [ex_library; ex_program]) /\
  Forall shapes [ex_library; ex_program] /\ linkable false [ex_library; ex_program] /\ link_merge false [] [ex_library; ex_program] = Ok ex_merged.
Proof.
  assert (Hs : Forall shapes [ex_library; ex_program]).
  { repeat constructor; intros i E; inversion E; subst; exists T_ADDRESSING_MODEL, 0, T_MEMORY_MODEL, 1; repeat split. }
  assert (Hc : Forall consistent [ex_library; ex_program]).
  { repeat (apply Forall_cons; [split; [cbn; lia|]; split; [intros id H; cbn in H; cbn [id_bound ex_library ex_program]; repeat (destruct H as [<-|H]; [lia|]); destruct H|];
      repeat (apply Forall_cons; [repeat (apply Forall_cons; [intro; reflexivity || discriminate|]); apply Forall_nil|]); apply Forall_nil|]). constructor. }
  assert (E : link_merge false [] [ex_library; ex_program] = Ok ex_merged) by (vm_compute; reflexivity).
  split; [exact Hc|]. split; [repeat constructor|]. split; [exact Hs|]. split; [|exact E].
  apply (proj1 (link_merge_succeeds_iff false [] _ Hc Hs ltac:(reflexivity))). eauto.
Qed.
Lemma ex_well_formed : well_formed ex_merged.
Proof.
  assert (L : forall i id n k, In i (annotations ex_merged) -> linkage_decoration i id n k -> (i = ex_linkage 3 LinkageExport /\ id = 3) \/ (i = ex_linkage 7 LinkageImport /\ id = 7)).
  { intros i id n k Hi (_ & t1 & ws & t2 & E & _). cbn in Hi. destruct Hi as [<-|[<-|[]]]; inversion E; auto. }
  assert (S : forall id kind, decoration_shape (ex_linkage id kind)).
  { intros id kind. split; [left; reflexivity|]. exists id, T_DECORATION, DecorationLinkageAttributes, [(T_LITERAL_STRING, [102]); (T_LINKAGE_TYPE, [kind])].
    split; [reflexivity|]. split; [reflexivity|]. intros _ _. exists (fst (make_string [102])), kind. split; [reflexivity|]. exists T_DECORATION, [102], T_LINKAGE_TYPE. repeat split. }
  unfold well_formed. split; [repeat (constructor; [apply S|]); constructor|].
  split; [repeat (constructor; [intros _; cbn; eauto|]); constructor|].
  split; [repeat (constructor; [cbn; eauto|]); constructor|].
  split.
  { intros d1 d2 H1 H2. cbn in H1, H2. repeat (destruct H1 as [<-|H1]; [repeat (destruct H2 as [<-|H2]; [cbn; intros; try reflexivity; try discriminate; congruence|]); destruct H2|]). destruct H1. }
  split; [repeat constructor|].
  split; [intros i id n k Hi H; destruct (L i id n k Hi H) as [[_ ->]|[_ ->]]; discriminate|].
  split.
  { intros k1 k2 i1 i2 id n1 kind1 n2 kind2 E1 E2 H1 H2. assert (I1 := nth_error_In _ _ E1). assert (I2 := nth_error_In _ _ E2).
    destruct (L _ _ _ _ I1 H1) as [[-> F1]|[-> F1]], (L _ _ _ _ I2 H2) as [[-> F2]|[-> F2]]; subst; try discriminate;
      destruct k1 as [|[|[|k1]]]; try discriminate; destruct k2 as [|[|[|k2]]]; try discriminate; reflexivity. }
  split.
  { intros i j id n k Hi Hj H Ho. cbn in Hj. destruct Hj as [<-|[<-|[]]]; discriminate. }
  repeat (apply Forall_cons; [repeat (apply Forall_cons; [repeat (apply Forall_cons; [intro; reflexivity || discriminate|]); apply Forall_nil|]); apply Forall_nil|]); apply Forall_nil.
Qed.
Example link_symbols_example : well_formed ex_merged /\
  link_symbols (fun _ _ _ => true) false false ex_merged = Ok ex_linked /\
  links ex_merged 7 [102] LinkageImport /\ provides ex_merged [102] 3.
Proof.
  assert (NB : forall id, ~ built_in ex_merged id).
  { intros id (i & t & rest & Hi & _ & E). cbn in Hi. destruct Hi as [<-|[<-|[]]]; discriminate. }
  split; [exact ex_well_formed|]. split; [vm_compute; reflexivity|]. split.
  - exists (ex_linkage 7 LinkageImport). split; [right; left; reflexivity|]. split; [|apply NB]. split; [reflexivity|]. exists T_DECORATION, [102], T_LINKAGE_TYPE. repeat split.
  - left. exists (ex_linkage 3 LinkageExport). split; [left; reflexivity|]. split; [|apply NB]. split; [reflexivity|]. exists T_DECORATION, [102], T_LINKAGE_TYPE. repeat split.
Qed.

(** ** The ids of attached line instructions *)
(** Two modules, each with a file name and a type whose line information names it: no renaming of their ids makes the linked module. *)
Definition ex_string := ins 7 [(T_RESULT_ID, [1]); (T_LITERAL_STRING, [102])].
Definition ex_line := mkLine 8 [(T_ID, [1]); (T_LITERAL_INTEGER, [10]); (T_LITERAL_INTEGER, [0])] 0 0.
Definition ex_debug : lmodule :=
  mkLinkModule 0x00010000 3 [] [] [] (Some ex_memory_model) None [] [] [] [ex_string] [] [] []
    [mkInst (mkLine 19 [(T_RESULT_ID, [2])] 0 0) [ex_line]] [] [].
Theorem link_line_ids_refuted : exists ms m', Forall consistent ms /\ Forall shapes ms /\ link_merge false [] ms = Ok m' /\
  ~ exists fs, length fs = length ms /\ merged (renamed fs ms) m'.
Proof.
  exists [ex_debug; ex_debug].
  assert (E : exists m', link_merge false [] [ex_debug; ex_debug] = Ok m' /\
    debugs1 m' = [ex_string; ins 7 [(T_RESULT_ID, [3]); (T_LITERAL_STRING, [102])]] /\
    map lines (types_values m') = [[ex_line]; [ex_line]]) by (vm_compute; eexists; repeat split).
  destruct E as (m' & E & E1 & E2). exists m'. split; [|split; [|split; [exact E|]]].
  - repeat (apply Forall_cons; [split; [cbn; lia|]; split; [intros id H; cbn in H; cbn [id_bound ex_debug]; repeat (destruct H as [<-|H]; [lia|]); destruct H|];
      repeat (apply Forall_cons; [repeat (apply Forall_cons; [intro; reflexivity || discriminate|]); apply Forall_nil|]); apply Forall_nil|]). constructor.
  - repeat constructor; intros i Ei; inversion Ei; subst; exists T_ADDRESSING_MODEL, 0, T_MEMORY_MODEL, 1; repeat split.
  - intros (fs & Hl & H). destruct fs as [|f [|g [|? ?]]]; try discriminate.
    destruct H as (_ & _ & _ & _ & _ & _ & D1 & _ & _ & _ & TV & _). rewrite E1 in D1. rewrite TV in E2. cbn in D1, E2. inversion D1. inversion E2. congruence.
Qed.

Print Assumptions link_keeps_modules_apart_partial.
Print Assumptions link_merge_succeeds_iff.
Print Assumptions link_too_many_ids.
Print Assumptions link_version.
Print Assumptions link_line_ids_refuted.
Print Assumptions symbols_resolved_iff_resolvable.
Print Assumptions symbols_resolved_by_name.
Print Assumptions resolved_imports_are_gone.
