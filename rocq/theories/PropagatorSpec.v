(** What a function does when it runs, and what makes a function and a folder fit for constant propagation.  Independent of the propagator. *)
From Verif Require Import Base Propagator.
Local Open Scope N_scope.

(** ** Values *)
Definition cvalue (k : constant) : value := match k with CBool b => VBool b | CInt ws => VInt ws | CNull v => v | COther n => VOther n end.
Inductive vtype := TBool | TInt (words : nat) | TOther.
Definition type_of (v : value) : vtype := match v with VBool _ => TBool | VInt ws => TInt (length ws) | VOther _ => TOther end.
(** integers have a word, and a null value is false or zero *)
Definition constant_ok (k : constant) : Prop :=
  match k with
  | CInt ws => ws <> []
  | CNull (VBool b) => b = false
  | CNull (VInt ws) => ws <> [] /\ Forall (fun w => w = 0) ws
  | _ => True
  end.

(** ** Executions *)
Section Semantics.
Variable M : Type.                                  (* the rest of the state: memory, inputs, outputs *)
Variable consts : N -> option constant.
(** what the instruction with a given address may do on given operands: its result and the new state *)
Variable sem : nat -> list (option value) -> M -> value -> M -> Prop.
Definition env := N -> option value.
Definition look (r : env) (id : N) : option value := match consts id with Some k => Some (cvalue k) | None => r id end.
Definition set (r : env) (id : N) (v : value) : env := fun x => if x =? id then Some v else r x.

(** an instruction that is neither a phi nor a terminator *)
Inductive effect (i : inst) (r : env) (m : M) : env -> M -> Prop :=
| E_copy s v : kind i = KCopy s -> look r s = Some v -> effect i r m (set r (res i) v) m
| E_foldable op ids v m' : kind i = KFoldable op ids -> Forall (fun id => look r id <> None) ids ->
    sem (uid i) (map (look r) ids) m v m' -> effect i r m (set r (res i) v) m'
| E_other op ids v m' : kind i = KOther op ids -> sem (uid i) (map (look r) ids) m v m' ->
    effect i r m (if res i =? 0 then r else set r (res i) v) m'.
(** the phis of a block entered from the block [p]: all of them read the values before any is assigned *)
Inductive phis_from (p : N) (r : env) : list inst -> env -> Prop :=
| P_nil : phis_from p r [] r
| P_cons i args a v is r' : kind i = KPhi args -> In (a, p) args -> look r a = Some v ->
    phis_from p r is r' -> phis_from p r (i :: is) (set r' (res i) v).
Fixpoint select (ws : list N) (dflt : N) (cases : list (list N * N)) : N :=
  match cases with
  | [] => dflt
  | (lit, l) :: cases' => if list_eq_dec N.eq_dec lit ws then l else select ws dflt cases'
  end.
(** where a terminator goes *)
Inductive goes (i : inst) (r : env) : N -> Prop :=
| G_branch l : kind i = KBranch l -> goes i r l
| G_cond c t e b : kind i = KCond c t e -> look r c = Some (VBool b) -> goes i r (if b then t else e)
| G_switch s d cases ws : kind i = KSwitch s d cases -> look r s = Some (VInt ws) -> goes i r (select ws d cases).

(** [at_point l is r m]: in block [l], with the instructions [is] left *)
Inductive state := at_point (l : N) (is : list inst) (r : env) (m : M).
Definition after_phis (b : block) : list inst := skipn (length (leading_phis (insts b))) (insts b).
Inductive step (f : func) : state -> state -> Prop :=
| S_inst l i is r m r' m' : effect i r m r' m' -> step f (at_point l (i :: is) r m) (at_point l is r' m')
| S_jump l t r m l' b r' : goes t r l' -> In b f -> label b = l' -> phis_from l r (leading_phis (insts b)) r' ->
    step f (at_point l [t] r m) (at_point l' (after_phis b) r' m).
Inductive reachable (f : func) (r0 : env) (m0 : M) : state -> Prop :=
| R_start b f' : f = b :: f' -> reachable f r0 m0 (at_point (label b) (insts b) r0 m0)
| R_step s s' : reachable f r0 m0 s -> step f s s' -> reachable f r0 m0 s'.
End Semantics.
Arguments at_point {M} _ _ _ _.

(** ** Functions in the shape the specification of SPIR-V requires *)
(** a path through the control flow graph, from the entry block *)
Inductive path (f : func) : list N -> N -> Prop :=
| path_entry b f' : f = b :: f' -> path f [label b] (label b)
| path_step p l l' : path f p l -> In (Some l') (succs f l) -> path f (l' :: p) l'.
Definition dominates (f : func) (d l : N) : Prop := forall p, path f p l -> In d p.

Record well_formed (f : func) : Prop := {
  wf_uids : NoDup (map uid (all_insts f));
  wf_results : forall i j, In i (all_insts f) -> In j (all_insts f) -> res i = res j -> res i <> 0 -> i = j;
  wf_label : forall b, In b f -> kind (blabel b) = KLabel /\ label b <> 0 /\ Forall (fun i => kind i <> KLabel) (insts b);
  wf_blk : forall b i, In b f -> In i (block_insts b) -> blk i = label b;
  wf_phis : forall b i, In b f -> In i (insts b) -> is_phi i = true -> In i (leading_phis (insts b));
  wf_entry : forall b f', f = b :: f' -> leading_phis (insts b) = [];
  wf_terminator : forall b, In b f -> exists is t, insts b = is ++ [t] /\ is_terminator t = true /\ Forall (fun i => is_terminator i = false) is;
  wf_targets : forall i l, In i (all_insts f) -> In (Some l) (inst_succs i) -> In l (labels f);
  wf_has_result : forall i, In i (all_insts f) -> match kind i with KOther _ _ => True | _ => (is_terminator i = true <-> res i = 0) end;
  (** in a block an instruction comes before its uses; across blocks only the uses in phis matter here *)
  wf_uses : forall b is i js j, In b f -> insts b = is ++ i :: js -> is_phi i = false -> In j (i :: js) -> res j <> 0 -> ~ In (res j) (in_ids i);
  wf_phi_uses : forall i args a l j, In i (all_insts f) -> kind i = KPhi args -> In (a, l) args -> In j (all_insts f) -> res j = a -> res j <> 0 ->
    dominates f (blk j) l }.

Record well_typed (ty : N -> vtype) (consts : N -> option constant) (f : func) : Prop := {
  wt_const : forall c k, consts c = Some k -> constant_ok k /\ type_of (cvalue k) = ty c;
  wt_zero : consts 0 = None;
  wt_varying : consts varying_id = None;
  wt_inst : forall i, In i (all_insts f) ->
    match kind i with
    | KPhi args => Forall (fun a => ty (fst a) = ty (res i)) args
    | KCopy s => ty s = ty (res i)
    | KCond c _ _ => ty c = TBool
    | KSwitch s _ cases => exists w, ty s = TInt w /\ Forall (fun c => length (fst c) = w) cases
    | _ => True
    end }.
(** an id that is used has been defined: earlier in the block, or in a block that dominates it *)
Definition defs_dominate (f : func) : Prop :=
  forall b is i js j, In b f -> insts b = is ++ i :: js -> is_phi i = false -> In j (all_insts f) -> res j <> 0 -> kind j <> KLabel -> In (res j) (in_ids i) ->
    In j is \/ (blk j <> label b /\ dominates f (blk j) (label b)).
(** a phi has an argument for every way into its block, and what a phi, a copy or a foldable instruction reads is defined in the function or
    known before *)
Definition read_ids (i : inst) : list N :=
  match kind i with KPhi args => map fst args | KCopy s => [s] | KFoldable _ ids => ids | _ => [] end.
Record uses_defined (f : func) (V0 : N -> option N) : Prop := {
  ud_phi : forall l b i args, In (Some (label b)) (succs f l) -> In b f -> In i (insts b) -> kind i = KPhi args -> exists a, In (a, l) args;
  ud_read : forall i id, In i (all_insts f) -> In id (read_ids i) ->
    V0 id <> None \/ exists j, In j (all_insts f) /\ res j = id /\ res j <> 0 /\ kind j <> KLabel }.
(** every switch is on a selector of one word *)
Definition narrow_switches (ty : N -> vtype) (f : func) : Prop :=
  forall i s d cases, In i (all_insts f) -> kind i = KSwitch s d cases -> ty s = TInt 1.

(** ** What is asked of the folder *)
(** A folded constant is the value of the instruction whatever the operands that are not known to be constants. *)
Definition folds_right {M} (consts : N -> option constant) (sem : nat -> list (option value) -> M -> value -> M -> Prop)
    (ty : N -> vtype) (f : func) (fold_inst : nat -> inst -> (N -> N) -> folded) : Prop :=
  forall n i op ids m c, In i (all_insts f) -> kind i = KFoldable op ids -> fold_inst n i m = FConst c ->
    exists k, consts c = Some k /\ ty c = ty (res i) /\
      forall vs mem v mem', Forall2 (fun id ov => forall k', consts (m id) = Some k' -> ov = Some (cvalue k')) ids vs ->
        sem (uid i) vs mem v mem' -> v = cvalue k.
(** Knowing more of the operands does not stop it from folding. *)
Definition folds_more (consts : N -> option constant) (f : func) (fold_inst : nat -> inst -> (N -> N) -> folded) : Prop :=
  forall n n' i op ids m m', In i (all_insts f) -> kind i = KFoldable op ids ->
    (forall id, In id ids -> consts (m id) <> None -> m' id = m id) ->
    fold_inst n i m <> FNone -> fold_inst n' i m' <> FNone.

(** ** The values known before a function is processed *)
(** Every constant the function uses is its own value; the function's own ids have none yet; and what has a constant has the right one. *)
Record starts_right (consts : N -> option constant) (ty : N -> vtype) (f : func) (V0 : N -> option N) (r0 : N -> option value) : Prop := {
  st_own : forall i, In i (all_insts f) -> res i <> 0 -> V0 (res i) = None /\ consts (res i) = None /\ r0 (res i) = None;
  st_const : forall i id k, In i (all_insts f) -> In id (in_ids i) -> consts id = Some k -> V0 id = Some id;
  st_known : forall id c, V0 id = Some c -> c <> varying_id -> exists k, consts c = Some k /\ ty c = ty id;
  st_scope : forall i id c, In i (all_insts f) -> In id (in_ids i) -> V0 id = Some c -> c <> varying_id -> consts id <> None;
  st_env : forall id v, r0 id = Some v -> exists c, V0 id = Some c /\ forall k, consts c = Some k -> v = cvalue k }.
