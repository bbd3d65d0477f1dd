(** Model of the sparse propagation engine and of conditional constant propagation:
    source/opt/propagator.{h,cpp} and source/opt/ccp_pass.cpp. *)
From Verif Require Import Base.
Local Open Scope N_scope.

(** ** Functions *)
(** An instruction, as far as the two classes look at it.  Its address is [uid], its result id (0 for none) [res], and the label of its block
    (IRContext::get_instr_block) [blk].  A selector literal of OpSwitch is a list of words.  [KFoldable] is what Instruction::IsFoldable
    accepts and [KOther] what it refuses; [op] stands for the opcode, the type and the literal operands. *)
Inductive ikind :=
| KLabel
| KPhi (args : list (N * N))
| KCopy (src : N)
| KFoldable (op : N) (ids : list N)
| KOther (op : N) (ids : list N)
| KBranch (l : N)
| KCond (c t f : N)
| KSwitch (sel dflt : N) (cases : list (list N * N))
| KReturn (op : N) (ids : list N).
Record inst := mkInst { uid : nat; res : N; blk : N; kind : ikind }.
(** source/opt/basic_block.h: a label instruction and the instructions after it *)
Record block := mkBlock { blabel : inst; insts : list inst }.
Definition label (b : block) : N := res (blabel b).
Definition func := list block.
Definition block_insts (b : block) : list inst := blabel b :: insts b.
Definition all_insts (f : func) : list inst := flat_map block_insts f.
Definition labels (f : func) : list N := map label f.
(** cfg.h block() and IRContext::get_instr_block of a label *)
Definition get_block (f : func) (l : N) : option block := find (fun b => label b =? l) f.

(** instruction.h:809-827 with operand.cpp:497-510: the id operands other than result and type *)
Definition in_ids (i : inst) : list N :=
  match kind i with
  | KLabel => []
  | KPhi args => flat_map (fun a => [fst a; snd a]) args
  | KCopy s => [s]
  | KFoldable _ ids | KOther _ ids | KReturn _ ids => ids
  | KBranch l => [l]
  | KCond c t f => [c; t; f]
  | KSwitch s d cases => s :: d :: map snd cases
  end.
Definition is_phi (i : inst) : bool := match kind i with KPhi _ => true | _ => false end.
(** opcode.cpp:407-409 spvOpcodeIsBlockTerminator *)
Definition is_terminator (i : inst) : bool :=
  match kind i with KBranch _ | KCond _ _ _ | KSwitch _ _ _ | KReturn _ _ => true | _ => false end.
(** basic_block.cpp:121-139 WhileEachSuccessorLabel and propagator.cpp:231-247; [None] is the pseudo exit block *)
Definition inst_succs (i : inst) : list (option N) :=
  match kind i with
  | KBranch l => [Some l]
  | KCond _ t f => [Some t; Some f]
  | KSwitch _ d cases => Some d :: map (fun c => Some (snd c)) cases
  | KReturn _ _ => [None]
  | _ => []
  end.
(** bb_succs_.at(block); the block's last instruction decides *)
Definition block_succs (b : block) : list (option N) := inst_succs (last (insts b) (blabel b)).
Definition succs (f : func) (l : N) : list (option N) :=
  match get_block f l with Some b => block_succs b | None => [] end.

(** def_use_manager.cpp GetDef, for the ids the function defines *)
Definition get_def (f : func) (id : N) : option inst := find (fun i => res i =? id) (all_insts f).
Definition mentions (i : inst) (id : N) : bool := existsb (fun x => x =? id) (in_ids i).
(** DefUseManager::ForEachUser; the users outside the function (names, decorations) have no block and are skipped by propagator.cpp:50 *)
Definition users (f : func) (id : N) : list inst := filter (fun i => mentions i id) (all_insts f).

(** ** propagator.h:186 PropStatus *)
Inductive status := NotInteresting | Interesting | Varying.
(** propagator.cpp:78 old_status <= status *)
Definition status_rank (s : status) : nat := match s with NotInteresting => 1 | Interesting => 2 | Varying => 3 end.
Definition status_eqb (a b : status) : bool := Nat.eqb (status_rank a) (status_rank b).

(** propagator.h:285-311.  The sets are functions to [bool]. *)
Record pstate := mkState {
  blocksQ : list N;
  ssaQ : list inst;
  simulated : N -> bool;
  dns : nat -> bool;
  executable : N -> N -> bool;
  statuses : nat -> option status }.

(** Outcomes.  [Failure] is Pass::Status::Failure; [Asserted] an assertion of the code that fails, or a dereferenced null pointer. *)
Inductive outcome (A : Type) := Ok (a : A) | Failure | Asserted | OutOfFuel.
Arguments Ok {A} _.
Arguments Failure {A}.
Arguments Asserted {A}.
Arguments OutOfFuel {A}.
Definition bind {A B} (o : outcome A) (g : A -> outcome B) : outcome B :=
  match o with Ok a => g a | Failure => Failure | Asserted => Asserted | OutOfFuel => OutOfFuel end.
Notation "x <- o ; g" := (bind o (fun x => g)) (at level 61, o at next level, right associativity).

(** What the visiting function answers: a status, the destination of a branch if it is known, and its own new state. *)
Inductive visited (U : Type) := Visited (s : status) (dest : option N) (u : U) | VisitFailed | VisitAsserted.
Arguments Visited {U} _ _ _.
Arguments VisitFailed {U}.
Arguments VisitAsserted {U}.

Section Propagator.
Variable U : Type.
(** visit_fn_: it sees which edges are executable through IsPhiArgExecutable *)
Variable visit : U -> (N -> N -> bool) -> inst -> visited U.
Variable f : func.

(** propagator.cpp:20-37 AddControlEdge *)
Definition add_control_edge (src : N) (dest : option N) (s : pstate) : pstate :=
  match dest with
  | None => s
  | Some d =>
      if executable s src d then s
      else mkState (blocksQ s ++ [d]) (ssaQ s) (simulated s) (dns s)
             (fun p q => ((p =? src) && (q =? d)) || executable s p q) (statuses s)
  end.
(** propagator.cpp:39-58 AddSSAEdges *)
Definition add_ssa_edges (i : inst) (s : pstate) : pstate :=
  if res i =? 0 then s
  else mkState (blocksQ s) (ssaQ s ++ filter (fun u => simulated s (blk u) && negb (dns s (uid u))) (users f (res i)))
         (simulated s) (dns s) (executable s) (statuses s).
(** propagator.h:238 *)
Definition dont_simulate_again (i : inst) (s : pstate) : pstate :=
  mkState (blocksQ s) (ssaQ s) (simulated s) (fun n => Nat.eqb n (uid i) || dns s n) (executable s) (statuses s).
(** propagator.h:233; a definition outside the function is never simulated, and neither is a null pointer *)
Definition should_simulate_def (s : pstate) (id : N) : bool :=
  match get_def f id with Some d => negb (dns s (uid d)) | None => true end.
(** propagator.cpp:70-85 SetStatus *)
Definition set_status (i : inst) (st : status) (s : pstate) : outcome (bool * pstate) :=
  let put := mkState (blocksQ s) (ssaQ s) (simulated s) (dns s) (executable s)
               (fun n => if Nat.eqb n (uid i) then Some st else statuses s n) in
  match statuses s (uid i) with
  | None => Ok (true, put)
  | Some old =>
      if Nat.leb (status_rank old) (status_rank st) then
        if status_eqb old st then Ok (false, s) else Ok (true, put)
      else Asserted
  end.
(** propagator.cpp:138-170: whether an operand may still change *)
Definition operands_to_simulate (i : inst) (s : pstate) : bool :=
  match kind i with
  | KPhi args => existsb (fun a => negb (executable s (snd a) (blk i)) || should_simulate_def s (fst a)) args
  | _ => existsb (should_simulate_def s) (in_ids i)
  end.
(** propagator.cpp:87-177 Simulate(Instruction* ) ; the [bool] is SuccessWithChange *)
Definition sim_inst (i : inst) (su : pstate * U) : outcome (bool * (pstate * U)) :=
  let s := fst su in
  if dns s (uid i) then Ok (false, su) else
  match visit (snd su) (executable s) i with
  | VisitFailed => Failure
  | VisitAsserted => Asserted
  | Visited st dest u =>
      r <- set_status i st s;
      let changed := fst r in
      let s1 := snd r in
      match st with
      | Varying =>
          let s2 := dont_simulate_again i s1 in
          let s3 := if changed then add_ssa_edges i s2 else s2 in
          let s4 := if is_terminator i then fold_left (fun a d => add_control_edge (blk i) d a) (succs f (blk i)) s3 else s3 in
          Ok (false, (s4, u))
      | _ =>
          let s2 := match st with Interesting => if changed then add_ssa_edges i s1 else s1 | _ => s1 end in
          let s3 := match st, dest with Interesting, Some d => add_control_edge (blk i) (Some d) s2 | _, _ => s2 end in
          let s4 := if operands_to_simulate i s3 then s3 else dont_simulate_again i s3 in
          Ok (match st with Interesting => true | _ => false end, (s4, u))
      end
  end.
(** WhileEachInst, basic_block.h:258-274 *)
Fixpoint sim_insts (is : list inst) (su : pstate * U) : outcome (bool * (pstate * U)) :=
  match is with
  | [] => Ok (false, su)
  | i :: is' => r <- sim_inst i su; q <- sim_insts is' (snd r); Ok (fst r || fst q, snd q)
  end.
(** basic_block.h:313-327 WhileEachPhiInst *)
Fixpoint leading_phis (is : list inst) : list inst :=
  match is with i :: is' => if is_phi i then i :: leading_phis is' else [] | [] => [] end.
Definition mark_simulated (l : N) (s : pstate) : pstate :=
  mkState (blocksQ s) (ssaQ s) (fun x => (x =? l) || simulated s x) (dns s) (executable s) (statuses s).
(** propagator.cpp:179-224 Simulate(BasicBlock* ) *)
Definition sim_block (l : N) (su : pstate * U) : outcome (bool * (pstate * U)) :=
  match get_block f l with
  | None => Asserted
  | Some b =>
      r <- sim_insts (leading_phis (insts b)) su;
      if simulated (fst (snd r)) l then Ok r
      else
        q <- sim_insts (block_insts b) (snd r);
        let s := mark_simulated l (fst (snd q)) in
        let s' := match block_succs b with [d] => add_control_edge l d s | _ => s end in
        Ok (fst r || fst q, (s', snd (snd q)))
  end.
(** propagator.cpp:259-284 the loop of Run.  An element leaves its queue before it is simulated instead of after; nothing looks at the
    queues in between. *)
Definition pop_block (s : pstate) : pstate := mkState (tl (blocksQ s)) (ssaQ s) (simulated s) (dns s) (executable s) (statuses s).
Definition pop_ssa (s : pstate) : pstate := mkState (blocksQ s) (tl (ssaQ s)) (simulated s) (dns s) (executable s) (statuses s).
Fixpoint run_loop (fuel : nat) (changed : bool) (su : pstate * U) : outcome (bool * (pstate * U)) :=
  match fuel with
  | O => OutOfFuel
  | S fuel' =>
      match blocksQ (fst su) with
      | l :: _ => r <- sim_block l (pop_block (fst su), snd su); run_loop fuel' (changed || fst r) (snd r)
      | [] =>
          match ssaQ (fst su) with
          | i :: _ => r <- sim_inst i (pop_ssa (fst su), snd su); run_loop fuel' (changed || fst r) (snd r)
          | [] => Ok (changed, su)
          end
      end
  end.
(** propagator.cpp:226-254 Initialize: the pseudo entry block has id 0 (cfg.cpp:38-39) and an edge to the first block *)
Definition empty_state : pstate := mkState [] [] (fun _ => false) (fun _ => false) (fun _ _ => false) (fun _ => None).
Definition initial_state : pstate :=
  match f with b :: _ => add_control_edge 0 (Some (label b)) empty_state | [] => empty_state end.
(** propagator.cpp:256-297 Run, with the check of 286-294 that no instruction is left without a decision *)
Definition decided (s : pstate) (i : inst) : bool := match statuses s (uid i) with Some NotInteresting => false | _ => true end.
Definition run (fuel : nat) (u : U) : outcome (bool * (pstate * U)) :=
  r <- run_loop fuel false (initial_state, u); if forallb (decided (fst (snd r))) (all_insts f) then Ok r else Asserted.
End Propagator.

(** ** Conditional constant propagation, source/opt/ccp_pass.cpp *)
(** ccp_pass.cpp:35 *)
Definition varying_id : N := 0xFFFFFFFF.
(** What analysis::Constant offers to this pass: constants.h BoolConstant, IntConstant (its words), NullConstant (of what value), and others. *)
Inductive value := VBool (b : bool) | VInt (words : list N) | VOther (n : N).
Inductive constant := CBool (b : bool) | CInt (words : list N) | CNull (v : value) | COther (n : N).
(** InstructionFolder::FoldInstructionToConstant: no constant, the id of a constant, or a constant after the ids ran out *)
Inductive folded := FNone | FConst (id : N) | FOverflow.

Section CCP.
(** const_mgr_->FindDeclaredConstant *)
Variable consts : N -> option constant.
(** The folder may depend on what it did before: its first argument counts the calls. *)
Variable fold_inst : nat -> inst -> (N -> N) -> folded.

(** values_ and the number of calls of the folder *)
Definition values := N -> option N.
Definition put_value (id v : N) (V : values) : values := fun x => if x =? id then Some v else V x.
(** ccp_pass.cpp:157-163 map_func *)
Definition value_map (V : values) (id : N) : N :=
  match V id with Some v => if v =? varying_id then id else v | None => id end.
(** ccp_pass.cpp:40-45 *)
Definition mark_varying (i : inst) (V : values) (n : nat) : visited (values * nat) := Visited Varying None (put_value (res i) varying_id V, n).
(** ccp_pass.cpp:53-87 the loop of VisitPhi: [None] is a varying phi, otherwise the id of the meet, or 0 *)
Fixpoint phi_meet (V : values) (executable : N -> N -> bool) (b : N) (args : list (N * N)) (meet : N) : option N :=
  match args with
  | [] => Some meet
  | (a, l) :: args' =>
      if executable l b then
        match V a with
        | None => phi_meet V executable b args' meet
        | Some v =>
            if v =? varying_id then None
            else if meet =? 0 then phi_meet V executable b args' v
            else if v =? meet then phi_meet V executable b args' meet
            else None
        end
      else phi_meet V executable b args' meet
  end.
(** ccp_pass.cpp:47-99 VisitPhi *)
Definition visit_phi (i : inst) (args : list (N * N)) (V : values) (n : nat) (executable : N -> N -> bool) : visited (values * nat) :=
  match phi_meet V executable (blk i) args 0 with
  | None => mark_varying i V n
  | Some meet => if meet =? 0 then Visited NotInteresting None (V, n) else Visited Interesting None (put_value (res i) meet V, n)
  end.
(** ccp_pass.cpp:101-127 ComputeLatticeMeet *)
Definition lattice_meet (i : inst) (V : values) (v2 : N) : N :=
  match V (res i) with
  | None => v2
  | Some v1 => if v1 =? varying_id then v1 else if v2 =? varying_id then v2 else if negb (v1 =? v2) then varying_id else v2
  end.
Definition assign (i : inst) (new : N) (V : values) (n : nat) : visited (values * nat) :=
  Visited (if new =? varying_id then Varying else Interesting) None (put_value (res i) new V, n).
(** ccp_pass.cpp:129-205 VisitAssignment *)
Definition is_varying (V : values) (id : N) : bool := match V id with Some v => v =? varying_id | None => false end.
Definition is_known (V : values) (id : N) : bool := match V id with Some _ => true | None => false end.
Definition visit_assignment (i : inst) (V : values) (n : nat) : visited (values * nat) :=
  match kind i with
  | KCopy s =>
      match V s with
      | Some v => if v =? varying_id then mark_varying i V n else assign i (lattice_meet i V v) V n
      | None => Visited NotInteresting None (V, n)
      end
  | KFoldable _ ids =>
      match fold_inst n i (value_map V) with
      | FOverflow => VisitFailed
      | FConst c => assign i (lattice_meet i V c) V (S n)
      | FNone =>
          if existsb (is_varying V) ids then mark_varying i V (S n)
          else if negb (forallb (is_known V) ids) then Visited NotInteresting None (V, S n)
          else mark_varying i V (S n)
      end
  | _ => mark_varying i V n
  end.
(** ccp_pass.cpp:275-281: a one-word comparison with the first word of each literal *)
Fixpoint switch_target (w dflt : N) (cases : list (list N * N)) : N :=
  match cases with
  | [] => dflt
  | (lit, l) :: cases' => if w =? hd 0 lit then l else switch_target w dflt cases'
  end.
(** ccp_pass.cpp:207-287 VisitBranch.  The test at 246-250 looks at the number of words of the selector id, which is always one. *)
Definition visit_branch (f : func) (i : inst) (V : values) (n : nat) : visited (values * nat) :=
  let goto l := match get_block f l with Some _ => Visited Interesting (Some l) (V, n) | None => VisitAsserted end in
  match kind i with
  | KBranch l => goto l
  | KCond c t e =>
      match V c with
      | None => Visited Varying None (V, n)
      | Some v =>
          if v =? varying_id then Visited Varying None (V, n) else
          match consts v with
          | Some (CNull _) => goto e
          | Some (CBool b) => goto (if b then t else e)
          | _ => VisitAsserted
          end
      end
  | KSwitch s d cases =>
      match V s with
      | None => Visited Varying None (V, n)
      | Some v =>
          if v =? varying_id then Visited Varying None (V, n) else
          match consts v with
          | Some (CInt ws) => goto (switch_target (hd 0 ws) d cases)
          | Some (CNull _) => goto (switch_target 0 d cases)
          | _ => VisitAsserted
          end
      end
  | _ => VisitAsserted
  end.
(** ccp_pass.cpp:289-300 VisitInstruction *)
Definition visit_instruction (f : func) (u : values * nat) (executable : N -> N -> bool) (i : inst) : visited (values * nat) :=
  match kind i with
  | KPhi args => visit_phi i args (fst u) (snd u) executable
  | KBranch _ | KCond _ _ _ | KSwitch _ _ _ => visit_branch f i (fst u) (snd u)
  | _ => if negb (res i =? 0) then visit_assignment i (fst u) (snd u) else Visited Varying None u
  end.
(** ccp_pass.cpp:350-374 Initialize and 331-334: the constants of the module are their own values; its other global values, its imports and
    the parameters of the function are varying *)
Definition initial_values (constants others : list N) : values :=
  fun id => if existsb (fun x => x =? id) constants then Some id
            else if existsb (fun x => x =? id) others then Some varying_id else None.
(** ccp_pass.cpp:326-348 PropagateConstants, up to the replacement *)
Definition propagate (f : func) (fuel : nat) (V : values) : outcome (bool * (pstate * (values * nat))) :=
  run _ (visit_instruction f) f fuel (V, O).
(** ccp_pass.cpp:302-324 ReplaceValues: uses of an id that has a constant become uses of the constant.  The names and decorations it
    removes are not modelled. *)
Definition replace_kind (V : values) (k : ikind) : ikind :=
  let r := value_map V in
  match k with
  | KLabel => KLabel
  | KPhi args => KPhi (map (fun a => (r (fst a), snd a)) args)
  | KCopy s => KCopy (r s)
  | KFoldable op ids => KFoldable op (map r ids)
  | KOther op ids => KOther op (map r ids)
  | KBranch l => KBranch l
  | KCond c t e => KCond (r c) t e
  | KSwitch s d cases => KSwitch (r s) d cases
  | KReturn op ids => KReturn op (map r ids)
  end.
Definition replace_inst (V : values) (i : inst) : inst := mkInst (uid i) (res i) (blk i) (replace_kind V (kind i)).
Definition replace_values (V : values) (f : func) : func :=
  map (fun b => mkBlock (replace_inst V (blabel b)) (map (replace_inst V) (insts b))) f.
End CCP.
