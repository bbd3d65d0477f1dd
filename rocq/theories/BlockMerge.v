(** Merging blocks: model of source/opt/block_merge_util.cpp and block_merge_pass.cpp.  Functions are those of Redundancy.v; the merge instructions are kept beside the
    blocks.  Not modelled: line numbers and debug scopes. *)
From Verif Require Import Base Redundancy CodeSink.
Local Open Scope N_scope.

(** OpLoopMerge or OpSelectionMerge ([m_continue] is of no importance then) *)
Record merge := mkmerge { m_loop : bool; m_target : N; m_continue : N }.
(** the blocks that have a merge instruction, with it (BasicBlock::GetMergeInst, basic_block.cpp:72-85) *)
Definition headers := list (N * merge).
Definition header (ms : headers) (l : N) : option merge := match find (fun h => fst h =? l) ms with Some (_, m) => Some m | None => None end.
(** block_merge_util.cpp:34-45 (IsMerge) *)
Definition is_merge (ms : headers) (l : N) : bool := existsb (fun h => m_target (snd h) =? l) ms.
(** block_merge_util.cpp:52-62 (IsContinue) *)
Definition is_continue (ms : headers) (l : N) : bool := existsb (fun h => m_loop (snd h) && (m_continue (snd h) =? l)) ms.

Section Pass.
Variable branch : N -> bool.          (* is the terminator an OpBranch? *)
Variable conditional : N -> bool.     (* an OpBranchConditional? *)
Variable maximal : bool.              (* has the module the extension SPV_KHR_maximal_reconvergence? *)
Variable reached : N -> bool.         (* IRContext::IsReachable (ir_context.cpp:1241-1245) *)
(** block_merge_util.cpp:142-158: is the block the target of a case of the switch around it, and not its merge block?  Simplification: any function. *)
Variable in_case : list block -> headers -> N -> bool.

(** block_merge_util.cpp:80-161 (CanMergeWithSuccessor): the successor, if the block can be merged with it *)
Definition can_merge (bs : list block) (ms : headers) (b : block) : option N :=
  match branch (t_op b), t_succ b with
  | true, [s] =>
      if negb (Nat.eqb (preds (mkfunc [] bs) s) 1) then None
      else
        let pm := is_merge ms (label b) in
        let sm := is_merge ms s in
        if pm && sm then None
        else if sm && maximal then None
        else if pm && is_continue ms s then None
        else if match header ms (label b) with
                | Some m =>
                    negb (s =? m_target m) &&
                    (match header ms s with Some _ => true | None => false end ||
                     match find (fun c => label c =? s) bs with Some c => negb (branch (t_op c) || conditional (t_op c)) | None => true end)
                | None => false
                end then None
        else if (sm || is_continue ms s) && in_case bs ms (label b) then None
        else Some s
  | _, _ => None
  end.

Definition sub (a c y : N) : N := if y =? c then a else y.
(** ReplaceAllUsesWith (lab_id, bi->id ()), block_merge_util.cpp:226; [g]: the replaced phis *)
Definition redirect (a c : N) (g : N -> N) (b : block) : block :=
  mkblock (label b) (map (fun p => mkphi (p_res p) (map (fun x => (g (fst x), sub a c (snd x))) (p_args p))) (phis b)) (map (rename g) (body b)) (t_op b) (map g (t_args b)) (map (sub a c) (t_succ b)).
(** block_merge_util.cpp:67-76 (EliminateOpPhiInstructions); [None]: a phi without operands *)
Fixpoint phi_values (ps : list phi) (g : N -> N) : option (N -> N) :=
  match ps with
  | [] => Some g
  | p :: ps' => match p_args p with [] => None | (v, _) :: _ => phi_values ps' (fun y => replace1 (p_res p) (g v) (g y)) end
  end.
(** block_merge_util.cpp:177-198: the block [b] with the instructions of [c] *)
Definition join (b c : block) : block := mkblock (label b) (phis b) (body b ++ body c) (t_op c) (t_args c) (t_succ c).
(** block_merge_util.cpp:200-226: the merge instruction of [a] goes if [c] is its merge block, that of [c] becomes that of [a] *)
Definition join_headers (a c : N) (ms : headers) : headers :=
  map (fun h => (sub a c (fst h), mkmerge (m_loop (snd h)) (sub a c (m_target (snd h))) (sub a c (m_continue (snd h)))))
    (filter (fun h => negb ((fst h =? a) && (m_target (snd h) =? c))) ms).
(** the first block with the label, and the blocks around it *)
Fixpoint take (l : N) (bs : list block) : option (list block * block * list block) :=
  match bs with
  | [] => None
  | b :: bs' => if label b =? l then Some ([], b, bs') else match take l bs' with Some (x, c, y) => Some (b :: x, c, y) | None => None end
  end.
(** block_merge_pass.cpp:25-39 (MergeBlocks): [before]: the blocks that are done.  [None]: out of fuel, or the successor is not found behind the block
    (block_merge_util.cpp:178-183). *)
Fixpoint merge_from (fuel : nat) (before rest : list block) (ms : headers) : option (list block * headers) :=
  match rest with
  | [] => Some (before, ms)
  | b :: rest' =>
      match fuel with
      | O => None
      | S n =>
          match (if reached (label b) then can_merge (before ++ rest) ms b else None) with
          | None => merge_from n (before ++ [b]) rest' ms
          | Some s =>
              match take s rest with
              | None => None
              | Some ([], _, _) => None
              | Some (b0 :: x, c, y) =>
                  match phi_values (phis c) (fun z => z) with
                  | None => None
                  | Some g => let fix_ := redirect (label b) s g in merge_from n (map fix_ before) (fix_ (join b0 c) :: map fix_ (x ++ y)) (join_headers (label b) s ms)
                  end
              end
          end
      end
  end.
Definition merge_blocks (f : func) (ms : headers) : option (func * headers) :=
  match merge_from (length (blocks f)) [] (blocks f) ms with Some (bs, ms') => Some (mkfunc (prelude f) bs, ms') | None => None end.
End Pass.
