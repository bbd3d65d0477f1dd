(** Rewriting of a function's variables into SSA ids: model of source/opt/ssa_rewrite_pass.cpp and ssa_rewrite_pass.h. *)
From Verif Require Import Base.
Local Open Scope N_scope.

(** ** Functions *)
(** source/opt/instruction.h:182-649: an instruction, reduced to what this pass looks at.  Simplification: the function is taken after
    mem_pass.cpp:505-529 (CollectTargetVars) has found the variables to rewrite: no instruction but OpLoad and OpStore mentions such a variable
    (mem_pass.cpp:242-256, HasOnlySupportedRefs).  [ILoad] and [IStore] are the loads and stores of these variables; everything else, loads and stores
    of other variables included, is [IOther].  The initializer of a variable counts as a store in the entry block (ssa_rewrite_pass.cpp:302-315), and is
    written as one.  Variables that hold pointers (ssa_rewrite_pass.cpp:373-398), debug instructions, and the Volatile operand,
    which the pass does not look at, are left out. *)
Inductive inst :=
| ILoad (res var : N)
| IStore (var val : N)
| IOther (res : option N) (op : N) (args : list N).
(** source/opt/instruction.h:182-649: OpPhi, with its pairs of a value and the block it comes from *)
Record phi := mkphi { p_res : N; p_args : list (N * N) }.
(** source/opt/basic_block.h:40-241: label, phis, instructions up to the terminator, the terminator (opcode, ids it reads, targets) *)
Record block := mkblock { label : N; phis : list phi; body : list inst; t_op : N; t_args : list N; t_succ : list N }.
(** source/opt/function.h:39-228: the blocks, the entry block first *)
Definition func := list block.

(** source/opt/cfg.cpp:49-57 (AddEdges), cfg.h:35-38 (preds): one entry for every edge, in the order of the blocks *)
Definition preds (f : func) (l : N) : list N := flat_map (fun b => map (fun _ => label b) (filter (N.eqb l) (t_succ b))) f.
Definition find_block (f : func) (l : N) : option block := find (fun b => label b =? l) f.

(** source/opt/cfg.cpp:168-190 (ComputePostOrderTraversal): [fuel] bounds the rounds of the loop *)
Fixpoint post_order (fuel : nat) (f : func) (stack seen order : list N) : list N :=
  match fuel with
  | O => order
  | S n =>
      match stack with
      | [] => order
      | b :: stack' =>
          let seen' := b :: seen in
          match find_block f b with
          | None => order
          | Some bb =>
              match find (fun l => negb (existsb (N.eqb l) seen')) (t_succ bb) with
              | Some l => post_order n f (l :: stack) seen' order
              | None => post_order n f stack' seen' (b :: order)
              end
          end
      end
  end.
(** source/opt/cfg.cpp:126-140 (WhileEachBlockInReversePostOrder): the order in which blocks are visited *)
Definition visit_order (f : func) : list N :=
  match f with [] => [] | b :: _ => post_order (S (2 * length f)) f [label b] [] [] end.

(** ** The tables *)
(** ssa_rewrite_pass.h:45-117 (PhiCandidate) *)
Record cand := mkcand { c_var : N; c_bb : N; c_args : list N; c_copy : N; c_done : bool; c_users : list N }.
(** ssa_rewrite_pass.h:255-289: what is known of each variable at each block (0: nothing), the candidates by id, the ids that loads are replaced by,
    the blocks that have been scanned, the candidates to complete, those to generate, and the next free id *)
Record state := mkstate { defs : N -> N -> N; cands : N -> option cand; repl : N -> option N; sealed : list N; queue : list N; gen : list N; next : N }.
Definition upd {A} (m : N -> A) (k : N) (x : A) : N -> A := fun y => if y =? k then x else m y.
Definition set_defs (s : state) (d : N -> N -> N) : state := mkstate d (cands s) (repl s) (sealed s) (queue s) (gen s) (next s).
Definition set_cands (s : state) (c : N -> option cand) : state := mkstate (defs s) c (repl s) (sealed s) (queue s) (gen s) (next s).
Definition set_repl (s : state) (r : N -> option N) : state := mkstate (defs s) (cands s) r (sealed s) (queue s) (gen s) (next s).
Definition is_sealed (s : state) (b : N) : bool := existsb (N.eqb b) (sealed s).
Definition edit (s : state) (id : N) (g : cand -> cand) : state :=
  match cands s id with Some c => set_cands s (upd (cands s) id (Some (g c))) | None => s end.
(** ssa_rewrite_pass.h:97 (AddUser) *)
Definition add_user (s : state) (id u : N) : state := edit s id (fun c => mkcand (c_var c) (c_bb c) (c_args c) (c_copy c) (c_done c) (c_users c ++ [u])).
(** ssa_rewrite_pass.h:187-192 (WriteVariable) *)
Definition write (s : state) (v b x : N) : state := add_user (set_defs s (upd (defs s) b (upd (defs s b) v x))) x b.

Section Rewrite.
Variable f : func.
Variable undef : N -> N.     (* mem_pass.h:44-46, mem_pass.cpp:258-273 (GetUndefVal): the OpUndef of the variable's type *)

Definition is_label (id : N) : bool := existsb (fun b => label b =? id) f.
(** ssa_rewrite_pass.cpp:101-127 (ReplacePhiUsersWith): one user.  [p] is the candidate that goes, of variable [v] *)
Definition replace_user (p v x : N) (s : state) (u : N) : state :=
  match cands s u with
  | Some _ => edit s u (fun c => mkcand (c_var c) (c_bb c) (map (fun a => if a =? p then x else a) (c_args c)) (c_copy c) (c_done c) (c_users c))
  | None =>
      if is_label u then write s v u x
      else set_repl s (fun l => match repl s l with Some y => Some (if y =? p then x else y) | None => None end)
  end.
(** ssa_rewrite_pass.cpp:129-147: the one value other than [p] itself among the arguments, 0 if there is none; [None]: two values *)
Fixpoint only_value (p same : N) (args : list N) : option N :=
  match args with
  | [] => Some same
  | a :: args' => if (a =? same) || (a =? p) then only_value p same args' else if negb (same =? 0) then None else only_value p a args'
  end.
(** ssa_rewrite_pass.cpp:129-167 (TryRemoveTrivialPhi).  [None]: the assertion in line 160 fails. *)
Definition try_remove (p : N) (s : state) : option (N * state) :=
  match cands s p with
  | None => None
  | Some c =>
      match only_value p 0 (c_args c) with
      | None => Some (p, s)
      | Some 0 => None
      | Some x =>
          let s1 := edit s p (fun c => mkcand (c_var c) (c_bb c) (c_args c) x (c_done c) (c_users c)) in
          Some (x, fold_left (replace_user p (c_var c) x) (c_users c) s1)
      end
  end.
Definition push_arg (s : state) (p a : N) : state := edit s p (fun c => mkcand (c_var c) (c_bb c) (c_args c ++ [a]) (c_copy c) (c_done c) (c_users c)).
Definition mark_done (s : state) (p : N) : state := edit s p (fun c => mkcand (c_var c) (c_bb c) (c_args c) (c_copy c) true (c_users c)).
Definition enqueue (s : state) (p : N) : state := mkstate (defs s) (cands s) (repl s) (sealed s) (queue s ++ [p]) (gen s) (next s).
Definition generate (s : state) (p : N) : state := mkstate (defs s) (cands s) (repl s) (sealed s) (queue s) (gen s ++ [p]) (next s).

(** ssa_rewrite_pass.cpp:173-227 (AddPhiOperands, the loop): [look] is GetReachingDef for a block *)
Fixpoint operands (look : N -> state -> option (N * state)) (p : N) (ps : list N) (s : state) : option state :=
  match ps with
  | [] => Some s
  | q :: ps' =>
      match (if is_sealed s q then look q s else Some (0, s)) with
      | None => None
      | Some (a, s1) =>
          let s2 := push_arg s1 p a in
          let s3 := if a =? p then s2 else add_user s2 a p in
          operands look p ps' s3
      end
  end.
(** ssa_rewrite_pass.cpp:229-246 (AddPhiOperands, the rest) *)
Definition settle (p : N) (s : state) : option (N * state) :=
  match cands s p with
  | None => None
  | Some c =>
      if existsb (N.eqb 0) (c_args c) then Some (p, enqueue s p)
      else
        match try_remove p s with
        | None => None
        | Some (x, s1) => if x =? p then Some (x, generate (mark_done s1 p) p) else Some (x, s1)
        end
  end.
(** ssa_rewrite_pass.cpp:91-99 (CreatePhiCandidate).  Simplification: ids do not run out. *)
Definition create (v b : N) (s : state) : state :=
  mkstate (defs s) (upd (cands s) (next s) (Some (mkcand v b [] 0 false []))) (repl s) (sealed s) (queue s) (gen s) (next s + 1).
(** ssa_rewrite_pass.cpp:261-293 (GetReachingDef); [None]: an assertion fails, or the recursion does not end within [fuel] *)
Fixpoint reaching (fuel : nat) (v b : N) (s : state) : option (N * state) :=
  match fuel with
  | O => None
  | S n =>
      if negb (defs s b v =? 0) then Some (defs s b v, s)
      else
        match (match preds f b with
               | [] => Some (0, s)
               | [p] => reaching n v p s
               | ps =>
                   let p := next s in
                   match operands (reaching n v) p ps (write (create v b s) v b p) with
                   | None => None
                   | Some s1 => settle p s1
                   end
               end) with
        | None => None
        | Some (x, s1) => let y := if x =? 0 then undef v else x in Some (y, write s1 v b y)
        end
  end.

(** ssa_rewrite_pass.cpp:302-326 (ProcessStore), 328-417 (ProcessLoad), 430-443 (GenerateSSAReplacements) *)
Definition visit_inst (fuel : nat) (b : N) (i : inst) (s : state) : option state :=
  match i with
  | IStore v x => Some (write s v b x)
  | ILoad r v =>
      match reaching fuel v b s with
      | None => None
      | Some (x, s1) => Some (add_user (set_repl s1 (upd (repl s1) r (Some x))) x r)
      end
  | IOther _ _ _ => Some s
  end.
Fixpoint visit_insts (fuel : nat) (b : N) (l : list inst) (s : state) : option state :=
  match l with
  | [] => Some s
  | i :: l' => match visit_inst fuel b i s with Some s1 => visit_insts fuel b l' s1 | None => None end
  end.
(** ssa_rewrite_pass.cpp:295-300, 447 (SealBlock) *)
Definition seal (b : N) (s : state) : state := mkstate (defs s) (cands s) (repl s) (b :: sealed s) (queue s) (gen s) (next s).
(** ssa_rewrite_pass.cpp:675-681: the blocks in the order in which they are visited *)
Fixpoint visit_blocks (fuel : nat) (order : list N) (s : state) : option state :=
  match order with
  | [] => Some s
  | l :: order' =>
      match find_block f l with
      | None => None
      | Some b => match visit_insts fuel l (body b) s with Some s1 => visit_blocks fuel order' (seal l s1) | None => None end
      end
  end.

Fixpoint set_nth (l : list N) (i : nat) (x : N) : list N :=
  match l, i with
  | [], _ => []
  | _ :: l', O => x :: l'
  | a :: l', S i' => a :: set_nth l' i' x
  end.
Definition set_arg (s : state) (p : N) (i : nat) (a : N) : state :=
  edit s p (fun c => mkcand (c_var c) (c_bb c) (set_nth (c_args c) i a) (c_copy c) (c_done c) (c_users c)).
(** ssa_rewrite_pass.cpp:609-623 (FinalizePhiCandidate, the loop) *)
Fixpoint complete (fuel : nat) (p v : N) (ps : list N) (i : nat) (s : state) : option state :=
  match ps with
  | [] => Some s
  | q :: ps' =>
      match cands s p with
      | None => None
      | Some c =>
          if nth i (c_args c) 1 =? 0 then
            match (if is_sealed s q then reaching fuel v q s else Some (undef v, s)) with
            | None => None
            | Some (a, s1) => complete fuel p v ps' (S i) (set_arg s1 p i a)
            end
          else complete fuel p v ps' (S i) s
      end
  end.
(** ssa_rewrite_pass.cpp:605-636 (FinalizePhiCandidate) *)
Definition finalize (fuel : nat) (p : N) (s : state) : option state :=
  match cands s p with
  | None => None
  | Some c =>
      match complete fuel p (c_var c) (preds f (c_bb c)) 0 s with
      | None => None
      | Some s1 =>
          match try_remove p (mark_done s1 p) with
          | None => None
          | Some (x, s2) => Some (if x =? p then generate s2 p else s2)
          end
      end
  end.
(** ssa_rewrite_pass.cpp:638-652 (FinalizePhiCandidates) *)
Fixpoint finalize_all (fuel n : nat) (s : state) : option state :=
  match n with
  | O => None
  | S n' =>
      match queue s with
      | [] => Some s
      | p :: q =>
          match finalize fuel p (mkstate (defs s) (cands s) (repl s) (sealed s) q (gen s) (next s)) with
          | None => None
          | Some s1 => finalize_all fuel n' s1
          end
      end
  end.

(** ssa_rewrite_pass.cpp:457-465 (GetReplacement): [None]: the loop does not end within [fuel] *)
Fixpoint replacement (fuel : nat) (s : state) (x : N) : option N :=
  match fuel with
  | O => None
  | S n => match repl s x with Some y => replacement n s y | None => Some x end
  end.
(** ssa_rewrite_pass.h:94 (IsReady) *)
Definition ready (c : cand) : bool := c_done c && (c_copy c =? 0).
(** ssa_rewrite_pass.cpp:467-489 (GetPhiArgument): [None]: the assertion fails, or the loop does not end within [fuel] *)
Fixpoint phi_argument (fuel : nat) (s : state) (a : N) : option N :=
  match fuel with
  | O => None
  | S n =>
      if a =? 0 then None
      else match cands s a with None => Some a | Some c => if ready c then Some a else phi_argument n s (c_copy c) end
  end.
Fixpoint mapM {A B} (g : A -> option B) (l : list A) : option (list B) :=
  match l with
  | [] => Some []
  | a :: l' => match g a, mapM g l' with Some b, Some bs => Some (b :: bs) | _, _ => None end
  end.
(** ssa_rewrite_pass.cpp:523-541: one entry for each predecessor *)
Fixpoint dedup (seen : list N) (l : list (N * N)) : list (N * N) :=
  match l with
  | [] => []
  | (a, p) :: l' => if existsb (N.eqb p) seen then dedup seen l' else (a, p) :: dedup (p :: seen) l'
  end.
(** ssa_rewrite_pass.cpp:501-563 (ApplyReplacements, the new phis), with the uses that 575-598 replace in them *)
Definition new_phi (fuel : nat) (s : state) (p : N) : option (N * phi) :=
  match cands s p with
  | None => None
  | Some c =>
      match mapM (fun a => match phi_argument fuel s a with Some x => replacement fuel s x | None => None end) (c_args c) with
      | None => None
      | Some args => Some (c_bb c, mkphi p (dedup [] (combine args (preds f (c_bb c)))))
      end
  end.
(** ssa_rewrite_pass.cpp:572-599 (ApplyReplacements, the loads): every use of a load that is replaced gets the replacement, and the load goes *)
Definition rename (ren : N -> N) (i : inst) : inst :=
  match i with
  | ILoad r v => ILoad r v
  | IStore v x => IStore v (ren x)
  | IOther r o l => IOther r o (map ren l)
  end.
Definition kept (s : state) (i : inst) : bool :=
  match i with ILoad r _ => match repl s r with Some _ => false | None => true end | _ => true end.
Definition finish_block (s : state) (ren : N -> N) (new : list (N * phi)) (b : block) : block :=
  mkblock (label b)
          (rev (map snd (filter (fun x => fst x =? label b) new)) ++ map (fun p => mkphi (p_res p) (map (fun a => (ren (fst a), snd a)) (p_args p))) (phis b))
          (map (rename ren) (filter (kept s) (body b))) (t_op b) (map ren (t_args b)) (t_succ b).
(** all loads that are replaced can be: the loops of GetReplacement end *)
Definition loads (f : func) : list N := flat_map (fun b => flat_map (fun i => match i with ILoad r _ => [r] | _ => [] end) (body b)) f.
(** ssa_rewrite_pass.cpp:663-693 (RewriteFunctionIntoSSA); the ids from [first] on are free *)
Definition start (first : N) : state := mkstate (fun _ _ => 0) (fun _ => None) (fun _ => None) [] [] [] first.
Definition tables (fuel : nat) (order : list N) (first : N) : option state :=
  match visit_blocks fuel order (start first) with Some s => finalize_all fuel fuel s | None => None end.
Definition apply (fuel : nat) (s : state) : option func :=
  match mapM (new_phi fuel s) (gen s), mapM (replacement fuel s) (loads f) with
  | Some new, Some _ =>
      let ren := fun x => match replacement fuel s x with Some y => y | None => x end in
      Some (map (finish_block s ren new) f)
  | _, _ => None
  end.
Definition rewrite (fuel : nat) (first : N) : option func :=
  match tables fuel (visit_order f) first with Some s => apply fuel s | None => None end.
End Rewrite.
