(** Unifying constants: model of source/opt/unify_const_pass.cpp. *)
From Verif Require Import Base.
Local Open Scope N_scope.

(** The opcodes of constants the pass looks at (an OpSpecConstantOp with the operation it is for), and all others in the section of types, constants and global variables *)
Inductive opcode := True_ | False_ | Constant | Null | Sampler | Composite | SpecOp (w : N) | SpecComposite | Other (k : N).
(** An operand after the result id: an id, or a word of a literal *)
Inductive operand := Id (x : N) | Lit (w : N).
(** [ty]: the result type, 0 if there is none; [res]: the result id, 0 if there is none; [ops]: the other operands, without the operation of an OpSpecConstantOp *)
Record inst := mkinst { op : opcode; ty : N; res : N; ops : list operand }.
Definition rename_operand (s : N -> N) (o : operand) : operand := match o with Id x => Id (s x) | Lit w => Lit w end.
(** IRContext::ReplaceAllUsesWith, for all replacements so far *)
Definition rename (s : N -> N) (i : inst) : inst := mkinst (op i) (s (ty i)) (res i) (map (rename_operand s) (ops i)).
Definition word (o : operand) : N := match o with Id x => x | Lit w => w end.
(** The number of an opcode (spirv.hpp11) *)
Definition code (o : opcode) : N :=
  match o with True_ => 41 | False_ => 42 | Constant => 43 | Composite => 44 | Sampler => 45 | Null => 46 | SpecComposite => 51 | SpecOp _ => 52 | Other k => k end.
(** unify_const_pass.cpp:88-100 (GetLookUpKeys): opcode, type, and the words of the operands without the result id *)
Definition key (i : inst) : list N := code (op i) :: ty i :: (match op i with SpecOp w => [w] | _ => [] end) ++ map word (ops i).
(** unify_const_pass.cpp:139-156, the cases of the switch *)
Definition unifiable (o : opcode) : bool := match o with Other _ => false | _ => true end.
(** unify_const_pass.cpp:42-52 (LookupEquivalentResultFor).  Simplification: the trie is a list of its paths with the result ids at their ends. *)
Definition trie := list (list N * N).
Definition lookup (t : trie) (k : list N) : option N := option_map snd (find (fun e => if list_eq_dec N.eq_dec (fst e) k then true else false) t).
(** unify_const_pass.cpp:106-172 (Process): which id is replaced by which, and the results of the instructions that are removed.  [deco]: do annotations mention the id?
    (Ids they mention are not replaced, so this does not change.) *)
Fixpoint run (deco : N -> bool) (l : list inst) (t : trie) (s : N -> N) (gone : list N) : (N -> N) * list N :=
  match l with
  | [] => (s, gone)
  | i :: l' =>
      if deco (res i) then run deco l' t s gone
      else if unifiable (op i) then
        match lookup t (key (rename s i)) with
        | None => run deco l' ((key (rename s i), res i) :: t) s gone
        | Some x => if x =? res i then run deco l' t s gone else run deco l' t (fun y => if s y =? res i then x else s y) (res i :: gone)
        end
      else run deco l' t s gone
  end.
Definition unify (deco : N -> bool) (l : list inst) : (N -> N) * list N := run deco l [] (fun x => x) [].
(** the instructions that are left *)
Definition result (deco : N -> bool) (l : list inst) : list inst :=
  let (s, gone) := unify deco l in map (rename s) (filter (fun i => negb (existsb (N.eqb (res i)) gone)) l).
