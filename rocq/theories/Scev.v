(** Model of the scalar evolution expressions: source/opt/scalar_analysis_nodes.h,
    source/opt/scalar_analysis.{h,cpp} (construction, sign analysis and division) and
    source/opt/scalar_analysis_simplification.cpp.

    Nodes live in a cache which never drops one and never holds two equal ones
    (GetCachedOrAdd, scalar_analysis.cpp:360-370, with SENode::operator==, 497-544), so a pointer
    to a node is represented by the node's structure, and comparing pointers is comparing
    structures.  The order of things then depends on three things the structure does not
    determine: the unique id each node got when it was created (scalar_analysis_nodes.h:58), which
    orders children; the address of nodes, which orders std::map<SENode*, ...>; and the address
    of loops, which orders std::map<const Loop*, ...>.  They are arbitrary functions here
    ([uid], [addr], [laddr]).

    Simplifications: the int64_t arithmetic on constants is on unbounded integers (its overflow,
    undefined in C++, is not modelled); building the graph from instructions
    (AnalyzeInstruction and the phi analysis) is left out, as are IsLoopInvariant, the hash and
    the dot output; pretend_equal_ is empty. *)
From Verif Require Import Base.
Local Open Scope Z_scope.

(** scalar_analysis_nodes.h:215-343  The node classes.  A multiplication has two children
    (CreateMultiplyNode is the only place that makes one, and operator/ asserts it,
    scalar_analysis.cpp:975-976), a negation one. *)
Inductive node :=
| NConst (v : Z)
| NRec (loop : N) (offset coefficient : node)
| NAdd (cs : list node)
| NMul (a b : node)
| NNeg (a : node)
| NUnknown (id : N)
| NCant.

(** scalar_analysis.cpp:497-544  operator==. *)
Fixpoint node_eqb (x y : node) : bool :=
  match x, y with
  | NConst v, NConst w => Z.eqb v w
  | NRec l o c, NRec l' o' c' => N.eqb l l' && node_eqb o o' && node_eqb c c'
  | NAdd xs, NAdd ys =>
      (fix go xs ys := match xs, ys with
                       | [], [] => true
                       | x :: xs', y :: ys' => node_eqb x y && go xs' ys'
                       | _, _ => false
                       end) xs ys
  | NMul a b, NMul c d => node_eqb a c && node_eqb b d
  | NNeg a, NNeg b => node_eqb a b
  | NUnknown i, NUnknown j => N.eqb i j
  | NCant, NCant => true
  | _, _ => false
  end.

(** Outcomes of the simplification: a node, an undefined operation, or out of fuel. *)
Inductive sres (A : Type) := SOk (a : A) | SBad | SFuel.
Arguments SOk {A} a. Arguments SBad {A}. Arguments SFuel {A}.
Definition sbind {A B} (r : sres A) (k : A -> sres B) : sres B :=
  match r with SOk a => k a | SBad => SBad | SFuel => SFuel end.
Notation "'dos' x <- r ; k" := (sbind r (fun x => k)) (at level 200, x pattern, r at level 100, k at level 200).

Section Scev.
Variables (uid addr : node -> N) (laddr : N -> N).

(** scalar_analysis_nodes.h:64-81  AddChild: before the first child with a smaller unique id. *)
Fixpoint add_child (cs : list node) (c : node) : list node :=
  match cs with
  | [] => [c]
  | d :: cs' => if N.leb (uid c) (uid d) then d :: add_child cs' c else c :: cs
  end.
Definition add_children (cs new : list node) : list node := fold_left add_child new cs.

(** scalar_analysis_nodes.h:167  GetChildren. *)
Definition children (n : node) : list node :=
  match n with
  | NRec _ o c => add_children [] [o; c]
  | NAdd cs => cs
  | NMul a b => [a; b]
  | NNeg a => [a]
  | _ => []
  end.

(** scalar_analysis.cpp:57-67  CreateNegation. *)
Definition create_negation (n : node) : node :=
  match n with NCant => NCant | NConst v => NConst (- v) | _ => NNeg n end.
(** scalar_analysis.cpp:74-95  CreateRecurrentExpression. *)
Definition create_recurrent (loop : N) (o c : node) : node :=
  match o, c with NCant, _ => NCant | _, NCant => NCant | _, _ => NRec loop o c end.
(** A multiplication node with its two children in order. *)
Definition mul_node (a b : node) : node :=
  match add_children [] [a; b] with [x; y] => NMul x y | _ => NCant end.
(** scalar_analysis.cpp:111-129  CreateMultiplyNode. *)
Definition create_multiply (a b : node) : node :=
  match a, b with
  | NCant, _ => NCant
  | _, NCant => NCant
  | NConst v, NConst w => NConst (v * w)
  | _, _ => mul_node a b
  end.
(** scalar_analysis.cpp:143-162  CreateAddNode. *)
Definition create_add (a b : node) : node :=
  match a, b with
  | NConst v, NConst w => NConst (v + w)
  | NCant, _ => NCant
  | _, NCant => NCant
  | _, _ => NAdd (add_children [] [a; b])
  end.
(** scalar_analysis.cpp:131-141  CreateSubtraction. *)
Definition create_subtraction (a b : node) : node :=
  match a, b with
  | NConst v, NConst w => NConst (v - w)
  | _, _ => create_add a (create_negation b)
  end.

(** * Simplification *)

(** scalar_analysis_simplification.cpp:133-146  The accumulators, with the node the rest is added
    to (the |new_node| argument). *)
Record accs := mkAccs {
  ac_new : list node;
  ac_const : Z;
  ac_terms : list (node * Z)
}.

(** accumulators_.find / insert / the update of a found entry; the map is ordered by address. *)
Fixpoint has_term (ts : list (node * Z)) (t : node) : bool :=
  match ts with [] => false | (u, _) :: ts' => node_eqb u t || has_term ts' t end.
Fixpoint bump_term (ts : list (node * Z)) (t : node) (d : Z) : list (node * Z) :=
  match ts with
  | [] => []
  | (u, k) :: ts' => if node_eqb u t then (u, k + d) :: ts' else (u, k) :: bump_term ts' t d
  end.
Fixpoint insert_term (ts : list (node * Z)) (t : node) (d : Z) : list (node * Z) :=
  match ts with
  | [] => [(t, d)]
  | (u, k) :: ts' => if N.leb (addr u) (addr t) then (u, k) :: insert_term ts' t d else (t, d) :: ts
  end.
Definition accumulate (ts : list (node * Z)) (t : node) (d : Z) : list (node * Z) :=
  if has_term ts t then bump_term ts t d else insert_term ts t d.

Definition is_term (n : node) : bool :=
  match n with NUnknown _ | NRec _ _ _ => true | _ => false end.
Definition const_of (n : node) : option Z := match n with NConst v => Some v | _ => None end.

(** scalar_analysis_simplification.cpp:151-195  AccumulatorsFromMultiply: the term and the
    constant of unknown*constant. *)
Definition split_multiply (a b : node) : option (node * Z) :=
  let value_unknown := if is_term a then Some a else if is_term b then Some b else None in
  let constant := match const_of a with Some v => Some v | None => const_of b end in
  match value_unknown, constant with
  | Some t, Some v => Some (t, v)
  | _, _ => None
  end.

Definition sign_of (negation : bool) : Z := if negation then -1 else 1.

(** scalar_analysis_simplification.cpp:242-284  GatherAccumulatorsFromChildNodes. *)
Fixpoint gather (acc : accs) (n : node) (negation : bool) : accs :=
  match n with
  | NConst v => mkAccs (ac_new acc) (ac_const acc + v * sign_of negation) (ac_terms acc)
  | NUnknown _ | NRec _ _ _ =>
      mkAccs (ac_new acc) (ac_const acc) (accumulate (ac_terms acc) n (sign_of negation))
  | NMul a b =>
      match split_multiply a b with
      | Some (t, v) =>
          mkAccs (ac_new acc) (ac_const acc) (accumulate (ac_terms acc) t (v * sign_of negation))
      | None => mkAccs (add_child (ac_new acc) n) (ac_const acc) (ac_terms acc)
      end
  | NAdd cs =>
      (fix go acc cs := match cs with [] => acc | c :: cs' => go (gather acc c negation) cs' end)
        acc cs
  | NNeg a => gather acc a (negb negation)
  | NCant => mkAccs (add_child (ac_new acc) n) (ac_const acc) (ac_terms acc)
  end.

Section Step.
(** The recursive SimplifyExpression calls. *)
Variable simp : node -> sres node.

(** scalar_analysis_simplification.cpp:286-311  UpdateCoefficient. *)
Definition update_coefficient (loop : N) (o c : node) (k : Z) : sres node :=
  let new_coefficient := create_multiply c (NConst k) in
  dos simplified <- simp new_coefficient;
  let coefficient := match simplified with NCant => new_coefficient | _ => simplified end in
  let offset := if Z.ltb k 0 then create_negation o else o in
  SOk (NRec loop offset coefficient).

(** scalar_analysis_simplification.cpp:326-356  One accumulated term of the rebuilt polynomial. *)
Definition add_term (cs : list node) (term : node) (count : Z) : sres (list node) :=
  if Z.eqb count 0 then SOk cs
  else if Z.eqb count 1 then SOk (add_child cs term)
  else match term with
       | NRec l o c => dos r <- update_coefficient l o c count; SOk (add_child cs r)
       | _ => if Z.eqb count (-1) then SOk (add_child cs (create_negation term))
              else SOk (add_child cs (create_multiply (NConst count) term))
       end.
Fixpoint add_terms (cs : list node) (ts : list (node * Z)) : sres (list node) :=
  match ts with
  | [] => SOk cs
  | (t, k) :: ts' => dos cs' <- add_term cs t k; add_terms cs' ts'
  end.

(** scalar_analysis_simplification.cpp:314-370  SimplifyPolynomial. *)
Definition simplify_polynomial (n : node) : sres node :=
  let acc := gather (mkAccs [] 0 []) n false in
  let cs := if Z.eqb (ac_const acc) 0 then ac_new acc
            else add_child (ac_new acc) (NConst (ac_const acc)) in
  dos cs <- add_terms cs (ac_terms acc);
  match cs with
  | [c] => SOk c
  | [] => SOk (NConst 0)
  | _ => SOk (NAdd cs)
  end.

(** The recurrences of one loop, with their offset, coefficient and whether they are negated. *)
Definition rec_entry : Type := node * node * bool.
(** loops_to_recurrent[loop].push_back(...); the map is ordered by address. *)
Fixpoint has_loop (m : list (N * list rec_entry)) (l : N) : bool :=
  match m with [] => false | (k, _) :: m' => N.eqb k l || has_loop m' l end.
Fixpoint push_loop (m : list (N * list rec_entry)) (l : N) (e : rec_entry) :=
  match m with
  | [] => []
  | (k, es) :: m' => if N.eqb k l then (k, es ++ [e]) :: m' else (k, es) :: push_loop m' l e
  end.
Fixpoint insert_loop (m : list (N * list rec_entry)) (l : N) (e : rec_entry) :=
  match m with
  | [] => [(l, [e])]
  | (k, es) :: m' =>
      if N.leb (laddr k) (laddr l) then (k, es) :: insert_loop m' l e else (l, [e]) :: m
  end.

(** scalar_analysis_simplification.cpp:380-407  The classification of the children: the other
    children, the recurrences by loop, and whether two belong to one loop. *)
Fixpoint classify (rest : list node) (m : list (N * list rec_entry)) (multiple : bool)
    (cs : list node) : list node * list (N * list rec_entry) * bool :=
  match cs with
  | [] => (rest, m, multiple)
  | child :: cs' =>
      let '(child, negation) := match child with NNeg a => (a, true) | _ => (child, false) end in
      match child with
      | NRec l o c =>
          if has_loop m l then classify rest (push_loop m l (o, c, negation)) true cs'
          else classify rest (insert_loop m l (o, c, negation)) multiple cs'
      | _ => classify (add_child rest child) m multiple cs'
      end
  end.

Definition neg_if (b : bool) (n : node) : node := if b then create_negation n else n.

(** scalar_analysis_simplification.cpp:409-448  The fold of each loop's recurrences: [inl] is the
    early return. *)
Fixpoint fold_loops (cs : list node) (m : list (N * list rec_entry)) : sres (node + list node) :=
  match m with
  | [] => SOk (inr cs)
  | (l, es) :: m' =>
      let coefficient := NAdd (add_children [] (map (fun '(_, c, b) => neg_if b c) es)) in
      let offset := NAdd (add_children [] (map (fun '(o, _, b) => neg_if b o) es)) in
      dos sc <- simp coefficient;
      dos so <- simp offset;
      match sc with
      | NConst 0 => SOk (inl so)
      | _ => fold_loops (add_child cs (NRec l so sc)) m'
      end
  end.

(** scalar_analysis_simplification.cpp:372-456  FoldRecurrentAddExpressions. *)
Definition fold_recurrent (root : node) : sres node :=
  let '(rest, m, multiple) := classify [] [] false (children root) in
  if negb multiple then SOk root
  else
    dos r <- fold_loops rest m;
    match r with
    | inl n => SOk n
    | inr [c] => SOk c
    | inr cs => SOk (NAdd cs)
    end.

Definition is_const_zero (n : node) : bool := match n with NConst 0 => true | _ => false end.
Definition is_zero_rec (n : node) : bool := match n with NRec _ _ c => is_const_zero c | _ => false end.
Definition offset_of (n : node) : node := match n with NRec _ o _ => o | _ => n end.

(** scalar_analysis_simplification.cpp:458-491  EliminateZeroCoefficientRecurrents. *)
Definition eliminate_zero (n : node) : node :=
  match n with
  | NAdd cs =>
      if existsb is_zero_rec cs
      then NAdd (add_children [] (map (fun c => if is_zero_rec c then offset_of c else c) cs))
      else n
  | _ => n
  end.

Definition is_rec (n : node) : bool := match n with NRec _ _ _ => true | _ => false end.

(** scalar_analysis_simplification.cpp:493-526  SimplifyRecurrentAddExpression; [cs] are the
    children of node_.  When the new offset cannot be computed the offset is added to the wrong
    node and the result keeps an uninitialised one. *)
Definition simplify_recurrent (cs : list node) (l : N) (o c : node) : sres node :=
  let offset := NAdd (add_children [o] (filter (fun x => negb (is_rec x)) cs)) in
  dos so <- simp offset;
  match so with
  | NCant => SBad
  | _ => SOk (NRec l so c)
  end.

(** The recurrences of the whole graph, as the depth-first iteration meets them. *)
Fixpoint recs (n : node) : list node :=
  match n with
  | NRec _ o c => n :: recs o ++ recs c
  | NAdd cs => flat_map recs cs
  | NMul a b => recs a ++ recs b
  | NNeg a => recs a
  | _ => []
  end.

(** scalar_analysis_simplification.cpp:213-217  The last child which is a recurrence. *)
Definition last_rec (cs : list node) : option node :=
  fold_left (fun found c => if is_rec c then Some c else found) cs None.

(** scalar_analysis_simplification.cpp:197-239  Simplify.  When no child is a recurrence,
    recurrent_expr is null and any recurrence differs from it. *)
Definition simplify_step (n : node) : sres node :=
  match n with
  | NAdd _ | NMul _ _ | NNeg _ =>
      dos poly <- simplify_polynomial n;
      dos folded <- fold_recurrent poly;
      let result := eliminate_zero folded in
      match last_rec (children result) with
      | None => SOk result
      | Some r =>
          if forallb (fun x => node_eqb r x) (recs result) then
            match r with
            | NRec l o c => simplify_recurrent (children poly) l o c
            | _ => SOk result
            end
          else SOk result
      end
  | _ => SOk n
  end.
End Step.

(** scalar_analysis_simplification.cpp:531-535  SimplifyExpression. *)
Fixpoint simplify (fuel : nat) (n : node) : sres node :=
  match fuel with
  | O => SFuel
  | S fuel' => simplify_step (simplify fuel') n
  end.

(** * Division *)

(** scalar_analysis.cpp:930-952  RemoveOneNodeFromMultiplyChain.  The last case multiplies by
    |rhs|, as the code does. *)
Fixpoint remove_one (mul x : node) : node :=
  match mul with
  | NMul lhs rhs =>
      if node_eqb lhs x then rhs
      else if node_eqb rhs x then lhs
      else
        let right :=
          match rhs with
          | NMul _ _ =>
              let res := remove_one rhs x in
              if node_eqb res rhs then mul else create_multiply res rhs
          | _ => mul
          end in
        match lhs with
        | NMul _ _ =>
            let res := remove_one lhs x in
            if node_eqb res lhs then right else create_multiply res rhs
        | _ => right
        end
  | _ => mul
  end.

(** scalar_analysis.cpp:955-984  operator/, before the result is wrapped (and simplified) as an
    SExpression. *)
Definition divide (lhs rhs : node) : node * Z :=
  match rhs, lhs with
  | NConst 0, _ => (NCant, 0)
  | NConst w, NConst v => (NConst (Z.quot v w), Z.rem v w)
  | _, NMul _ _ =>
      let res := remove_one lhs rhs in
      if node_eqb res lhs then (NCant, 0) else (res, 0)
  | _, _ => (NCant, 0)
  end.

(** * The sign analysis *)

(** scalar_analysis.cpp:693-699  Signedness. *)
Inductive sgn := SAny | SStrictNeg | SNeg | SStrictPos | SPos.

(** scalar_analysis.cpp:706-738  GetAddCombiner. *)
Definition add_sgn (l r : sgn) : sgn :=
  match l, r with
  | SStrictNeg, SStrictNeg | SStrictNeg, SNeg => SStrictNeg
  | SNeg, SStrictNeg => SStrictNeg
  | SNeg, SNeg => SNeg
  | SStrictPos, SStrictPos | SStrictPos, SPos => SStrictPos
  | SPos, SStrictPos => SStrictPos
  | SPos, SPos => SPos
  | _, _ => SAny
  end.
(** scalar_analysis.cpp:742-805  GetMulCombiner. *)
Definition mul_sgn (l r : sgn) : sgn :=
  match l, r with
  | SStrictNeg, SStrictNeg => SStrictPos
  | SStrictNeg, SNeg => SPos
  | SStrictNeg, SStrictPos => SStrictNeg
  | SStrictNeg, SPos => SNeg
  | SNeg, SStrictNeg | SNeg, SNeg => SPos
  | SNeg, SStrictPos | SNeg, SPos => SNeg
  | SStrictPos, _ => r
  | SPos, SStrictNeg | SPos, SNeg => SNeg
  | SPos, SStrictPos | SPos, SPos => SPos
  | _, _ => SAny
  end.
(** scalar_analysis.cpp:872-891  Visit of a negation. *)
Definition neg_sgn (s : sgn) : sgn :=
  match s with SAny => SAny | SStrictNeg => SStrictPos | SNeg => SPos | SStrictPos => SStrictNeg | SPos => SNeg end.
(** scalar_analysis.cpp:854-868  The sign of the varying part of a recurrence. *)
Definition weaken_sgn (s : sgn) : sgn :=
  match s with SStrictNeg => SNeg | SStrictPos => SPos | _ => s end.

(** scalar_analysis.cpp:807-911  Visit and VisitExpr; [signed] tells the ids of signed type.
    [None] is the dereference of the first child of a node that has none. *)
Fixpoint visit (signed : N -> bool) (n : node) : option sgn :=
  match n with
  | NConst v => Some (if Z.eqb 0 v then SPos else if Z.ltb 0 v then SStrictPos else SStrictNeg)
  | NUnknown i => Some (if signed i then SAny else SPos)
  | NCant => Some SAny
  | NNeg a => match visit signed a with Some s => Some (neg_sgn s) | None => None end
  | NRec _ o c =>
      match visit signed c, visit signed o with
      | Some sc, Some so => Some (add_sgn (weaken_sgn sc) so)
      | _, _ => None
      end
  | NAdd [] => None
  | NAdd (c :: cs) =>
      match visit signed c with
      | None => None
      | Some s =>
          (fix go s cs := match cs with
                          | [] => Some s
                          | d :: cs' =>
                              match s with
                              | SAny => Some SAny
                              | _ => match visit signed d with
                                     | None => None
                                     | Some t => go (add_sgn s t) cs'
                                     end
                              end
                          end) s cs
      end
  | NMul a b =>
      match visit signed a with
      | None => None
      | Some SAny => Some SAny
      | Some s => match visit signed b with None => None | Some t => Some (mul_sgn s t) end
      end
  end.

(** scalar_analysis.cpp:654-689  Eval: [None] when nothing is concluded. *)
Definition eval_sgn (s : sgn) (or_equal_zero : bool) : option bool :=
  match s with
  | SAny => None
  | SStrictNeg => Some false
  | SNeg => if negb or_equal_zero then None else Some false
  | SStrictPos => Some true
  | SPos => if negb or_equal_zero then None else Some true
  end.
(** scalar_analysis.cpp:916-924  IsAlwaysGreaterThanZero, IsAlwaysGreaterOrEqualToZero. *)
Definition always_gt_zero (signed : N -> bool) (n : node) : option bool :=
  match visit signed n with Some s => eval_sgn s false | None => None end.
Definition always_ge_zero (signed : N -> bool) (n : node) : option bool :=
  match visit signed n with Some s => eval_sgn s true | None => None end.

(** * Queries *)

(** scalar_analysis.cpp:396-407  GetCoefficientFromRecurrentTerm. *)
Definition coefficient_for (n : node) (l : N) : node :=
  match find (fun r => match r with NRec l' _ _ => N.eqb l' l | _ => false end) (recs n) with
  | Some (NRec _ _ c) => c
  | _ => NConst 0
  end.
(** scalar_analysis.cpp:433-463  BuildGraphWithoutRecurrentTerm, before the final
    SimplifyExpression. *)
Definition without_rec (n : node) (l : N) : node :=
  let drop x := match x with NRec l' o _ => if N.eqb l' l then o else x | _ => x end in
  match n with
  | NRec l' o _ => if N.eqb l' l then o else n
  | _ => NAdd (add_children [] (map drop (children n)))
  end.
End Scev.
