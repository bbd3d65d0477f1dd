(** Model of the loop dependence tests: source/opt/loop_dependence.{h,cpp} and
    source/opt/loop_dependence_helpers.cpp.

    Subscripts and loop bounds are scalar evolution nodes (Scev.v); a pointer to a node is the
    node's structure.  A null pointer that is dereferenced, a division by zero, and out of fuel are
    outcomes of their own ([SBad], [SFuel]).

    Simplifications: the int64_t arithmetic is on unbounded integers; the loop asked for is one the
    analysis was built for, so that it has a distance entry; the float comparison of the weak
    crossing test is a function of the two integers ([half]).  Reading the subscripts and the
    conditions out of the module, PartitionSubscripts, PropagateConstraints and DeltaTest are left
    out: the subscript pairs here are the separable ones. *)
From Verif Require Import Base Scev.
Local Open Scope Z_scope.

(** A node that may be null. *)
Definition deref {A B} (o : option A) (k : A -> sres B) : sres B :=
  match o with Some a => k a | None => SBad end.

(** loop_dependence.h:53-70  DependenceInformation and Directions. *)
Inductive info := I_unknown | I_direction | I_distance | I_peel | I_irrelevant | I_point.
Inductive direction := D_none | D_lt | D_eq | D_le | D_gt | D_ne | D_ge | D_all.
(** loop_dependence.h:71-77  DistanceEntry; the coordinates of points are left out. *)
Record entry := mkEntry {
  e_info : info;
  e_dir : direction;
  e_dist : Z;
  e_peel_first : bool;
  e_peel_last : bool
}.
(** loop_dependence.h:79-86  DistanceEntry(). *)
Definition entry0 : entry := mkEntry I_unknown D_all 0 false false.
Definition set_dir (e : entry) (d : direction) := mkEntry (e_info e) d (e_dist e) (e_peel_first e) (e_peel_last e).
Definition set_dist (e : entry) (d : Z) := mkEntry (e_info e) (e_dir e) d (e_peel_first e) (e_peel_last e).
Definition set_found (e : entry) (i : info) (d : direction) :=
  mkEntry i d (e_dist e) (e_peel_first e) (e_peel_last e).
Definition set_distance (e : entry) (d : direction) (x : Z) :=
  mkEntry I_distance d x (e_peel_first e) (e_peel_last e).
Definition set_peel_first (e : entry) := mkEntry I_peel (e_dir e) (e_dist e) true (e_peel_last e).
Definition set_peel_last (e : entry) := mkEntry I_peel (e_dir e) (e_dist e) (e_peel_first e) true.

(** The conditions GetConditionInst accepts (loop_descriptor.cpp:96-115), signed or not. *)
Inductive cmp := C_lt | C_gt | C_le | C_ge.

(** What the tests ask of a loop.  [ld_cond]: its condition, with the analysed left operand (looked
    through one phi; [None] when two phis follow) and right operand.  [ld_init]: the constant its
    condition variable starts with (GetInductionInitValue).  [ld_trip]: the number of iterations
    (FindNumberOfIterations). *)
Record loop_desc := mkLoop {
  ld_cond : option (cmp * option node * node);
  ld_init : option Z;
  ld_trip : option Z
}.

(** loop_dependence.cpp:35-66  GreatestCommonDivisor. *)
Fixpoint gcd_steps (fuel : nat) (a b : Z) : sres Z :=
  match fuel with
  | O => SFuel
  | S fuel' =>
      if Z.eqb a b then SOk a
      else if Z.eqb a 0 then SOk b
      else if Z.eqb b 0 then SOk a
      else if Z.eqb (Z.rem a 2) 0 && Z.eqb (Z.rem b 2) 0 then
        dos g <- gcd_steps fuel' (Z.quot a 2) (Z.quot b 2); SOk (2 * g)
      else if Z.eqb (Z.rem a 2) 0 && Z.eqb (Z.rem b 2) 1 then gcd_steps fuel' (Z.quot a 2) b
      else if Z.eqb (Z.rem a 2) 1 && Z.eqb (Z.rem b 2) 0 then gcd_steps fuel' a (Z.quot b 2)
      else if Z.ltb b a then gcd_steps fuel' (Z.quot (a - b) 2) b
      else gcd_steps fuel' (Z.quot (b - a) 2) a
  end.
Definition gcd_fuel (a b : Z) : nat := S (Z.to_nat (Z.log2 a + Z.log2 b)).
Definition greatest_common_divisor (a b : Z) : sres Z := gcd_steps (gcd_fuel a b) a b.

(** loop_dependence.cpp:71-84  IsInCorrectFormForGCDTest. *)
Fixpoint gcd_form (n : node) : bool :=
  match n with
  | NRec _ _ _ | NConst _ => true
  | NAdd cs => forallb gcd_form cs
  | _ => false
  end.
(** loop_dependence.cpp:88-102  GetAllTopLevelRecurrences: offset and coefficient of each. *)
Fixpoint top_recs (n : node) : list (node * node) :=
  match n with
  | NRec _ o c => [(o, c)]
  | NAdd cs => flat_map top_recs cs
  | _ => []
  end.
(** loop_dependence.cpp:106-120  GetAllTopLevelConstants. *)
Fixpoint top_consts (n : node) : list Z :=
  match n with
  | NConst v => [v]
  | NAdd cs => flat_map top_consts cs
  | _ => []
  end.
(** loop_dependence.cpp:122-131  AreOffsetsAndCoefficientsConstant, which looks at the offset
    twice and never at the coefficient. *)
Definition offsets_constant (rs : list (node * node)) : bool :=
  forallb (fun '(o, _) => match const_of o with
                          | Some _ => match const_of o with Some _ => true | None => false end
                          | None => false
                          end) rs.
(** loop_dependence.cpp:135-148  CalculateConstantTerm. *)
Fixpoint constant_terms (rs : list (node * node)) : sres Z :=
  match rs with
  | [] => SOk 0
  | (o, _) :: rs' => deref (const_of o) (fun v => dos s <- constant_terms rs'; SOk (v + s))
  end.
Definition calculate_constant (rs : list (node * node)) (cs : list Z) : sres Z :=
  dos r <- constant_terms rs; SOk (r + fold_right Z.add 0 cs).
(** loop_dependence.cpp:150-160  CalculateGCDFromCoefficients. *)
Fixpoint gcd_coefficients (rs : list (node * node)) (running : Z) : sres Z :=
  match rs with
  | [] => SOk running
  | (_, c) :: rs' =>
      deref (const_of c) (fun v =>
      dos g <- greatest_common_divisor running (Z.abs v); gcd_coefficients rs' g)
  end.

(** loop_dependence.cpp:1075-1112  GCDMIVTest: whether the two are independent. *)
Definition gcd_miv_test (source destination : node) : sres bool :=
  if negb (gcd_form source) || negb (gcd_form destination) then SOk false
  else
    let source_recurrences := top_recs source in
    let dest_recurrences := top_recs destination in
    if negb (offsets_constant source_recurrences) || negb (offsets_constant dest_recurrences)
    then SOk false
    else
      dos source_constant <- calculate_constant source_recurrences (top_consts source);
      dos destination_constant <- calculate_constant dest_recurrences (top_consts destination);
      let delta := Z.abs (source_constant - destination_constant) in
      dos g <- gcd_coefficients source_recurrences 0;
      dos g <- gcd_coefficients dest_recurrences g;
      if Z.eqb g 0 then SBad else SOk (negb (Z.eqb (Z.rem delta g) 0)).

(** loop_dependence.cpp:164-178  NormalizeAndCompareFractions. *)
Definition same_fraction (n0 d0 n1 d1 : Z) : sres bool :=
  dos g0 <- greatest_common_divisor (Z.abs n0) (Z.abs d0);
  dos g1 <- greatest_common_divisor (Z.abs n1) (Z.abs d1);
  if Z.eqb g0 0 || Z.eqb g1 0 then SBad
  else SOk (Z.eqb (Z.quot n0 g0) (Z.quot n1 g1) && Z.eqb (Z.quot d0 g0) (Z.quot d1 g1)).

(** loop_dependence_helpers.cpp:121-133  IsWithinBounds. *)
Definition within_bounds (value bound_one bound_two : Z) : bool :=
  if Z.ltb bound_one bound_two then Z.leb bound_one value && Z.leb value bound_two
  else if Z.ltb bound_two bound_one then Z.leb bound_two value && Z.leb value bound_one
  else Z.eqb value bound_one.

(** CollectValueUnknownNodes (scalar_analysis_nodes.h:135-150): whether there are any. *)
Fixpoint has_unknown (n : node) : bool :=
  match n with
  | NUnknown _ => true
  | NRec _ o c => has_unknown o || has_unknown c
  | NAdd cs => existsb has_unknown cs
  | NMul a b => has_unknown a || has_unknown b
  | NNeg a => has_unknown a
  | _ => false
  end.

Definition loop_of (n : node) : list N := match n with NRec l _ _ => [l] | _ => [] end.
(** loop_dependence_helpers.cpp:316-362  CollectLoops of one node, and of two. *)
Definition loops_of (n : node) : list N := nodup N.eq_dec (flat_map loop_of (recs n)).
Definition loops_of_pair (s d : node) : list N := nodup N.eq_dec (flat_map loop_of (recs s ++ recs d)).
(** loop_dependence_helpers.cpp:195-223  GetLoopForSubscriptPair. *)
Definition pair_loop (s d : node) : option N :=
  match loops_of_pair s d with [l] => Some l | _ => None end.

Definition as_rec (n : node) : option (node * node) :=
  match n with NRec _ o c => Some (o, c) | _ => None end.

(** loop_dependence.cpp:393-408  ZIVTest. *)
Definition ziv_test (source destination : node) : bool := negb (node_eqb source destination).

Section Tests.
Variables (uid addr : node -> N) (laddr : N -> N) (fuel : nat).
Variable half : Z -> Z -> bool.
Variable loops : N -> loop_desc.
Notation simp := (simplify uid addr laddr fuel).

(** loop_dependence_helpers.cpp:48-78  GetLowerBound: [SOk None] is a null pointer. *)
Definition lower_bound (l : loop_desc) : sres (option node) :=
  match ld_cond l with
  | Some (_, Some lower, _) => dos n <- simp lower; SOk (Some n)
  | _ => SOk None
  end.
(** loop_dependence_helpers.cpp:80-119  GetUpperBound. *)
Definition upper_bound (l : loop_desc) : sres (option node) :=
  match ld_cond l with
  | None => SOk None
  | Some (C_lt, _, upper) => dos n <- simp (create_subtraction uid upper (NConst 1)); SOk (Some n)
  | Some (C_gt, _, upper) => dos n <- simp (create_add uid upper (NConst 1)); SOk (Some n)
  | Some (_, _, upper) => dos n <- simp upper; SOk (Some n)
  end.

(** loop_dependence_helpers.cpp:394-404  GetConstantTerm. *)
Definition constant_term (l : loop_desc) (offset : node) : sres (option node) :=
  dos lower <- lower_bound l;
  match lower with
  | None => SOk None
  | Some lower => dos n <- simp (create_subtraction uid offset lower); SOk (Some n)
  end.

(** loop_dependence_helpers.cpp:135-193  IsProvablyOutsideOfLoopBounds. *)
Definition outside_of_bounds (l : loop_desc) (distance coefficient : node) : sres bool :=
  match const_of coefficient with
  | None => SOk false
  | Some c =>
      dos lower <- lower_bound l;
      dos upper <- upper_bound l;
      match lower, upper with
      | Some lower, Some upper =>
          dos bounds <- (if Z.leb 0 c then simp (create_subtraction uid upper lower)
                         else simp (create_subtraction uid lower upper));
          dos d <- simp (create_subtraction uid distance bounds);
          match const_of d with
          | Some v => SOk (Z.ltb 0 v)
          | None => SOk false
          end
      | _, _ => SOk false
      end
  end.

(** loop_dependence_helpers.cpp:279-297  GetFirstTripInductionNode. *)
Definition first_trip (l : loop_desc) : sres (option node) :=
  match ld_init l with
  | None => SOk None
  | Some v => dos n <- simp (NConst v); SOk (Some n)
  end.
(** loop_dependence_helpers.cpp:299-314  GetFinalTripInductionNode, with GetTripCount (251-277).
    A null trip count is dereferenced. *)
Definition final_trip (l : loop_desc) (coefficient : node) : sres (option node) :=
  dos first <- first_trip l;
  match first with
  | None => SOk None
  | Some first =>
      deref (ld_trip l) (fun t =>
      dos count <- simp (create_subtraction uid (NConst t) (NConst 1));
      dos n <- simp (create_add uid first (create_multiply uid count coefficient));
      SOk (Some n))
  end.

(** loop_dependence.cpp:664-693  SymbolicStrongSIVTest. *)
Definition symbolic_strong_siv (l : N) (source destination coefficient : node) (e : entry)
    : sres (bool * entry) :=
  dos delta <- simp (create_subtraction uid source destination);
  dos outside <- outside_of_bounds (loops l) delta coefficient;
  if outside then SOk (true, set_found e I_direction D_none)
  else SOk (false, set_dir e D_all).

(** loop_dependence.cpp:510-662  StrongSIVTest.  When there is no distance the code stores the
    direction ALL, which is 7, as the distance. *)
Definition strong_siv (l : N) (source destination coefficient : node) (e : entry)
    : sres (bool * entry) :=
  if has_unknown source || has_unknown destination
  then symbolic_strong_siv l source destination coefficient e
  else
    match as_rec source, as_rec destination with
    | Some (source_offset, _), Some (destination_offset, _) =>
        dos source_constant <- constant_term (loops l) source_offset;
        dos destination_constant <- constant_term (loops l) destination_offset;
        match source_constant, destination_constant with
        | Some source_constant, Some destination_constant =>
            dos delta <- simp (create_subtraction uid destination_constant source_constant);
            match const_of delta, const_of coefficient with
            | Some delta, Some c =>
                if Z.eqb c 0 then SBad
                else if negb (Z.eqb (Z.rem delta c) 0) then SOk (true, set_found e I_direction D_none)
                else
                  let distance := Z.quot delta c in
                  dos lower <- lower_bound (loops l);
                  dos upper <- upper_bound (loops l);
                  dos escapes <-
                    match lower, upper with
                    | Some lower, Some upper =>
                        dos bounds <- simp (create_subtraction uid upper lower);
                        match const_of bounds with
                        | Some b => SOk (Z.ltb (Z.abs b) (Z.abs distance))
                        | None => SOk false
                        end
                    | _, _ => SOk false
                    end;
                  if escapes then SOk (true, set_distance e D_none distance)
                  else if Z.ltb 0 distance then SOk (false, set_distance e D_lt distance)
                  else if Z.eqb distance 0 then SOk (false, set_distance e D_eq 0)
                  else SOk (false, set_distance e D_gt distance)
            | _, _ => SOk (false, set_dist e 7)
            end
        | _, _ => SOk (false, e)
        end
    | _, _ => SOk (false, set_dir e D_all)
    end.

(** loop_dependence.cpp:695-846 and 848-1000  WeakZeroSourceSIVTest and
    WeakZeroDestinationSIVTest, the same code with the roles exchanged: [fixed] is the subscript
    without induction variable, [offset] the offset of the other.  The two differ in one place: when
    the constant of the first trip ([debug_first], as in the source test) or of the final trip is
    one, the final trip is printed as a constant for the debug output. *)
Definition weak_zero (debug_first : bool) (l : N) (fixed offset coefficient : node) (e : entry)
    : sres (bool * entry) :=
  dos constant <- constant_term (loops l) offset;
  deref constant (fun constant =>
  dos delta <- simp (create_subtraction uid fixed constant);
  dos distance <-
    match const_of delta, const_of coefficient with
    | Some d, Some c =>
        if Z.eqb c 0 then SBad
        else if negb (Z.eqb (Z.rem d c) 0) then SOk None
        else SOk (Some (Z.quot d c))
    | _, _ => SOk (Some 0)
    end;
  match distance with
  | None => SOk (true, set_found e I_direction D_none)
  | Some distance =>
      dos lower <- lower_bound (loops l);
      deref lower (fun lower =>
      dos upper <- upper_bound (loops l);
      deref upper (fun upper =>
      let escapes :=
        match const_of lower, const_of upper with
        | Some lo, Some up => negb (within_bounds (Z.abs distance) lo up)
        | _, _ => false
        end in
      if escapes then SOk (true, set_distance e D_none distance)
      else
        dos first <- first_trip (loops l);
        deref first (fun first =>
        dos first_node <- simp (create_add uid first constant);
        if node_eqb fixed first_node then SOk (false, set_peel_first e)
        else
          dos final <- final_trip (loops l) coefficient;
          deref final (fun final =>
          dos final_node <- simp (create_add uid final constant);
          match const_of (if debug_first then first_node else final_node), const_of final_node with
          | Some _, None => SBad
          | _, _ =>
              if node_eqb fixed final_node then SOk (false, set_peel_last e)
              else SOk (false, set_dir e D_all)
          end))))
  end).

(** loop_dependence.cpp:1002-1071  WeakCrossingSIVTest. *)
Definition weak_crossing_siv (source destination coefficient : node) (e : entry)
    : sres (bool * entry) :=
  match as_rec source, as_rec destination with
  | Some (source_offset, _), Some (destination_offset, _) =>
      dos delta <- simp (create_subtraction uid destination_offset source_offset);
      match const_of delta, const_of coefficient with
      | Some d, Some c =>
          if Z.eqb c 0 then SBad
          else if negb (Z.eqb (Z.rem d (2 * c)) 0) && negb (half (Z.rem d (2 * c)) (2 * c))
          then SOk (true, set_found e I_direction D_none)
          else if Z.eqb (Z.quot d (2 * c)) 0 then SOk (false, set_distance e D_eq 0)
          else SOk (false, set_dir e D_all)
      | _, _ => SOk (false, set_dir e D_all)
      end
  | _, _ => SOk (false, set_dir e D_all)
  end.

(** What follows a test in SIVTest (loop_dependence.cpp:436-505). *)
Definition or_else (r : sres (bool * entry)) (k : entry -> sres (bool * entry)) : sres (bool * entry) :=
  dos (independent, e) <- r;
  if independent then SOk (true, set_found e I_direction D_none) else k e.

(** loop_dependence.cpp:410-508  SIVTest. *)
Definition siv_test (l : N) (source destination : node) (e : entry) : sres (bool * entry) :=
  or_else
    (match loops_of source with
     | [] => deref (as_rec destination) (fun '(o, c) => weak_zero true l source o c e)
     | _ => SOk (false, e)
     end) (fun e =>
  or_else
    (match loops_of destination with
     | [] => deref (as_rec source) (fun '(o, c) => weak_zero false l destination o c e)
     | _ => SOk (false, e)
     end) (fun e =>
  match recs source, recs destination with
  | [NRec _ _ sc], [NRec _ _ dc] =>
      or_else
        (if node_eqb sc dc then strong_siv l source destination sc e else SOk (false, e)) (fun e =>
      or_else
        (if node_eqb sc (create_negation dc) then weak_crossing_siv source destination sc e
         else SOk (false, e)) (fun e => SOk (false, e)))
  | _, _ => SOk (false, e)
  end)).

(** * The separable subscripts *)

(** The distance entries, by loop. *)
Definition entries := N -> entry.
Definition set_entry (es : entries) (l : N) (e : entry) : entries :=
  fun k => if N.eqb k l then e else es k.

(** IsSupportedLoop (loop_dependence_helpers.cpp:452-480). *)
Variable supported : N -> bool.

Definition is_cant (n : node) : bool := match n with NCant => true | _ => false end.

(** loop_dependence.cpp:271-347  One round of the loop over the separable subscripts: [inl]
    independent, [inr] go on. *)
Definition pair_test (source destination : node) (es : entries) : sres (entries + entries) :=
  let cannot := match pair_loop source destination with
                | Some l => inr (set_entry es l (set_dir (es l) D_all))
                | None => inr es
                end in
  let unsupported := match pair_loop source destination with
                     | Some l => negb (supported l)
                     | None => false
                     end in
  if unsupported then SOk cannot
  else
      if is_cant source || is_cant destination then SOk cannot
      else
        match loops_of_pair source destination with
        | [] => if ziv_test source destination then SOk (inl es) else SOk (inr es)
        | [l] =>
            dos (independent, e) <- siv_test l source destination (es l);
            SOk (if independent then inl (set_entry es l e) else inr (set_entry es l e))
        | ls =>
            dos independent <- gcd_miv_test source destination;
            SOk (if independent
                 then inl (fold_left (fun es l => set_entry es l (set_dir (es l) D_none)) ls es)
                 else inr es)
        end.
(** loop_dependence.cpp:267-347  The loop over the separable subscripts. *)
Fixpoint separable_test (pairs : list (node * node)) (es : entries) : sres (bool * entries) :=
  match pairs with
  | [] => SOk (false, es)
  | (s, d) :: pairs' =>
      dos r <- pair_test s d es;
      match r with
      | inl es => SOk (true, es)
      | inr es => separable_test pairs' es
      end
  end.
End Tests.

(** * Constraints *)

(** loop_dependence.h:196-303  The constraints: a line a*x + b*y = c, a distance, a point, none at
    all, and one nothing satisfies.  The loop they belong to is left out. *)
Inductive constr :=
| K_line (a b c : node)
| K_distance (d : node)
| K_point (x y : node)
| K_none
| K_empty.

Section Constraints.
Variables (uid addr : node -> N) (laddr : N -> N) (fuel : nat).
Notation simp := (simplify uid addr laddr fuel).

(** The line of a line or a distance (as in loop_dependence.cpp:1224-1249). *)
Definition line_of (k : constr) : sres (option (node * node * node)) :=
  match k with
  | K_line a b c => SOk (Some (a, b, c))
  | K_distance d => dos c <- simp (create_negation d); SOk (Some (NConst 1, NConst (-1), c))
  | _ => SOk None
  end.

(** loop_dependence.cpp:1258-1340  Two lines with constant coefficients. *)
Definition intersect_lines (k0 : constr) (a0 b0 c0 a1 b1 c1 : Z) (lower upper : node) : sres constr :=
  dos parallel <- same_fraction a0 b0 a1 b1;
  if parallel then
    if Z.eqb b0 0 && Z.eqb b1 0 then
      dos same <- same_fraction c0 a0 c1 a1;
      SOk (if same then k0 else K_empty)
    else
      dos same <- same_fraction c0 b0 c1 b1;
      SOk (if same then k0 else K_empty)
  else
    match const_of upper, const_of lower with
    | Some hi, Some lo =>
        let up := b1 * c0 - b0 * c1 in
        let down := b1 * a0 - b0 * a1 in
        if Z.eqb down 0 then SBad
        else
          let x := Z.quot up down in
          let '(y, arg1, b) :=
            if negb (Z.eqb b1 0) then (Z.quot (c1 - a1 * x) b1, c1 - a1 * x, b1)
            else if negb (Z.eqb b0 0) then (Z.quot (c0 - a0 * x) b0, c0 - a0 * x, b0)
            else (0, 0, 0) in
          if Z.eqb (Z.rem up down) 0 then
            if Z.eqb b 0 then SBad
            else
              SOk (if Z.eqb (Z.rem arg1 b) 0 && Z.leb lo x && Z.leb x hi && Z.leb lo y && Z.leb y hi
                   then K_point (NConst x) (NConst y) else K_empty)
          else SOk K_empty
    | _, _ => SOk K_none
    end.

(** loop_dependence.cpp:1184-1400  IntersectConstraints: [SOk None] is a null pointer. *)
Definition intersect (k0 k1 : constr) (lower upper : node) : sres (option constr) :=
  match k0, k1 with
  | K_none, _ => SOk (Some k1)
  | _, K_none => SOk (Some k0)
  | K_distance d0, K_distance d1 => SOk (Some (if node_eqb d0 d1 then k0 else K_empty))
  | K_point x0 y0, K_point x1 y1 =>
      SOk (Some (if node_eqb x0 x1 && node_eqb y0 y1 then k0 else K_empty))
  | K_empty, _ => SOk None
  | _, K_empty => SOk None
  | K_point x y, _ =>
      dos l <- line_of k1;
      match l with
      | Some (a, b, c) =>
          match const_of a, const_of b, const_of c, const_of x, const_of y with
          | Some a, Some b, Some c, Some x, Some y =>
              SOk (Some (if Z.eqb (a * x + b * y) c then k0 else K_empty))
          | _, _, _, _, _ => SOk (Some K_none)
          end
      | None => SOk None
      end
  | _, K_point x y =>
      dos l <- line_of k0;
      match l with
      | Some (a, b, c) =>
          match const_of a, const_of b, const_of c, const_of x, const_of y with
          | Some a, Some b, Some c, Some x, Some y =>
              SOk (Some (if Z.eqb (a * x + b * y) c then k1 else K_empty))
          | _, _, _, _, _ => SOk (Some K_none)
          end
      | None => SOk None
      end
  | _, _ =>
      dos l0 <- line_of k0;
      dos l1 <- line_of k1;
      match l0, l1 with
      | Some (a0, b0, c0), Some (a1, b1, c1) =>
          match const_of a0, const_of b0, const_of c0, const_of a1, const_of b1, const_of c1 with
          | Some a0, Some b0, Some c0, Some a1, Some b1, Some c1 =>
              dos k <- intersect_lines k0 a0 b0 c0 a1 b1 c1 lower upper; SOk (Some k)
          | _, _, _, _, _, _ => SOk (Some K_none)
          end
      | _, _ => SOk None
      end
  end.

(** loop_dependence_helpers.cpp:482-541  Constraint::operator==.  For a distance and a line the
    pointer used for the distance is always the null one. *)
Definition constr_eqb (k0 k1 : constr) : sres bool :=
  match k0, k1 with
  | K_distance _, K_line _ _ _ | K_line _ _ _, K_distance _ => SBad
  | K_distance d, K_distance d' => SOk (node_eqb d d')
  | K_line a b c, K_line a' b' c' => SOk (node_eqb a a' && node_eqb b b' && node_eqb c c')
  | K_point x y, K_point x' y' => SOk (node_eqb x x' && node_eqb y y')
  | K_none, K_none | K_empty, K_empty => SOk true
  | _, _ => SOk false
  end.
End Constraints.
