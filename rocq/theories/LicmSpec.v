(** What moving instructions out of loops needs from the function and the machine.  Runs of functions are those of RedundancySpec.v. *)
From Verif Require Import Base GraphSpec Redundancy RedundancySpec Licm.
Local Open Scope N_scope.

(** Control gets into the loop only from block [p] to block [h]. *)
Record has_preheader (f : func) (h p : N) (ins : list N) : Prop := {
  ph_header : In h ins;
  ph_outside : ~ In p ins;
  ph_entry : ~ In (entry f) ins;
  ph_block : exists b, In b (blocks f) /\ label b = p /\ In h (t_succ b);
  ph_edges : forall b l, In b (blocks f) -> In l (t_succ b) -> In l ins -> In (label b) ins \/ (label b = p /\ l = h) }.
Inductive loop_ok (f : func) : loop -> Prop :=
| LO h pre ins nested : (forall p, pre = Some p -> has_preheader f h p ins) -> (forall y, In y nested -> loop_ok f y) -> loop_ok f (Loop h pre ins nested).
(** the nodes of the tree are blocks that can be reached *)
Definition tree_reached (f : func) (d : dtree) : Prop := forall l, In l (labels d) -> In l (map label (blocks f)) /\ reachable (succs f) (entry f) l.

(** The operations that are moved have a result for all operands. *)
Definition never_undefined {D W} (m : machine D W) (safe : N -> bool) : Prop := forall op ds, safe op = true -> pure m op ds <> None.
(** An id that an instruction of the function reads and that is not set in the function has a value before the function starts. *)
Definition inputs_have_values {D W} (m : machine D W) (f : func) (globals : N -> option D) (w0 : W) : Prop :=
  forall b i a c, In b (blocks f) -> In i (body b) -> In a (reads i) -> (forall b' k, ~ defined_at f a b' k) ->
    steps m (prelude f) (mkconfig globals w0) = Some c -> env c a <> None.

(** ** What the result looks like *)
Definition insts (f : func) : list inst := flat_map body (blocks f).
(** the blocks with their phis and terminators, without their instructions *)
Definition frame (f : func) : list inst * list (N * list phi * N * list N * list N) :=
  (prelude f, map (fun b => (label b, phis b, t_op b, t_args b, t_succ b)) (blocks f)).

(** ** Nothing that could be moved is left *)
(** each block is in the tree once, and is below all the blocks that dominate it *)
Record whole_tree (f : func) (d : dtree) : Prop := {
  wt_tree : dominator_tree f d;
  wt_reached : tree_reached f d;
  wt_once : NoDup (labels d);
  wt_above : forall x y, In x (labels d) -> In y (labels d) -> x <> y -> dominates (succs f) (entry f) x y -> above d x y }.
Definition l_pre (x : loop) : option N := match x with Loop _ pre _ _ => pre end.
Definition l_header (x : loop) : N := match x with Loop h _ _ _ => h end.
Definition l_nested (x : loop) : list loop := match x with Loop _ _ _ ns => ns end.
(** two loops one after the other *)
Definition separate (x y : loop) : Prop :=
  (forall l, In l (l_inside x) -> ~ In l (l_inside y)) /\
  (forall p, l_pre x = Some p -> ~ In p (l_inside y)) /\ (forall p, l_pre y = Some p -> ~ In p (l_inside x)).
(** nested loops are inside with their preheaders, and separate from each other *)
Inductive nesting : loop -> Prop :=
| NE h pre ins ns : (forall y, In y ns -> nesting y /\ incl (l_inside y) ins /\ forall p, l_pre y = Some p -> In p ins) -> ForallOrdPairs separate ns -> nesting (Loop h pre ins ns).
(** a loop of the list, or one nested in it, at any depth *)
Inductive among (x : loop) : list loop -> Prop :=
| AM_here l : In x l -> among x l
| AM_nested y l : In y l -> among x (l_nested y) -> among x l.
(** the id is set in a block of the loop *)
Definition set_in (f : func) (ins : list N) (a : N) : Prop := exists b k, defined_at f a b k /\ In (label b) ins.
Definition invariant (safe : N -> bool) (f : func) (ins : list N) (i : inst) : Prop :=
  match i with
  | IPure _ op args => safe op = true /\ forall a, In a args -> ~ set_in f ins a
  | ICopy _ a => ~ set_in f ins a
  | IOwn _ _ _ => False
  end.
