(** What a function does when it runs, and what a function must look like for the removal of redundant instructions.  Independent of the pass: from the
    model it uses the syntax of functions and the trees only. *)
From Verif Require Import Base GraphSpec Redundancy.
Local Open Scope N_scope.

(** ** Machines *)
(** Values [D], and the rest of the world [W]: memory and everything a function can be seen to do.  What an instruction of the first kind computes depends
    on the values of its operands only; any other may depend on the world and change it. *)
Record machine (D W : Type) := mkmachine {
  pure : N -> list D -> option D;
  own : N -> list D -> W -> option (D * W);
  choose : N -> list D -> option nat }.                    (* where a terminator goes, [None]: it leaves the function *)
Arguments mkmachine {D W}. Arguments pure {D W}. Arguments own {D W}. Arguments choose {D W}.
(** for the operations that are said to commute, the order of the operands does not matter *)
Definition commutes {D W} (m : machine D W) (comm : N -> bool) : Prop := forall op a b, comm op = true -> pure m op [a; b] = pure m op [b; a].

(** ** Executions *)
Record config (D W : Type) := mkconfig { env : N -> option D; world : W }.
Arguments mkconfig {D W}. Arguments env {D W}. Arguments world {D W}.
Definition upd {A} (m : N -> A) (k : N) (x : A) : N -> A := fun y => if y =? k then x else m y.

Section Run.
Context {D W : Type} (m : machine D W).
Fixpoint values (r : N -> option D) (l : list N) : option (list D) :=
  match l with
  | [] => Some []
  | a :: l' => match r a, values r l' with Some d, Some ds => Some (d :: ds) | _, _ => None end
  end.
(** one instruction; [None]: its behaviour is undefined *)
Definition step (i : inst) (c : config D W) : option (config D W) :=
  match i with
  | IPure r op args =>
      match values (env c) args with
      | Some ds => match pure m op ds with Some d => Some (mkconfig (upd (env c) r (Some d)) (world c)) | None => None end
      | None => None
      end
  | ICopy r a => match env c a with Some d => Some (mkconfig (upd (env c) r (Some d)) (world c)) | None => None end
  | IOwn r op args =>
      match values (env c) args with
      | Some ds =>
          match own m op ds (world c) with
          | Some (d, w) => Some (mkconfig (match r with Some r => upd (env c) r (Some d) | None => env c end) w)
          | None => None
          end
      | None => None
      end
  end.
Fixpoint steps (l : list inst) (c : config D W) : option (config D W) :=
  match l with [] => Some c | i :: l' => match step i c with Some c' => steps l' c' | None => None end end.
(** the phis of a block entered from [from]: all read the values from before *)
Fixpoint phis_from (from : N) (l : list phi) (c0 c : config D W) : option (config D W) :=
  match l with
  | [] => Some c
  | p :: l' =>
      match find (fun a => snd a =? from) (p_args p) with
      | None => None
      | Some (a, _) => match env c0 a with None => None | Some d => phis_from from l' c0 (mkconfig (upd (env c) (p_res p) (Some d)) (world c)) end
      end
  end.
(** what an observer has after a number of blocks: that the function has returned (how, and with which values) or has come to a block, and the world *)
Inductive seen := Returned (op : N) (ds : list D) (w : W) | Going (at_ : N) (w : W).
Fixpoint run_from (bs : list block) (n : nat) (l : N) (c : config D W) : option seen :=
  match n with
  | O => Some (Going l (world c))
  | S n' =>
      match find (fun b => label b =? l) bs with
      | None => None
      | Some b =>
          match steps (body b) c with
          | None => None
          | Some c1 =>
              match values (env c1) (t_args b) with
              | None => None
              | Some ds =>
                  match choose m (t_op b) ds with
                  | None => Some (Returned (t_op b) ds (world c1))
                  | Some k =>
                      match nth_error (t_succ b) k with
                      | None => None
                      | Some l' =>
                          match find (fun b => label b =? l') bs with
                          | None => None
                          | Some b' => match phis_from l (phis b') c1 c1 with None => None | Some c2 => run_from bs n' l' c2 end
                          end
                      end
                  end
              end
          end
      end
  end.
(** The function runs for [n] blocks: first the constants get their values; parameters and the like have the values [globals]. *)
Definition run (f : func) (n : nat) (globals : N -> option D) (w0 : W) : option seen :=
  match blocks f with
  | [] => None
  | b :: _ => match steps (prelude f) (mkconfig globals w0) with Some c => run_from (blocks f) n (label b) c | None => None end
  end.
End Run.
Arguments Returned {D W}. Arguments Going {D W}.

(** ** Functions in the shape the specification of SPIR-V requires *)
Definition succs (f : func) (l : N) : list N := match find (fun b => label b =? l) (blocks f) with Some b => t_succ b | None => [] end.
Definition entry (f : func) : N := match blocks f with b :: _ => label b | [] => 0 end.
(** [id] gets its value in block [b] at place [k]: 0 for its phis, then its instructions *)
Definition defined_at (f : func) (id : N) (b : block) (k : nat) : Prop :=
  In b (blocks f) /\
  match k with
  | O => exists p, In p (phis b) /\ p_res p = id
  | S j => exists i, nth_error (body b) j = Some i /\ result i = Some id
  end.
(** at place [k] of block [b], [id] has a value: it is not set in the function, or earlier in the block, or in a block that dominates this one *)
Definition available (f : func) (b : block) (k : nat) (id : N) : Prop :=
  (forall b' j, ~ defined_at f id b' j) \/
  exists b' j, defined_at f id b' j /\ ((b' = b /\ (j < k)%nat) \/ (label b' <> label b /\ dominates (succs f) (entry f) (label b') (label b))).
Definition reach (f : func) (b : block) : Prop := reachable (succs f) (entry f) (label b).
Record well_formed (f : func) : Prop := {
  wf_labels : NoDup (map label (blocks f));
  wf_once : forall id b k b' k', defined_at f id b k -> defined_at f id b' k' -> b = b' /\ k = k';
  wf_phi_once : forall b, In b (blocks f) -> NoDup (map p_res (phis b));
  wf_entry : match blocks f with [] => True | b :: _ => phis b = [] /\ forall b', In b' (blocks f) -> ~ In (label b) (t_succ b') end;
  (** constants: set once, before they are used, and from constants *)
  wf_prelude : forall l1 i l2 r, prelude f = l1 ++ i :: l2 -> result i = Some r ->
    (forall b k, ~ defined_at f r b k) /\ (forall j, In j l2 -> result j <> Some r) /\ (forall j, In j (l1 ++ [i]) -> ~ In r (reads j));
  wf_constants : forall i a b k, In i (prelude f) -> In a (reads i) -> ~ defined_at f a b k;
  (** uses, in the blocks that can be reached *)
  wf_uses : forall b j i a, In b (blocks f) -> reach f b -> nth_error (body b) j = Some i -> In a (reads i) -> available f b (S j) a;
  wf_term : forall b a, In b (blocks f) -> reach f b -> In a (t_args b) -> available f b (S (length (body b))) a;
  wf_phis : forall b p a l b', In b (blocks f) -> In p (phis b) -> In (a, l) (p_args p) -> In b' (blocks f) -> label b' = l -> reach f b' ->
    available f b' (S (length (body b'))) a;
  (** a phi has an operand for every predecessor and for nothing else *)
  wf_preds : forall b p l, In b (blocks f) -> In p (phis b) ->
    (In l (map snd (p_args p)) <-> exists b', In b' (blocks f) /\ label b' = l /\ In (label b) (t_succ b')) }.

(** ** Dominator trees *)
(** a tree of blocks: each block once, and every block dominates its children *)
Fixpoint labels (d : dtree) : list N := match d with DNode l kids => l :: flat_map labels kids end.
Definition root (d : dtree) : N := match d with DNode l _ => l end.
Inductive dominator_tree (f : func) : dtree -> Prop :=
| DT l kids : In l (map label (blocks f)) -> (forall k, In k kids -> dominator_tree f k /\ dominates (succs f) (entry f) l (root k)) ->
    dominator_tree f (DNode l kids).
(** block [l] is above block [l'] in the tree *)
Inductive above : dtree -> N -> N -> Prop :=
| AB_root l kids k l' : In k kids -> In l' (labels k) -> above (DNode l kids) l l'
| AB_kid l kids k x y : In k kids -> above k x y -> above (DNode l kids) x y.

(** ** The order of the text *)
(** the ids that get values in the text before instruction [j] of block [b], which comes after the blocks [B1] *)
Definition res1 (i : inst) : list N := match result i with Some r => [r] | None => [] end.
Definition set_before (f : func) (B1 : list block) (b : block) (j : nat) : list N :=
  flat_map res1 (prelude f) ++ flat_map (fun b => map p_res (phis b) ++ flat_map res1 (body b)) B1 ++ map p_res (phis b) ++ flat_map res1 (firstn j (body b)).
Definition set_at_all (f : func) : list N := flat_map res1 (prelude f) ++ flat_map (fun b => map p_res (phis b) ++ flat_map res1 (body b)) (blocks f).
(** two instructions that do the same thing to the same operands; the first is instruction [j] of block [b], and what its operands are has been
    said before in the text, or is not said in it at all *)
Definition repeated (f : func) (comm : N -> bool) (B1 : list block) (b : block) (j : nat) (r : N) (i' : inst) (r' : N) : Prop :=
  exists op args args', nth_error (body b) j = Some (IPure r op args) /\ i' = IPure r' op args' /\
    (args' = args \/ comm op = true /\ exists x y, args = [x; y] /\ args' = [y; x]) /\
    forall a, In a args -> In a (set_before f B1 b j) \/ ~ In a (set_at_all f).
