(** What a function does when it runs, and the shape SPIR-V requires of it.  Independent of the pass: from the model it uses the syntax of functions. *)
From Verif Require Import Base GraphSpec SsaRewrite.
Local Open Scope N_scope.

(** ** Machines *)
(** Values [D], and the rest of the world [W]: everything a function can be seen to do, other memory included.  An instruction other than a load or a
    store of the rewritten variables gets its operands and the world; it returns its result and the new world.  [choose]: where a terminator goes,
    [None]: it leaves the function. *)
Record machine (D W : Type) := mkmachine {
  other : N -> list D -> W -> option (D * W);
  choose : N -> list D -> option nat }.
Arguments mkmachine {D W}. Arguments other {D W}. Arguments choose {D W}.

(** ** Executions *)
(** The values of the ids, the contents of the variables, the world. *)
Record config (D W : Type) := mkconfig { env : N -> option D; mem : N -> D; world : W }.
Arguments mkconfig {D W}. Arguments env {D W}. Arguments mem {D W}. Arguments world {D W}.

Section Run.
Context {D W : Type} (m : machine D W).
Fixpoint values (r : N -> option D) (l : list N) : option (list D) :=
  match l with
  | [] => Some []
  | a :: l' => match r a, values r l' with Some d, Some ds => Some (d :: ds) | _, _ => None end
  end.
(** one instruction; [None]: its behaviour is undefined *)
Definition step (i : inst) (c : config D W) : option (config D W) :=
  match i with
  | ILoad r v => Some (mkconfig (upd (env c) r (Some (mem c v))) (mem c) (world c))
  | IStore v x => match env c x with Some d => Some (mkconfig (env c) (upd (mem c) v d) (world c)) | None => None end
  | IOther r op args =>
      match values (env c) args with
      | None => None
      | Some ds =>
          match other m op ds (world c) with
          | None => None
          | Some (d, w) => Some (mkconfig (match r with Some r => upd (env c) r (Some d) | None => env c end) (mem c) w)
          end
      end
  end.
Fixpoint steps (l : list inst) (c : config D W) : option (config D W) :=
  match l with
  | [] => Some c
  | i :: l' => match step i c with Some c' => steps l' c' | None => None end
  end.
(** the phis of a block entered from [from]: all read the values from before *)
Fixpoint phis_from (from : N) (l : list phi) (old : N -> option D) (c : config D W) : option (config D W) :=
  match l with
  | [] => Some c
  | p :: l' =>
      match find (fun a => snd a =? from) (p_args p) with
      | None => None
      | Some (a, _) =>
          match old a with
          | None => None
          | Some d => phis_from from l' old (mkconfig (upd (env c) (p_res p) (Some d)) (mem c) (world c))
          end
      end
  end.
(** what can be seen after a number of blocks: the function has returned (how, and with which values), or has come to a block; and the world *)
Inductive seen := Returned (op : N) (ds : list D) (w : W) | Going (at_ : N) (w : W).
Fixpoint run_from (f : func) (n : nat) (l : N) (c : config D W) : option seen :=
  match n with
  | O => Some (Going l (world c))
  | S n' =>
      match find_block f l with
      | None => None
      | Some b =>
          match steps (body b) c with
          | None => None
          | Some c1 =>
              match values (env c1) (t_args b) with
              | None => None
              | Some ds =>
                  match choose m (t_op b) ds with
                  | None => Some (Returned (t_op b) ds (world c1))
                  | Some k =>
                      match nth_error (t_succ b) k with
                      | None => None
                      | Some l' =>
                          match find_block f l' with
                          | None => None
                          | Some b' => match phis_from l (phis b') (env c1) c1 with None => None | Some c2 => run_from f n' l' c2 end
                          end
                      end
                  end
              end
          end
      end
  end.
End Run.
Arguments Returned {D W}. Arguments Going {D W}.
(** The function runs for [n] blocks: constants, parameters and the like have the values [globals]. *)
Definition run {D W} (m : machine D W) (f : func) (n : nat) (globals : N -> option D) (mem0 : N -> D) (w0 : W) : option (@seen D W) :=
  match f with
  | [] => None
  | b :: _ => run_from m f n (label b) (mkconfig globals mem0 w0)
  end.
(** the contents of a variable nobody has written to are those of the OpUndef of its type *)
Definition fair_start {D} (undef : N -> N) (globals : N -> option D) (mem0 : N -> D) : Prop := forall v, globals (undef v) = Some (mem0 v).

(** ** Functions in the shape the specification of SPIR-V requires *)
Definition succs (f : func) (l : N) : list N := match find_block f l with Some b => t_succ b | None => [] end.
Definition entry (f : func) : N := match f with b :: _ => label b | [] => 0 end.
Definition result (i : inst) : option N := match i with ILoad r _ => Some r | IOther r _ _ => r | IStore _ _ => None end.
Definition reads (i : inst) : list N := match i with ILoad _ _ => [] | IStore _ x => [x] | IOther _ _ l => l end.
(** [id] gets its value in block [b] at place [k]: 0 for its phis, then its instructions *)
Definition defined_at (f : func) (id : N) (b : block) (k : nat) : Prop :=
  In b f /\
  match k with
  | O => exists p, In p (phis b) /\ p_res p = id
  | S j => exists i, nth_error (body b) j = Some i /\ result i = Some id
  end.
(** at place [k] of block [b], [id] has a value: it is not set in the function, or earlier in the block, or in a block that dominates this one *)
Definition available (f : func) (b : block) (k : nat) (id : N) : Prop :=
  (forall b' j, ~ defined_at f id b' j) \/
  exists b' j, defined_at f id b' j /\ ((b' = b /\ (j < k)%nat) \/ (label b' <> label b /\ dominates (succs f) (entry f) (label b') (label b))).
Record well_formed (f : func) : Prop := {
  wf_labels : NoDup (map label f);
  wf_once : forall id b k b' k', defined_at f id b k -> defined_at f id b' k' -> b = b' /\ k = k';
  wf_label_ids : forall b b' k, In b f -> ~ defined_at f (label b) b' k;
  wf_targets : forall b l, In b f -> In l (t_succ b) -> In l (map label f);
  (** the entry block is not branched to *)
  wf_entry : match f with [] => True | b :: _ => phis b = [] /\ forall b', In b' f -> ~ In (label b) (t_succ b') end;
  (** uses, in the blocks that can be reached *)
  wf_uses : forall b j i a, In b f -> reachable (succs f) (entry f) (label b) -> nth_error (body b) j = Some i -> In a (reads i) -> available f b (S j) a;
  wf_term : forall b a, In b f -> reachable (succs f) (entry f) (label b) -> In a (t_args b) -> available f b (S (length (body b))) a;
  wf_phis : forall b p a l, In b f -> In p (phis b) -> In (a, l) (p_args p) ->
    forall b', In b' f -> label b' = l -> reachable (succs f) (entry f) l -> available f b' (S (length (body b'))) a }.

(** the ids in use are not 0 and come before [first]; those of OpUndef are set outside the function *)
Definition ids (f : func) : list N :=
  flat_map (fun b => label b :: flat_map (fun p => p_res p :: map fst (p_args p)) (phis b) ++
                     flat_map (fun i => match result i with Some r => r :: reads i | None => reads i end) (body b) ++ t_args b) f.
Definition fresh_from (f : func) (undef : N -> N) (first : N) : Prop :=
  (forall x, In x (ids f) -> 0 < x < first) /\ (forall v, 0 < undef v < first /\ forall b k, ~ defined_at f (undef v) b k).
