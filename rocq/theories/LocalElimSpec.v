(** What a function does when it runs, and what makes a function fit for the elimination of loads and stores.  Independent of the pass: from the model
    it uses the syntax of functions only. *)
From Verif Require Import Base GraphSpec LocalElim.
Local Open Scope N_scope.

(** ** Machines *)
(** Values [D], and the rest of the world [W]: everything a function can be seen to do goes into it.
    A value may be a pointer: a variable and the indices of a part of it.
    A call or any other instruction gets its operands, what the variables it may touch contain, and the world; it returns its result, the new
    contents of those variables, and the new world. *)
Record machine (D W : Type) := mkmachine {
  as_ptr : D -> option (N * list D);
  of_ptr : N -> list D -> D;
  read : D -> list D -> option D;                          (* the part of a value with the given indices *)
  write : D -> list D -> D -> option D;                    (* the same with that part replaced *)
  touch : N -> list D -> D -> W -> W;                      (* a volatile access to a part of a variable is seen *)
  call : N -> list D -> list (option D) -> W -> option (D * (N -> D) * W);
  other : N -> list D -> list (option D) -> W -> option (D * (N -> D) * W);
  choose : N -> list D -> option nat }.                    (* where a terminator goes, [None]: it leaves the function *)
Arguments mkmachine {D W}.
Arguments as_ptr {D W}. Arguments of_ptr {D W}. Arguments read {D W}. Arguments write {D W}. Arguments touch {D W}.
Arguments call {D W}. Arguments other {D W}. Arguments choose {D W}.
(** without indices the part is the whole *)
Record sane {D W} (m : machine D W) : Prop := {
  sane_ptr : forall v q, as_ptr m (of_ptr m v q) = Some (v, q);
  sane_read : forall d, read m d [] = Some d;
  sane_write : forall d x, write m d [] x = Some x }.

(** ** Executions *)
(** The values of the ids, the contents of the variables, and the variables to which somebody has been given a pointer: nobody else may touch them. *)
Record config (D W : Type) := mkconfig { env : N -> option D; mem : N -> D; known : N -> bool; world : W }.
Arguments mkconfig {D W}. Arguments env {D W}. Arguments mem {D W}. Arguments known {D W}. Arguments world {D W}.

Definition upd {A} (m : N -> A) (k : N) (x : A) : N -> A := fun y => if y =? k then x else m y.

Section Run.
Context {D W : Type} (m : machine D W) (vs : list var).

Fixpoint values (r : N -> option D) (l : list N) : option (list D) :=
  match l with
  | [] => Some []
  | a :: l' => match r a, values r l' with Some d, Some ds => Some (d :: ds) | _, _ => None end
  end.
(** giving a value away makes the variable it points to known *)
Definition give (d : D) (k : N -> bool) : N -> bool := match as_ptr m d with Some (v, _) => upd k v true | None => k end.
(** a value that comes from memory or from an instruction is no pointer to a variable nobody was given *)
Definition honest (k : N -> bool) (d : D) : bool := match as_ptr m d with Some (v, _) => k v | None => true end.
(** what may be seen of the variables *)
Definition view (k : N -> bool) (mm : N -> D) : list (option D) := map (fun v => if k (v_id v) then Some (mm (v_id v)) else None) vs.

Definition effect (what : list D -> list (option D) -> W -> option (D * (N -> D) * W)) (res : option N) (args : list N) (c : config D W) :
  option (config D W) :=
  match values (env c) args with
  | None => None
  | Some ds =>
      let k := fold_right give (known c) ds in
      match what ds (view k (mem c)) (world c) with
      | None => None
      | Some (x, mm, w) =>
          if honest k x then
            Some (mkconfig (match res with Some r => upd (env c) r (Some x) | None => env c end)
                           (fun v => if k v then mm v else mem c v) k w)
          else None
      end
  end.
(** one instruction; [None]: its behaviour is undefined *)
Definition step (i : inst) (c : config D W) : option (config D W) :=
  match i with
  | ILoad r p vol =>
      match env c p with
      | None => None
      | Some dp =>
          match as_ptr m dp with
          | None => None
          | Some (v, q) =>
              match read m (mem c v) q with
              | None => None
              | Some x =>
                  if honest (known c) x then
                    Some (mkconfig (upd (env c) r (Some x)) (mem c) (known c) (if vol then touch m v q x (world c) else world c))
                  else None
              end
          end
      end
  | IStore p a vol =>
      match env c p, env c a with
      | Some dp, Some x =>
          match as_ptr m dp with
          | None => None
          | Some (v, q) =>
              match write m (mem c v) q x with
              | None => None
              | Some y =>
                  Some (mkconfig (env c) (upd (mem c) v y) (give x (known c)) (if vol then touch m v q x (world c) else world c))
              end
          end
      | _, _ => None
      end
  | IChain r b idx =>
      match env c b, values (env c) idx with
      | Some db, Some ds =>
          match as_ptr m db with
          | None => None
          | Some (v, q) => Some (mkconfig (upd (env c) r (Some (of_ptr m v (q ++ ds)))) (mem c) (known c) (world c))
          end
      | _, _ => None
      end
  | ICopy r a =>
      match env c a with
      | None => None
      | Some x => Some (mkconfig (upd (env c) r (Some x)) (mem c) (known c) (world c))
      end
  | ICall r fn args => effect (call m fn) (Some r) args c
  | IOther r op args => effect (other m op) r args c
  end.
Fixpoint steps (l : list inst) (c : config D W) : option (config D W) :=
  match l with
  | [] => Some c
  | i :: l' => match step i c with Some c' => steps l' c' | None => None end
  end.
(** the phis of a block entered from [from]: all read the values from before *)
Fixpoint phis_from (from : N) (l : list phi) (c0 c : config D W) : option (config D W) :=
  match l with
  | [] => Some c
  | p :: l' =>
      match find (fun a => snd a =? from) (p_args p) with
      | None => None
      | Some (a, _) =>
          match env c0 a with
          | None => None
          | Some d => phis_from from l' c0 (mkconfig (upd (env c) (p_res p) (Some d)) (mem c) (give d (known c)) (world c))
          end
      end
  end.

(** what an observer has after a number of blocks: that the function has returned (how, and with which values) or has come to a block, what the
    variables that may be seen contain, and the world *)
Inductive seen := Returned (op : N) (ds : list D) (vw : list (option D)) (w : W) | Going (at_ : N) (vw : list (option D)) (w : W).
Fixpoint run_from (bs : list block) (n : nat) (l : N) (c : config D W) : option seen :=
  match n with
  | O => Some (Going l (view (known c) (mem c)) (world c))
  | S n' =>
      match find (fun b => label b =? l) bs with
      | None => None
      | Some b =>
          match steps (body b) c with
          | None => None
          | Some c1 =>
              match values (env c1) (t_args b) with
              | None => None
              | Some ds =>
                  match choose m (t_op b) ds with
                  | None => Some (Returned (t_op b) ds (view (known c1) (mem c1)) (world c1))
                  | Some k =>
                      match nth_error (t_succ b) k with
                      | None => None
                      | Some l' =>
                          match find (fun b => label b =? l') bs with
                          | None => None
                          | Some b' => match phis_from l (phis b') c1 c1 with None => None | Some c2 => run_from bs n' l' c2 end
                          end
                      end
                  end
              end
          end
      end
  end.
End Run.
Arguments Returned {D W}. Arguments Going {D W}.

(** The function runs for [n] blocks: constants, parameters and the like have the values [globals], a variable is a pointer to itself. *)
Definition run {D W} (m : machine D W) (f : func) (n : nat) (globals : N -> option D) (mem0 : N -> D) (known0 : N -> bool) (w0 : W) : option (@seen D W) :=
  match blocks f with
  | [] => None
  | b :: _ =>
      run_from m (vars f) (blocks f) n (label b)
        (mkconfig (fun id => if existsb (fun v => v_id v =? id) (vars f) then Some (of_ptr m id []) else globals id) mem0 known0 w0)
  end.
(** at the start nobody has a pointer to a variable of the function; the others may be touched by anybody *)
Definition fair_start {D W} (m : machine D W) (f : func) (globals : N -> option D) (known0 : N -> bool) : Prop :=
  (forall v, In v (vars f) -> known0 (v_id v) = negb (v_target v)) /\
  (forall id d v q, globals id = Some d -> as_ptr m d = Some (v, q) -> known0 v = true).

(** ** Functions in the shape the specification of SPIR-V requires *)
Definition succs (f : func) (l : N) : list N := match find (fun b => label b =? l) (blocks f) with Some b => t_succ b | None => [] end.
Definition entry (f : func) : N := match blocks f with b :: _ => label b | [] => 0 end.
(** [id] gets its value in block [b] at place [k]: 0 for its phis, then its instructions *)
Definition defined_at (f : func) (id : N) (b : block) (k : nat) : Prop :=
  In b (blocks f) /\
  match k with
  | O => exists p, In p (phis b) /\ p_res p = id
  | S j => exists i, nth_error (body b) j = Some i /\ result i = Some id
  end.
(** at place [k] of block [b], [id] has a value: it is not set in the function, or earlier in the block, or in a block that dominates this one *)
Definition available (f : func) (b : block) (k : nat) (id : N) : Prop :=
  (forall b' j, ~ defined_at f id b' j) \/
  exists b' j, defined_at f id b' j /\ ((b' = b /\ (j < k)%nat) \/ (label b' <> label b /\ dominates (succs f) (entry f) (label b') (label b))).
Record well_formed (f : func) : Prop := {
  wf_labels : NoDup (map label (blocks f));
  wf_vars : NoDup (map v_id (vars f));
  wf_once : forall id b k b' k', defined_at f id b k -> defined_at f id b' k' -> b = b' /\ k = k';
  wf_var_ids : forall v b k, In v (vars f) -> ~ defined_at f (v_id v) b k;
  wf_entry : match blocks f with [] => True | b :: _ => phis b = [] end;
  (** uses, in the blocks that can be reached *)
  wf_uses : forall b j i a, In b (blocks f) -> reachable (succs f) (entry f) (label b) -> nth_error (body b) j = Some i -> In a (reads i) ->
    available f b (S j) a;
  wf_term : forall b a, In b (blocks f) -> reachable (succs f) (entry f) (label b) -> In a (t_args b) -> available f b (S (length (body b))) a;
  wf_phis : forall b p a l, In b (blocks f) -> In p (phis b) -> In (a, l) (p_args p) ->
    forall b', In b' (blocks f) -> label b' = l -> reachable (succs f) (entry f) l -> available f b' (S (length (body b'))) a }.

(** [p] is made from the variable [v] by taking parts and copies *)
Inductive derived (f : func) (v : N) : N -> Prop :=
| D_var x : In x (vars f) -> v_id x = v -> derived f v v
| D_chain r b idx : In (IChain r b idx) (all_insts f) -> derived f v b -> derived f v r
| D_copy r a : In (ICopy r a) (all_insts f) -> derived f v a -> derived f v r.
(** Pointers to the function's own variables are not stored: SPIR-V forbids it unless addresses are physical, where the pass does nothing. *)
Definition pointers_not_stored (f : func) : Prop :=
  forall p a vol x, In (IStore p a vol) (all_insts f) -> In x (vars f) -> v_target x = true -> ~ derived f (v_id x) a.
Definition no_volatile (f : func) : Prop :=
  forall i, In i (all_insts f) -> match i with ILoad _ _ vol | IStore _ _ vol => vol = false | _ => True end.
(** In the text, an id is the result of one instruction, and an instruction comes after those whose results it reads (phis apart). *)
Record in_order (f : func) : Prop := {
  io_once : forall i j x y a, nth_error (all_insts f) i = Some x -> nth_error (all_insts f) j = Some y -> result x = Some a -> result y = Some a -> i = j;
  io_before : forall i j x y a, nth_error (all_insts f) i = Some x -> nth_error (all_insts f) j = Some y -> result y = Some a -> In a (reads x) -> (j < i)%nat }.
