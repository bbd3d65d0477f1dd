(** Value numbers and the removal of redundant instructions: model of source/opt/value_number_table.cpp, local_redundancy_elimination.cpp and
    redundancy_elimination.cpp. *)
From Verif Require Import Base.
Local Open Scope N_scope.

(** ** Functions *)
(** An instruction the table looks up by what it computes ([IPure]: a combinator, a load from read-only memory; [op] stands for the opcode, the type
    and the operands that are not ids), a copy, and any other ([IOwn]: side effects, variables, other loads, OpSampledImage, OpImage, loads of images and
    samplers; value_number_table.cpp:93-139 without the two last cases).  Which instruction is which is read off the opcode, its types and decorations in
    the code (ir_context.cpp:640-776, value_number_table.cpp:41-78): here it is part of the program. *)
Inductive inst := IPure (r op : N) (args : list N) | ICopy (r a : N) | IOwn (r : option N) (op : N) (args : list N).
Record phi := mkphi { p_res : N; p_args : list (N * N) }.
Record block := mkblock { label : N; phis : list phi; body : list inst; t_op : N; t_args : list N; t_succ : list N }.
(** [prelude]: the constants and the other instructions outside of functions that have a result (value_number_table.cpp:211-240).  Simplification: a module with
    one function. *)
Record func := mkfunc { prelude : list inst; blocks : list block }.

Definition result (i : inst) : option N := match i with IPure r _ _ | ICopy r _ => Some r | IOwn r _ _ => r end.
Definition reads (i : inst) : list N := match i with IPure _ _ l | IOwn _ _ l => l | ICopy _ a => [a] end.

(** ** The table *)
(** value_number_table.cpp:164-181: an operand is the value number it has, or the id if it has none yet.  The code sets the top bit to tell them apart and
    compares the words: that is this order, as long as ids are less than 2^31. *)
Inductive ref := Raw (id : N) | Num (v : N).
Definition ref_eqb (a b : ref) : bool := match a, b with Raw x, Raw y | Num x, Num y => x =? y | _, _ => false end.
Definition ref_ltb (a b : ref) : bool := match a, b with Raw x, Raw y | Num x, Num y => x <? y | Raw _, Num _ => true | Num _, Raw _ => false end.
(** value_number_table.cpp:255-281 (ComputeSameValue), without the decorations *)
Inductive key := KPure (op : N) (args : list ref) | KCopy (a : ref) | KPhi (args : list (ref * N)).
Fixpoint list_eqb {A} (eqb : A -> A -> bool) (l m : list A) : bool :=
  match l, m with [], [] => true | a :: l', b :: m' => eqb a b && list_eqb eqb l' m' | _, _ => false end.
Definition key_eqb (k l : key) : bool :=
  match k, l with
  | KPure o a, KPure p b => (o =? p) && list_eqb ref_eqb a b
  | KCopy a, KCopy b => ref_eqb a b
  | KPhi a, KPhi b => list_eqb (fun x y => ref_eqb (fst x) (fst y) && (snd x =? snd y)) a b
  | _, _ => false
  end.
(** [num]: id_to_value_, 0 where there is none; [known]: the instructions in instruction_to_value_ with their results *)
Record table := mktable { next : N; num : N -> N; known : list (key * N) }.
Definition empty : table := mktable 1 (fun _ => 0) [].
Definition set_num (t : N -> N) (r v : N) : N -> N := fun y => if y =? r then v else t y.

Section Numbering.
Variable dec : N -> N -> bool.        (* do two ids have the same decorations? (decoration_manager.cpp: HaveTheSameDecorations) *)
Variable comm : N -> bool.            (* spvOpcodeIsCommutativeBinaryOperator *)

Definition ref_of (t : table) (a : N) : ref := if num t a =? 0 then Raw a else Num (num t a).
(** value_number_table.cpp:87-91 (assign_new_number) *)
Definition fresh (t : table) (r : N) : table := mktable (next t + 1) (set_num (num t) r (next t)) (known t).
Definition same_as (t : table) (r v : N) : table := mktable (next t) (set_num (num t) r v) (known t).
(** value_number_table.cpp:193-207 *)
Definition by_key (t : table) (k : key) (r : N) : table :=
  match find (fun x => key_eqb (fst x) k && dec (snd x) r) (known t) with
  | Some (_, z) => same_as t r (num t z)
  | None => mktable (next t + 1) (set_num (num t) r (next t)) ((k, r) :: known t)
  end.
(** value_number_table.cpp:183-191 *)
Definition normal (op : N) (args : list ref) : list ref :=
  if comm op then match args with [a; b] => if ref_ltb b a then [b; a] else [a; b] | _ => args end else args.
(** value_number_table.cpp:80-208 (AssignValueNumber) *)
Definition number_inst (t : table) (i : inst) : table :=
  match i with
  | IOwn None _ _ => t
  | IOwn (Some r) _ _ => if negb (num t r =? 0) then t else fresh t r
  | ICopy r a =>
      if negb (num t r =? 0) then t
      else if dec r a && negb (num t a =? 0) then same_as t r (num t a)
      else by_key t (KCopy (ref_of t a)) r
  | IPure r op args =>
      if negb (num t r =? 0) then t else by_key t (KPure op (normal op (map (ref_of t) args))) r
  end.
Definition number_phi (t : table) (p : phi) : table :=
  if negb (num t (p_res p) =? 0) then t
  else
    let k := KPhi (map (fun a => (ref_of t (fst a), snd a)) (p_args p)) in
    match p_args p with
    | [] => by_key t k (p_res p)
    | (a, _) :: rest =>
        if dec (p_res p) a && negb (num t a =? 0) && forallb (fun b => num t (fst b) =? num t a) rest then same_as t (p_res p) (num t a)
        else by_key t k (p_res p)
    end.
(** value_number_table.cpp:210-253 (BuildDominatorTreeValueNumberTable) *)
Definition number_block (t : table) (b : block) : table := fold_left number_inst (body b) (fold_left number_phi (phis b) t).
Definition number_all (f : func) : table := fold_left number_block (blocks f) (fold_left number_inst (prelude f) empty).
End Numbering.

(** ** Removing *)
(** what has been done so far: the renaming, and the results of the instructions that are gone *)
Record progress := mkprogress { ren : N -> N; gone : list N }.
Definition replace1 (r x y : N) : N := if y =? r then x else y.
Definition start : progress := mkprogress (fun x => x) [].
(** local_redundancy_elimination.cpp:44-62: one instruction with a result; the pairs are the entries of value_to_ids *)
Definition visit (t : table) (st : list (N * N) * progress) (r : N) : list (N * N) * progress :=
  let '(m, s) := st in
  if num t r =? 0 then (m, s)
  else match find (fun x => fst x =? num t r) m with
       | None => ((num t r, r) :: m, s)
       | Some (_, x) => (m, mkprogress (fun y => replace1 r x (ren s y)) (r :: gone s))
       end.
Definition results (b : block) : list N := map p_res (phis b) ++ flat_map (fun i => match result i with Some r => [r] | None => [] end) (body b).
(** local_redundancy_elimination.cpp:39-65 (EliminateRedundanciesInBB) *)
Definition eliminate_block (t : table) (b : block) (st : list (N * N) * progress) : list (N * N) * progress := fold_left (visit t) (results b) st.
(** the instructions as they are in the end (ReplaceAllUsesWith, KillInst) *)
Definition rename (g : N -> N) (i : inst) : inst :=
  match i with IPure r op l => IPure r op (map g l) | ICopy r a => ICopy r (g a) | IOwn r op l => IOwn r op (map g l) end.
Definition is_gone (s : progress) (r : N) : bool := existsb (N.eqb r) (gone s).
Definition finish (s : progress) (b : block) : block :=
  mkblock (label b)
    (map (fun p => mkphi (p_res p) (map (fun a => (ren s (fst a), snd a)) (p_args p))) (filter (fun p => negb (is_gone s (p_res p))) (phis b)))
    (map (rename (ren s)) (filter (fun i => match result i with Some r => negb (is_gone s r) | None => true end) (body b)))
    (t_op b) (map (ren s) (t_args b)) (t_succ b).

(** local_redundancy_elimination.cpp:22-37 (Process): every block by itself *)
Definition eliminate_local (dec : N -> N -> bool) (comm : N -> bool) (f : func) : func :=
  let t := number_all dec comm f in
  let s := fold_left (fun s b => snd (eliminate_block t b ([], s))) (blocks f) start in
  mkfunc (prelude f) (map (finish s) (blocks f)).

(** the dominator tree *)
Inductive dtree := DNode (l : N) (kids : list dtree).
Fixpoint size (d : dtree) : nat := match d with DNode _ kids => S (fold_right (fun k n => (size k + n)%nat) O kids) end.
(** redundancy_elimination.cpp:43-61 (EliminateRedundanciesFrom): the outer [None]: out of fuel, or no such block *)
Fixpoint eliminate_from (fuel : nat) (t : table) (f : func) (todo : list (dtree * list (N * N))) (s : progress) : option progress :=
  match todo with
  | [] => Some s
  | (DNode l kids, m) :: todo' =>
      match fuel with
      | O => None
      | S n =>
          match find (fun b => label b =? l) (blocks f) with
          | None => None
          | Some b =>
              let '(m', s') := eliminate_block t b (m, s) in
              eliminate_from n t f (todo' ++ map (fun k => (k, m')) kids) s'
          end
      end
  end.
(** redundancy_elimination.cpp:22-41 (Process) *)
Definition eliminate_global (dec : N -> N -> bool) (comm : N -> bool) (d : dtree) (f : func) : option func :=
  match eliminate_from (size d) (number_all dec comm f) f [(d, [])] start with
  | Some s => Some (mkfunc (prelude f) (map (finish s) (blocks f)))
  | None => None
  end.
