(** The rule on ids the validator is meant to enforce, in terms of the text of the module and of
    the paths through its functions. *)
From Verif Require Import Base GraphSpec ValidateId.
Local Open Scope N_scope.

Definition defines (d : item) (x : N) : Prop := result_id (it_inst d) = Some x.
(** The instruction has [x] as an operand (not as its result). *)
Definition uses (u : item) (x : N) : Prop :=
  In (TypeId x) (operands (it_inst u)) \/ In (Id x) (operands (it_inst u)).
(** The instruction has [x] as an operand for which its opcode does not allow an id defined
    later in the text. *)
Definition uses_backward (u : item) (x : N) : Prop :=
  In (TypeId x) (operands (it_inst u)) \/
  exists k, nth_error (operands (it_inst u)) k = Some (Id x) /\ can_be_forward (op (it_inst u)) k = false.

(** Block [b] of a function can be reached from the first block. *)
Definition reaches (f : func) (b : N) : Prop :=
  exists b0 rest, blocks f = b0 :: rest /\ reachable (succ f) (label b0) b.
(** Every path from the first block to [b] goes through [a]. *)
Definition on_every_path (f : func) (a b : N) : Prop :=
  forall b0 rest, blocks f = b0 :: rest -> dominates (succ f) (label b0) a b.
(** Block [a] comes before block [b] in the text of the function. *)
Definition precedes (f : func) (a b : N) : Prop :=
  exists l1 l2 l3, labels f = l1 ++ a :: l2 ++ b :: l3.

Record ssa_rule (m : module) : Prop := {
  (** ids are defined before they are used in the text, except where a forward reference is
      allowed; and every id used is defined *)
  rule_earlier : forall before it after x,
    items m = before ++ it :: after -> uses_backward it x -> exists d, In d before /\ defines d x;
  rule_defined : forall it x, In it (items m) -> uses it x -> exists d, In d (items m) /\ defines d x;
  (** branches and merge instructions name blocks of the function; no branch names the first *)
  rule_targets : forall f b t,
    In f (funcs m) -> In b (blocks f) -> In t (block_struct_succ b) -> In t (labels f);
  rule_first : forall f b0 rest b,
    In f (funcs m) -> blocks f = b0 :: rest -> In b (blocks f) -> ~ In (label b0) (block_succ b);
  (** a block comes after the blocks that lie on every path to it *)
  rule_order : forall f a b,
    In f (funcs m) -> reaches f b -> on_every_path f a b -> a <> b -> precedes f a b;
  (** an id defined in a block is used where every path has gone through that block *)
  rule_value : forall d u x f bd bu,
    In d (items m) -> In u (items m) -> defines d x -> uses u x ->
    it_block d = Some bd -> In f (funcs m) -> it_func u = Some (f_id f) -> it_block u = Some bu ->
    is_phi (it_inst u) = false -> reaches f bu -> on_every_path f bd bu;
  (** parameters and labels are used in their own function only *)
  rule_local : forall d u x fd,
    In d (items m) -> In u (items m) -> defines d x -> uses u x ->
    it_func d = Some fd -> it_block d = None -> it_func u = None \/ it_func u = Some fd;
  (** an OpPhi has one value for each predecessor of its block, and the value's definition lies on
      every path to the end of that predecessor *)
  rule_phi : forall u f bu,
    In u (items m) -> is_phi (it_inst u) = true -> In f (funcs m) ->
    it_func u = Some (f_id f) -> it_block u = Some bu ->
    exists pairs, phi_pairs (it_inst u) = Some pairs /\ NoDup (map snd pairs) /\
      (forall p, In p (map snd pairs) <-> In p (labels f) /\ In bu (succ f p)) /\
      (reaches f bu -> forall v p d bd, In (v, p) pairs -> reaches f p ->
         In d (items m) -> defines d v -> it_block d = Some bd -> on_every_path f bd p)
}.

(** What the binary parser and the layout checks have established: result ids are unique, block
    ids are below the universal limit, and OpPhi occurs in blocks only. *)
Record well_formed (m : module) : Prop := {
  wf_unique : NoDup (flat_map (fun it => match result_id (it_inst it) with Some x => [x] | None => [] end) (items m));
  wf_range : forall f l, In f (funcs m) -> In l (labels f) -> 0 < l < 0x400000;
  wf_phi : forall i, In i (globals m) -> is_phi i = false
}.

(** From every block with a merge instruction that adds an edge there is a way, along branches and
    merge instructions, to a block without successors. *)
Definition merges_can_end (m : module) : Prop :=
  forall f b, In f (funcs m) -> In b (labels f) ->
    incl (struct_succ f b) (succ f b) \/
    exists e, reachable (struct_succ f) b e /\ struct_succ f e = [].
