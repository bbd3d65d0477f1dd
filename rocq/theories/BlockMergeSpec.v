(** What merging blocks keeps.  Runs of functions are those of RedundancySpec.v. *)
From Verif Require Import Base Redundancy RedundancySpec LicmSpec CodeSink BlockMerge.
Local Open Scope N_scope.

(** an OpBranch goes to its only target, whatever the values *)
Definition branches_go {D W} (m : machine D W) (branch : N -> bool) : Prop := forall op ds, branch op = true -> choose m op ds = Some 0%nat.
(** the two functions do the same: one returns exactly if the other does, with the same values and the same world; what the second has done after some
    blocks, the first has done after as many or more; and if the first always goes on, so does the second *)
Record same_behaviour {D W} (m : machine D W) (globals : N -> option D) (w0 : W) (f g : func) : Prop := {
  sb_returns : forall n op ds w, run m f n globals w0 = Some (Returned op ds w) -> exists k, (k <= n)%nat /\ run m g k globals w0 = Some (Returned op ds w);
  sb_states : forall n s, run m g n globals w0 = Some s -> exists k, (n <= k)%nat /\ run m f k globals w0 = Some s;
  sb_goes_on : (forall n, run m f n globals w0 <> None) -> forall n, run m g n globals w0 <> None }.

(** ** The functions the pass is given *)
Definition count (l : N) (ls : list N) : nat := length (filter (fun y => y =? l) ls).
Record mergeable (branch : N -> bool) (f : func) : Prop := {
  mb_labels : NoDup (map label (blocks f));
  (** an OpBranch has a target and no other operands *)
  mb_branch : forall b, In b (blocks f) -> branch (t_op b) = true -> t_args b = [];
  (** a phi has values for predecessors only *)
  mb_parents : forall b p v q, In b (blocks f) -> In p (phis b) -> In (v, q) (p_args p) -> exists b', In b' (blocks f) /\ label b' = q /\ In (label b) (t_succ b');
  (** a block that is reached over one edge only has no phis *)
  mb_no_phis : forall b, In b (blocks f) -> count (label b) (flat_map t_succ (blocks f)) = 1%nat -> phis b = [] }.

(** ** Structure *)
(** Merge instructions: one for each block, merge blocks of one construct only, which exist; a loop is followed by a branch, a selection by another terminator. *)
Record well_structured (branch conditional : N -> bool) (f : func) (ms : headers) : Prop := {
  ws_headers : NoDup (map fst ms);
  ws_targets : NoDup (map (fun h => m_target (snd h)) ms);
  ws_exist : forall h m, In (h, m) ms -> In h (map label (blocks f)) /\ In (m_target m) (map label (blocks f)) /\ (m_loop m = true -> In (m_continue m) (map label (blocks f)));
  ws_loop : forall b m, In b (blocks f) -> In (label b, m) ms -> m_loop m = true -> branch (t_op b) = true \/ conditional (t_op b) = true;
  ws_selection : forall b m, In b (blocks f) -> In (label b, m) ms -> m_loop m = false -> branch (t_op b) = false }.

(** ** The order of the text *)
(** a block comes after the block that alone leads to it, and is reached if that is *)
Record text_order (reached : N -> bool) (f : func) : Prop := {
  to_after : forall l1 b l2 s, blocks f = l1 ++ b :: l2 -> reached (label b) = true -> t_succ b = [s] -> count s (flat_map t_succ (blocks f)) = 1%nat -> In s (map label l2);
  to_reached : forall b s, In b (blocks f) -> reached (label b) = true -> In s (t_succ b) -> reached s = true }.

(** ** Constructs that must not meet *)
(** from [l] the function goes to [z] without a choice, and nothing else goes there *)
Inductive leads (branch : N -> bool) (f : func) : N -> N -> Prop :=
| L_here l : leads branch f l l
| L_step b z l : In b (blocks f) -> branch (t_op b) = true -> t_succ b = [z] -> count z (flat_map t_succ (blocks f)) = 1%nat -> leads branch f z l -> leads branch f (label b) l.
(** no continue target is a merge block, or leads to one without a choice *)
Definition apart (branch : N -> bool) (f : func) (ms : headers) : Prop :=
  forall h m h' m', In (h, m) ms -> m_loop m = true -> In (h', m') ms -> ~ leads branch f (m_continue m) (m_target m').
(** the blocks of some set (cases of switches) are no merge blocks and no continue targets *)
Definition cases_apart (case : N -> bool) (ms : headers) : Prop := forall h m, In (h, m) ms -> case (m_target m) = false /\ (m_loop m = true -> case (m_continue m) = false).
Definition merge_blocks_of (ms : headers) : list N := map (fun h => m_target (snd h)) ms.
(** every construct is still there, its blocks named by blocks that lead to them without a choice; or its header and its merge block have become one *)
Definition constructs_kept (branch : N -> bool) (f : func) (ms ms' : headers) : Prop := forall h m, In (h, m) ms ->
  (exists l, leads branch f l h /\ leads branch f l (m_target m)) \/
  exists h' m', In (h', m') ms' /\ m_loop m' = m_loop m /\ leads branch f h' h /\ leads branch f (m_target m') (m_target m) /\ (m_loop m = true -> leads branch f (m_continue m') (m_continue m)).
