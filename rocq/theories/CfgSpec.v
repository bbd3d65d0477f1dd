(** The control-flow graph of a function given as blocks with their branch
    targets, and (post)dominance in it.  Independent of the model's tables. *)
From Verif Require Import Base GraphSpec.

Definition cfg_succ (f : list (N * list N)) (a : N) : list N :=
  flat_map (fun bb => if N.eqb (fst bb) a then snd bb else []) f.

(** Labels are distinct, branches go to blocks of the function, and the placeholder
    id is not the label of a block. *)
Definition well_formed (f : list (N * list N)) (placeholder : N) : Prop :=
  NoDup (map fst f) /\ ~ In placeholder (map fst f) /\
  forall bb s, In bb f -> In s (snd bb) -> In s (map fst f).

(** A block that leaves the function. *)
Definition exit_block (f : list (N * list N)) (b : N) : Prop :=
  In b (map fst f) /\ cfg_succ f b = [].

Definition can_exit (f : list (N * list N)) (b : N) : Prop :=
  exists e, exit_block f e /\ reachable (cfg_succ f) b e.

(** Every way from [b] out of the function meets [a]. *)
Definition post_dominates (f : list (N * list N)) (a b : N) : Prop :=
  forall e l, exit_block f e -> path (cfg_succ f) b e l -> In a l.
