(** What a sequence of depth-first-traversal calls means: reading the calls as
    pushes and pops of a stack. *)
From Verif Require Import Base Cfa.

(** The stack (innermost block first) after a sequence of calls: preorder(b)
    opens b, postorder(b) closes b, which must be the innermost open block. *)
Fixpoint stack_after (stack : list N) (tr : list event) : option (list N) :=
  match tr with
  | [] => Some stack
  | Pre b :: tr' => stack_after (b :: stack) tr'
  | Post b :: tr' => match stack with
                     | t :: stack' => if N.eqb t b then stack_after stack' tr' else None
                     | [] => None
                     end
  | Back _ _ :: tr' => stack_after stack tr'
  end.

(** The targets reported by backedge(a, .), in order. *)
Definition back_targets (a : N) (tr : list event) : list N :=
  flat_map (fun e => match e with Back x y => if N.eqb x a then [y] else [] | _ => [] end) tr.
