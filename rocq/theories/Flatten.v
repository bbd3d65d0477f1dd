(** Flattening of decoration groups: model of source/opt/flatten_decoration_pass.cpp.  Not modelled: the def-use information, which the pass does not keep up to date. *)
From Verif Require Import Base.
Local Open Scope N_scope.

(** Annotations.  [d]: the words from the decoration on.  OpDecorate; OpDecorationGroup; OpGroupDecorate; OpGroupMemberDecorate, with its pairs of a structure and a member
    (simplification: the grammar allows pairs only, so the assertion at line 103 holds); OpMemberDecorate; the others, which have the opcode [k]: OpDecorateId, OpDecorateString,
    OpMemberDecorateString and OpMemberDecorateIdEXT *)
Inductive inst := Decorate (t : N) (d : list N) | Group (g : N) | GroupDecorate (g : N) (ts : list N) | GroupMember (g : N) (ps : list (N * N)) | MemberDecorate (t m : N) (d : list N) | Other (k t : N) (d : list N).
(** flatten_decoration_pass.cpp:50-70: [group_ids], [normal_uses] and [member_uses] *)
Definition is_group (l : list inst) (x : N) : bool := existsb (fun i => match i with Group g => g =? x | _ => false end) l.
Definition normal_uses (l : list inst) (x : N) : list N := flat_map (fun i => match i with GroupDecorate g ts => if g =? x then ts else [] | _ => [] end) l.
Definition member_uses (l : list inst) (x : N) : list (N * N) := flat_map (fun i => match i with GroupMember g ps => if g =? x then ps else [] | _ => [] end) l.
(** flatten_decoration_pass.cpp:77-140: what stands in the place of an instruction *)
Definition flatten_inst (l : list inst) (i : inst) : list inst :=
  match i with
  | Group _ | GroupDecorate _ _ | GroupMember _ _ => []
  | Decorate g d =>
      let new := map (fun t => Decorate t d) (normal_uses l g) ++ map (fun p => MemberDecorate (fst p) (snd p) d) (member_uses l g) in
      match new with
      | [] => if is_group l g then [] else [i]
      | _ => new
      end
  | MemberDecorate _ _ _ | Other _ _ _ => [i]
  end.
(** flatten_decoration_pass.cpp:74-141 *)
Definition flatten (l : list inst) : list inst := flat_map (flatten_inst l) l.
(** Names: OpName and OpMemberName (reflect.h:33-35); [s]: the words of the name *)
Inductive debug := Name (t : N) (s : list N) | MemberName (t m : N) (s : list N).
(** flatten_decoration_pass.cpp:147-158: the loop over the names; [done]: what is before the iterator, the last one first.  The iterator stays where it is at an OpMemberName. *)
Fixpoint loop (l : list inst) (fuel : nat) (done todo : list debug) : option (list debug) :=
  match todo with
  | [] => Some (rev done)
  | i :: todo' =>
      match fuel with
      | O => None
      | S n => match i with Name t _ => if is_group l t then loop l n done todo' else loop l n (i :: done) todo' | MemberName _ _ _ => loop l n done todo end
      end
  end.
(** flatten_decoration_pass.cpp:143-159 *)
Definition names (l : list inst) (fuel : nat) (s : list debug) : option (list debug) := if existsb (fun i => match i with Group _ => true | _ => false end) l then loop l fuel [] s else Some s.
