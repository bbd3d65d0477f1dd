(** Specification for small vectors: the same programs on plain lists. *)
From Verif Require Import Base SmallVector.

Section Spec.
Variable T : Type.
Definition on (ls : list (list T)) (k : nat) (f : list T -> option (list T)) : option (list (list T)) :=
  match nth_error ls k with
  | Some l => match f l with Some l => Some (replace_at k l ls) | None => None end
  | None => None
  end.
Definition value (l : list T) (a : argument T) : option T := match a with Value x => Some x | Own i => nth_error l i end.
(** [None] when the step is not allowed on a std::vector. *)
Definition spec_step (ls : list (list T)) (s : step T) : option (list (list T)) :=
  match s with
  | PushBack k a => on ls k (fun l => match value l a with Some x => Some (l ++ [x]) | None => None end)
  | PopBack k => on ls k (fun l => match l with [] => None | _ => Some (removelast l) end)
  | Insert k pos xs => on ls k (fun l => if (pos <=? length l)%nat then Some (firstn pos l ++ xs ++ skipn pos l) else None)
  | Erase k first last =>
      on ls k (fun l => if (first <=? last)%nat && (last <=? length l)%nat then Some (firstn first l ++ skipn last l) else None)
  | Resize k n a =>
      on ls k (fun l => match value l a with Some x => Some (firstn n l ++ repeat x (n - length l)) | None => None end)
  | Clear k => on ls k (fun _ => Some [])
  | Set_ k i x => on ls k (fun l => if (i <? length l)%nat then Some (firstn i l ++ x :: skipn (S i) l) else None)
  | CopyAssign k j => match nth_error ls j with Some l => on ls k (fun _ => Some l) | None => None end
  | MoveAssign k j | RebuildMove k j =>  (* the source is left empty *)
      if (k =? j)%nat then None else
      match nth_error ls j with
      | Some l => match on ls k (fun _ => Some l) with Some ls => on ls j (fun _ => Some []) | None => None end
      | None => None
      end
  | RebuildVector k xs | RebuildRange k xs | RebuildList k xs => on ls k (fun _ => Some xs)
  | RebuildCount k n x => on ls k (fun _ => Some (repeat x n))
  | RebuildCopy k j => if (k =? j)%nat then None else match nth_error ls j with Some l => on ls k (fun _ => Some l) | None => None end
  end.
Fixpoint spec_run (ls : list (list T)) (p : list (step T)) : option (list (list T)) :=
  match p with [] => Some ls | s :: p => match spec_step ls s with Some ls => spec_run ls p | None => None end end.

(** The two uses small vectors do not support: a reference to one of their own elements as an argument, and
    inserting nothing before an element. *)
Definition supported (s : step T) : Prop :=
  match s with
  | PushBack _ (Own _) | Resize _ _ (Own _) => False
  | Insert _ _ [] => False
  | _ => True
  end.
End Spec.
