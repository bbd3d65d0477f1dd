(** C39: small vectors behave as plain sequences. *)
From Verif Require Import Base SmallVector SmallVectorSpec SmallVectorProofs.

(** What a user sees of a vector [v] that should hold [l]. *)
Definition observed_as (T : Type) (small_size : nat) (v : small_vector T) (l : list T) : Prop :=
  elements T v = Some l /\ size T v = length l /\ (empty T v = true <-> l = []) /\ (forall i, get T v i = nth_error l i) /\
  (** every valid insertion of something, and every valid erasure, returns the position it is documented to return *)
  (forall pos xs, (pos <= length l)%nat -> xs <> [] -> exists v', insert T small_size v pos xs = Some (v', pos)) /\
  (forall first last, (first <= last)%nat -> (last <= length l)%nat -> exists v', erase T v first last = Some (v', first)) /\
  (** and destroying the vector leaves no object in the buffer *)
  (exists b, destructor T v = Some b /\ forall c, In c b -> c = Raw).

(** For every element type, every inline capacity, every number of vectors and every program, if the program is allowed
    on plain lists then it runs without a memory fault on small vectors, and they end up with the same elements.  Missing
    for the full property: references to own elements as arguments and inserting an empty range (refuted below). *)
Theorem small_vectors_are_sequences_partial : forall (T : Type) (small_size n : nat) (p : list (step T)) (ls : list (list T)),
  Forall (supported T) p -> spec_run T (repeat [] n) p = Some ls ->
  exists vs, run T small_size (repeat (new T small_size) n) p = Some vs /\ Forall2 (observed_as T small_size) vs ls.
Proof.
  intros T cap n p ls Hp E. destruct (run_ok cap p _ _ ls (start_ok cap n) Hp E) as (vs & Er & H).
  exists vs. split; [exact Er|]. clear E Er. induction H as [|v l vs ls Hv _ IH]; constructor; [|exact IH].
  repeat split.
  - eapply elements_ok; exact Hv.
  - eapply size_ok; exact Hv.
  - rewrite (empty_ok _ _ _ Hv). destruct l; [reflexivity | discriminate].
  - intros ->. rewrite (empty_ok _ _ _ Hv). reflexivity.
  - intro i. eapply get_ok; exact Hv.
  - intros pos xs H1 H2. destruct (insert_ok cap v l pos xs Hv H1 (or_introl H2)) as (v' & -> & _). eauto.
  - intros first last H1 H2. destruct (erase_ok cap v l first last Hv H1 H2) as (v' & -> & _). eauto.
  - exists (raws cap). split; [eapply destructor_ok; exact Hv|]. intros c Hc. eapply repeat_spec. exact Hc.
Qed.

(** An own element can be pushed while the inline buffer has room, and again once the elements are on the heap. *)
Theorem push_back_own_element : forall (T : Type) (small_size n : nat) (p : list (step T)) (ls : list (list T)) k l i x,
  Forall (supported T) p -> spec_run T (repeat [] n) p = Some ls -> nth_error ls k = Some l -> nth_error l i = Some x ->
  exists vs v, run T small_size (repeat (new T small_size) n) p = Some vs /\ nth_error vs k = Some v /\
    (large v <> None \/ length l < small_size -> exists v', push_back T small_size v (Own i) = Some v' /\ elements T v' = Some (l ++ [x]))%nat.
Proof.
  intros T cap n p ls k l i x Hp E Ek Ei. destruct (run_ok cap p _ _ ls (start_ok cap n) Hp E) as (vs & Er & H).
  destruct (forall2_nth cap vs ls k l H Ek) as (v & Ev & Hv). exists vs, v. split; [exact Er|]. split; [exact Ev|]. intro Hc.
  destruct (push_back_ok cap v l x Hv) as (v' & Ep & Hv'). exists v'. split; [|eapply elements_ok; exact Hv']. rewrite <- Ep.
  unfold push_back. cbn [argument_value]. pose proof (get_ok cap v l i Hv) as Hg. unfold get in Hg. rewrite Ei in Hg.
  destruct (large v) as [lv|] eqn:El; [rewrite Hg; reflexivity|].
  destruct (holds_none cap v l Hv El) as (_ & _ & S). destruct Hc as [Hc|Hc]; [congruence|].
  rewrite S. destruct (Nat.eqb_spec (length l) cap); [lia|]. rewrite S in Hg. rewrite Hg. reflexivity.
Qed.

(** The full statement is false.  Pushing an own element when the inline buffer is exactly full reads a destroyed object. *)
Theorem push_back_own_element_refuted : exists (p : list (step nat)) (ls : list (list nat)),
  spec_run nat (repeat [] 1) p = Some ls /\ run nat 2 (repeat (new nat 2) 1) p = None.
Proof.
  exists [PushBack 0 (Value 7); PushBack 0 (Value 8); PushBack 0 (Own 0)], [[7; 8; 7]]. split; reflexivity.
Qed.
(** Inserting nothing before an element of an inline vector moves each later element onto itself. *)
Theorem insert_nothing_refuted : exists (p : list (step nat)) (ls : list (list nat)) vs v,
  spec_run nat (repeat [] 1) p = Some ls /\ run nat 2 (repeat (new nat 2) 1) p = Some vs /\ nth_error vs 0 = Some v /\ elements nat v = None.
Proof.
  exists [PushBack 0 (Value 7); Insert 0 0 []], [[7]], [mkSV [Obj None; Raw] 1 None], (mkSV [Obj None; Raw] 1 None). repeat split; reflexivity.
Qed.

(** A program that crosses the capacity in both directions, on three vectors. *)
Definition demo : list (step nat) :=
  [PushBack 0 (Value 1); PushBack 0 (Value 2); Insert 0 1 [10; 11]; PushBack 0 (Value 3); MoveAssign 1 0; Erase 1 1 4; Resize 0 2 (Value 9);
   CopyAssign 2 1; RebuildList 0 [5; 6; 7]; Insert 0 0 [4]; Set_ 0 3 70; PopBack 2; CopyAssign 1 0; RebuildMove 2 0; RebuildCount 0 3 8;
   Erase 0 0 1; Clear 1; RebuildCopy 1 0; RebuildRange 0 []].
Example demo_supported : Forall (supported nat) demo.
Proof. repeat constructor. Qed.
Example demo_spec : spec_run nat (repeat [] 3) demo = Some [[]; [8; 8]; [4; 5; 6; 70]].
Proof. vm_compute. reflexivity. Qed.
Example demo_inline : exists vs, run nat 4 (repeat (new nat 4) 3) demo = Some vs /\ map (elements nat) vs = [Some []; Some [8; 8]; Some [4; 5; 6; 70]].
Proof. eexists. split; vm_compute; reflexivity. Qed.
Example demo_heap : exists vs, run nat 1 (repeat (new nat 1) 3) demo = Some vs /\ map (elements nat) vs = [Some []; Some [8; 8]; Some [4; 5; 6; 70]].
Proof. eexists. split; vm_compute; reflexivity. Qed.

Print Assumptions small_vectors_are_sequences_partial.
Print Assumptions push_back_own_element.
Print Assumptions push_back_own_element_refuted.
Print Assumptions insert_nothing_refuted.
