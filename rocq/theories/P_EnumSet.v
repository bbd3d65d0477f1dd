(** C01: capability / extension sets behave like mathematical sets. *)
From Verif Require Import Base EnumSet SetSpec EnumSetProofs.
From Coq Require Import Sorted.
Local Open Scope N_scope.

(** Every history runs without an out-of-range access; every return value, every
    membership query, the size and the iteration order are those of the abstract set. *)
Theorem enum_set_behaves_as_set : forall h,
  exists s l, run empty_set h = Some (s, a_returns a_empty h) /\
    (forall v, contains s v = Some (a_after a_empty h v)) /\
    (forall v, count s v = Some (if a_after a_empty h v then 1 else 0)) /\
    to_list s = Some l /\ StronglySorted N.lt l /\
    (forall v, In v l <-> a_after a_empty h v = true) /\
    size s = N.of_nat (length l) /\
    (is_empty s = true <-> forall v, a_after a_empty h v = false).
Proof. exact enum_set_queries. Qed.

(** The iterator returned by insert designates the inserted value. *)
Theorem enum_set_insert_returns_iterator : forall h v s rs,
  run empty_set h = Some (s, rs) ->
  exists s' it b, insert s v = Some (s', (it, b)) /\ iter_deref s' it = Some v.
Proof. exact enum_set_insert_iter. Qed.

Theorem enum_set_equality_extensional : forall h1 h2 s1 s2 r1 r2,
  run empty_set h1 = Some (s1, r1) -> run empty_set h2 = Some (s2, r2) ->
  (set_eqb s1 s2 = true <-> forall v, a_after a_empty h1 v = a_after a_empty h2 v).
Proof. exact enum_set_eq. Qed.

Theorem enum_set_has_any_of : forall h1 h2 s1 s2 r1 r2,
  run empty_set h1 = Some (s1, r1) -> run empty_set h2 = Some (s2, r2) ->
  (has_any_of s1 s2 = true <->
   (forall v, a_after a_empty h2 v = false) \/
   (exists v, a_after a_empty h1 v = true /\ a_after a_empty h2 v = true)).
Proof. exact enum_set_any. Qed.

(** Non-vacuity: a history that creates buckets out of order, merges, empties and
    re-creates a bucket, with the concrete results. *)
Example enum_set_history_example :
  exists s, run empty_set [Insert 5; Insert 4441; Insert 70; Erase 70; Insert 64; Insert 5; Erase 9]
    = Some (s, [true; true; true; true; true; false; false])
    /\ to_list s = Some [5; 64; 4441] /\ length (buckets s) = 3%nat.
Proof. eexists; split; [vm_compute; reflexivity|]. split; vm_compute; reflexivity. Qed.

Print Assumptions enum_set_behaves_as_set.
Print Assumptions enum_set_insert_returns_iterator.
Print Assumptions enum_set_equality_extensional.
Print Assumptions enum_set_has_any_of.
