(** Property C30: friendly names are usable in assembly and tell ids apart. *)
From Coq Require Import String.
From Verif Require Import Base Bytes TextLex ParseNumber NumberSpec NumberProofs NamedIds NameMapper.
Local Open Scope list_scope.
Local Open Scope N_scope.

Lemma print_nat_inj a b : print_nat a = print_nat b -> a = b.
Proof.
  intro E. pose proof (print_nat_text a) as A. pose proof (print_nat_text b) as B. rewrite E in A.
  assert (stream_mag false (print_nat b) = Some (false, a, [])) by (apply stream_mag_spec; eauto).
  assert (stream_mag false (print_nat b) = Some (false, b, [])) by (apply stream_mag_spec; eauto). congruence.
Qed.
Lemma dec_digits_chars fuel n acc : Forall (fun c => is_id_char c = true) acc ->
  Forall (fun c => is_id_char c = true) (dec_digits fuel n acc).
Proof.
  revert n acc. induction fuel as [|fuel IH]; intros n acc H; [exact H|]. cbn [dec_digits]. cbn zeta.
  assert (Forall (fun c => is_id_char c = true) ((48 + n mod 10) :: acc)) by (constructor; [unfold is_id_char; lia | exact H]).
  destruct (n / 10 =? 0); auto.
Qed.
Lemma dec_digits_length fuel n acc : forall k, n < 10 ^ N.of_nat k -> (1 <= k)%nat ->
  (length (dec_digits fuel n acc) <= k + length acc)%nat.
Proof.
  revert n acc. induction fuel as [|fuel IH]; intros n acc k Hn Hk; cbn [dec_digits]; [lia|]. cbn zeta.
  destruct (N.eqb_spec (n / 10) 0) as [E|E]; [cbn [length]; lia|].
  destruct k as [|k]; [lia|]. rewrite Nat2N.inj_succ, N.pow_succ_r' in Hn.
  assert (n / 10 < 10 ^ N.of_nat k) by (apply N.div_lt_upper_bound; lia).
  assert (1 <= k)%nat. { destruct k; [change (10 ^ N.of_nat 0) with 1 in H; lia | lia]. }
  specialize (IH (n / 10) ((48 + n mod 10) :: acc) k H H0). cbn [length] in IH. lia.
Qed.
Lemma print_nat_length n : n < 2 ^ 32 -> (length (print_nat n) <= 10)%nat.
Proof.
  intro H. unfold print_nat. pose proof (dec_digits_length (S (N.size_nat n)) n [] 10) as L. cbn [length] in L.
  specialize (L ltac:(change (10 ^ N.of_nat 10) with 10000000000; change (2 ^ 32) with 4294967296 in H; lia) ltac:(lia)). lia.
Qed.
Lemma valid_id_iff n : is_valid_id n = true <-> n <> [] /\ Forall (fun c => is_id_char c = true) n.
Proof.
  unfold is_valid_id. destruct n as [|c n]; [split; [discriminate | intros [H _]; congruence]|].
  rewrite forallb_forall, <- Forall_forall. split; [intro H; split; [discriminate | exact H] | tauto].
Qed.
Lemma print_nat_chars n : print_nat n <> [] /\ Forall (fun c => is_id_char c = true) (print_nat n).
Proof.
  split; [|apply dec_digits_chars; constructor]. intro E. pose proof (print_nat_text n) as U. rewrite E in U. inversion U.
Qed.

Lemma mem_spec x l : mem x l = true <-> In x l.
Proof.
  unfold mem. rewrite existsb_exists. split.
  - intros (y & Hy & He). apply N.eqb_eq in He. subst. exact Hy.
  - intro H. exists x. split; [exact H | apply N.eqb_refl].
Qed.
Lemma valid_chars_spec c : mem c valid_chars = is_id_char c.
Proof.
  assert (F : forall n, (n < 128)%nat -> mem (N.of_nat n) valid_chars = is_id_char (N.of_nat n)).
  { assert (H : forallb (fun n => Bool.eqb (mem (N.of_nat n) valid_chars) (is_id_char (N.of_nat n))) (seq 0 128) = true)
      by (vm_compute; reflexivity).
    rewrite forallb_forall in H. intros n Hn. apply Bool.eqb_prop, H, in_seq. lia. }
  destruct (N.ltb_spec c 128) as [L|L].
  - rewrite <- (N2Nat.id c). apply F. lia.
  - replace (is_id_char c) with false by (unfold is_id_char; lia).
    destruct (mem c valid_chars) eqn:E; [|reflexivity]. exfalso. apply mem_spec in E.
    assert (B : Forall (fun x => x < 128) valid_chars) by (vm_compute; repeat constructor).
    rewrite Forall_forall in B. specialize (B c E). lia.
Qed.
Lemma sanitize_chars s : sanitize s <> [] /\ Forall (fun c => is_id_char c = true) (sanitize s).
Proof.
  destruct s as [|c s]; [split; [discriminate | repeat constructor]|].
  split; [discriminate|]. unfold sanitize. apply Forall_map, Forall_forall. intros x _. rewrite valid_chars_spec.
  destruct (is_id_char x) eqn:E; [exact E | reflexivity].
Qed.
Lemma sanitize_valid s : is_valid_id s = true -> sanitize s = s.
Proof.
  intro H. apply valid_id_iff in H as [Hn H]. destruct s as [|c s]; [congruence|]. unfold sanitize.
  clear Hn. induction H as [|x l Hx _ IH]; [reflexivity|]. cbn [map]. rewrite IH, valid_chars_spec, Hx. reflexivity.
Qed.
Lemma sanitize_length s : (length (sanitize s) <= Nat.max 1 (length s))%nat.
Proof. destruct s; [simpl; lia|]. unfold sanitize. rewrite map_length. lia. Qed.

Lemma name_eqb_spec a b : name_eqb a b = true <-> a = b.
Proof. unfold name_eqb. destruct (list_eq_dec N.eq_dec a b); split; congruence. Qed.
Lemma name_used_spec m n : name_used m n = true <-> In n (used_names m).
Proof.
  unfold name_used. rewrite existsb_exists. split.
  - intros (x & Hx & E). apply name_eqb_spec in E. subst. exact Hx.
  - intro H. exists n. split; [exact H | apply name_eqb_spec; reflexivity].
Qed.

(** An unused index is found among the first [length used + 1]. *)
Lemma unused_name_some m prefix fuel index n : unused_name fuel m prefix index = Some n ->
  ~ In n (used_names m) /\ (index < 2 ^ 32 -> exists k, k < 2 ^ 32 /\ n = prefix ++ print_nat k).
Proof.
  revert index. induction fuel as [|fuel IH]; intros index H; [discriminate|]. cbn [unused_name] in H.
  destruct (name_used m (prefix ++ print_nat index)) eqn:E.
  - destruct (IH _ H) as [A B]. split; [exact A|]. intros _. apply B. apply N.mod_lt. discriminate.
  - inversion H; subst. split; [|eauto]. intro Hc. apply name_used_spec in Hc. congruence.
Qed.
Lemma unused_name_none m prefix : forall fuel index, index + N.of_nat fuel <= 2 ^ 32 ->
  unused_name fuel m prefix index = None ->
  forall i, (i < fuel)%nat -> In (prefix ++ print_nat (index + N.of_nat i)) (used_names m).
Proof.
  induction fuel as [|fuel IH]; intros index Hb H i Hi; [lia|]. cbn [unused_name] in H.
  destruct (name_used m (prefix ++ print_nat index)) eqn:E; [|discriminate]. apply name_used_spec in E.
  destruct i as [|i]; [rewrite N.add_0_r; exact E|].
  destruct fuel as [|fuel]; [lia|].
  rewrite N.mod_small in H by lia.
  replace (index + N.of_nat (S i)) with (index + 1 + N.of_nat i) by lia. apply (IH (index + 1)); [lia | exact H | lia].
Qed.
Lemma unused_name_total m prefix : N.of_nat (length (used_names m)) < 2 ^ 32 ->
  unused_name (S (length (used_names m))) m prefix 0 <> None.
Proof.
  intros Hl Hn. pose proof (unused_name_none m prefix (S (length (used_names m))) 0 ltac:(lia) Hn) as H.
  set (cands := map (fun i => prefix ++ print_nat (N.of_nat i)) (seq 0 (S (length (used_names m))))).
  assert (Hnd : NoDup cands).
  { unfold cands. generalize (S (length (used_names m))). intro k. generalize 0%nat.
    induction k as [|k IH]; intro a; [constructor|]. simpl. constructor; [|apply IH].
    intro Hin. apply in_map_iff in Hin as (x & E & Hx). apply app_inv_head, print_nat_inj in E. apply in_seq in Hx. lia. }
  assert (Hincl : incl cands (used_names m)).
  { intros x Hx. unfold cands in Hx. apply in_map_iff in Hx as (i & <- & Hi). apply in_seq in Hi.
    specialize (H i ltac:(lia)). rewrite N.add_0_l in H. exact H. }
  pose proof (NoDup_incl_length Hnd Hincl) as L. unfold cands in L. rewrite map_length, seq_length in L. lia.
Qed.

Lemma recorded_app l k n id : recorded (l ++ [(k, n)]) id =
  match recorded l id with Some x => Some x | None => if k =? id then Some n else None end.
Proof. induction l as [|[a b] l IH]; [reflexivity|]. simpl. destruct (a =? id); auto. Qed.
Lemma recorded_in l id n : recorded l id = Some n -> In (id, n) l.
Proof.
  induction l as [|[a b] l IH]; [discriminate|]. simpl. destruct (N.eqb_spec a id) as [->|]; [|auto].
  intro H; inversion H; auto.
Qed.

(** What every mapper built satisfies. *)
Definition name_ok (n : list N) : Prop := is_valid_id n = true /\ (length n <= 267)%nat.
Definition good (m : mapper) : Prop :=
  (forall n, In n (used_names m) <-> In n (map snd (name_for_id m))) /\ length (used_names m) = length (name_for_id m) /\
  NoDup (map snd (name_for_id m)) /\ Forall name_ok (map snd (name_for_id m)).

Lemma save_name_good m id s m' : good m -> id < 2 ^ 32 -> save_name m id s = Some m' ->
  good m' /\ (forall k n, recorded (name_for_id m) k = Some n -> recorded (name_for_id m') k = Some n) /\
  recorded (name_for_id m') id <> None /\ (length (used_names m') <= S (length (used_names m)))%nat.
Proof.
  intros (U & L & D & V) Hid. unfold save_name. destruct (recorded (name_for_id m) id) as [n0|] eqn:R.
  { intro H; inversion H; subst. split; [split; auto|]. split; [auto|]. split; [congruence | lia]. }
  cbn zeta. set (base := if 256 <? N.of_nat (length s) then print_nat id else sanitize s).
  assert (Hbase : base <> [] /\ Forall (fun c => is_id_char c = true) base /\ (length base <= 256)%nat).
  { unfold base. destruct (N.ltb_spec 256 (N.of_nat (length s))).
    - destruct (print_nat_chars id). split; [assumption|]. split; [assumption|]. pose proof (print_nat_length id Hid). lia.
    - destruct (sanitize_chars s). split; [assumption|]. split; [assumption|]. pose proof (sanitize_length s). lia. }
  assert (Add : forall n, ~ In n (used_names m) -> name_ok n ->
            good (mkMapper (name_for_id m ++ [(id, n)]) (n :: used_names m))).
  { intros n Hn Hv. split; [|split; [|split]]; cbn [name_for_id used_names].
    - intro x. rewrite map_app, in_app_iff. simpl. rewrite U. tauto.
    - rewrite app_length. simpl. lia.
    - rewrite map_app. cbn [map snd].
      assert (Hn' : ~ In n (map snd (name_for_id m))) by (rewrite <- U; exact Hn).
      clear -D Hn'. induction (map snd (name_for_id m)) as [|a l IH]; simpl; [constructor; [intros []|constructor]|].
      inversion D; subst. constructor; [|apply IH; [assumption | intro; apply Hn'; right; assumption]].
      rewrite in_app_iff. simpl. intros [H|[H|[]]]; [contradiction|]. apply Hn'. left. auto.
    - rewrite map_app. apply Forall_app. split; [exact V|]. constructor; [exact Hv | constructor]. }
  assert (Fin : forall n, ~ In n (used_names m) -> name_ok n ->
     Some (mkMapper (name_for_id m ++ [(id, n)]) (n :: used_names m)) = Some m' ->
     good m' /\ (forall k n, recorded (name_for_id m) k = Some n -> recorded (name_for_id m') k = Some n) /\
     recorded (name_for_id m') id <> None /\ (length (used_names m') <= S (length (used_names m)))%nat).
  { intros n Hn Hv H. inversion H; subst. split; [apply Add; assumption|]. cbn [name_for_id used_names]. split; [|split].
    - intros k n' Hk. rewrite recorded_app, Hk. reflexivity.
    - rewrite recorded_app, R, N.eqb_refl. discriminate.
    - cbn [length]. lia. }
  destruct Hbase as (B1 & B2 & B3).
  destruct (name_used m base) eqn:E.
  - destruct (unused_name (S (length (used_names m))) m (base ++ bytes "_") 0) as [n|] eqn:En; [|discriminate].
    destruct (unused_name_some _ _ _ _ _ En) as [Hn Hk]. destruct (Hk ltac:(reflexivity)) as (k & Lk & ->).
    apply Fin; [exact Hn|]. split.
    + apply valid_id_iff. split; [destruct base; [congruence | discriminate]|].
      rewrite <- app_assoc. apply Forall_app. split; [exact B2|]. constructor; [reflexivity | apply print_nat_chars].
    + rewrite !app_length. pose proof (print_nat_length k Lk). change (length (bytes "_")) with 1%nat. lia.
  - apply Fin; [intro Hc; apply name_used_spec in Hc; congruence|]. split; [apply valid_id_iff; auto | lia].
Qed.
Lemma save_name_total m id s : N.of_nat (length (used_names m)) < 2 ^ 32 -> save_name m id s <> None.
Proof.
  intro H. unfold save_name. destruct (recorded (name_for_id m) id); [discriminate|]. cbn zeta.
  set (base := if 256 <? N.of_nat (length s) then print_nat id else sanitize s). destruct (name_used m base); [|discriminate].
  pose proof (unused_name_total m (base ++ bytes "_") H).
  destruct (unused_name (S (length (used_names m))) m (base ++ bytes "_") 0); congruence.
Qed.

(** A parsed instruction: 32-bit words, and an id where the parser guarantees one. *)
Definition words_are_32_bits (i : parsed) : Prop := p_result i < 2 ^ 32 /\ Forall (fun w => w < 2 ^ 32) (p_words i).
(** [i] defines an id: only OpName and OpDecorate, which have no result, are named otherwise. *)
Definition defines (i : parsed) (id : N) : Prop :=
  p_result i = id /\ id <> 0 /\ p_operands i <> 0 /\ p_op i <> OpName /\ p_op i <> OpDecorate.

(** The tables the mapper depends on. *)
Record tables := {
  storage_classes : N -> option (list N);
  access_qualifiers : N -> option (list N);
  builtins : N -> option (list N);
  builtin_decoration : N -> bool;
  float_encodings : N -> option (list N) }.
Definition suggest (t : tables) := suggestion (storage_classes t) (access_qualifiers t) (builtins t) (builtin_decoration t) (float_encodings t).
Definition parse_one (t : tables) := parse_instruction (storage_classes t) (access_qualifiers t) (builtins t) (builtin_decoration t) (float_encodings t).
(** The mapper for a module. *)
Definition mapper_of (t : tables) (is : list parsed) : option mapper :=
  build (storage_classes t) (access_qualifiers t) (builtins t) (builtin_decoration t) (float_encodings t) empty_mapper is.

Lemma word_bound i k : words_are_32_bits i -> word i k < 2 ^ 32.
Proof.
  intros [_ H]. unfold word. destruct (nth_in_or_default (k - 1) (p_words i) 0) as [Hin|E]; [|rewrite E; reflexivity].
  rewrite Forall_forall in H. apply H. exact Hin.
Qed.
Lemma suggestion_id t m i id n : words_are_32_bits i -> suggest t m i = Some (id, n) -> id < 2 ^ 32.
Proof.
  intros Hw. pose proof (word_bound i 1 Hw). unfold suggest, suggestion. destruct (p_op i);
    try (intro E; inversion E; subst; first [assumption | apply Hw]).
  - destruct (builtin_decoration t (word i 2)); [|discriminate]. destruct (builtins t (word i 3)); [|discriminate].
    intro E; inversion E; subst; assumption.
  - destruct (_ && _); [|discriminate]. intro E; inversion E; subst; apply Hw.
Qed.
Lemma parse_one_good t m i m' : good m -> words_are_32_bits i -> parse_one t m i = Some m' ->
  good m' /\ (forall k n, recorded (name_for_id m) k = Some n -> recorded (name_for_id m') k = Some n) /\
  (forall id, defines i id -> recorded (name_for_id m') id <> None) /\ (length (used_names m') <= S (length (used_names m)))%nat.
Proof.
  intros G Hw. unfold parse_one, parse_instruction. destruct (N.eqb_spec (p_operands i) 0) as [Z|Z].
  { intro H; inversion H; subst. split; [exact G|]. split; [auto|]. split; [intros id (_ & _ & Hc & _); congruence | lia]. }
  fold (suggest t m i). destruct (suggest t m i) as [[id s]|] eqn:E.
  - intro H. destruct (save_name_good m id s m' G (suggestion_id t m i id s Hw E) H) as (G' & K & R & L).
    split; [exact G'|]. split; [exact K|]. split; [|exact L].
    intros id' (Hr & Hz & _ & H1 & H2). replace id' with id; [exact R|].
    unfold suggest, suggestion in E. destruct (p_op i); try congruence.
    destruct (_ && _); [congruence | discriminate].
  - intro H; inversion H; subst. split; [exact G|]. split; [auto|]. split; [|lia].
    intros id (Hr & Hz & _ & H1 & H2). unfold suggest, suggestion in E. destruct (p_op i); try congruence.
    rewrite Hr in E. destruct (N.eqb_spec id 0); [congruence|]. cbn [negb andb] in E.
    destruct (recorded (name_for_id m') id); [discriminate | discriminate].
Qed.
Lemma parse_one_total t m i : N.of_nat (length (used_names m)) < 2 ^ 32 -> parse_one t m i <> None.
Proof.
  intro H. unfold parse_one, parse_instruction. destruct (p_operands i =? 0); [discriminate|].
  destruct (suggestion _ _ _ _ _ m i) as [[id s]|]; [apply save_name_total; exact H | discriminate].
Qed.

Lemma build_good t : forall is m, good m -> Forall words_are_32_bits is ->
  N.of_nat (length (used_names m)) + N.of_nat (length is) < 2 ^ 32 ->
  exists m', build (storage_classes t) (access_qualifiers t) (builtins t) (builtin_decoration t) (float_encodings t) m is = Some m' /\
    good m' /\ (forall k n, recorded (name_for_id m) k = Some n -> recorded (name_for_id m') k = Some n) /\
    (forall i id, In i is -> defines i id -> recorded (name_for_id m') id <> None).
Proof.
  induction is as [|i is IH]; intros m G Hw Hl.
  { exists m. split; [reflexivity|]. split; [exact G|]. split; [auto | intros ? ? []]. }
  inversion Hw; subst. cbn [build]. fold (parse_one t m i).
  assert (Hl' : N.of_nat (length (used_names m)) + N.of_nat (S (length is)) < 2 ^ 32) by exact Hl. clear Hl.
  destruct (parse_one t m i) as [m1|] eqn:E; [|exfalso; apply (parse_one_total t m i); [lia | exact E]].
  destruct (parse_one_good t m i m1 G H1 E) as (G1 & K1 & R1 & L1).
  destruct (IH m1 G1 H2 ltac:(lia)) as (m' & E' & G' & K' & R'). exists m'. split; [exact E'|]. split; [exact G'|].
  split; [auto|]. intros j id [<-|Hj] Hd; [|eapply R'; eauto].
  specialize (R1 id Hd). destruct (recorded (name_for_id m1) id) as [n|] eqn:En; [|congruence].
  rewrite (K' _ _ En). discriminate.
Qed.
Lemma good_empty : good empty_mapper.
Proof. split; [simpl; tauto|]. split; [reflexivity|]. split; constructor. Qed.

Lemma nodup_names (l : list (N * list N)) id id' n : NoDup (map snd l) -> In (id, n) l -> In (id', n) l -> id = id'.
Proof.
  induction l as [|[a b] l IH]; [intros _ []|]. simpl. intro D. inversion D; subst.
  intros [E|H] [E'|H']; try congruence.
  - inversion E; subst. exfalso. apply H1. apply (in_map snd) in H'. exact H'.
  - inversion E'; subst. exfalso. apply H1. apply (in_map snd) in H. exact H.
  - apply IH; auto.
Qed.

(** ** C30 *)
(** Whatever the module: the mapper is built, and each id it defines gets a name that is valid in assembly
    and at most 267 characters long, and that no other defined id has. *)
Theorem friendly_names_valid_and_unique : forall t is,
  Forall words_are_32_bits is -> N.of_nat (length is) < 2 ^ 32 ->
  exists m, mapper_of t is = Some m /\
    forall id, (exists i, In i is /\ defines i id) ->
      is_valid_id (name_of m id) = true /\ (length (name_of m id) <= 267)%nat /\
      forall id', (exists i, In i is /\ defines i id') -> name_of m id' = name_of m id -> id' = id.
Proof.
  intros t is Hw Hl. destruct (build_good t is empty_mapper good_empty Hw ltac:(simpl; lia)) as (m & E & (U & L & D & V) & _ & R).
  exists m. split; [exact E|]. intros id (i & Hi & Hd). specialize (R i id Hi Hd) as Rid. unfold name_of at 1 2.
  destruct (recorded (name_for_id m) id) as [n|] eqn:En; [|congruence].
  assert (Hin : In (id, n) (name_for_id m)) by (apply recorded_in; exact En).
  rewrite Forall_forall in V. destruct (V n (in_map snd _ _ Hin)) as [V1 V2].
  split; [exact V1|]. split; [exact V2|]. intros id' (i' & Hi' & Hd') Hname. specialize (R i' id' Hi' Hd') as Rid'.
  unfold name_of in Hname. rewrite En in Hname. destruct (recorded (name_for_id m) id') as [n'|] eqn:En'; [|congruence].
  subst n'. apply (nodup_names (name_for_id m) id' id n D); [apply recorded_in; exact En' | exact Hin].
Qed.

(** A debug name is used unchanged if it can be: it is a valid name of at most 256 characters, the id has no
    name yet and no earlier instruction took it; and whatever follows, the id keeps it. *)
Theorem debug_names_are_kept : forall t before i after m0 m s,
  Forall words_are_32_bits (before ++ i :: after) -> N.of_nat (length (before ++ i :: after)) < 2 ^ 32 ->
  p_op i = OpName -> p_operands i <> 0 -> p_string i = s ->
  is_valid_id s = true -> (length s <= 256)%nat ->
  mapper_of t before = Some m0 -> recorded (name_for_id m0) (word i 1) = None ->
  (forall id, recorded (name_for_id m0) id <> Some s) ->
  mapper_of t (before ++ i :: after) = Some m -> name_of m (word i 1) = s.
Proof.
  intros t before i after m0 m s Hw Hl Hop Hn Hs Hv Hlen E0 Hnone Hfree E.
  apply Forall_app in Hw as [Hw1 Hw2]. inversion Hw2; subst. rewrite app_length in Hl. cbn [length] in Hl.
  destruct (build_good t before empty_mapper good_empty Hw1 ltac:(simpl; lia)) as (m0' & E0' & G0 & _).
  unfold mapper_of in E0. rewrite E0' in E0. inversion E0; subst m0'; clear E0.
  assert (Happ : forall a b m, build (storage_classes t) (access_qualifiers t) (builtins t) (builtin_decoration t) (float_encodings t) m (a ++ b) =
     match build (storage_classes t) (access_qualifiers t) (builtins t) (builtin_decoration t) (float_encodings t) m a with
     | Some m1 => build (storage_classes t) (access_qualifiers t) (builtins t) (builtin_decoration t) (float_encodings t) m1 b
     | None => None end).
  { induction a as [|x a IH]; intros b m1; [reflexivity|]. cbn [build app]. destruct (parse_instruction _ _ _ _ _ m1 x); auto. }
  unfold mapper_of in E. rewrite Happ, E0' in E. cbn [build] in E. fold (parse_one t m0 i) in E.
  assert (Step : parse_one t m0 i = Some (mkMapper (name_for_id m0 ++ [(word i 1, p_string i)]) (p_string i :: used_names m0))).
  { unfold parse_one, parse_instruction. destruct (N.eqb_spec (p_operands i) 0); [congruence|]. unfold suggestion. rewrite Hop.
    unfold save_name. rewrite Hnone. cbn zeta. replace (256 <? N.of_nat (length (p_string i))) with false by lia.
    rewrite (sanitize_valid _ Hv). destruct (name_used m0 (p_string i)) eqn:Eu; [|reflexivity].
    exfalso. apply name_used_spec in Eu. destruct G0 as (U & _ & D & _). apply U in Eu.
    apply in_map_iff in Eu as ([id n'] & Hsnd & Hin). cbn [snd] in Hsnd. subst n'.
    (* an entry of the list is recorded unless an earlier entry of the same id hides it *)
    assert (Hkeys : forall (is : list parsed) (m1 m2 : mapper), build (storage_classes t) (access_qualifiers t) (builtins t) (builtin_decoration t) (float_encodings t) m1 is = Some m2 ->
       NoDup (map fst (name_for_id m1)) -> NoDup (map fst (name_for_id m2))).
    { assert (Hsave : forall (m1 : mapper) id0 s0 (m2 : mapper), save_name m1 id0 s0 = Some m2 -> NoDup (map fst (name_for_id m1)) -> NoDup (map fst (name_for_id m2))).
      { intros m1 id0 s0 m2. unfold save_name. destruct (recorded (name_for_id m1) id0) eqn:R0; [intro X; inversion X; auto|].
        cbn zeta. match goal with |- context [match ?x with Some _ => _ | None => None end = _] => destruct x as [n0|] end; [|discriminate].
        intro X; inversion X; subst. cbn [name_for_id]. intro ND. rewrite map_app. cbn [map fst].
        assert (~ In id0 (map fst (name_for_id m1))).
        { clear -R0. induction (name_for_id m1) as [|[a b] l IH]; [intros []|]. simpl in *.
          destruct (N.eqb_spec a id0); [discriminate|]. intros [?|?]; [congruence | apply IH; auto]. }
        clear -ND H. induction (map fst (name_for_id m1)) as [|a l IH]; simpl; [constructor; [intros []|constructor]|].
        inversion ND; subst. constructor; [|apply IH; [assumption | intro; apply H; right; assumption]].
        rewrite in_app_iff. simpl. intros [?|[?|[]]]; [contradiction|]. apply H. left. auto. }
      induction is as [|x is IHis]; intros m1 m2; cbn [build]; [intro X; inversion X; auto|].
      unfold parse_instruction. destruct (p_operands x =? 0); [apply IHis|].
      destruct (suggestion _ _ _ _ _ m1 x) as [[id0 s0]|]; [|apply IHis].
      destruct (save_name m1 id0 s0) as [m3|] eqn:Es; [|discriminate]. intros X ND. eapply IHis; [exact X|]. eapply Hsave; eauto. }
    specialize (Hkeys before empty_mapper m0 E0' ltac:(constructor)).
    apply (Hfree id). clear -Hkeys Hin. induction (name_for_id m0) as [|[a b] l IH]; [destruct Hin|].
    simpl in *. inversion Hkeys; subst. destruct Hin as [X|Hin]; [inversion X; subst; rewrite N.eqb_refl; reflexivity|].
    destruct (N.eqb_spec a id) as [->|]; [|apply IH; auto]. exfalso. apply H1. apply (in_map fst) in Hin. exact Hin. }
  rewrite Step in E. destruct (parse_one_good t m0 i _ G0 H1 Step) as (G1 & _ & _ & L1).
  assert (Hlen0 : (length (used_names m0) <= length before)%nat).
  { clear -E0' Hw1. assert (Hgrow : forall is (m1 m2 : mapper), build (storage_classes t) (access_qualifiers t) (builtins t) (builtin_decoration t) (float_encodings t) m1 is = Some m2 ->
       (length (used_names m2) <= length (used_names m1) + length is)%nat).
    { induction is as [|x is IH]; intros m1 m2; cbn [build]; [intro X; inversion X; simpl; lia|].
      unfold parse_instruction. destruct (p_operands x =? 0); [intro X; specialize (IH _ _ X); simpl; lia|].
      destruct (suggestion _ _ _ _ _ m1 x) as [[id0 s0]|]; [|intro X; specialize (IH _ _ X); simpl; lia].
      destruct (save_name m1 id0 s0) as [m3|] eqn:Es; [|discriminate]. intro X. specialize (IH _ _ X).
      assert (length (used_names m3) <= S (length (used_names m1)))%nat.
      { unfold save_name in Es. destruct (recorded (name_for_id m1) id0); [inversion Es; lia|]. cbn zeta in Es.
        match type of Es with match ?x with Some _ => _ | None => None end = _ => destruct x end; inversion Es; simpl; lia. }
      simpl. lia. }
    specialize (Hgrow _ _ _ E0'). simpl in Hgrow. lia. }
  destruct (build_good t after _ G1 H2) as (m' & E' & _ & K & _).
  { cbn [used_names length]. lia. }
  rewrite E' in E. inversion E; subst m'. unfold name_of.
  rewrite (K (word i 1) (p_string i)); [reflexivity|]. cbn [name_for_id]. rewrite recorded_app, Hnone, N.eqb_refl. reflexivity.
Qed.

(** An id that is mentioned but never defined is given its number without regard to other names: here id 5 and
    id 7, whose debug name is the digit 5. *)
Definition no_tables : tables :=
  {| storage_classes := fun _ => None; access_qualifiers := fun _ => None; builtins := fun _ => None;
     builtin_decoration := fun _ => false; float_encodings := fun _ => None |}.
Definition name_inst (target : N) (s : list N) : parsed :=
  {| p_op := OpName; p_words := [target; 53]; p_result := 0; p_type := 0; p_operands := 2; p_string := s; p_literal := [] |}.
Definition void_inst (id : N) : parsed :=
  {| p_op := OpTypeVoid; p_words := [id]; p_result := id; p_type := 0; p_operands := 1; p_string := []; p_literal := [] |}.
Theorem undefined_ids_may_share_a_name_refuted : exists is m id id',
  Forall words_are_32_bits is /\ mapper_of no_tables is = Some m /\ id <> id' /\ name_of m id = name_of m id'.
Proof.
  exists [name_inst 7 [53]; void_inst 7]. eexists _, 5, 7.
  split; [repeat constructor|]. split; [vm_compute; reflexivity|]. split; [discriminate | vm_compute; reflexivity].
Qed.

(** The hypotheses hold of a module with clashing names. *)
Example friendly_names_example :
  let is := [name_inst 1 (bytes "a b"); name_inst 2 (bytes "a_b"); name_inst 3 (bytes "void"); void_inst 1; void_inst 2;
             void_inst 3; void_inst 4] in
  Forall words_are_32_bits is /\ (exists i, In i is /\ defines i 4) /\
  option_map (fun m => map (name_of m) [1; 2; 3; 4]) (mapper_of no_tables is) =
    Some [bytes "a_b"; bytes "a_b_0"; bytes "void"; bytes "void_0"].
Proof.
  cbn zeta. split; [repeat constructor|]. split; [|vm_compute; reflexivity].
  exists (void_inst 4). split; [simpl; tauto|]. unfold defines. simpl. repeat split; discriminate.
Qed.

Print Assumptions friendly_names_valid_and_unique.
Print Assumptions debug_names_are_kept.
Print Assumptions undefined_ids_may_share_a_name_refuted.
