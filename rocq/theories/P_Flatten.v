(** C59: flattening decoration groups. *)
From Verif Require Import Base Flatten FlattenSpec.
Local Open Scope N_scope.

Lemma is_group_ok l x : is_group l x = true <-> In (Group x) l.
Proof.
  unfold is_group. rewrite existsb_exists. split; [|intros H; exists (Group x); split; [exact H|apply N.eqb_refl]]. intros (i & Hi & E). destruct i as [t d|g|g ts|g ps|t m d|k t d]; try discriminate. apply N.eqb_eq in E. subst g. exact Hi.
Qed.
Lemma normal_ok l g t : In t (normal_uses l g) <-> exists ts, In (GroupDecorate g ts) l /\ In t ts.
Proof.
  unfold normal_uses. rewrite in_flat_map. split; [|intros (ts & H & K); exists (GroupDecorate g ts); rewrite N.eqb_refl; auto]. intros (i & Hi & E). destruct i as [t' d|h|h ts|h ps|t' m d|k t' d]; try destruct E.
  destruct (h =? g) eqn:B; [|destruct E]. apply N.eqb_eq in B. subst h. eauto.
Qed.
Lemma member_ok l g t m : In (t, m) (member_uses l g) <-> exists ps, In (GroupMember g ps) l /\ In (t, m) ps.
Proof.
  unfold member_uses. rewrite in_flat_map. split; [|intros (ps & H & K); exists (GroupMember g ps); rewrite N.eqb_refl; auto]. intros (i & Hi & E). destruct i as [t' d|h|h ts|h ps|t' m' d|k t' d]; try destruct E.
  destruct (h =? g) eqn:B; [|destruct E]. apply N.eqb_eq in B. subst h. eauto.
Qed.
Definition new (l : list inst) (g : N) (d : list N) : list inst := map (fun t => Decorate t d) (normal_uses l g) ++ map (fun p => MemberDecorate (fst p) (snd p) d) (member_uses l g).
Lemma new_in l g d j : In j (new l g d) <-> (exists t, In t (normal_uses l g) /\ j = Decorate t d) \/ exists t m, In (t, m) (member_uses l g) /\ j = MemberDecorate t m d.
Proof.
  unfold new. rewrite in_app_iff, !in_map_iff. split.
  - intros [(t & E & H)|([t m] & E & H)]; [left; exists t; auto|right; exists t, m; auto].
  - intros [(t & H & E)|(t & m & H & E)]; [left; exists t; auto|right; exists (t, m); auto].
Qed.
Lemma decorate_ok l g d : valid l -> flatten_inst l (Decorate g d) = if is_group l g then new l g d else [Decorate g d].
Proof.
  intros V. cbn [flatten_inst]. fold (new l g d). destruct (is_group l g) eqn:G; [destruct (new l g d); reflexivity|]. destruct (new l g d) as [|j n] eqn:E; [reflexivity|]. exfalso. assert (K : In j (new l g d)) by (rewrite E; left; reflexivity).
  assert (Gi : In (Group g) l).
  { apply new_in in K. destruct K as [(t & H & _)|(t & m & H & _)]; [apply normal_ok in H; destruct H as (ts & H & _); exact (va_group _ V g ts H)|apply member_ok in H; destruct H as (ps & H & _); exact (va_group_member _ V g ps H)]. }
  apply is_group_ok in Gi. congruence.
Qed.
Lemma not_group l g : is_group l g = false <-> ~ In (Group g) l.
Proof. rewrite <- is_group_ok. destruct (is_group l g); split; congruence. Qed.
Lemma flatten_in l j : valid l -> In j (flatten l) <-> (In j l /\ plain l j) \/ exists g d, In (Group g) l /\ In (Decorate g d) l /\ In j (new l g d).
Proof.
  intros V. unfold flatten. rewrite in_flat_map. split.
  - intros (i & Hi & H). destruct i as [t d|g|g ts|g ps|t m d|k t d].
    + rewrite (decorate_ok l t d V) in H. destruct (is_group l t) eqn:G; [right; exists t, d; apply is_group_ok in G; auto|]. destruct H as [<-|[]]. left. split; [exact Hi|]. apply not_group, G.
    + destruct H.
    + destruct H.
    + destruct H.
    + destruct H as [<-|[]]. left. split; [exact Hi|exact (va_member _ V t m d Hi)].
    + destruct H as [<-|[]]. left. split; [exact Hi|exact (va_other _ V k t d Hi)].
  - intros [[Hj P]|(g & d & Hg & Hd & H)].
    + exists j. split; [exact Hj|]. destruct j as [t d|g|g ts|g ps|t m d|k t d]; [|destruct P|destruct P|destruct P|left; reflexivity|left; reflexivity]. rewrite (decorate_ok l t d V). cbn [plain] in P. apply not_group in P. rewrite P. left. reflexivity.
    + exists (Decorate g d). split; [exact Hd|]. rewrite (decorate_ok l g d V). apply is_group_ok in Hg. rewrite Hg. exact H.
Qed.
Lemma new_plain l g d j : valid l -> In j (new l g d) -> plain l j.
Proof.
  intros V H. apply new_in in H. destruct H as [(t & H & ->)|(t & m & H & ->)].
  - apply normal_ok in H. destruct H as (ts & A & B). exact (va_target _ V g ts t A B).
  - apply member_ok in H. destruct H as (ps & A & B). exact (va_struct _ V g ps t m A B).
Qed.
Lemma flatten_plain l j : valid l -> In j (flatten l) -> plain l j.
Proof. intros V H. apply (flatten_in l j V) in H. destruct H as [[_ P]|(g & d & _ & _ & H)]; [exact P|exact (new_plain l g d j V H)]. Qed.
Lemma no_groups l g : valid l -> ~ In (Group g) (flatten l).
Proof. intros V H. apply (flatten_plain l _ V) in H. exact H. Qed.

(** Every target keeps exactly its decorations. *)
Theorem flatten_applied : forall l, valid l -> forall d t o, applied (flatten l) d t o <-> applied l d t o.
Proof.
  intros l V d t o. split.
  - intros H. destruct H as [t H _|t m H|g ts t H _ _ _|g ps t m H _ _ _]; [| |destruct (no_groups l g V H)|destruct (no_groups l g V H)].
    + apply (flatten_in l _ V) in H. destruct H as [[A P]|(g & d' & Hg & Hd & H)]; [exact (Ap_direct l d t A P)|]. apply new_in in H. destruct H as [(t' & H & E)|(t' & m & H & E)]; [|discriminate]. injection E as <- <-. apply normal_ok in H. destruct H as (ts & A & B). exact (Ap_group l d g ts t Hg Hd A B).
    + apply (flatten_in l _ V) in H. destruct H as [[A P]|(g & d' & Hg & Hd & H)]; [exact (Ap_member l d t m A)|]. apply new_in in H. destruct H as [(t' & H & E)|(t' & m' & H & E)]; [discriminate|]. injection E as <- <- <-. apply member_ok in H. destruct H as (ps & A & B). exact (Ap_group_member l d g ps t m Hg Hd A B).
  - intros H. destruct H as [t H N|t m H|g ts t Hg Hd H K|g ps t m Hg Hd H K].
    + apply Ap_direct; [|apply no_groups, V]. apply (flatten_in l _ V). left. split; [exact H|exact N].
    + apply Ap_member. apply (flatten_in l _ V). left. split; [exact H|exact (va_member _ V t m d H)].
    + apply Ap_direct; [|apply no_groups, V]. apply (flatten_in l _ V). right. exists g, d. split; [exact Hg|]. split; [exact Hd|]. apply new_in. left. exists t. split; [apply normal_ok; eauto|reflexivity].
    + apply Ap_member. apply (flatten_in l _ V). right. exists g, d. split; [exact Hg|]. split; [exact Hd|]. apply new_in. right. exists t, m. split; [apply member_ok; eauto|reflexivity].
Qed.
(** Nothing that is left is a group or mentions one. *)
Theorem flatten_gone : forall l, valid l -> forall i, In i (flatten l) -> plain l i.
Proof. intros l V i. apply flatten_plain, V. Qed.
(** What has nothing to do with groups stays, in its place; a decoration of a group becomes the same decoration of other things. *)
Theorem flatten_rest : forall l, valid l -> exists h, flatten l = flat_map h l /\ forall i, In i l -> (~ grouped l i -> h i = [i]) /\ forall j, grouped l i -> In j (h i) -> exists g t d, i = Decorate g d /\ (j = Decorate t d \/ exists m, j = MemberDecorate t m d).
Proof.
  intros l V. exists (flatten_inst l). split; [reflexivity|]. intros i Hi. destruct i as [t d|g|g ts|g ps|t m d|k t d].
  - rewrite (decorate_ok l t d V). split; [cbn [grouped]; rewrite <- is_group_ok; destruct (is_group l t); congruence|]. intros j G H. apply is_group_ok in G. rewrite G in H. apply new_in in H. destruct H as [(t' & _ & ->)|(t' & m & _ & ->)]; exists t, t', d; eauto.
  - split; [intros K; destruct K; exact I|intros j _ []].
  - split; [intros K; destruct K; exact I|intros j _ []].
  - split; [intros K; destruct K; exact I|intros j _ []].
  - split; [reflexivity|intros j []].
  - split; [reflexivity|intros j []].
Qed.
(** ** Counting *)
Definition once (d : list N) (t : N) (o : option N) (i : inst) : nat :=
  match i with
  | Decorate g d' => if list_eq_dec N.eq_dec d' d then match o with None => if N.eq_dec g t then 1 else 0 | Some _ => 0 end else 0
  | MemberDecorate t' m d' => if list_eq_dec N.eq_dec d' d then match o with Some m' => if pair_dec (t', m) (t, m') then 1 else 0 | None => 0 end else 0
  | _ => 0 end%nat.
Lemma sum_flat_map {A B} (f : B -> nat) (h : A -> list B) l : list_sum (map f (flat_map h l)) = list_sum (map (fun i => list_sum (map f (h i))) l).
Proof. induction l as [|i l IH]; [reflexivity|]. cbn [flat_map map list_sum fold_right]. rewrite map_app, list_sum_app, IH. reflexivity. Qed.
Lemma sum_ext {A} (f h : A -> nat) l : (forall i, In i l -> f i = h i) -> list_sum (map f l) = list_sum (map h l).
Proof. intros H. rewrite (map_ext_in f h l H). reflexivity. Qed.
Lemma count_normal d t ts : list_sum (map (once d t None) (map (fun x => Decorate x d) ts)) = count_occ N.eq_dec ts t.
Proof. induction ts as [|x ts IH]; [reflexivity|]. cbn [map list_sum fold_right once count_occ]. destruct (list_eq_dec N.eq_dec d d) as [_|K]; [|congruence]. unfold list_sum in IH. rewrite IH. destruct (N.eq_dec x t); reflexivity. Qed.
Lemma count_members d t m ps : list_sum (map (once d t (Some m)) (map (fun p => MemberDecorate (fst p) (snd p) d) ps)) = count_occ pair_dec ps (t, m).
Proof. induction ps as [|[x y] ps IH]; [reflexivity|]. cbn [map list_sum fold_right once count_occ fst snd]. destruct (list_eq_dec N.eq_dec d d) as [_|K]; [|congruence]. unfold list_sum in IH. rewrite IH. destruct (pair_dec (x, y) (t, m)); reflexivity. Qed.
Lemma count_app {A} (dec : forall x y : A, {x = y} + {x <> y}) (l k : list A) x : count_occ dec (l ++ k) x = (count_occ dec l x + count_occ dec k x)%nat.
Proof. apply count_occ_app. Qed.
Lemma given_normal g t l : list_sum (map (given g t None) l) = count_occ N.eq_dec (normal_uses l g) t.
Proof.
  induction l as [|i l IH]; [reflexivity|]. unfold normal_uses in *. cbn [map list_sum fold_right flat_map]. rewrite count_app, <- IH. unfold list_sum. f_equal. destruct i; cbn [given]; try reflexivity. destruct (N.eq_dec g0 g) as [->|K]; [rewrite N.eqb_refl; reflexivity|]. apply N.eqb_neq in K. rewrite K. reflexivity.
Qed.
Lemma given_members g t m l : list_sum (map (given g t (Some m)) l) = count_occ pair_dec (member_uses l g) (t, m).
Proof.
  induction l as [|i l IH]; [reflexivity|]. unfold member_uses in *. cbn [map list_sum fold_right flat_map]. rewrite count_app, <- IH. unfold list_sum. f_equal. destruct i; cbn [given]; try reflexivity. destruct (N.eq_dec g0 g) as [->|K]; [rewrite N.eqb_refl; reflexivity|]. apply N.eqb_neq in K. rewrite K. reflexivity.
Qed.
Lemma zero_sum {A} (f : A -> nat) l : (forall x, In x l -> f x = O) -> list_sum (map f l) = O.
Proof. induction l as [|x l IH]; intros H; [reflexivity|]. cbn [map list_sum fold_right]. unfold list_sum in IH. rewrite IH by (intros y Hy; apply H; right; exact Hy). rewrite (H x (or_introl eq_refl)). reflexivity. Qed.
Lemma new_once l g d' d t o : list_sum (map (once d t o) (new l g d')) = if list_eq_dec N.eq_dec d' d then list_sum (map (given g t o) l) else O.
Proof.
  unfold new. destruct (list_eq_dec N.eq_dec d' d) as [->|K].
  - rewrite map_app, list_sum_app. destruct o as [m|].
    + rewrite count_members, given_members, zero_sum; [reflexivity|]. intros x Hx. apply in_map_iff in Hx. destruct Hx as (y & <- & _). cbn [once]. destruct (list_eq_dec N.eq_dec d d); reflexivity.
    + rewrite count_normal, given_normal, (zero_sum _ (map _ (member_uses l g))); [lia|]. intros x Hx. apply in_map_iff in Hx. destruct Hx as (y & <- & _). cbn [once]. destruct (list_eq_dec N.eq_dec d d); reflexivity.
  - apply zero_sum. intros x Hx. apply in_app_or in Hx. destruct Hx as [Hx|Hx]; apply in_map_iff in Hx; destruct Hx as (y & <- & _); cbn [once]; destruct (list_eq_dec N.eq_dec d' d); congruence.
Qed.
(** Every target keeps its decorations as often as it had them. *)
Theorem flatten_times : forall l, valid l -> forall d t o, times (flatten l) d t o = times l d t o.
Proof.
  intros l V d t o. assert (S : forall g, existsb (fun j => match j with Group h => h =? g | _ => false end) (flatten l) = false) by (intros g; apply (not_group (flatten l) g), no_groups, V).
  transitivity (list_sum (map (once d t o) (flatten l))).
  - unfold times. apply sum_ext. intros i _. destruct i as [g d'|g|g ts|g ps|t' m d'|k t' d']; try reflexivity. rewrite (S g). reflexivity.
  - unfold flatten at 1. rewrite sum_flat_map. unfold times. apply sum_ext. intros i _. destruct i as [g d'|g|g ts|g ps|t' m d'|k t' d']; try reflexivity.
    + rewrite (decorate_ok l g d' V). unfold is_group. destruct (existsb _ l); [apply new_once|]. cbn [map list_sum fold_right once]. apply Nat.add_0_r.
    + cbn [flatten_inst map list_sum fold_right once]. apply Nat.add_0_r.
Qed.
(** ** Names *)
Lemma loop_ok l : forall s done fuel, (forall x, In x s -> exists t w, x = Name t w) -> (length s <= fuel)%nat -> loop l fuel done s = Some (rev done ++ filter (fun x => negb (is_group l (target x))) s).
Proof.
  induction s as [|x s IH]; intros done fuel H L; [destruct fuel; cbn; rewrite app_nil_r; reflexivity|]. destruct fuel as [|n]; [cbn [length] in L; lia|]. cbn [length] in L. destruct (H x (or_introl eq_refl)) as (t & w & ->). cbn [loop filter target].
  destruct (is_group l t); cbn [negb]; rewrite IH by (try lia; intros z Hz; apply H; right; exact Hz); [reflexivity|]. cbn [rev]. rewrite <- app_assoc. reflexivity.
Qed.
(** The names of groups go, all others stay, in order.  Partial: only if there are no names of members, or no groups (see below). *)
Theorem flatten_names_partial : forall l s, (forall x, In x s -> exists t w, x = Name t w) \/ (forall g, ~ In (Group g) l) ->
  exists p, names l (length s) s = Some (filter p s) /\ forall x, In x s -> (p x = true <-> ~ In (Group (target x)) l).
Proof.
  intros l s H. exists (fun x => negb (is_group l (target x))). split; [|intros x _; rewrite negb_true_iff; apply not_group]. unfold names. destruct (existsb _ l) eqn:E.
  - destruct H as [H|H]; [exact (loop_ok l s [] (length s) H (le_n _))|]. apply existsb_exists in E. destruct E as (i & Hi & E). destruct i as [t d|g|g ts|g ps|t m d|k t d]; try discriminate. destruct (H g Hi).
  - f_equal. assert (Z : forall g, is_group l g = false).
    { intros g. apply not_group. intros K. assert (T : existsb (fun i => match i with Group _ => true | _ => false end) l = true) by (apply existsb_exists; exists (Group g); auto). congruence. }
    clear H. induction s as [|x s IH]; [reflexivity|]. cbn [filter]. rewrite Z. cbn [negb]. f_equal. exact IH.
Qed.
(** The pass never ends if there is a group and the name of a member. *)
Theorem flatten_names_returns_refuted : forall l g s t m w, In (Group g) l -> In (MemberName t m w) s -> forall fuel, names l fuel s = None.
Proof.
  intros l g s t m w G H fuel. unfold names. replace (existsb _ l) with true by (symmetry; apply existsb_exists; exists (Group g); auto). generalize (@nil debug). revert s H. induction fuel as [|n IH]; intros s H done; (destruct s as [|x s]; [destruct H|]); [reflexivity|]. cbn [loop].
  destruct x as [t' w'|t' m' w']; [|apply IH, H]. destruct H as [K|H]; [discriminate|]. destruct (is_group l t'); apply IH, H.
Qed.

(** ** Examples *)
(** two groups, 1 and 2, the second without targets; 3 is a structure, 4 and 5 are variables *)
Definition ex_l := [Decorate 1 [24]; Decorate 1 [30; 7]; Group 1; Decorate 2 [24]; Group 2; Decorate 4 [33; 0]; GroupDecorate 1 [4; 5; 4]; GroupMember 1 [(3, 0); (3, 2)]; MemberDecorate 3 1 [35; 16]; Other 332 5 [26; 9]; GroupDecorate 1 [6]].
Ltac each H := cbn in H; repeat (destruct H as [H|H]; [try discriminate H|]); try (destruct H; fail).
Lemma ex_valid : valid ex_l.
Proof.
  constructor.
  - intros g ts H. each H; injection H as <- <-; cbn; tauto.
  - intros g ps H. each H; injection H as <- <-; cbn; tauto.
  - intros g ts t H K N. assert (G : t = 1 \/ t = 2) by (each N; injection N as <-; auto). each H; injection H as <- <-; cbn in K; intuition (subst; discriminate).
  - intros g ps t m H K N. assert (G : t = 1 \/ t = 2) by (each N; injection N as <-; auto). each H; injection H as <- <-; cbn in K; intuition congruence.
  - intros t m d H N. assert (G : t = 1 \/ t = 2) by (each N; injection N as <-; auto). each H; injection H as <- <- <-; intuition discriminate.
  - intros k t d H N. assert (G : t = 1 \/ t = 2) by (each N; injection N as <-; auto). each H; injection H as <- <- <-; intuition discriminate.
Qed.
Example ex_flatten : flatten ex_l = [Decorate 4 [24]; Decorate 5 [24]; Decorate 4 [24]; Decorate 6 [24]; MemberDecorate 3 0 [24]; MemberDecorate 3 2 [24];
  Decorate 4 [30; 7]; Decorate 5 [30; 7]; Decorate 4 [30; 7]; Decorate 6 [30; 7]; MemberDecorate 3 0 [30; 7]; MemberDecorate 3 2 [30; 7]; Decorate 4 [33; 0]; MemberDecorate 3 1 [35; 16]; Other 332 5 [26; 9]].
Proof. reflexivity. Qed.
Example ex_times : times ex_l [24] 4 None = 2%nat /\ times ex_l [30; 7] 3 (Some 2) = 1%nat /\ times ex_l [24] 2 None = 0%nat.
Proof. repeat split; reflexivity. Qed.
Example ex_names : names ex_l 3 [Name 4 [97]; Name 1 [98]; Name 3 [99]] = Some [Name 4 [97]; Name 3 [99]].
Proof. reflexivity. Qed.
Example ex_names_loop : forall fuel, names ex_l fuel [Name 4 [97]; MemberName 3 0 [98]] = None.
Proof. apply (flatten_names_returns_refuted ex_l 1 _ 3 0 [98]); cbn; tauto. Qed.

Print Assumptions flatten_applied.
Print Assumptions flatten_gone.
Print Assumptions flatten_rest.
Print Assumptions flatten_times.
Print Assumptions flatten_names_partial.
Print Assumptions flatten_names_returns_refuted.
