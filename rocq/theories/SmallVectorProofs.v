(** Proofs about small vectors. *)
From Verif Require Import Base SmallVector SmallVectorSpec.

Section Proofs.
Context {T : Type}.
Implicit Types (b : list (cell T)) (xs : list T) (os : list (option T)).

Definition objs os : list (cell T) := map Obj os.
Definition vals xs : list (cell T) := map (fun x => Obj (Some x)) xs.
Definition raws (n : nat) : list (cell T) := repeat Raw n.

Lemma vals_objs xs : vals xs = objs (map Some xs).
Proof. unfold vals, objs. rewrite map_map. reflexivity. Qed.
Lemma objs_app a c : objs (a ++ c) = objs a ++ objs c.
Proof. apply map_app. Qed.
Lemma vals_app a c : vals (a ++ c) = vals a ++ vals c.
Proof. apply map_app. Qed.
Lemma objs_length os : length (objs os) = length os.
Proof. apply map_length. Qed.
Lemma vals_length xs : length (vals xs) = length xs.
Proof. apply map_length. Qed.
Lemma raws_length n : length (raws n) = n.
Proof. apply repeat_length. Qed.
Lemma raws_app m n : raws (m + n) = raws m ++ raws n.
Proof. apply repeat_app. Qed.

Lemma nth_mid {A} (a : list A) c d i : i = length a -> nth_error (a ++ c :: d) i = Some c.
Proof. intros ->. rewrite nth_error_app2 by lia. rewrite Nat.sub_diag. reflexivity. Qed.
Lemma put_mid a c c' d i : i = length a -> put T i c' (a ++ c :: d) = a ++ c' :: d.
Proof. intros ->. induction a as [|x a IH]; [reflexivity|]. simpl. rewrite IH. reflexivity. Qed.

Lemma construct_mid a d i x : i = length a -> construct T i x (a ++ Raw :: d) = Some (a ++ Obj (Some x) :: d).
Proof. intro E. unfold construct. rewrite nth_mid, put_mid by exact E. reflexivity. Qed.
Lemma assign_mid a o d i x : i = length a -> assign T i x (a ++ Obj o :: d) = Some (a ++ Obj (Some x) :: d).
Proof. intro E. unfold assign. rewrite nth_mid, put_mid by exact E. reflexivity. Qed.
Lemma destroy_mid a o d i : i = length a -> destroy T i (a ++ Obj o :: d) = Some (a ++ Raw :: d).
Proof. intro E. unfold destroy. rewrite nth_mid, put_mid by exact E. reflexivity. Qed.
Lemma read_mid a x d i : i = length a -> read T i (a ++ Obj (Some x) :: d) = Some x.
Proof. intro E. unfold read. rewrite nth_mid by exact E. reflexivity. Qed.
Lemma move_out_mid a x d i : i = length a -> move_out T i (a ++ Obj (Some x) :: d) = Some (x, a ++ Obj None :: d).
Proof. intro E. unfold move_out. rewrite nth_mid, put_mid by exact E. reflexivity. Qed.

Lemma app_cons {A} (a : list A) c d : a ++ c :: d = (a ++ [c]) ++ d.
Proof. rewrite <- app_assoc. reflexivity. Qed.
Lemma length_snoc {A} (a : list A) c : length (a ++ [c]) = S (length a).
Proof. rewrite app_length. simpl. lia. Qed.

Lemma construct_all_mid : forall xs a d i, i = length a ->
  construct_all T i xs (a ++ raws (length xs) ++ d) = Some (a ++ vals xs ++ d).
Proof.
  induction xs as [|x xs IH]; intros a d i E; [reflexivity|]. cbn [construct_all length raws repeat app].
  rewrite construct_mid by exact E. rewrite app_cons, IH by (rewrite length_snoc; lia). rewrite <- app_assoc. reflexivity.
Qed.
Lemma assign_all_mid : forall xs a os d i, i = length a -> length os = length xs ->
  assign_all T i xs (a ++ objs os ++ d) = Some (a ++ vals xs ++ d).
Proof.
  induction xs as [|x xs IH]; intros a os d i E L; (destruct os as [|o os]; [|]); try discriminate; [reflexivity|].
  cbn [assign_all objs map app]. rewrite assign_mid by exact E. rewrite app_cons. fold (objs os).
  rewrite IH by (try rewrite length_snoc; simpl in L; lia). rewrite <- app_assoc. reflexivity.
Qed.
Lemma destroy_all_mid : forall os a d i, i = length a -> destroy_all T i (length os) (a ++ objs os ++ d) = Some (a ++ raws (length os) ++ d).
Proof.
  induction os as [|o os IH]; intros a d i E; [reflexivity|]. cbn [destroy_all length objs map app].
  rewrite destroy_mid by exact E. rewrite app_cons. fold (objs os). rewrite IH by (rewrite length_snoc; lia). rewrite <- app_assoc. reflexivity.
Qed.
Lemma read_all_mid : forall xs a d i, i = length a -> read_all T i (length xs) (a ++ vals xs ++ d) = Some xs.
Proof.
  induction xs as [|x xs IH]; intros a d i E; [reflexivity|]. cbn [read_all length vals map app]. rewrite read_mid by exact E.
  rewrite app_cons. fold (vals xs). rewrite IH by (rewrite length_snoc; lia). reflexivity.
Qed.
Lemma move_out_all_mid : forall xs a d i, i = length a ->
  move_out_all T i (length xs) (a ++ vals xs ++ d) = Some (xs, a ++ objs (map (fun _ => None) xs) ++ d).
Proof.
  induction xs as [|x xs IH]; intros a d i E; [reflexivity|]. cbn [move_out_all length vals map app]. rewrite move_out_mid by exact E.
  rewrite app_cons. fold (vals xs). rewrite IH by (rewrite length_snoc; lia). rewrite <- app_assoc. reflexivity.
Qed.

(** Shifting down over a gap of at least one cell. *)
Lemma shift_down_mid : forall xs a gap d f l, gap <> [] -> f = length a -> l = (f + length gap)%nat ->
  exists gap', length gap' = length gap /\
    shift_down T (length xs) f l (a ++ objs gap ++ vals xs ++ d) = Some (a ++ vals xs ++ objs gap' ++ d).
Proof.
  induction xs as [|x xs IH]; intros a gap d f l Hg Ef El; [exists gap; split; reflexivity|].
  destruct gap as [|g gap]; [congruence|]. cbn [shift_down length] in *. unfold move_assign_cell.
  destruct (Nat.eqb_spec f l); [lia|].
  assert (E1 : a ++ objs (g :: gap) ++ vals (x :: xs) ++ d = (a ++ objs (g :: gap)) ++ Obj (Some x) :: vals xs ++ d) by (rewrite <- app_assoc; reflexivity).
  rewrite E1, move_out_mid by (rewrite app_length, objs_length; simpl; lia).
  rewrite <- app_assoc. cbn [objs map app]. fold (objs gap). rewrite assign_mid by exact Ef.
  replace (a ++ Obj (Some x) :: objs gap ++ Obj None :: vals xs ++ d) with ((a ++ [Obj (Some x)]) ++ objs (gap ++ [None]) ++ vals xs ++ d)
    by (rewrite objs_app, <- !app_assoc; reflexivity).
  destruct (IH (a ++ [Obj (Some x)]) (gap ++ [None]) d (S f) (S l)) as (gap' & L & E).
  - destruct gap; discriminate.
  - rewrite length_snoc. lia.
  - rewrite length_snoc. lia.
  - exists gap'. rewrite length_snoc in L. split; [exact L|]. rewrite E, <- !app_assoc. reflexivity.
Qed.

(** Shifting up over a gap of [gs] objects and [m] raw cells. *)
Lemma rev_case {A} (l : list A) : l = [] \/ exists k x, l = k ++ [x].
Proof. destruct l as [|a l] using rev_ind; [auto|]. right. eauto. Qed.
Lemma shift_up_mid : forall cnt xs a gs m d n i j, length xs = cnt -> (0 < length gs + m)%nat ->
  j = (length a + length xs)%nat -> i = (j + length gs + m)%nat ->
  (j + length gs <= n)%nat -> (m <> 0%nat -> (j + length gs)%nat = n) ->
  exists gs' m', (length gs' + m' = length gs + m)%nat /\ (length a + length gs' <= n)%nat /\ (m' <> 0%nat -> (length a + length gs')%nat = n) /\
    shift_up T cnt i j n (a ++ vals xs ++ objs gs ++ raws m ++ d) = Some (a ++ objs gs' ++ raws m' ++ vals xs ++ d).
Proof.
  induction cnt as [|cnt IH]; intros xs a gs m d n i j Hc Hg Ej Ei Hn Hm.
  - destruct xs; [|discriminate]. exists gs, m. simpl in *. repeat split; lia || reflexivity || auto.
  - destruct (rev_case xs) as [->|(ys & x & ->)]; [discriminate|]. rewrite length_snoc in *.
    assert (Hcell : (if (n <=? i - 1)%nat then move_construct_cell T (i - 1) (j - 1) (a ++ vals (ys ++ [x]) ++ objs gs ++ raws m ++ d)
                     else move_assign_cell T (i - 1) (j - 1) (a ++ vals (ys ++ [x]) ++ objs gs ++ raws m ++ d)) =
      Some (match m with
            | O => a ++ vals ys ++ objs (removelast (None :: gs)) ++ vals [x] ++ d
            | S m' => a ++ vals ys ++ objs (None :: gs) ++ raws m' ++ vals [x] ++ d
            end)).
    { assert (E1 : a ++ vals (ys ++ [x]) ++ objs gs ++ raws m ++ d = (a ++ vals ys) ++ Obj (Some x) :: objs gs ++ raws m ++ d)
        by (rewrite vals_app, <- !app_assoc; reflexivity).
      destruct m as [|m'].
      - destruct (Nat.leb_spec n (i - 1)); [lia|]. unfold move_assign_cell. destruct (Nat.eqb_spec (i - 1) (j - 1)); [lia|].
        rewrite E1, move_out_mid by (rewrite app_length, vals_length; lia).
        destruct (rev_case gs) as [->|(gs0 & g & ->)]; [simpl in *; lia|].
        rewrite length_snoc in *.
        replace ((a ++ vals ys) ++ Obj None :: objs (gs0 ++ [g]) ++ raws 0 ++ d)
          with ((a ++ vals ys ++ Obj None :: objs gs0) ++ Obj g :: d) by (rewrite objs_app, <- !app_assoc; reflexivity).
        rewrite assign_mid by (rewrite !app_length, vals_length; cbn [length]; rewrite objs_length; lia).
        rewrite app_comm_cons, removelast_last. rewrite <- !app_assoc. reflexivity.
      - destruct (Nat.leb_spec n (i - 1)); [|lia]. unfold move_construct_cell.
        rewrite E1, move_out_mid by (rewrite app_length, vals_length; lia).
        replace ((a ++ vals ys) ++ Obj None :: objs gs ++ raws (S m') ++ d)
          with ((a ++ vals ys ++ Obj None :: objs gs ++ raws m') ++ Raw :: d).
        2:{ replace (S m') with (m' + 1)%nat by lia. rewrite raws_app, <- !app_assoc. cbn [app]. rewrite <- !app_assoc. reflexivity. }
        rewrite construct_mid by (rewrite !app_length, vals_length; cbn [length]; rewrite app_length, objs_length, raws_length; lia).
        rewrite <- !app_assoc. cbn [app objs map]. rewrite <- !app_assoc. reflexivity. }
    cbn [shift_up]. rewrite Hcell. destruct m as [|m'].
    + destruct (IH ys a (removelast (None :: gs)) 0%nat (vals [x] ++ d) n (i - 1)%nat (j - 1)%nat) as (gs' & m'' & L1 & L2 & L3 & E).
      * lia.
      * destruct gs; [simpl in Hg; lia | simpl; lia].
      * lia.
      * assert (length (removelast (@None T :: gs)) = length gs).
        { clear. assert (forall (o : option T), length (removelast (o :: gs)) = length gs) by (induction gs as [|g gs IH]; intro o; [reflexivity|]; simpl in *; rewrite IH; reflexivity). apply H. }
        lia.
      * assert (length (removelast (@None T :: gs)) = length gs).
        { clear. assert (forall (o : option T), length (removelast (o :: gs)) = length gs) by (induction gs as [|g gs IH]; intro o; [reflexivity|]; simpl in *; rewrite IH; reflexivity). apply H. }
        lia.
      * congruence.
      * exists gs', m''. assert (length (removelast (@None T :: gs)) = length gs).
        { clear. assert (forall (o : option T), length (removelast (o :: gs)) = length gs) by (induction gs as [|g gs IH]; intro o; [reflexivity|]; simpl in *; rewrite IH; reflexivity). apply H. }
        split; [lia|]. split; [exact L2|]. split; [exact L3|]. cbn [raws repeat app] in E. rewrite E, vals_app, <- !app_assoc. reflexivity.
    + destruct (IH ys a (None :: gs) m' (vals [x] ++ d) n (i - 1)%nat (j - 1)%nat) as (gs' & m'' & L1 & L2 & L3 & E);
        try (cbn [length]; lia).
      exists gs', m''. cbn [length] in L1. split; [lia|]. split; [exact L2|]. split; [exact L3|]. rewrite E, vals_app, <- !app_assoc. reflexivity.
Qed.
Lemma fill_mid : forall xs a gs m d p n, p = length a -> length xs = (length gs + m)%nat ->
  (gs <> [] -> p + length gs <= n)%nat -> (m <> 0%nat -> (n <= p + length gs)%nat) ->
  fill T p n xs (a ++ objs gs ++ raws m ++ d) = Some (a ++ vals xs ++ d).
Proof.
  induction xs as [|x xs IH]; intros a gs m d p n Ep L Hn Hm; cbn [length] in L.
  - destruct gs; [|simpl in L; lia]. destruct m; [|lia]. reflexivity.
  - cbn [fill]. destruct gs as [|g gs].
    + destruct m as [|m]; [simpl in L; lia|]. cbn [length] in *. destruct (Nat.leb_spec n p); [|lia].
      cbn [objs map app raws repeat]. rewrite construct_mid by exact Ep. rewrite app_cons. fold (raws m).
      change (raws m ++ d) with (objs [] ++ raws m ++ d).
      rewrite IH; [rewrite <- app_assoc; reflexivity|rewrite length_snoc; lia|cbn [length]; lia|congruence|cbn [length]; lia].
    + specialize (Hn ltac:(discriminate)). cbn [length] in *. destruct (Nat.leb_spec n p); [lia|].
      cbn [objs map app]. rewrite assign_mid by exact Ep. rewrite app_cons. fold (objs gs).
      rewrite IH; [rewrite <- app_assoc; reflexivity|rewrite length_snoc; lia|lia|lia|lia].
Qed.

Lemma construct_all_0 xs d : construct_all T 0 xs (raws (length xs) ++ d) = Some (vals xs ++ d).
Proof. exact (construct_all_mid xs [] d 0%nat eq_refl). Qed.
Lemma assign_all_0 xs os d : length os = length xs -> assign_all T 0 xs (objs os ++ d) = Some (vals xs ++ d).
Proof. exact (assign_all_mid xs [] os d 0%nat eq_refl). Qed.
Lemma destroy_all_0 os d : destroy_all T 0 (length os) (objs os ++ d) = Some (raws (length os) ++ d).
Proof. exact (destroy_all_mid os [] d 0%nat eq_refl). Qed.
Lemma read_all_0 xs d : read_all T 0 (length xs) (vals xs ++ d) = Some xs.
Proof. exact (read_all_mid xs [] d 0%nat eq_refl). Qed.
Lemma move_out_all_0 xs d : move_out_all T 0 (length xs) (vals xs ++ d) = Some (xs, objs (map (fun _ => None) xs) ++ d).
Proof. exact (move_out_all_mid xs [] d 0%nat eq_refl). Qed.

(** ** Vectors *)
Variable cap : nat.
(** [v] holds [xs]. *)
Definition holds (v : small_vector T) xs : Prop :=
  exists os, buffer v = objs os ++ raws (cap - length os) /\ (length os <= cap)%nat /\ size_ v = length os /\
    match large v with Some l => l = xs | None => os = map Some xs end.
Lemma holds_small b n xs : (length xs <= cap)%nat -> b = vals xs ++ raws (cap - length xs) -> n = length xs -> holds (mkSV b n None) xs.
Proof.
  intros L -> ->. exists (map Some xs). rewrite map_length. cbn [buffer size_ large]. rewrite <- vals_objs. auto.
Qed.
Lemma holds_none v xs : holds v xs -> large v = None -> buffer v = vals xs ++ raws (cap - length xs) /\ (length xs <= cap)%nat /\ size_ v = length xs.
Proof.
  intros (os & E & L & S & M) HL. rewrite HL in M. subst os. rewrite map_length in *. rewrite vals_objs. auto.
Qed.
Lemma holds_some v xs l : holds v xs -> large v = Some l -> l = xs.
Proof. intros (os & _ & _ & _ & M) H. rewrite H in M. exact M. Qed.
Lemma holds_large v xs xs' b n l : holds v xs -> buffer v = b -> size_ v = n -> l = xs' -> holds (mkSV b n (Some l)) xs'.
Proof. intros (os & E & L & S & _) <- <- <-. exists os. cbn [buffer size_ large]. auto. Qed.

Lemma new_holds : holds (new T cap) [].
Proof. exists []. cbn. rewrite Nat.sub_0_r. repeat split; lia || reflexivity. Qed.
Lemma destruct_ok v xs : holds v xs -> exists v', destruct_small_data T v = Some v' /\
  buffer v' = raws cap /\ size_ v' = 0%nat /\ large v' = large v.
Proof.
  intros (os & E & L & S & _). unfold destruct_small_data. rewrite E, S.
  rewrite destroy_all_0. cbn [app]. eexists. split; [reflexivity|]. cbn [buffer size_ large].
  rewrite <- raws_app. split; [f_equal; lia | auto].
Qed.
Lemma move_to_large_ok v xs : holds v xs -> large v = None -> exists v', move_to_large_data T v = Some v' /\ holds v' xs /\
  large v' = Some xs /\ buffer v' = raws cap.
Proof.
  intros H HL. destruct (holds_none v xs H HL) as (E & L & S). unfold move_to_large_data. rewrite HL, E, S.
  rewrite move_out_all_0. cbn [app].
  assert (H2 : holds (mkSV (objs (map (fun _ => None) xs) ++ raws (cap - length xs)) (length xs) (Some xs)) xs).
  { exists (map (fun _ => None) xs). rewrite map_length. cbn [buffer size_ large]. auto. }
  destruct (destruct_ok _ _ H2) as (v' & -> & B & Z & G). exists v'. cbn [large] in G. split; [reflexivity|]. split; [|auto].
  exists []. rewrite B, Z, G. cbn. rewrite Nat.sub_0_r. repeat split; lia.
Qed.
Lemma destructor_ok v xs : holds v xs -> destructor T v = Some (raws cap).
Proof.
  intro H. destruct (destruct_ok v xs H) as (v' & E & B & _). unfold destruct_small_data in E. unfold destructor.
  destruct (destroy_all T 0 (size_ v) (buffer v)); [|discriminate]. inversion E; subst. cbn [buffer] in B. congruence.
Qed.

(** *** Observers *)
Lemma nth_vals xs d i : nth_error (vals xs ++ d) i = match nth_error xs i with Some x => Some (Obj (Some x)) | None => nth_error d (i - length xs) end.
Proof.
  destruct (nth_error xs i) as [x|] eqn:E.
  - rewrite nth_error_app1 by (rewrite vals_length; apply nth_error_Some; congruence). unfold vals. rewrite nth_error_map, E. reflexivity.
  - apply nth_error_None in E. rewrite nth_error_app2 by (rewrite vals_length; exact E). rewrite vals_length. reflexivity.
Qed.
Lemma size_ok v xs : holds v xs -> size T v = length xs.
Proof.
  intro H. unfold size. destruct (large v) as [l|] eqn:E; [rewrite (holds_some _ _ _ H E); reflexivity|]. apply (holds_none _ _ H E).
Qed.
Lemma empty_ok v xs : holds v xs -> empty T v = match xs with [] => true | _ => false end.
Proof.
  intro H. unfold empty. destruct (large v) as [l|] eqn:E; [rewrite (holds_some _ _ _ H E); reflexivity|].
  destruct (holds_none _ _ H E) as (_ & _ & ->). destruct xs; reflexivity.
Qed.
Lemma get_ok v xs i : holds v xs -> get T v i = nth_error xs i.
Proof.
  intro H. unfold get. destruct (large v) as [l|] eqn:E; [rewrite (holds_some _ _ _ H E); reflexivity|].
  destruct (holds_none _ _ H E) as (Eb & _ & ->). unfold read. rewrite Eb, nth_vals.
  destruct (Nat.ltb_spec i (length xs)) as [Hi|Hi].
  - destruct (nth_error xs i) eqn:En; [reflexivity|]. apply nth_error_None in En. lia.
  - symmetry. apply nth_error_None. lia.
Qed.
Lemma elements_ok v xs : holds v xs -> elements T v = Some xs.
Proof.
  intro H. unfold elements. destruct (large v) as [l|] eqn:E; [rewrite (holds_some _ _ _ H E); reflexivity|].
  destruct (holds_none _ _ H E) as (-> & _ & ->). apply read_all_0.
Qed.

(** *** Modifiers *)
Lemma set_ok v xs i x : holds v xs -> (i < length xs)%nat -> exists v', set T v i x = Some v' /\ holds v' (firstn i xs ++ x :: skipn (S i) xs).
Proof.
  intros H Hi. unfold set. destruct (large v) as [l|] eqn:E.
  - pose proof (holds_some _ _ _ H E) as ->. rewrite (proj2 (Nat.ltb_lt _ _) Hi). eexists. split; [reflexivity|]. eapply holds_large; eauto.
  - destruct (holds_none _ _ H E) as (Eb & L & S). rewrite S, (proj2 (Nat.ltb_lt _ _) Hi).
    destruct (nth_error xs i) as [y|] eqn:En; [|apply nth_error_None in En; lia].
    apply nth_error_split in En as (l1 & l2 & El & Ei). rewrite Eb, El, vals_app, <- app_assoc. cbn [vals map app]. fold (vals l2).
    rewrite assign_mid by (rewrite vals_length; lia). eexists. split; [reflexivity|]. subst i.
    rewrite firstn_app, Nat.sub_diag, firstn_all, firstn_O, app_nil_r.
    rewrite skipn_app, skipn_all2, Nat.sub_succ_l, Nat.sub_diag by lia. cbn [app skipn].
    rewrite El in L. rewrite app_length in *. cbn [length] in *.
    apply holds_small; rewrite ?app_length; cbn [length]; [lia| |reflexivity].
    rewrite vals_app, <- app_assoc. reflexivity.
Qed.
Lemma push_back_ok v xs x : holds v xs -> exists v', push_back T cap v (Value x) = Some v' /\ holds v' (xs ++ [x]).
Proof.
  intro H. unfold push_back. cbn [argument_value]. destruct (large v) as [l|] eqn:E.
  - rewrite E. eexists. split; [reflexivity|]. pose proof (holds_some _ _ _ H E) as ->. eapply holds_large; eauto.
  - destruct (holds_none _ _ H E) as (Eb & L & S). rewrite S. destruct (Nat.eqb_spec (length xs) cap) as [Ec|Ec].
    + destruct (move_to_large_ok v xs H E) as (w & -> & Hw & Lw & _). rewrite Lw. eexists. split; [reflexivity|]. eapply holds_large; eauto.
    + rewrite E, Eb, S. replace (cap - length xs)%nat with (Datatypes.S (cap - length xs - 1)) by lia. cbn [raws repeat].
      rewrite construct_mid by (rewrite vals_length; reflexivity). eexists. split; [reflexivity|].
      apply holds_small; rewrite ?app_length; cbn [length]; [lia| |lia].
      rewrite vals_app, <- app_assoc. cbn [vals map app]. replace (cap - (length xs + 1))%nat with (cap - length xs - 1)%nat by lia. reflexivity.
Qed.
Lemma pop_back_ok v xs : holds v xs -> xs <> [] -> exists v', pop_back T v = Some v' /\ holds v' (removelast xs).
Proof.
  intros H Hne. unfold pop_back. destruct (large v) as [l|] eqn:E.
  - pose proof (holds_some _ _ _ H E) as ->. destruct xs as [|x xs]; [congruence|]. eexists. split; [reflexivity|]. eapply holds_large; eauto.
  - destruct (holds_none _ _ H E) as (Eb & L & S). destruct (rev_case xs) as [->|(ys & y & ->)]; [congruence|].
    rewrite S, Eb, length_snoc, vals_app, <- app_assoc. cbn [vals map app]. rewrite length_snoc in L.
    rewrite destroy_mid by (rewrite vals_length; reflexivity). eexists. split; [reflexivity|]. rewrite removelast_last.
    apply holds_small; [lia| |reflexivity]. replace (cap - length ys)%nat with (Datatypes.S (cap - Datatypes.S (length ys))) by lia. reflexivity.
Qed.
Lemma erase_ok v xs first last : holds v xs -> (first <= last)%nat -> (last <= length xs)%nat ->
  exists v', erase T v first last = Some (v', first) /\ holds v' (firstn first xs ++ skipn last xs).
Proof.
  intros H H1 H2. unfold erase. destruct (large v) as [l|] eqn:E.
  - pose proof (holds_some _ _ _ H E) as ->. rewrite (proj2 (Nat.leb_le _ _) H1), (proj2 (Nat.leb_le _ _) H2). cbn [andb].
    eexists. split; [reflexivity|]. eapply holds_large; eauto.
  - destruct (holds_none _ _ H E) as (Eb & L & S). rewrite S, (proj2 (Nat.leb_le _ _) H1), (proj2 (Nat.leb_le _ _) H2). cbn [andb].
    destruct (Nat.eqb_spec first last) as [->|Hne].
    { exists v. split; [reflexivity|]. rewrite firstn_skipn. exact H. }
    set (a := firstn first xs). set (gap := firstn (last - first) (skipn first xs)). set (d := skipn last xs).
    assert (Ex : xs = a ++ gap ++ d).
    { unfold a, gap, d. replace (skipn last xs) with (skipn (last - first) (skipn first xs)).
      - rewrite firstn_skipn, firstn_skipn. reflexivity.
      - rewrite <- (firstn_skipn first xs) at 2. rewrite skipn_app, firstn_length_le by lia.
        rewrite (skipn_all2 (firstn first xs)) by (rewrite firstn_length_le; lia). reflexivity. }
    assert (La : length a = first) by (unfold a; apply firstn_length_le; lia).
    assert (Ld : length d = (length xs - last)%nat) by (unfold d; apply skipn_length).
    assert (Lg : length gap = (last - first)%nat).
    { apply (f_equal (@length T)) in Ex. rewrite !app_length in Ex. lia. }
    assert (Ev : vals xs = vals a ++ objs (map Some gap) ++ vals d) by (rewrite <- vals_objs, <- !vals_app, <- Ex; reflexivity).
    rewrite Eb, Ev, <- !app_assoc.
    destruct (shift_down_mid d (vals a) (map Some gap) (raws (cap - length xs)) first last) as (gap' & Lg' & Es).
    + intro Hc. apply map_eq_nil in Hc. rewrite Hc in Lg. simpl in Lg. lia.
    + rewrite vals_length. lia.
    + rewrite map_length. lia.
    + rewrite <- Ld, Es. rewrite map_length in Lg'.
      replace (last - first)%nat with (length gap') by lia.
      rewrite (app_assoc (vals a) (vals d)).
      rewrite (destroy_all_mid gap' (vals a ++ vals d)) by (rewrite app_length, !vals_length; lia).
      eexists. split; [reflexivity|]. apply holds_small; rewrite ?app_length; [lia| |lia].
      rewrite vals_app, <- !app_assoc. rewrite <- raws_app. do 3 f_equal. lia.
Qed.
Lemma insert_ok v xs pos ys : holds v xs -> (pos <= length xs)%nat -> (ys <> [] \/ pos = length xs) ->
  exists v', insert T cap v pos ys = Some (v', pos) /\ holds v' (firstn pos xs ++ ys ++ skipn pos xs).
Proof.
  intros H Hp Hy. unfold insert. rewrite (size_ok v xs H). destruct (Nat.ltb_spec (length xs) pos); [lia|]. cbn zeta.
  destruct (large v) as [l|] eqn:E.
  - rewrite E. pose proof (holds_some _ _ _ H E) as ->. eexists. split; [reflexivity|]. eapply holds_large; eauto.
  - destruct (holds_none _ _ H E) as (Eb & L & S). rewrite S. destruct (Nat.ltb_spec cap (length xs + length ys)) as [Hc|Hc].
    + destruct (move_to_large_ok v xs H E) as (w & -> & Hw & Lw & _). rewrite Lw. eexists. split; [reflexivity|]. eapply holds_large; eauto.
    + rewrite E, S. set (a := firstn pos xs). set (d := skipn pos xs).
      assert (Ex : xs = a ++ d) by (symmetry; apply firstn_skipn).
      assert (La : length a = pos) by (unfold a; apply firstn_length_le; lia).
      assert (Ld : length d = (length xs - pos)%nat) by (unfold d; apply skipn_length).
      assert (Hup : exists gs m, (length gs + m = length ys)%nat /\ (gs <> [] -> pos + length gs <= length xs)%nat /\ (m <> 0%nat -> (length xs <= pos + length gs)%nat) /\
        shift_up T (length xs - pos) (length xs + length ys) (length xs) (length xs) (buffer v) =
        Some (vals a ++ objs gs ++ raws m ++ vals d ++ raws (cap - length xs - length ys))).
      { assert (Er : raws (cap - length xs) = raws (length ys) ++ raws (cap - length xs - length ys)) by (rewrite <- raws_app; f_equal; lia). rewrite Eb, Er.
        assert (Ev : vals xs = vals a ++ vals d) by (rewrite <- vals_app, <- Ex; reflexivity). rewrite Ev, <- app_assoc.
        destruct ys as [|y ys].
        - destruct Hy as [?|Hy]; [congruence|]. exists [], 0%nat. assert (d = []) by (apply length_zero_iff_nil; lia). rewrite H1.
          replace (length xs - pos)%nat with 0%nat by lia. repeat split; try congruence; try (cbn [length]; lia).
        - destruct (shift_up_mid (length xs - pos)%nat d (vals a) [] (length (y :: ys)) (raws (cap - length xs - length (y :: ys))) (length xs) (length xs + length (y :: ys))%nat (length xs)) as (gs & m & L1 & L2 & L3 & Es).
          + exact Ld.
          + cbn [length]. lia.
          + rewrite vals_length. lia.
          + cbn [length]. lia.
          + cbn [length]. lia.
          + cbn [length]. lia.
          + rewrite vals_length in L2, L3. cbn [length] in L1. exists gs, m. split; [cbn [length]; lia|]. split; [intros _; lia|]. split; [intro Hm; specialize (L3 Hm); lia|].
            exact Es. }
      destruct Hup as (gs & m & L1 & L2 & L3 & ->).
      rewrite (fill_mid ys (vals a) gs m _ pos (length xs)); [|rewrite vals_length; lia|lia|exact L2|exact L3].
      eexists. split; [reflexivity|].
      assert (Lt : length (a ++ ys ++ d) = (length xs + length ys)%nat) by (rewrite !app_length; lia).
      apply holds_small; rewrite ?Lt; [lia| |reflexivity].
      rewrite !vals_app, <- !app_assoc. do 4 f_equal. lia.
Qed.
Lemma clear_ok v xs : holds v xs -> exists v', clear T v = Some v' /\ holds v' [].
Proof.
  intro H. unfold clear. destruct (large v) as [l|] eqn:E.
  - eexists. split; [reflexivity|]. eapply holds_large; eauto.
  - destruct (destruct_ok v xs H) as (v' & -> & B & Z & G). exists v'. split; [reflexivity|].
    exists []. rewrite B, Z, G, E. cbn. rewrite Nat.sub_0_r. repeat split; lia.
Qed.
Lemma resize_ok v xs n x : holds v xs -> exists v', resize T cap v n (Value x) = Some v' /\ holds v' (firstn n xs ++ repeat x (n - length xs)).
Proof.
  intro H. unfold resize. cbn [argument_value]. destruct (large v) as [l|] eqn:E.
  - rewrite E. pose proof (holds_some _ _ _ H E) as ->. eexists. split; [reflexivity|]. eapply holds_large; eauto.
  - destruct (holds_none _ _ H E) as (Eb & L & S). destruct (Nat.ltb_spec cap n) as [Hc|Hc].
    + destruct (move_to_large_ok v xs H E) as (w & -> & Hw & Lw & _). rewrite Lw. eexists. split; [reflexivity|]. eapply holds_large; eauto.
    + rewrite E, S, Eb. destruct (Nat.le_gt_cases (length xs) n) as [Hle|Hgt].
      * replace (length xs - n)%nat with 0%nat by lia. cbn [destroy_all]. rewrite firstn_all2 by lia.
        assert (Hlen : length (xs ++ repeat x (n - length xs)) = n) by (rewrite app_length, repeat_length; lia).
        destruct (n - length xs)%nat as [|k] eqn:Ek.
        -- eexists. split; [reflexivity|]. cbn [repeat] in *. rewrite app_nil_r in *. apply holds_small; [lia|reflexivity|lia].
        -- replace (cap - length xs)%nat with (length (repeat x (Datatypes.S k)) + (cap - n))%nat by (rewrite repeat_length; lia).
           rewrite raws_app. rewrite construct_all_mid by (rewrite vals_length; reflexivity). eexists. split; [reflexivity|].
           apply holds_small; rewrite ?Hlen; [lia| |reflexivity]. rewrite vals_app, <- app_assoc. reflexivity.
      * replace (n - length xs)%nat with 0%nat by lia. cbn [repeat]. rewrite app_nil_r.
        assert (Ld : length (skipn n xs) = (length xs - n)%nat) by apply skipn_length.
        assert (La : length (firstn n xs) = n) by (apply firstn_length_le; lia).
        assert (Ev : vals xs = vals (firstn n xs) ++ objs (map Some (skipn n xs))) by (rewrite <- vals_objs, <- vals_app, firstn_skipn; reflexivity).
        rewrite Ev, <- app_assoc.
        replace (length xs - n)%nat with (length (map Some (skipn n xs))) by (rewrite map_length; lia).
        rewrite destroy_all_mid by (rewrite vals_length; lia). eexists. split; [reflexivity|].
        apply holds_small; rewrite ?La; [lia| |reflexivity]. rewrite map_length, <- raws_app. do 2 f_equal. lia.
Qed.
(** The common part of the two assignments from an inline vector. *)
Lemma overwrite_ok v xs ys : holds v xs -> (length ys <= cap)%nat ->
  exists b, match assign_all T 0 (firstn (Nat.min (size_ v) (length ys)) ys) (buffer v) with
    | None => None
    | Some b => if (length ys <=? Nat.min (size_ v) (length ys))%nat
                then destroy_all T (Nat.min (size_ v) (length ys)) (size_ v - Nat.min (size_ v) (length ys)) b
                else construct_all T (Nat.min (size_ v) (length ys)) (skipn (Nat.min (size_ v) (length ys)) ys) b
    end = Some b /\ holds (mkSV b (length ys) None) ys.
Proof.
  intros (os & Eb & L & S & _) Ly. rewrite Eb, S. destruct (Nat.leb_spec (length ys) (length os)) as [Hle|Hgt].
  - rewrite Nat.min_r by lia. rewrite Nat.leb_refl, firstn_all.
    assert (La : length (firstn (length ys) os) = length ys) by (apply firstn_length_le; lia).
    assert (Ld : length (skipn (length ys) os) = (length os - length ys)%nat) by apply skipn_length.
    assert (Ev : objs os = objs (firstn (length ys) os) ++ objs (skipn (length ys) os)) by (rewrite <- objs_app, firstn_skipn; reflexivity).
    rewrite Ev, <- app_assoc.
    rewrite (assign_all_0 ys _ _ La). cbn [app]. rewrite <- Ld.
    rewrite destroy_all_mid by (rewrite vals_length; reflexivity). eexists. split; [reflexivity|].
    apply holds_small; [lia| |reflexivity]. rewrite <- raws_app. do 2 f_equal. lia.
  - rewrite Nat.min_l by lia. destruct (Nat.leb_spec (length ys) (length os)); [lia|].
    assert (La : length (firstn (length os) ys) = length os) by (apply firstn_length_le; lia).
    assert (Ld : length (skipn (length os) ys) = (length ys - length os)%nat) by apply skipn_length.
    rewrite (assign_all_0 (firstn (length os) ys) os _ (eq_sym La)). cbn [app].
    replace (cap - length os)%nat with (length (skipn (length os) ys) + (cap - length ys))%nat by lia. rewrite raws_app.
    rewrite construct_all_mid by (rewrite vals_length; lia). eexists. split; [reflexivity|].
    apply holds_small; [lia| |reflexivity]. rewrite app_assoc, <- vals_app, firstn_skipn. reflexivity.
Qed.
Lemma copy_assign_ok v xs that ys : holds v xs -> holds that ys -> exists v', copy_assign T v that = Some v' /\ holds v' ys.
Proof.
  intros H Ht. unfold copy_assign. destruct (large that) as [l|] eqn:E.
  - pose proof (holds_some _ _ _ Ht E) as ->. eexists. split; [reflexivity|]. exact (holds_large v xs _ _ _ _ H eq_refl eq_refl eq_refl).
  - destruct (holds_none _ _ Ht E) as (Eb & L & S). rewrite S, Eb, read_all_0. cbn zeta.
    destruct (overwrite_ok v xs ys H L) as (b & Eo & Hb).
    destruct (assign_all T 0 (firstn (Nat.min (size_ v) (length ys)) ys) (buffer v)); [|discriminate].
    cbv beta iota in Eo. rewrite Eo. eauto.
Qed.
Lemma move_assign_ok v xs that ys : holds v xs -> holds that ys ->
  exists v' that', move_assign T v that = Some (v', that') /\ holds v' ys /\ holds that' [].
Proof.
  intros H Ht. unfold move_assign. destruct (large that) as [l|] eqn:E.
  - pose proof (holds_some _ _ _ Ht E) as ->.
    assert (exists v', destruct_small_data T (mkSV (buffer that) (size_ that) None) = Some v' /\ holds v' []) as (w & -> & Hw).
    { destruct Ht as (os & Eb & L & S & _). unfold destruct_small_data. cbn [buffer size_ large]. rewrite Eb, S.
      rewrite destroy_all_0. cbn [app]. eexists. split; [reflexivity|]. rewrite <- raws_app.
      exists []. cbn. rewrite Nat.sub_0_r. repeat split; try lia. f_equal. lia. }
    eexists _, _. split; [reflexivity|]. split; [exact (holds_large v xs _ _ _ _ H eq_refl eq_refl eq_refl) | exact Hw].
  - destruct (holds_none _ _ Ht E) as (Eb & L & S). rewrite S, Eb, move_out_all_0. cbn zeta. cbn [app].
    destruct (overwrite_ok v xs ys H L) as (b & Eo & Hb).
    destruct (assign_all T 0 (firstn (Nat.min (size_ v) (length ys)) ys) (buffer v)); [|discriminate].
    cbv beta iota in Eo. rewrite Eo. unfold destruct_small_data. cbn [buffer size_ large].
    pose proof (destroy_all_0 (map (fun _ : T => @None T) ys) (raws (cap - length ys))) as Ed. rewrite map_length in Ed. rewrite Ed. eexists _, _. split; [reflexivity|]. split; [exact Hb|].
    rewrite <- raws_app. exists []. cbn. rewrite Nat.sub_0_r. repeat split; try lia. f_equal. lia.
Qed.
Lemma inline_ok xs : (length xs <= cap)%nat -> exists b, construct_all T 0 xs (repeat Raw cap) = Some b /\ holds (mkSV b (length xs) None) xs.
Proof.
  intro L. assert (Er : repeat Raw cap = raws (length xs) ++ raws (cap - length xs)) by (rewrite <- raws_app; unfold raws; f_equal; lia). rewrite Er.
  rewrite construct_all_0. eexists. split; [reflexivity|]. apply holds_small; auto.
Qed.
Lemma heap_ok xs : holds (mkSV (repeat Raw cap) 0 (Some xs)) xs.
Proof. exists []. cbn. rewrite Nat.sub_0_r. repeat split; lia. Qed.
Lemma from_vector_ok xs : exists v, from_vector T cap xs = Some v /\ holds v xs.
Proof.
  unfold from_vector. destruct (Nat.ltb_spec cap (length xs)); [eexists; split; [reflexivity | apply heap_ok]|].
  destruct (inline_ok xs ltac:(lia)) as (b & -> & Hb). eauto.
Qed.
Lemma from_list_ok xs : exists v, from_list T cap xs = Some v /\ holds v xs.
Proof.
  unfold from_list. destruct (Nat.ltb_spec (length xs) cap); [|eexists; split; [reflexivity | apply heap_ok]].
  destruct (inline_ok xs ltac:(lia)) as (b & -> & Hb). eauto.
Qed.
Lemma from_range_ok xs : exists v, from_range T cap xs = Some v /\ holds v xs.
Proof.
  unfold from_range. rewrite (size_ok _ _ new_holds). cbn [length].
  destruct (insert_ok (new T cap) [] 0 xs new_holds ltac:(simpl; lia) ltac:(right; reflexivity)) as (v & -> & H).
  exists v. split; [reflexivity|]. cbn [firstn skipn app] in H. rewrite app_nil_r in H. exact H.
Qed.
Lemma from_count_ok n x : exists v, from_count T cap n x = Some v /\ holds v (repeat x n).
Proof.
  unfold from_count. destruct (resize_ok (new T cap) [] n x new_holds) as (v & -> & H). exists v. split; [reflexivity|].
  rewrite firstn_nil, Nat.sub_0_r in H. exact H.
Qed.

(** ** Programs *)
Definition all_hold (vs : list (small_vector T)) (ls : list (list T)) : Prop := Forall2 holds vs ls.
Lemma forall2_nth vs ls k l : all_hold vs ls -> nth_error ls k = Some l -> exists v, nth_error vs k = Some v /\ holds v l.
Proof.
  intro H. revert k. induction H as [|v l' vs ls Hv _ IH]; intros [|k]; cbn; try discriminate; [intro E; inversion E; subst; eauto | apply IH].
Qed.
Lemma forall2_replace vs ls k v l : all_hold vs ls -> holds v l -> all_hold (replace_at k v vs) (replace_at k l ls).
Proof.
  intro H. revert k. induction H as [|v' l' vs ls Hv Hr IH]; intros [|k] Hl; cbn; constructor; auto. apply IH. exact Hl.
Qed.
Lemma nth_replace_other {A} k j (a : A) l : k <> j -> nth_error (replace_at k a l) j = nth_error l j.
Proof. revert k j. induction l as [|b l IH]; intros [|k] [|j] H; cbn; auto; try congruence. Qed.
Lemma with_vector_ok vs ls k f g ls' : all_hold vs ls -> on T ls k g = Some ls' ->
  (forall v l l', holds v l -> g l = Some l' -> exists v', f v = Some v' /\ holds v' l') ->
  exists vs', with_vector T vs k f = Some vs' /\ all_hold vs' ls'.
Proof.
  intros H E Hf. unfold on in E. destruct (nth_error ls k) as [l|] eqn:En; [|discriminate].
  destruct (g l) as [l'|] eqn:Eg; [|discriminate]. inversion E; subst.
  destruct (forall2_nth _ _ _ _ H En) as (v & Ev & Hv). destruct (Hf v l l' Hv Eg) as (v' & Ef & Hv').
  unfold with_vector. rewrite Ev, Ef. eexists. split; [reflexivity|]. apply forall2_replace; assumption.
Qed.
Lemma raws_raw n : forallb (is_raw T) (raws n) = true.
Proof. induction n; [reflexivity|]. exact IHn. Qed.
Lemma rebuild_ok vs ls k r xs ls' : all_hold vs ls -> on T ls k (fun _ => Some xs) = Some ls' ->
  (exists v, r = Some v /\ holds v xs) -> exists vs', rebuild T vs k r = Some vs' /\ all_hold vs' ls'.
Proof.
  intros H E (v & -> & Hv). eapply with_vector_ok; [exact H | exact E|]. intros w l l' Hw El. inversion El; subst.
  rewrite (destructor_ok w l Hw), raws_raw. eauto.
Qed.
Lemma step_ok vs ls s ls' : all_hold vs ls -> supported T s -> spec_step T ls s = Some ls' ->
  exists vs', run_step T cap vs s = Some vs' /\ all_hold vs' ls'.
Proof.
  intros H Hs. destruct s; cbn [spec_step run_step supported] in *; intro E.
  - destruct a as [x|i]; [|destruct Hs]. eapply with_vector_ok; [exact H | exact E|]. intros v l l' Hv El. cbv beta in El. cbn [value] in El. inversion El; subst. apply push_back_ok. exact Hv.
  - eapply with_vector_ok; [exact H | exact E|]. intros v l l' Hv El. cbv beta in El. destruct l as [|x l]; [discriminate|]. injection El as <-. exact (pop_back_ok v (x :: l) Hv ltac:(discriminate)).
  - eapply with_vector_ok; [exact H | exact E|]. intros v l l' Hv El. cbv beta in El. destruct (Nat.leb_spec pos (length l)); [|discriminate]. inversion El; subst.
    destruct (insert_ok v l pos xs Hv H0) as (v' & -> & Hv'); [left; destruct xs; [destruct Hs | discriminate]|]. cbn [option_map fst]. eauto.
  - eapply with_vector_ok; [exact H | exact E|]. intros v l l' Hv El. cbv beta in El. destruct (Nat.leb_spec first last); [|discriminate].
    destruct (Nat.leb_spec last (length l)); [|discriminate]. cbn [andb] in El. inversion El; subst.
    destruct (erase_ok v l first last Hv) as (v' & -> & Hv'); [assumption|assumption|]. cbn [option_map fst]. eauto.
  - destruct a as [x|i]; [|destruct Hs]. eapply with_vector_ok; [exact H | exact E|]. intros v l l' Hv El. cbv beta in El. cbn [value] in El. inversion El; subst. apply resize_ok. exact Hv.
  - eapply with_vector_ok; [exact H | exact E|]. intros v l l' Hv El. cbv beta in El. inversion El; subst. eapply clear_ok. exact Hv.
  - eapply with_vector_ok; [exact H | exact E|]. intros v l l' Hv El. cbv beta in El. destruct (Nat.ltb_spec i (length l)); [|discriminate]. inversion El; subst. apply set_ok; assumption.
  - destruct (nth_error ls j) as [lj|] eqn:Ej; [|discriminate]. destruct (forall2_nth _ _ _ _ H Ej) as (vj & -> & Hj).
    eapply with_vector_ok; [exact H | exact E|]. intros v l l' Hv El. cbv beta in El. inversion El; subst. eapply copy_assign_ok; eauto.
  - destruct (Nat.eqb_spec k j) as [|Hne]; [discriminate|]. destruct (nth_error ls j) as [lj|] eqn:Ej; [|discriminate].
    destruct (forall2_nth _ _ _ _ H Ej) as (vj & Evj & Hj). unfold on at 1 in E. destruct (nth_error ls k) as [lk|] eqn:Ek; [|discriminate].
    destruct (forall2_nth _ _ _ _ H Ek) as (vk & Evk & Hk). rewrite Evk, Evj.
    destruct (move_assign_ok vk lk vj lj Hk Hj) as (v' & that' & -> & Hv' & Ht'). eexists. split; [reflexivity|].
    unfold on in E. rewrite nth_replace_other, Ej in E by exact Hne. inversion E; subst. apply forall2_replace; [apply forall2_replace|]; assumption.
  - eapply rebuild_ok; [exact H | exact E | apply from_vector_ok].
  - eapply rebuild_ok; [exact H | exact E | apply from_range_ok].
  - eapply rebuild_ok; [exact H | exact E | apply from_list_ok].
  - eapply rebuild_ok; [exact H | exact E | apply from_count_ok].
  - destruct (Nat.eqb_spec k j) as [|Hne]; [discriminate|]. destruct (nth_error ls j) as [lj|] eqn:Ej; [|discriminate].
    destruct (forall2_nth _ _ _ _ H Ej) as (vj & -> & Hj). eapply rebuild_ok; [exact H | exact E|]. eapply copy_assign_ok; [apply new_holds | exact Hj].
  - destruct (Nat.eqb_spec k j) as [|Hne]; [discriminate|]. destruct (nth_error ls j) as [lj|] eqn:Ej; [|discriminate].
    destruct (forall2_nth _ _ _ _ H Ej) as (vj & -> & Hj). destruct (move_assign_ok (new T cap) [] vj lj new_holds Hj) as (v' & that' & -> & Hv' & Ht').
    destruct (on T ls k (fun _ => Some lj)) as [ls1|] eqn:E1; [|discriminate].
    destruct (rebuild_ok vs ls k (Some v') lj ls1 H E1) as (vs1 & -> & H1); [eauto|]. eexists. split; [reflexivity|].
    unfold on in E. destruct (nth_error ls1 j); [|discriminate]. inversion E; subst. apply forall2_replace; assumption.
Qed.
Lemma run_ok : forall p vs ls ls', all_hold vs ls -> Forall (supported T) p -> spec_run T ls p = Some ls' ->
  exists vs', run T cap vs p = Some vs' /\ all_hold vs' ls'.
Proof.
  induction p as [|s p IH]; intros vs ls ls' H Hs E; cbn [spec_run run] in *; [inversion E; subst; eauto|].
  inversion Hs; subst. destruct (spec_step T ls s) as [ls1|] eqn:E1; [|discriminate].
  destruct (step_ok vs ls s ls1 H H2 E1) as (vs1 & -> & H4). eapply IH; eauto.
Qed.
Lemma start_ok n : all_hold (repeat (new T cap) n) (repeat [] n).
Proof. induction n; constructor; [apply new_holds | exact IHn]. Qed.
End Proofs.
