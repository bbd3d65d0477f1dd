(** Proofs about target environments. *)
From Coq Require Import String.
From Verif Require Import Base Bytes TextLex ParseNumber TargetEnv TargetEnvSpec.
Local Open Scope list_scope.
Local Open Scope N_scope.

Lemma is_prefix_spec b s : is_prefix b s = true <-> prefix_of b s.
Proof.
  revert s. induction b as [|x b IH]; intro s; simpl.
  - split; [intros _; exists s; reflexivity | reflexivity].
  - destruct s as [|y s].
    + split; [discriminate | intros [rest H]; discriminate].
    + rewrite andb_true_iff, N.eqb_eq, IH. split.
      * intros [-> [rest ->]]. exists rest. reflexivity.
      * intros [rest H]. inversion H; subst. split; [reflexivity | exists rest; reflexivity].
Qed.

Lemma prefixes_nested a b s : prefix_of a s -> prefix_of b s -> (length a <= length b)%nat -> prefix_of a b.
Proof.
  intros [ra Ha] [rb Hb] L. exists (skipn (length a) b).
  assert (firstn (length a) b = a).
  { assert (firstn (length a) s = a) by (rewrite Ha, firstn_app, firstn_all, Nat.sub_diag; simpl; apply app_nil_r).
    rewrite <- H at 2. rewrite Hb, firstn_app. replace (length a - length b)%nat with 0%nat by lia.
    simpl. rewrite app_nil_r. reflexivity. }
  rewrite <- H at 1. symmetry. apply firstn_skipn.
Qed.

(** No name is a prefix of a later one. *)
Fixpoint no_shadowing (table : list (list N * target_env)) : bool :=
  match table with
  | [] => true
  | (b, _) :: table' => forallb (fun p => negb (is_prefix b (fst p))) table' && no_shadowing table'
  end.
Lemma names_no_shadowing : no_shadowing target_env_names = true.
Proof. vm_compute. reflexivity. Qed.

Lemma find_name_longest s table e : no_shadowing table = true ->
  find_name s table = Some e <->
  exists n, In (n, e) table /\ prefix_of n s /\
    forall n' e', In (n', e') table -> prefix_of n' s -> (length n' <= length n)%nat.
Proof.
  induction table as [|[b e0] table IH]; intro Hs; simpl.
  - split; [discriminate | intros (n & [] & _)].
  - simpl in Hs. apply andb_true_iff in Hs as [H1 H2]. rewrite forallb_forall in H1.
    assert (Hsh : forall n' e', In (n', e') table -> ~ prefix_of b n').
    { intros n' e' Hin Hp. specialize (H1 _ Hin). simpl in H1. apply is_prefix_spec in Hp. rewrite Hp in H1. discriminate. }
    destruct (is_prefix b s) eqn:E.
    + apply is_prefix_spec in E. split.
      * intro H; inversion H; subst. exists b. split; [left; reflexivity|]. split; [exact E|].
        intros n' e' [Heq|Hin] Hp; [inversion Heq; lia|].
        destruct (Nat.le_gt_cases (length n') (length b)) as [L|L]; [exact L|].
        exfalso. apply (Hsh _ _ Hin). apply (prefixes_nested b n' s); auto. lia.
      * intros (n & [Heq|Hin] & Hp & Hmax); [inversion Heq; reflexivity|].
        exfalso. apply (Hsh _ _ Hin). apply (prefixes_nested b n s); auto. apply (Hmax b e0); [left; reflexivity | exact E].
    + rewrite (IH H2). split.
      * intros (n & Hin & Hp & Hmax). exists n. split; [right; exact Hin|]. split; [exact Hp|].
        intros n' e' [Heq|Hin'] Hp'; [|eapply Hmax; eauto]. inversion Heq; subst.
        apply is_prefix_spec in Hp'. congruence.
      * intros (n & [Heq|Hin] & Hp & Hmax).
        -- inversion Heq; subst. apply is_prefix_spec in Hp. congruence.
        -- exists n. split; [exact Hin|]. split; [exact Hp|]. intros n' e' Hin'. apply (Hmax n' e'). right. exact Hin'.
Qed.
Lemma find_name_none s table : find_name s table = None <-> forall n e, In (n, e) table -> ~ prefix_of n s.
Proof.
  induction table as [|[b e0] table IH]; simpl; [split; [intros _ ? ? [] | reflexivity]|].
  destruct (is_prefix b s) eqn:E.
  - apply is_prefix_spec in E. split; [discriminate|]. intro H. exfalso. apply (H b e0); auto.
  - rewrite IH. split.
    + intros H n e [Heq|Hin]; [|eapply H; eauto]. inversion Heq; subst. intro Hp. apply is_prefix_spec in Hp. congruence.
    + intros H n e Hin. apply (H n e). auto.
Qed.

(** Lines. *)
Lemma lines_of_cons s : exists l ls, lines_of s = l :: ls.
Proof.
  induction s as [|c s (l & ls & IH)]; simpl; [eauto|]. rewrite IH. destruct (c =? 10); eauto.
Qed.
Lemma lines_of_cons_other c s : c <> 10 -> forall l ls, lines_of s = l :: ls -> lines_of (c :: s) = (c :: l) :: ls.
Proof. intros Hc l ls E. simpl. rewrite E. apply N.eqb_neq in Hc. rewrite Hc. reflexivity. Qed.
Lemma lines_of_nl s : lines_of (10 :: s) = [] :: lines_of s.
Proof. destruct (lines_of_cons s) as (l & ls & E). simpl. rewrite E. reflexivity. Qed.

(** The result on the lines of a text. *)
Definition reads (ls : list (list N)) (e : target_env) : Prop :=
  exists before l after minor,
    ls = before ++ l :: after /\ Forall (fun h => header_line h /\ ~ version_line h) before /\
    announces l minor /\ universal minor e.

(** The prefix without its semicolon. *)
Definition version_tail : list N := bytes " Version: 1.".
Lemma version_prefix_eq : bytes "; Version: 1." = 59 :: version_tail. Proof. reflexivity. Qed.
Lemma tail_length : length version_tail = 12%nat. Proof. reflexivity. Qed.
Lemma tail_no_nl : Forall (fun c => c <> 10) version_tail.
Proof. unfold version_tail. vm_compute. repeat constructor; discriminate. Qed.

Lemma matching_spec p s : matching p s = length p -> exists rest, s = p ++ rest.
Proof.
  revert s. induction p as [|x p IH]; intros s H; simpl in *; [exists s; reflexivity|].
  destruct s as [|y s]; [discriminate|]. destruct (N.eqb_spec x y) as [->|]; [|discriminate].
  injection H as H. destruct (IH s H) as [rest ->]. exists rest. reflexivity.
Qed.
Lemma matching_app p rest : matching p (p ++ rest) = length p.
Proof. induction p as [|x p IH]; [destruct rest; reflexivity|]. simpl. rewrite N.eqb_refl, IH. reflexivity. Qed.
Lemma matching_firstn p s : firstn (matching p s) s = firstn (matching p s) p.
Proof.
  revert s. induction p as [|x p IH]; intros [|y s]; simpl; try reflexivity.
  destruct (N.eqb_spec x y) as [->|]; [|reflexivity]. simpl. rewrite IH. reflexivity.
Qed.
Lemma matching_le p s : (matching p s <= length p)%nat.
Proof. revert s. induction p as [|x p IH]; intros [|y s]; simpl; try lia. destruct (x =? y); [specialize (IH s); lia | lia]. Qed.

Lemma lines_app_no_nl a s : Forall (fun c => c <> 10) a ->
  lines_of (a ++ s) = (a ++ hd [] (lines_of s)) :: tl (lines_of s).
Proof.
  induction 1 as [|c a Hc _ IH]; simpl.
  - destruct (lines_of_cons s) as (l & ls & E). rewrite E. reflexivity.
  - rewrite IH. apply N.eqb_neq in Hc. rewrite Hc. reflexivity.
Qed.
Lemma skip_line_lines s : tl (lines_of s) = match skip_line s with [] => [] | _ :: r => lines_of r end.
Proof.
  induction s as [|c s IH]; [reflexivity|]. simpl. destruct (lines_of_cons s) as (l & ls & E). rewrite E in *.
  destruct (N.eqb_spec c 10) as [->|Hc]; simpl in *; [symmetry; exact E | exact IH].
Qed.
Lemma skip_line_length s : (length (skip_line s) <= length s)%nat.
Proof. induction s as [|c s IH]; simpl; [lia|]. destruct (c =? 10); simpl; lia. Qed.

Lemma digit_iff c : is_digit c = true <-> exists d, c = 48 + d /\ d <= 9.
Proof.
  unfold is_digit. rewrite andb_true_iff, !N.leb_le. split.
  - intro H. exists (c - 48). lia.
  - intros (d & -> & Hd). lia.
Qed.

Lemma header_cons c l : is_space c = true -> header_line l <-> header_line (c :: l).
Proof.
  intro Hc. split.
  - intros [H|(pre & rest & Hp & ->)]; [left; constructor; auto|].
    right. exists (c :: pre), rest. split; [constructor; auto | reflexivity].
  - intros [H|(pre & rest & Hp & E)]; [left; inversion H; auto|].
    destruct pre as [|p pre]; simpl in E; inversion E; subst.
    + discriminate.
    + right. exists pre, rest. inversion Hp; auto.
Qed.
Lemma announces_cons c l m : is_space c = true -> announces l m <-> announces (c :: l) m.
Proof.
  intro Hc. split.
  - intros (pre & rest & Hp & -> & H). exists (c :: pre), rest. split; [constructor; auto|]. split; [reflexivity | exact H].
  - intros (pre & rest & Hp & E & H). destruct pre as [|p pre].
    + rewrite version_prefix_eq in E. simpl in E. inversion E; subst. discriminate.
    + simpl in E. inversion E; subst. inversion Hp; subst. exists pre, rest. auto.
Qed.
Lemma version_line_cons c l : is_space c = true -> version_line l <-> version_line (c :: l).
Proof.
  intro Hc. unfold version_line. split; intros (m & e & H & U); exists m, e; (split; [apply (announces_cons c l m Hc); exact H | exact U]).
Qed.

(** The first line decides, or is skipped. *)
Lemma reads_cons l ls e :
  reads (l :: ls) e <->
  (exists minor, announces l minor /\ universal minor e) \/ (header_line l /\ ~ version_line l /\ reads ls e).
Proof.
  split.
  - intros ([|b before] & l' & after & minor & E & Hf & Ha & U); simpl in E; inversion E; subst.
    + left. eauto.
    + right. inversion Hf as [|? ? [Hh Hv] Hf']; subst. split; [exact Hh|]. split; [exact Hv|].
      exists before, l', after, minor. auto.
  - intros [(minor & Ha & U)|(Hh & Hv & before & l' & after & minor & -> & Hf & Ha & U)].
    + exists [], l, ls, minor. auto.
    + exists (l :: before), l', after, minor. split; [reflexivity|]. split; [constructor; auto | auto].
Qed.
Lemma reads_blank_char c l ls e : is_space c = true -> reads ((c :: l) :: ls) e <-> reads (l :: ls) e.
Proof.
  intro Hc. rewrite !reads_cons. rewrite <- (header_cons c l Hc), <- (version_line_cons c l Hc).
  split; (intros [(m & Ha & U)|H]; [left; exists m; split; [apply (announces_cons c l m Hc); exact Ha | exact U] | right; exact H]).
Qed.
Lemma reads_blank_line ls e : reads ([] :: ls) e <-> reads ls e.
Proof.
  rewrite reads_cons. split.
  - intros [(m & (pre & rest & _ & E & _) & _)|(_ & _ & H)]; [|exact H].
    exfalso. destruct pre; [rewrite version_prefix_eq in E|]; discriminate.
  - intro H. right. split; [left; constructor|]. split; [|exact H].
    intros (m & e' & (pre & rest & _ & E & _) & _). destruct pre; [rewrite version_prefix_eq in E|]; discriminate.
Qed.
Lemma no_reads_nil e : ~ reads [] e.
Proof. intros ([|? ?] & ? & ? & ? & E & _); discriminate. Qed.
Lemma universal_fun m e e' : universal m e -> universal m e' -> e = e'.
Proof. unfold universal. destruct m as [|[[[]|[]|]|[[]|[]|]|]]; intros; congruence || contradiction. Qed.

Lemma announces_semi l m : announces (59 :: l) m <->
  exists rest, l = version_tail ++ [48 + m] ++ rest /\ m <= 9 /\ match rest with c :: _ => is_digit c = false | [] => True end.
Proof.
  split.
  - intros (pre & rest & Hp & E & H). destruct pre as [|p pre].
    + rewrite version_prefix_eq in E. simpl in E. injection E as E. exists rest. split; [exact E | exact H].
    + simpl in E. inversion E; subst. inversion Hp; subst. discriminate.
  - intros (rest & -> & H). exists [], rest. split; [constructor|]. split; [reflexivity | exact H].
Qed.
Lemma nth_error_universal m e : m <= 9 ->
  nth_error ordered_universal_envs (N.to_nat m) = Some e <-> universal m e.
Proof.
  intro Hm.
  assert (H : m = 0 \/ m = 1 \/ m = 2 \/ m = 3 \/ m = 4 \/ m = 5 \/ m = 6 \/ m = 7 \/ m = 8 \/ m = 9) by lia.
  destruct H as [-> |[-> |[-> |[-> |[-> |[-> |[-> |[-> |[-> | ->]]]]]]]]];
    cbv; split; congruence || tauto || discriminate.
Qed.

Lemma nth_tail_digit rest c : nth 13 (59 :: version_tail ++ c :: rest) 0 = c.
Proof. reflexivity. Qed.
Lemma nth_tail_next rest c : nth 14 (59 :: version_tail ++ c :: rest) 0 = hd 0 rest.
Proof. destruct rest; reflexivity. Qed.

Lemma hd_lines s : match hd [] (lines_of s) with [] => True | c :: _ => exists r, s = c :: r /\ c <> 10 end.
Proof.
  destruct s as [|c s]; [exact I|]. destruct (lines_of_cons s) as (l & ls & E). simpl. rewrite E.
  destruct (N.eqb_spec c 10); simpl; [exact I | eauto].
Qed.

Lemma read_environment_spec : forall fuel s e, (length s < fuel)%nat ->
  read_environment fuel s = Some e <-> reads (lines_of s) e.
Proof.
  induction fuel as [|fuel IH]; intros s e Hf; [lia|]. cbn [read_environment].
  destruct s as [|c s].
  { split; [discriminate|]. intro H. cbn [lines_of] in H. destruct (no_reads_nil e). apply (proj1 (reads_blank_line [] e)). exact H. }
  destruct (N.eqb_spec c 59) as [->|Hc].
  2:{ destruct (is_space c) eqn:Es.
      - rewrite IH by (simpl in Hf; lia). destruct (N.eqb_spec c 10) as [->|Hn].
        + rewrite lines_of_nl, reads_blank_line. reflexivity.
        + destruct (lines_of_cons s) as (l & ls & E). rewrite (lines_of_cons_other c s Hn l ls E), E.
          rewrite reads_blank_char by exact Es. reflexivity.
      - split; [discriminate|]. intro H. exfalso. assert (Hn : c <> 10) by (intros ->; discriminate).
        destruct (lines_of_cons s) as (l & ls & E). rewrite (lines_of_cons_other c s Hn l ls E) in H.
        apply reads_cons in H. destruct H as [(m & (pre & rest & Hp & E' & _) & _)|([Hb|(pre & rest & Hp & E')] & _)].
        + destruct pre as [|p pre]; [rewrite version_prefix_eq in E'|]; simpl in E'; inversion E'; subst; [congruence|].
          inversion Hp; congruence.
        + inversion Hb; congruence.
        + destruct pre as [|p pre]; simpl in E'; inversion E'; subst; [congruence|]. inversion Hp; congruence. }
  (* a comment *)
  destruct (lines_of_cons s) as (l & ls & E).
  assert (El : lines_of (59 :: s) = (59 :: l) :: ls) by (apply lines_of_cons_other; [discriminate | exact E]).
  rewrite El.
  assert (Hhead : header_line (59 :: l)) by (right; exists [], l; split; [constructor | reflexivity]).
  destruct (Nat.leb_spec (length (59 :: s)) 13) as [Hlen|Hlen].
  - (* too short to announce anything, here or later *)
    split; [discriminate|]. intros (before & a & after & m & Hl & _ & Ha & _). exfalso.
    assert (Hbig : (14 <= length a)%nat).
    { destruct Ha as (pre & rest & _ & -> & _). rewrite version_prefix_eq. rewrite !app_length. cbn [length].
      rewrite tail_length. lia. }
    assert (Hsum : forall x a, In a (lines_of x) -> (length a <= length x)%nat).
    { clear. induction x as [|c x IHx]; intros a; simpl; [intros [<-|[]]; simpl; lia|].
      destruct (lines_of x) as [|l0 ls0]; [intros []|]. destruct (c =? 10).
      - intros [<-|H]; [simpl; lia|]. specialize (IHx a H). lia.
      - intros [<-|H]; [specialize (IHx l0 (or_introl eq_refl)); simpl; lia | specialize (IHx a (or_intror H)); lia]. }
    specialize (Hsum (59 :: s) a). rewrite El, Hl in Hsum. specialize (Hsum (in_elt _ _ _)). lia.
  - set (tail := tl version_prefix). change tail with version_tail. clear tail.
    set (j := S (matching version_tail s)). cbn zeta.
    (* skipping the rest of the line *)
    assert (Hskip : tl (lines_of (skipn j (59 :: s))) = ls).
    { unfold j. cbn [skipn].
      assert (Hs : s = firstn (matching version_tail s) s ++ skipn (matching version_tail s) s) by (symmetry; apply firstn_skipn).
      assert (Hno : Forall (fun c => c <> 10) (firstn (matching version_tail s) s)).
      { rewrite matching_firstn. apply Forall_forall. intros x Hx. pose proof tail_no_nl as T. rewrite Forall_forall in T.
        apply T. rewrite <- (firstn_skipn (matching version_tail s) version_tail). apply in_or_app. left. exact Hx. }
      rewrite Hs, (lines_app_no_nl _ _ Hno) in E. inversion E. reflexivity. }
    assert (Hrest : read_environment fuel (tl (skip_line (skipn j (59 :: s)))) = Some e <-> reads ls e).
    { rewrite IH.
      2:{ pose proof (skip_line_length (skipn j (59 :: s))) as L1.
          assert (L2 : (length (skipn j (59%N :: s)) <= length s)%nat) by (unfold j; cbn [skipn]; rewrite skipn_length; lia).
          destruct (skip_line (skipn j (59 :: s))); simpl in *; lia. }
      rewrite <- Hskip, skip_line_lines. destruct (skip_line (skipn j (59 :: s))) as [|d r]; [|reflexivity].
      cbn [tl lines_of]. rewrite reads_blank_line. reflexivity. }
    destruct (Nat.eqb_spec j 13) as [Hj|Hj].
    + unfold j in Hj. injection Hj as Hj. destruct (matching_spec version_tail s) as [s2 Es]; [rewrite tail_length; exact Hj|].
      destruct s2 as [|d s3].
      { exfalso. rewrite Es, app_nil_r in Hlen. cbn [length] in Hlen. rewrite tail_length in Hlen. lia. }
      replace (nth 13 (59 :: s) 0) with d by (rewrite Es; reflexivity).
      replace (nth 14 (59 :: s) 0) with (hd 0 s3) by (rewrite Es; symmetry; apply nth_tail_next).
      assert (Hnext : (if (14 <? length (59%N :: s))%nat then hd 0 s3 else 0) = hd 0 s3).
      { rewrite Es. cbn [length]. rewrite app_length, tail_length. cbn [length]. destruct s3; [reflexivity|].
        cbn [length]. replace (14 <? _)%nat with true by (symmetry; apply Nat.ltb_lt; lia). reflexivity. }
      rewrite Hnext. clear Hnext.
      (* the line *)
      assert (Hl : l = version_tail ++ hd [] (lines_of (d :: s3))).
      { rewrite Es, (lines_app_no_nl _ _ tail_no_nl) in E. inversion E. reflexivity. }
      assert (Hann : forall m, announces (59 :: l) m <-> d = 48 + m /\ m <= 9 /\ is_digit (hd 0 s3) = false).
      { intro m. rewrite announces_semi, Hl. split.
        - intros (rest & Eq & Hm & Hr). apply app_inv_head in Eq. simpl in Eq.
          destruct (lines_of_cons s3) as (l3 & ls3 & E3). rewrite E3 in Eq.
          destruct (N.eqb_spec d 10) as [->|Hd]; simpl in Eq; [discriminate|]. inversion Eq; subst. split; [reflexivity|].
          split; [exact Hm|]. pose proof (hd_lines s3) as Hh. rewrite E3 in Hh. simpl in Hh. destruct rest as [|c rest].
          + destruct s3 as [|c3 s3]; [reflexivity|]. simpl. simpl in E3. destruct (lines_of_cons s3) as (l4 & ls4 & E4).
            rewrite E4 in E3. destruct (N.eqb_spec c3 10) as [->|]; [reflexivity | discriminate].
          + destruct Hh as (r & -> & _). exact Hr.
        - intros (Hd & Hm & Hr). exists (hd [] (lines_of s3)). split; [|split; [exact Hm|]].
          + f_equal. simpl. destruct (lines_of_cons s3) as (l3 & ls3 & E3). rewrite E3.
            destruct (N.eqb_spec d 10) as [->|]; [lia|]. simpl. rewrite Hd. reflexivity.
          + pose proof (hd_lines s3) as Hh. destruct (hd [] (lines_of s3)) as [|c r]; [exact I|].
            destruct Hh as (r' & -> & _). exact Hr. }
      destruct (is_digit d) eqn:Ed; cbn [andb].
      * apply digit_iff in Ed as (m & -> & Hm). replace (48 + m - 48) with m by lia.
        destruct (is_digit (hd 0 s3)) eqn:En; cbn [negb].
        -- rewrite Hrest, reads_cons. split; [intro H; right; split; [exact Hhead|]; split; [|exact H] |].
           ++ intros (m' & e' & Ha & _). apply Hann in Ha. destruct Ha as (_ & _ & Ha). congruence.
           ++ intros [(m' & Ha & _)|(_ & _ & H)]; [|exact H]. apply Hann in Ha. destruct Ha as (_ & _ & Ha). congruence.
        -- destruct (nth_error ordered_universal_envs (N.to_nat m)) as [e'|] eqn:En'.
           ++ apply (nth_error_universal m e' Hm) in En'. rewrite reads_cons. split.
              ** intro H. inversion H; subst. left. exists m. split; [apply Hann; auto | exact En'].
              ** intros [(m' & Ha & U)|(_ & Hv & _)].
                 --- apply Hann in Ha. destruct Ha as (Heq & _). assert (m' = m) by lia. subst.
                     f_equal. eapply universal_fun; eauto.
                 --- exfalso. apply Hv. exists m, e'. split; [apply Hann; auto | exact En'].
           ++ rewrite Hrest, reads_cons.
              assert (Hno : forall e', ~ universal m e').
              { intros e' U. apply (nth_error_universal m e' Hm) in U. congruence. }
              split.
              ** intro H; right; split; [exact Hhead|]; split; [|exact H]. intros (m' & e' & Ha & U).
                 apply Hann in Ha. destruct Ha as (Heq & _). assert (m' = m) by lia. subst. apply (Hno _ U).
              ** intros [(m' & Ha & U)|(_ & _ & H)]; [|exact H]. apply Hann in Ha. destruct Ha as (Heq & _).
                 assert (m' = m) by lia. subst. destruct (Hno _ U).
      * assert (Hno : forall m, ~ announces (59 :: l) m).
        { intros m Ha. apply Hann in Ha. destruct Ha as (Heq & Hm & _). assert (is_digit d = true) by (apply digit_iff; eauto). congruence. }
        rewrite Hrest, reads_cons. split.
        -- intro H; right; split; [exact Hhead|]; split; [|exact H]. intros (m' & e' & Ha & U). apply (Hno _ Ha).
        -- intros [(m' & Ha & U)|(_ & _ & H)]; [|exact H]. destruct (Hno _ Ha).
    + assert (Hno : forall m, ~ announces (59 :: l) m).
      { intros m Ha. apply announces_semi in Ha as (rest & Eq & _). apply Hj. unfold j. f_equal.
        change 12%nat with (length version_tail). pose proof (lines_app_no_nl version_tail) as T.
        assert (exists r, s = version_tail ++ r) as [r ->].
        { clear -E Eq. assert (G : forall p x l ls, lines_of x = (p ++ l) :: ls -> exists r, x = p ++ r).
          { induction p as [|y p IHp]; intros x l0 ls0 H; [exists x; reflexivity|].
            destruct x as [|c x]; [simpl in H; inversion H|]. simpl in H.
            destruct (lines_of_cons x) as (l1 & ls1 & E1). rewrite E1 in H. destruct (c =? 10); [discriminate|].
            inversion H; subst. destruct (IHp x _ _ E1) as [r ->]. exists r. reflexivity. }
          apply (G version_tail s ([48 + m] ++ rest) ls). rewrite E, Eq. reflexivity. }
        apply matching_app. }
      rewrite Hrest, reads_cons. split.
      * intro H; right; split; [exact Hhead|]; split; [|exact H]. intros (m' & e' & Ha & U). apply (Hno _ Ha).
      * intros [(m' & Ha & U)|(_ & _ & H)]; [|exact H]. destruct (Hno _ Ha).
Qed.
