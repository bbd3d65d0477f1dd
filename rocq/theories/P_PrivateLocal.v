(** C61: moving private variables into functions. *)
From Verif Require Import Base PrivateLocal PrivateLocalSpec.
Local Open Scope N_scope.

Fixpoint valid_ok (u : use) : valid_use u = true <-> harmless u.
Proof.
  destruct u as [f k]. destruct k as [| | |l| | | |]; try (split; [intros _; constructor|reflexivity]); try (split; [discriminate|intros H; inversion H]).
  assert (A : forallb valid_use l = true <-> forall u, In u l -> harmless u).
  { induction l as [|u l IH]; [split; [intros _ u []|reflexivity]|]. cbn [forallb]. rewrite andb_true_iff. pose proof (valid_ok u) as U. split; [intros [B C] v [<-|Hv]; [apply U, B|apply (proj1 IH C v Hv)]|intros H; split; [apply U, H; left; reflexivity|apply IH; intros v Hv; apply H; right; exact Hv]]. }
  cbn [valid_use]. rewrite A. split; [apply Ha_chain|intros H; inversion H; assumption].
Qed.
Lemma see_none l : snd (fold_left see l (true, None)) = None.
Proof. induction l as [|[[f|] k] l IH]; [reflexivity| |exact IH]. cbn [fold_left see]. destruct (negb (valid_use (Use (Some f) k))); cbn [negb fst snd]; exact IH. Qed.
Lemma see_some f : forall l, snd (fold_left see l (true, Some f)) = Some f <-> forall u g, In u l -> where_ u = Some g -> g = f /\ harmless u.
Proof.
  induction l as [|[[h|] k] l IH]; [split; [intros _ u g []|reflexivity]| |].
  - cbn [fold_left see]. destruct (valid_use (Use (Some h) k)) eqn:E; cbn [negb fst snd].
    + destruct (f =? h) eqn:B.
      * apply N.eqb_eq in B. subst h. rewrite IH. split; [intros H u g [<-|Hu] W; [injection W as <-; split; [reflexivity|apply valid_ok, E]|exact (H u g Hu W)]|intros H u g Hu; apply H; right; exact Hu].
      * rewrite see_none. apply N.eqb_neq in B. split; [discriminate|]. intros H. destruct (H _ h (or_introl eq_refl) eq_refl). congruence.
    + rewrite see_none. split; [discriminate|]. intros H. destruct (H _ h (or_introl eq_refl) eq_refl) as [_ K]. apply valid_ok in K. congruence.
  - cbn [fold_left see]. rewrite IH. split; [intros H u g [<-|Hu] W; [discriminate|exact (H u g Hu W)]|intros H u g Hu; apply H; right; exact Hu].
Qed.
(** A variable is moved to a function exactly if instructions use it, all of them in that function, and only loads and stores in the end. *)
Theorem private_local_found : forall l f, find_local l = Some f <-> (exists u, In u l /\ where_ u = Some f) /\ forall u g, In u l -> where_ u = Some g -> g = f /\ harmless u.
Proof.
  unfold find_local. induction l as [|[[h|] k] l IH]; intros f.
  - split; [discriminate|intros [(u & [] & _) _]].
  - cbn [fold_left see]. destruct (valid_use (Use (Some h) k)) eqn:E; cbn [negb fst snd].
    + split.
      * intros H. assert (h = f) as ->.
        { clear - H. revert H. generalize h. induction l as [|[[g|] k'] l IH]; intros h' H; [injection H as ->; reflexivity| |exact (IH h' H)]. cbn [fold_left see] in H. destruct (negb (valid_use (Use (Some g) k'))); cbn [negb fst snd] in H; [rewrite see_none in H; discriminate|]. destruct (h' =? g); [exact (IH h' H)|rewrite see_none in H; discriminate]. }
        split; [exists (Use (Some f) k); split; [left; reflexivity|reflexivity]|]. intros u g [<-|Hu] W; [injection W as <-; split; [reflexivity|apply valid_ok, E]|exact (proj1 (see_some f l) H u g Hu W)].
      * intros [_ H]. destruct (H _ h (or_introl eq_refl) eq_refl) as [-> _]. apply see_some. intros u g Hu. apply H. right. exact Hu.
    + rewrite see_none. split; [discriminate|]. intros [_ H]. destruct (H _ h (or_introl eq_refl) eq_refl) as [_ K]. apply valid_ok in K. congruence.
  - cbn [fold_left see]. rewrite IH. split.
    + intros [(u & Hu & W) H]. split; [exists u; split; [right; exact Hu|exact W]|]. intros v g [<-|Hv] Wv; [discriminate|exact (H v g Hv Wv)].
    + intros [(u & [<-|Hu] & W) H]; [discriminate|]. split; [eauto|]. intros v g Hv. apply H. right. exact Hv.
Qed.
(** From version 1.4 on interfaces lose the variables that are moved, and nothing else; before, they list none of them. *)
Theorem private_local_interface : forall v14 moved a b c l, (v14 = false -> forall x, In x l -> moved x = false) -> exists k, new_entry v14 moved (a :: b :: c :: l) = a :: b :: c :: k /\ k = filter (fun x => negb (moved x)) l.
Proof.
  intros v14 moved a b c l H. unfold new_entry. destruct v14; [exists (filter (fun x => negb (moved x)) l); split; reflexivity|]. exists l. split; [reflexivity|]. specialize (H eq_refl). induction l as [|x l IH]; [reflexivity|]. cbn [filter]. rewrite (H x (or_introl eq_refl)). cbn [negb]. f_equal. apply IH. intros y Hy. apply H. right. exact Hy.
Qed.

Section Runs.
Variable prog : N -> code.
Variable init : N -> option N.
Variable local : N -> bool.
Variable e : N.
(** only the function of the entry point mentions what is moved, and it is not called *)
Hypothesis Only : forall x f, local x = true -> mentions x (prog f) -> f = e.
Hypothesis NotCalled : forall f, ~ calls e (prog f).
Notation old := (private_run prog).
Notation new := (local_run prog init local).
Definition agree (m n : N -> N) : Prop := forall y, local y = false -> n y = m y.
Definition same (m c : N -> N) : Prop := forall y, local y = true -> c y = m y.
Definition clean (c : code) : Prop := forall x, local x = true -> ~ mentions x c.
Lemma set_eq m x v : set m x v x = v.
Proof using. unfold set. destruct (N.eq_dec x x); congruence. Qed.
Lemma set_ne m x v y : y <> x -> set m x v y = m y.
Proof using. unfold set. destruct (N.eq_dec y x); congruence. Qed.
Lemma clean_other f : f <> e -> clean (prog f).
Proof using Only. intros H x Lx M. apply H. exact (Only x f Lx M). Qed.
Lemma new_clean k c m c' m' t : new k c m c' m' t -> clean k -> c' = c /\ forall b, new k b m b m' t.
Proof using.
  intros R. induction R as [c m|x k c m c' m' t R IH|x v k c m c' m' t Lx R IH|x v k c m c' m' t Lx R IH|v k c m c' m' t R IH|f k c m fresh c1 m1 c2 m2 t u If R1 _ R2 IH]; intros C.
  - split; [reflexivity|]. intros b. constructor.
  - assert (Lx : local x = false) by (destruct (local x) eqn:L; [destruct (C x L); constructor|reflexivity]). rewrite Lx in IH. destruct IH as [E B]; [intros y Ly M; apply (C y Ly); econstructor; exact M|]. split; [exact E|]. intros b. constructor. rewrite Lx. apply B.
  - destruct (C x Lx). constructor.
  - destruct IH as [E B]; [intros y Ly M; apply (C y Ly); constructor; exact M|]. split; [exact E|]. intros b. apply L_write; [exact Lx|apply B].
  - destruct IH as [E B]; [intros y Ly M; apply (C y Ly); constructor; exact M|]. split; [exact E|]. intros b. constructor. apply B.
  - destruct IH as [E B]; [intros y Ly M; apply (C y Ly); constructor; exact M|]. split; [exact E|]. intros b. econstructor; [exact If|exact R1|apply B].
Qed.
Lemma old_new k m m' t : old k m m' t -> ~ calls e k -> forall c n, same m c -> agree m n -> exists c' n', new k c n c' n' t /\ same m' c' /\ agree m' n'.
Proof using Only NotCalled.
  intros R. induction R as [m|x k m m' t R IH|x v k m m' t R IH|v k m m' t R IH|f k m m1 m2 t u R1 IH1 R2 IH2]; intros NC c n S A.
  - exists c, n. split; [constructor|]. split; assumption.
  - destruct (IH (fun K => NC (Ca_read e x k (m x) K)) c n S A) as (c' & n' & Rn & S' & A'). exists c', n'. split; [|split; assumption]. constructor. replace (if local x then c x else n x) with (m x); [exact Rn|]. destruct (local x) eqn:L; symmetry; [apply S|apply A]; exact L.
  - assert (NC' : ~ calls e k) by (intros K; apply NC; constructor; exact K). destruct (local x) eqn:L.
    + destruct (IH NC' (set c x v) n) as (c' & n' & Rn & S' & A').
      * intros y Ly. destruct (N.eq_dec y x) as [->|Ny]; [rewrite !set_eq; reflexivity|rewrite !set_ne by exact Ny; apply S, Ly].
      * intros y Ly. rewrite set_ne by congruence. apply A, Ly.
      * exists c', n'. split; [apply L_write_local; assumption|split; assumption].
    + destruct (IH NC' c (set n x v)) as (c' & n' & Rn & S' & A').
      * intros y Ly. rewrite set_ne by congruence. apply S, Ly.
      * intros y Ly. destruct (N.eq_dec y x) as [->|Ny]; [rewrite !set_eq; reflexivity|rewrite !set_ne by exact Ny; apply A, Ly].
      * exists c', n'. split; [apply L_write; assumption|split; assumption].
  - destruct (IH (fun K => NC (Ca_out e v k K)) c n S A) as (c' & n' & Rn & S' & A'). exists c', n'. split; [constructor; exact Rn|split; assumption].
  - assert (Ne : f <> e) by (intros ->; apply NC; constructor). destruct (IH1 (NotCalled f) c n S A) as (c1 & n1 & Rn1 & S1 & A1). destruct (new_clean _ _ _ _ _ _ Rn1 (clean_other f Ne)) as [E B]. subst c1.
    destruct (IH2 (fun K => NC (Ca_call' e f k K)) c n1 S1 A1) as (c2 & n2 & Rn2 & S2 & A2). exists c2, n2. split; [|split; assumption].
    eapply (L_call prog init local f k c n (fun x => match init x with Some w => w | None => 0 end)); [intros x w E; rewrite E; reflexivity|apply B|exact Rn2].
Qed.
Lemma new_old k c n c' n' t : new k c n c' n' t -> ~ calls e k -> forall m, agree m n -> (same m c \/ clean k) -> exists m', old k m m' t /\ agree m' n' /\ (same m c -> same m' c') /\ (clean k -> forall y, local y = true -> m' y = m y).
Proof using Only NotCalled.
  intros R. induction R as [c n|x k c n c' n' t R IH|x v k c n c' n' t Lx R IH|x v k c n c' n' t Lx R IH|v k c n c' n' t R IH|f k c n fresh c1 n1 c2 n2 t u If R1 IH1 R2 IH2]; intros NC m A SC.
  - exists m. split; [constructor|]. split; [exact A|]. split; auto.
  - assert (Ex : (if local x then c x else n x) = m x). { destruct (local x) eqn:L; [|apply A, L]. destruct SC as [S|C]; [apply S, L|destruct (C x L); constructor]. } rewrite Ex in *.
    destruct (IH (fun K => NC (Ca_read e x k (m x) K)) m A) as (m' & Ro & A' & S' & C'); [destruct SC as [S|C]; [auto|right; intros y Ly M; apply (C y Ly); econstructor; exact M]|]. exists m'. split; [constructor; exact Ro|]. split; [exact A'|]. split; [exact S'|]. intros C. apply C'. intros y Ly M. apply (C y Ly). econstructor. exact M.
  - destruct SC as [S|C]; [|destruct (C x Lx); constructor]. destruct (IH (fun K => NC (Ca_write e x v k K)) (set m x v)) as (m' & Ro & A' & S' & C').
    + intros y Ly. rewrite set_ne by congruence. apply A, Ly.
    + left. intros y Ly. destruct (N.eq_dec y x) as [->|Ny]; [rewrite !set_eq; reflexivity|rewrite !set_ne by exact Ny; apply S, Ly].
    + exists m'. split; [constructor; exact Ro|]. split; [exact A'|]. split; [|intros C; destruct (C x Lx); constructor]. intros _. apply S'. intros y Ly. destruct (N.eq_dec y x) as [->|Ny]; [rewrite !set_eq; reflexivity|rewrite !set_ne by exact Ny; apply S, Ly].
  - assert (K : forall y, local y = true -> set m x v y = m y) by (intros y Ly; apply set_ne; congruence). destruct (IH (fun K => NC (Ca_write e x v k K)) (set m x v)) as (m' & Ro & A' & S' & C').
    + intros y Ly. destruct (N.eq_dec y x) as [->|Ny]; [rewrite !set_eq; reflexivity|rewrite !set_ne by exact Ny; apply A, Ly].
    + destruct SC as [S|C]; [left; intros y Ly; rewrite K by exact Ly; apply S, Ly|right; intros y Ly M; apply (C y Ly); constructor; exact M].
    + exists m'. split; [constructor; exact Ro|]. split; [exact A'|]. split; [intros S; apply S'; intros y Ly; rewrite K by exact Ly; apply S, Ly|]. intros C y Ly. rewrite C'; [apply K, Ly|intros z Lz M; apply (C z Lz); constructor; exact M|exact Ly].
  - destruct (IH (fun K => NC (Ca_out e v k K)) m A) as (m' & Ro & A' & S' & C'); [destruct SC as [S|C]; [auto|right; intros y Ly M; apply (C y Ly); constructor; exact M]|]. exists m'. split; [constructor; exact Ro|]. split; [exact A'|]. split; [exact S'|]. intros C. apply C'. intros y Ly M. apply (C y Ly). constructor. exact M.
  - assert (Ne : f <> e) by (intros ->; apply NC; constructor). pose proof (clean_other f Ne) as Cf. destruct (IH1 (NotCalled f) m A (or_intror Cf)) as (m1 & Ro1 & A1 & _ & C1). specialize (C1 Cf).
    destruct (IH2 (fun K => NC (Ca_call' e f k K)) m1 A1) as (m2 & Ro2 & A2 & S2 & C2); [destruct SC as [S|C]; [left; intros y Ly; rewrite C1 by exact Ly; apply S, Ly|right; intros y Ly M; apply (C y Ly); constructor; exact M]|].
    exists m2. split; [econstructor; eassumption|]. split; [exact A2|]. split; [intros S; apply S2; intros y Ly; rewrite C1 by exact Ly; apply S, Ly|]. intros C y Ly. rewrite C2; [apply C1, Ly|intros z Lz M; apply (C z Lz); constructor; exact M|exact Ly].
Qed.
End Runs.
(** Moving variables to the function of the entry point, which alone mentions them, does not change what may be output.  Partial: the function is not called by others; see below. *)
Theorem private_local_outputs_partial : forall prog init local e, (forall x f, local x = true -> mentions x (prog f) -> f = e) -> (forall f, ~ calls e (prog f)) ->
  forall t, private_outputs prog init e t <-> local_outputs prog init local e t.
Proof.
  intros prog init local e O NC t. split.
  - intros (m & m' & I & R). destruct (old_new prog init local e O NC _ _ _ _ R (NC e) m m) as (c' & n' & Rn & _); [intros y _; reflexivity|intros y _; reflexivity|]. exists m, m, c', n'. auto.
  - intros (c & n & c' & n' & Ic & In_ & R). destruct (new_old prog init local e O NC _ _ _ _ _ _ R (NC e) (fun y => if local y then c y else n y)) as (m' & Ro & _).
    + intros y Ly. rewrite Ly. reflexivity.
    + left. intros y Ly. rewrite Ly. reflexivity.
    + exists (fun y => if local y then c y else n y), m'. split; [|exact Ro]. intros x v E. destruct (local x); [exact (Ic x v E)|exact (In_ x v E)].
Qed.
(** A function that is called twice keeps a private variable from call to call, but not a local one: the pass, which does not look at calls, changes the output. *)
Definition ex_prog (f : N) : code := if f =? 1 then Call 2 (Call 2 Ret) else if f =? 2 then Read 9 (fun v => Out v (Write 9 (v + 1) Ret)) else Ret.
Definition ex_init (x : N) : option N := if x =? 9 then Some 0 else None.
Definition ex_uses : list use := [Use None Name; Use (Some 2) Load; Use (Some 2) (Chain [Use (Some 2) Load; Use (Some 2) StoreTo]); Use (Some 2) StoreTo].
Theorem private_local_outputs_refuted : ~ forall prog init local e g, (forall x, local x = true -> exists l, find_local l = Some g) -> (forall x f, local x = true -> mentions x (prog f) -> f = g) ->
  forall t, local_outputs prog init local e t -> private_outputs prog init e t.
Proof.
  intros H. assert (O : private_outputs ex_prog ex_init 1 [0; 0]).
  { refine (H ex_prog ex_init (fun x => x =? 9) 1 2 _ _ [0; 0] _).
    - intros x _. exists ex_uses. reflexivity.
    - intros x f Lx M. apply N.eqb_eq in Lx. subst x. unfold ex_prog in M. destruct (f =? 1) eqn:E1; [inversion M as [| | | |? ? M'|]; subst; inversion M' as [| | | |? ? M''|]; subst; inversion M''|]. destruct (f =? 2) eqn:E2; [apply N.eqb_eq, E2|inversion M].
    - exists (fun _ => 0), (fun _ => 0), (fun _ => 0), (fun _ => 0). assert (I : initial ex_init (fun _ => 0)) by (intros x v E; unfold ex_init in E; destruct (x =? 9); congruence). split; [exact I|]. split; [exact I|].
      assert (R : local_run ex_prog ex_init (fun x => x =? 9) (ex_prog 2) (fun _ => 0) (fun _ => 0) (set (fun _ => 0) 9 1) (fun _ => 0) [0]) by (cbn; apply L_read; cbn; apply L_out, L_write_local; [reflexivity|apply L_ret]).
      change [0; 0] with ([0] ++ ([0] ++ [])). change (ex_prog 1) with (Call 2 (Call 2 Ret)). eapply L_call; [exact I|exact R|]. eapply L_call; [exact I|exact R|]. constructor. }
  destruct O as (m & m' & I & R). assert (Z : m 9 = 0) by (apply I; reflexivity). change (ex_prog 1) with (Call 2 (Call 2 Ret)) in R.
  assert (S : forall a b t, private_run ex_prog (ex_prog 2) a b t -> t = [a 9] /\ b 9 = a 9 + 1).
  { intros a b t Q. cbn in Q. inversion Q as [|? ? ? ? ? Q1| | |]; subst. inversion Q1 as [| | |? ? ? ? ? Q2|]; subst. inversion Q2 as [| |? ? ? ? ? ? Q3| |]; subst. inversion Q3; subst. split; reflexivity. }
  inversion R as [| | | |? ? ? m1 ? t1 u1 R1 R2 E1 E2 E3 E4]; subst. inversion R2 as [| | | |? ? ? m2 ? t2 u2 R3 R4 F1 F2 F3 F4]; subst. inversion R4; subst. destruct (S _ _ _ R1) as [-> K1]. destruct (S _ _ _ R3) as [-> K2]. rewrite K1, Z in E4. discriminate.
Qed.

(** ** Examples *)
Example ex_found : find_local ex_uses = Some 2 /\ find_local [Use (Some 1) Load; Use (Some 2) Load] = None /\ find_local [Use (Some 1) Load; Use (Some 1) (Chain [Use (Some 1) Other])] = None /\ find_local [Use None Decoration] = None.
Proof. repeat split; reflexivity. Qed.
Example ex_entry : new_entry true (fun x => x =? 9) [4; 1; 1852399981; 8; 9; 10] = [4; 1; 1852399981; 8; 10].
Proof. reflexivity. Qed.
(** the entry point itself counts in the variable, and calls a function that does not mention it *)
Definition ex_good (f : N) : code := if f =? 1 then Read 9 (fun v => Call 2 (Write 9 (v + 1) (Read 9 (fun w => Out w Ret)))) else if f =? 2 then Read 8 (fun v => Out v Ret) else Ret.
Example ex_good_ok : (forall x f, (x =? 9) = true -> mentions x (ex_good f) -> f = 1) /\ forall f, ~ calls 1 (ex_good f).
Proof.
  split.
  - intros x f Lx M. apply N.eqb_eq in Lx. subst x. unfold ex_good in M. destruct (f =? 1) eqn:E1; [apply N.eqb_eq, E1|]. destruct (f =? 2) eqn:E2; [|inversion M]. inversion M as [| |? ? ? M'| | |]; subst. inversion M' as [| | | | |? ? M'']; subst. inversion M''.
  - intros f C. unfold ex_good in C. destruct (f =? 1).
    + inversion C as [|? ? ? C1| | |]; subst. inversion C1 as [|  | |? ? C2|]; subst. inversion C2 as [| |? ? ? C3| |]; subst. inversion C3 as [|? ? ? C4| | |]; subst. inversion C4 as [| | | |? ? C5]; subst. inversion C5.
    + destruct (f =? 2); [|inversion C]. inversion C as [|? ? ? C1| | |]; subst. inversion C1 as [| | | |? ? C2]; subst. inversion C2.
Qed.
Example ex_good_out : private_outputs ex_good ex_init 1 [5; 1].
Proof.
  exists (fun x => if x =? 8 then 5 else 0). eexists. split; [intros x v E; unfold ex_init in E; destruct (x =? 9) eqn:B; [|discriminate]; apply N.eqb_eq in B; subst x; injection E as <-; reflexivity|].
  cbn. constructor. cbn. change [5; 1] with ([5] ++ [1]). eapply P_call; [cbn; constructor; cbn; constructor; constructor|]. constructor. constructor. cbn. constructor. constructor.
Qed.

Print Assumptions private_local_found.
Print Assumptions private_local_interface.
Print Assumptions private_local_outputs_partial.
Print Assumptions private_local_outputs_refuted.
