(** The call tree: proofs. *)
From Verif Require Import Base NamedIds NamedIdsProofs LocalElimProofs CallTree CallTreeSpec.
Local Open Scope N_scope.

Lemma load_calls l x : load_ok l -> add_calls_inst (mkinst LoadTensor (load_words l) x) = opt (l_decode l) ++ opt (l_vector l).
Proof.
  intros [H1 H2 H3 H4 H5 H6]. destruct l as [p o y mm a v w t tv d e]. cbn [l_pointer l_object l_layout l_memory l_aligned l_available l_visible l_tensor l_view l_decode l_vector] in *. unfold add_calls_inst, load_words, operand.
  cbn [op words l_pointer l_object l_layout l_memory l_aligned l_available l_visible l_tensor l_view l_decode l_vector nth app]. rewrite ?H1, ?H2, ?H3.
  destruct a, v, w; cbn [given opt app Nat.add nth bit]; rewrite ?H4, ?H5, ?H6; destruct tv, d, e; reflexivity.
Qed.
Lemma add_calls_inst_ok i g : inst_ok i -> In g (add_calls_inst i) <-> calls_inst g i.
Proof.
  intros O. split.
  - destruct O as [h l x|a h l x|a b h l x|l x H|l x]; [| | | |intros []].
    + intros [<-|[]]. constructor.
    + intros [<-|[]]. constructor.
    + intros [<-|[]]. constructor.
    + rewrite (load_calls l x H). intros G. apply in_app_or in G. destruct G as [G|G].
      * destruct (l_decode l) as [d|] eqn:E; [|destruct G]. destruct G as [<-|[]]. exact (Ca_decode _ l x H E).
      * destruct (l_vector l) as [d|] eqn:E; [|destruct G]. destruct G as [<-|[]]. exact (Ca_vector _ l x H E).
  - intros C. destruct C as [l x|a l x|a b l x|l x H E|l x H E]; [left; reflexivity|left; reflexivity|left; reflexivity| |]; rewrite (load_calls l x H); apply in_or_app; rewrite E; cbn; auto.
Qed.

Section Module.
Variable m : module.
Hypothesis V : valid m.
Notation known := (map f_id (m_funcs m)).
Lemma same_func l f h : NoDup (map f_id l) -> In f l -> In h l -> f_id f = f_id h -> f = h.
Proof using.
  induction l as [|k l IH]; intros D Hf Hh E; [destruct Hf|]. cbn [map] in D. apply NoDup_cons_iff in D. destruct D as [Nk D]. destruct Hf as [->|Hf], Hh as [->|Hh]; [reflexivity| | |auto].
  - destruct Nk. rewrite E. apply in_map, Hh.
  - destruct Nk. rewrite <- E. apply in_map, Hf.
Qed.
Lemma get_ok x f : get_function m x = Some f <-> In f (m_funcs m) /\ f_id f = x.
Proof using V.
  unfold get_function. split.
  - intros H. apply find_some in H. rewrite N.eqb_eq in H. exact H.
  - intros [Hf E]. destruct (find (fun f0 => f_id f0 =? x) (m_funcs m)) as [h|] eqn:F.
    + apply find_some in F. destruct F as [Hh Eh]. apply N.eqb_eq in Eh. f_equal. apply (same_func (m_funcs m)); [exact (va_ids _ V)|exact Hh|exact Hf|congruence].
    + pose proof (find_none _ _ F f Hf) as K. cbn in K. rewrite E, N.eqb_refl in K. discriminate.
Qed.
Lemma get_known x : In x known -> exists f, get_function m x = Some f.
Proof using V. intros H. apply in_map_iff in H. destruct H as (f & E & Hf). exists f. apply get_ok. auto. Qed.
Lemma add_calls_ok f g : In f (m_funcs m) -> In g (add_calls f) <-> exists i, In i (f_insts f) /\ calls_inst g i.
Proof using V.
  intros Hf. unfold add_calls. rewrite in_flat_map. split; intros (i & Hi & H); exists i; (split; [exact Hi|]); apply (add_calls_inst_ok i g (va_insts _ V f i Hf Hi)); exact H.
Qed.
Lemma add_calls_known f : In f (m_funcs m) -> incl (add_calls f) known.
Proof using V. intros Hf g Hg. apply (add_calls_ok f g Hf) in Hg. destruct Hg as (i & Hi & C). exact (va_calls _ V f i g Hf Hi C). Qed.
Definition rest (l : list func) (done : list N) : nat := fold_right (fun f n => ((if mem (f_id f) done then 0 else length (add_calls f)) + n)%nat) O l.
Lemma rest_ext x done l : (forall f, In f l -> f_id f <> x) -> rest l (x :: done) = rest l done.
Proof using.
  induction l as [|f l IH]; intros H; [reflexivity|]. cbn [rest fold_right]. unfold rest in IH. rewrite IH by (intros h Hh; apply H; right; exact Hh). specialize (H f (or_introl eq_refl)).
  replace (mem (f_id f) (x :: done)) with (mem (f_id f) done); [reflexivity|]. apply eq_true_iff_eq. rewrite !mem_In. cbn [In]. intuition congruence.
Qed.
Lemma rest_step f done : forall l, NoDup (map f_id l) -> In f l -> ~ In (f_id f) done -> rest l done = (rest l (f_id f :: done) + length (add_calls f))%nat.
Proof using.
  induction l as [|h l IH]; intros D Hf Nf; [destruct Hf|]. cbn [map] in D. apply NoDup_cons_iff in D. destruct D as [Nh D]. cbn [rest fold_right]. destruct Hf as [->|Hf].
  - pose proof (rest_ext (f_id f) done l) as X. unfold rest in X. rewrite X by (intros k Hk E; apply Nh; rewrite <- E; apply in_map, Hk).
    replace (mem (f_id f) done) with false by (symmetry; destruct (mem (f_id f) done) eqn:M; [apply mem_In in M; contradiction|reflexivity]). replace (mem (f_id f) (f_id f :: done)) with true by (symmetry; apply mem_In; left; reflexivity). lia.
  - specialize (IH D Hf Nf). unfold rest in IH. rewrite IH. assert (Ne : f_id h <> f_id f) by (intros E; apply Nh; rewrite E; apply in_map, Hf).
    replace (mem (f_id h) (f_id f :: done)) with (mem (f_id h) done); [lia|]. apply eq_true_iff_eq. rewrite !mem_In. cbn [In]. intuition congruence.
Qed.
Lemma calls_step x f g h : get_function m x = Some f -> In g (add_calls f) -> calls m g h -> calls m x h.
Proof using V. intros E Hg C. apply get_ok in E. destruct E as [Hf E]. apply (add_calls_ok f g Hf) in Hg. destruct Hg as (i & Hi & Ci). exact (Ca_step m x f i g h Hf E Hi Ci C). Qed.
Lemma walk_ok : forall fuel todo done, incl todo known -> (length todo + rest (m_funcs m) done <= fuel)%nat ->
  exists d, walk m fuel todo done = Done d /\ incl done d /\ incl todo d /\ (NoDup done -> NoDup d) /\ (forall x, In x d -> In x done \/ exists r, In r todo /\ calls m r x) /\
    forall x f g, In x d -> ~ In x done -> get_function m x = Some f -> In g (add_calls f) -> In g d.
Proof using V.
  induction fuel as [|n IH]; intros todo done K L.
  - destruct todo as [|x todo]; [|cbn [length] in L; lia]. exists done. repeat split; auto; try (intros z []; fail); try apply incl_refl. intros; contradiction.
  - destruct todo as [|x todo]; [exists done; repeat split; auto; try (intros z []; fail); try apply incl_refl; intros; contradiction|]. assert (Kt : incl todo known) by (intros z Hz; apply K; right; exact Hz). cbn [walk length] in *. destruct (mem x done) eqn:M.
    + apply mem_In in M. destruct (IH todo done Kt) as (d & E & A & B & C & D & F); [lia|]. exists d. split; [exact E|]. split; [exact A|]. split; [intros z [<-|Hz]; [exact (A x M)|exact (B z Hz)]|]. split; [exact C|]. split; [|exact F].
      intros z Hz. destruct (D z Hz) as [G|(r & Hr & G)]; [auto|]. right. exists r. split; [right; exact Hr|exact G].
    + assert (Nx : ~ In x done) by (intros G; apply mem_In in G; congruence). destruct (get_known x (K x (or_introl eq_refl))) as (f & Ef). rewrite Ef. pose proof (proj1 (get_ok x f) Ef) as [Hf Ei].
      assert (R : rest (m_funcs m) done = (rest (m_funcs m) (x :: done) + length (add_calls f))%nat) by (rewrite <- Ei; apply rest_step; [exact (va_ids _ V)|exact Hf|rewrite Ei; exact Nx]).
      destruct (IH (todo ++ add_calls f) (x :: done)) as (d & E & A & B & C & D & F).
      * intros z Hz. apply in_app_or in Hz. destruct Hz as [Hz|Hz]; [exact (Kt z Hz)|exact (add_calls_known f Hf z Hz)].
      * rewrite app_length. lia.
      * exists d. split; [exact E|]. split; [intros z Hz; apply A; right; exact Hz|]. split; [intros z [<-|Hz]; [apply A; left; reflexivity|apply B, in_or_app; auto]|]. split; [intros Nd; apply C; constructor; assumption|]. split.
        -- intros z Hz. destruct (D z Hz) as [[<-|G]|(r & Hr & G)]; [right; exists x; split; [left; reflexivity|constructor]|auto|]. right. apply in_app_or in Hr. destruct Hr as [Hr|Hr]; [exists r; split; [right; exact Hr|exact G]|]. exists x. split; [left; reflexivity|]. exact (calls_step x f r z Ef Hr G).
        -- intros z h g Hz Nz Eh Hg. destruct (N.eq_dec z x) as [->|Nzx]; [|apply (F z h g Hz); [intros [G|G]; [congruence|contradiction]|exact Eh|exact Hg]]. assert (h = f) as -> by congruence. apply B, in_or_app. right. exact Hg.
Qed.
Lemma rest_all : rest (m_funcs m) [] = all_calls m.
Proof using. reflexivity. Qed.
Lemma process_ok rs : incl rs known -> exists d, process m rs = Done d /\ NoDup d /\ forall x, In x d <-> exists r, In r rs /\ calls m r x.
Proof using V.
  intros K. destruct (walk_ok (length rs + all_calls m) rs [] K) as (d & E & _ & B & C & D & F); [rewrite rest_all; lia|]. exists d. split; [exact E|]. split; [apply C; constructor|]. intros x. split.
  - intros Hx. destruct (D x Hx) as [[]|G]. exact G.
  - intros (r & Hr & G). apply B in Hr. induction G as [|f fn i g h Hfn Ef Hi Ci _ IH]; [exact Hr|]. apply IH. apply (F f fn g Hr); [intros []|apply get_ok; auto|]. apply (add_calls_ok fn g Hfn). eauto.
Qed.
(** ** The interface *)
Lemma in_interface_ok x : in_interface m x = true <-> listed m x.
Proof using.
  unfold in_interface, listed. destruct (m_var m x) as [c|]; [|split; [discriminate|intros (c & K & _); discriminate]]. rewrite andb_true_iff, negb_true_iff, N.eqb_neq, !orb_true_iff, !N.eqb_eq. split.
  - intros [A B]. exists c. tauto.
  - intros (c' & E & A & B). injection E as <-. tauto.
Qed.
Lemma use_ok : forall l used, (NoDup used -> NoDup (fold_left (use m) l used)) /\ forall x, In x (fold_left (use m) l used) <-> In x used \/ (In x l /\ listed m x).
Proof using.
  induction l as [|y l IH]; intros used; cbn [fold_left]; [split; [auto|intros x; split; [auto|intros [H|[[] _]]; exact H]]|]. destruct (IH (use m used y)) as [A B].
  assert (U : (NoDup used -> NoDup (use m used y)) /\ forall x, In x (use m used y) <-> In x used \/ (x = y /\ listed m x)).
  { unfold use. destruct (mem y used) eqn:M; [apply mem_In in M; split; [auto|]; intros x; split; [auto|intros [H|[-> _]]; assumption]|]. assert (Ny : ~ In y used) by (intros K; apply mem_In in K; congruence). destruct (in_interface m y) eqn:I.
    - apply in_interface_ok in I. split; [intros D; pose proof (Add_app y used []) as Q; rewrite app_nil_r in Q; apply (NoDup_Add Q); split; assumption|]. intros x. rewrite in_app_iff. cbn [In]. split; [intros [H|[<-|[]]]; auto|intros [H|[-> _]]; auto].
    - split; [auto|]. intros x. split; [auto|]. intros [H|[-> H]]; [exact H|]. apply in_interface_ok in H. congruence. }
  destruct U as [U1 U2]. split; [auto|]. intros x. rewrite B, U2. cbn [In]. split; [intros [[H|[-> H]]|[H1 H2]]; auto|intros [H|[[H1|H1] H2]]; auto].
Qed.
Lemma collect_ok : forall d used, (NoDup used -> NoDup (fold_left (process_function m) d used)) /\
  forall x, In x (fold_left (process_function m) d used) <-> In x used \/ (listed m x /\ exists y f i, In y d /\ get_function m y = Some f /\ In i (f_insts f) /\ In x (ids i)).
Proof using.
  induction d as [|y d IH]; intros used; cbn [fold_left]; [split; [auto|intros x; split; [auto|intros [H|(_ & y & f & i & [] & _)]; exact H]]|]. destruct (IH (process_function m used y)) as [A B].
  assert (U : (NoDup used -> NoDup (process_function m used y)) /\ forall x, In x (process_function m used y) <-> In x used \/ (listed m x /\ exists f i, get_function m y = Some f /\ In i (f_insts f) /\ In x (ids i))).
  { unfold process_function. destruct (get_function m y) as [f|] eqn:E.
    - destruct (use_ok (flat_map ids (f_insts f)) used) as [C D]. split; [exact C|]. intros x. rewrite D, in_flat_map. split; [intros [H|[(i & Hi & Hx) L]]; [auto|right; split; [exact L|exists f, i; auto]]|]. intros [H|(L & f' & i & E' & Hi & Hx)]; [auto|]. injection E' as <-. right. split; [exists i; auto|exact L].
    - split; [auto|]. intros x. split; [auto|]. intros [H|(_ & f & i & K & _)]; [exact H|discriminate]. }
  destruct U as [U1 U2]. split; [auto|]. intros x. rewrite B, U2. split.
  - intros [[H|(L & f & i & H)]|(L & z & f & i & Hz & H)]; [auto|right; split; [exact L|exists y, f, i; split; [left; reflexivity|exact H]]|right; split; [exact L|exists z, f, i; split; [right; exact Hz|exact H]]].
  - intros [H|(L & z & f & i & [<-|Hz] & H)]; [auto|left; right; split; [exact L|exists f, i; exact H]|right; split; [exact L|exists z, f, i; auto]].
Qed.
Lemma used_ok e : In (e_function e) known -> exists u, used_variables m e = Done u /\ NoDup u /\ forall x, In x u <-> listed m x /\ uses m e x.
Proof using V.
  intros He. unfold used_variables. change (operand (e_ops e) (if e_cond e then 2 else 1)%nat) with (e_function e). destruct (process_ok [e_function e]) as (d & E & _ & D); [intros z [<-|[]]; exact He|]. rewrite E. eexists. split; [reflexivity|].
  destruct (collect_ok (rev d) []) as [A B]. split; [apply A; constructor|]. intros x. rewrite B. unfold uses. split.
  - intros [[]|(L & y & f & i & Hy & Ef & Hi & Hx)]. split; [exact L|]. apply get_ok in Ef. destruct Ef as [Hf Ey]. exists f, i. split; [|auto]. rewrite <- in_rev in Hy. apply D in Hy. destruct Hy as (r & [<-|[]] & C). rewrite Ey. exact C.
  - intros (L & f & i & C & Hf & Hi & Hx). right. split; [exact L|]. exists (f_id f), f, i. split; [rewrite <- in_rev; apply D; exists (e_function e); split; [left; reflexivity|exact C]|]. split; [apply get_ok; auto|auto].
Qed.
End Module.
Lemma should_modify_ok used : forall l old, should_modify used l old = false <-> incl l used /\ NoDup l /\ (forall x, In x l -> ~ In x old) /\ (length l + length old = length used)%nat.
Proof.
  induction l as [|x l IH]; intros old; cbn [should_modify].
  - rewrite negb_false_iff, Nat.eqb_eq. cbn [length Nat.add]. split; [intros H; repeat split; [intros z []|constructor|intros z []|exact H]|tauto].
  - destruct (mem x used) eqn:M; cbn [negb].
    + apply mem_In in M. destruct (mem x old) eqn:O.
      * apply mem_In in O. split; [discriminate|]. intros (_ & _ & K & _). destruct (K x (or_introl eq_refl) O).
      * assert (No : ~ In x old) by (intros K; apply mem_In in K; congruence). rewrite IH. cbn [length]. split.
        -- intros (A & B & C & D). split; [intros z [<-|Hz]; [exact M|exact (A z Hz)]|]. split; [constructor; [intros K; apply (C x K); left; reflexivity|exact B]|]. split; [|lia]. intros z [<-|Hz]; [exact No|]. intros K. apply (C z Hz). right. exact K.
        -- intros (A & B & C & D). apply NoDup_cons_iff in B. destruct B as [Nx B]. split; [intros z Hz; apply A; right; exact Hz|]. split; [exact B|]. split; [|lia]. intros z Hz [<-|K]; [exact (Nx Hz)|exact (C z (or_intror Hz) K)].
    + split; [discriminate|]. intros (A & _). assert (K : mem x used = true) by (apply mem_In, A; left; reflexivity). congruence.
Qed.
