(** Unifying constants: proofs. *)
From Verif Require Import Base Unify UnifySpec.
Local Open Scope N_scope.

Lemma words_kinds : forall l k, map word l = map word k -> map (fun o => match o with Id _ => true | Lit _ => false end) l = map (fun o => match o with Id _ => true | Lit _ => false end) k -> l = k.
Proof.
  induction l as [|o l IH]; intros [|p k] H K; try discriminate; [reflexivity|]. cbn [map] in H, K. injection H as H1 H2. injection K as K1 K2. f_equal; [|exact (IH k H2 K2)]. destruct o, p; cbn in *; congruence.
Qed.
Lemma rename_kinds s i : kinds (rename s i) = kinds i.
Proof. unfold kinds, rename. cbn [ops]. rewrite map_map. apply map_ext. intros [x|w]; reflexivity. Qed.
Lemma code_inj o p : unifiable o = true -> unifiable p = true -> code o = code p -> (exists w w', o = SpecOp w /\ p = SpecOp w') \/ o = p.
Proof. destruct o, p; cbn; intros A B E; try discriminate; auto. left. eauto. Qed.
Lemma key_inj i j : unifiable (op i) = true -> unifiable (op j) = true -> key i = key j -> op i = op j /\ ty i = ty j /\ map word (ops i) = map word (ops j).
Proof.
  intros A B E. unfold key in E. injection E as Ec Et E. destruct (code_inj _ _ A B Ec) as [(w & w' & Ei & Ej)|Eo].
  - rewrite Ei, Ej in *. cbn [app] in E. injection E as -> E. auto.
  - rewrite Eo in E. apply app_inv_head in E. auto.
Qed.
Lemma lookup_some t k x : lookup t k = Some x -> In (k, x) t.
Proof.
  unfold lookup. destruct (find _ t) as [[k' y]|] eqn:F; [|discriminate]. intros E. injection E as <-. apply find_some in F. destruct F as [F G]. cbn [fst] in G. destruct (list_eq_dec N.eq_dec k' k) as [->|]; [exact F|discriminate].
Qed.
Lemma lookup_none t k x : lookup t k = None -> ~ In (k, x) t.
Proof. unfold lookup. destruct (find _ t) eqn:F; [discriminate|]. intros _ H. apply (find_none _ _ F) in H. cbn [fst] in H. destruct (list_eq_dec N.eq_dec k k); [discriminate|congruence]. Qed.
Lemma rename_ext s r i : (forall x, In x (ids i) -> s x = r x) -> rename s i = rename r i.
Proof.
  intros H. unfold rename. f_equal; [apply H; left; reflexivity|]. apply map_ext_in. intros o Ho. destruct o as [x|w]; [|reflexivity]. cbn. f_equal. apply H. right. apply in_flat_map. exists (Id x). split; [exact Ho|left; reflexivity].
Qed.

Lemma same o : unifiable o = constant o.
Proof. reflexivity. Qed.
Section Run.
Variable deco : N -> bool.
Variable l : list inst.
Hypothesis V : valid l.
Lemma kinds_eq s i j : In i l -> In j l -> unifiable (op i) = true -> unifiable (op j) = true -> key (rename s i) = key (rename s j) -> op i = op j /\ s (ty i) = s (ty j) /\ map (rename_operand s) (ops i) = map (rename_operand s) (ops j).
Proof using V.
  intros Hi Hj Ui Uj E. destruct (key_inj (rename s i) (rename s j) Ui Uj E) as (A & B & C). cbn [rename op ty ops] in A, B, C. split; [exact A|]. split; [exact B|]. apply words_kinds; [exact C|].
  pose proof (rename_kinds s i) as Ki. pose proof (rename_kinds s j) as Kj. unfold kinds, rename in Ki, Kj. cbn [ops] in Ki, Kj. rewrite Ki, Kj. apply (va_kinds _ V i j Hi Hj Ui A). apply (f_equal (@length N)) in C. rewrite !map_length in C. exact C.
Qed.
Record inv (a : list inst) (t : trie) (s : N -> N) (gone : list N) : Prop := {
  in_trie : forall k x, In (k, x) t -> exists i, In i a /\ may deco i /\ res i = x /\ ~ In x gone /\ k = key (rename s i);
  in_keys : forall k x y, In (k, x) t -> In (k, y) t -> x = y;
  in_all : forall i, In i a -> may deco i -> ~ In (res i) gone -> In (key (rename s i), res i) t;
  in_from : forall y, s y = y \/ In y gone /\ In (s y) (map res a);
  in_gone : forall y, In y gone -> exists i, In i a /\ may deco i /\ res i = y;
  in_not : forall y, ~ In (s y) gone;
  in_values : forall A (sem : opcode -> A -> list (A + N) -> A) v, consistent sem v l -> forall y, v (s y) = v y }.
Lemma skip a i t s gone : inv a t s gone -> ~ may deco i -> inv (a ++ [i]) t s gone.
Proof using.
  intros [I1 I2 I3 I4 I5 I6 I7] N. constructor; try assumption.
  - intros k x H. destruct (I1 k x H) as (j & Hj & R). exists j. split; [apply in_or_app; auto|exact R].
  - intros j Hj M. apply in_app_or in Hj. destruct Hj as [Hj|[<-|[]]]; [exact (I3 j Hj M)|contradiction].
  - intros y. destruct (I4 y) as [E|[E F]]; [auto|]. right. rewrite map_app. split; [exact E|apply in_or_app; auto].
  - intros y H. destruct (I5 y H) as (j & Hj & R). exists j. split; [apply in_or_app; auto|exact R].
Qed.
Lemma res_new a i b : l = a ++ i :: b -> unifiable (op i) = true -> ~ In (res i) (map res a).
Proof using V. intros E U. exact (proj1 (proj2 (va_results _ V a i b E U))). Qed.
Lemma add a i b t s gone : l = a ++ i :: b -> inv a t s gone -> may deco i -> lookup t (key (rename s i)) = None -> inv (a ++ [i]) ((key (rename s i), res i) :: t) s gone.
Proof using V.
  intros El [I1 I2 I3 I4 I5 I6 I7] M L. pose proof (res_new a i b El (proj2 M)) as New. assert (Ng : ~ In (res i) gone) by (intros K; destruct (I5 _ K) as (j & Hj & _ & E); apply New; rewrite <- E; apply in_map, Hj). constructor; try assumption.
  - intros k x [H|H]; [injection H as <- <-; exists i; split; [apply in_or_app; right; left; reflexivity|]; auto|]. destruct (I1 k x H) as (j & Hj & R). exists j. split; [apply in_or_app; auto|exact R].
  - intros k x y [H|H] [K|K]; [congruence| | |eauto].
    + injection H as <- <-. destruct (lookup_none _ _ y L K).
    + injection K as <- <-. destruct (lookup_none _ _ x L H).
  - intros j Hj Mj Nj. apply in_app_or in Hj. destruct Hj as [Hj|[<-|[]]]; [right; exact (I3 j Hj Mj Nj)|left; reflexivity].
  - intros y. destruct (I4 y) as [E|[E F]]; [auto|]. right. rewrite map_app. split; [exact E|apply in_or_app; auto].
  - intros y H. destruct (I5 y H) as (j & Hj & R). exists j. split; [apply in_or_app; auto|exact R].
Qed.
Lemma drop a i b t s gone x : l = a ++ i :: b -> inv a t s gone -> may deco i -> lookup t (key (rename s i)) = Some x -> x <> res i /\ inv (a ++ [i]) t (fun y => if s y =? res i then x else s y) (res i :: gone).
Proof using V.
  intros El [I1 I2 I3 I4 I5 I6 I7] M L. pose proof (res_new a i b El (proj2 M)) as New. assert (Ng : ~ In (res i) gone) by (intros K; destruct (I5 _ K) as (j & Hj & _ & E); apply New; rewrite <- E; apply in_map, Hj).
  apply lookup_some in L. destruct (I1 _ _ L) as (h & Hh & Mh & Eh & Nh & Kh). assert (Nx : x <> res i) by (intros E; apply New; rewrite <- E, <- Eh; apply in_map, Hh). split; [exact Nx|].
  assert (Hi : In i l) by (rewrite El; apply in_or_app; right; left; reflexivity). assert (Hl : forall j, In j a -> In j l) by (intros j Hj; rewrite El; apply in_or_app; auto).
  assert (Only : forall y, s y = res i -> y = res i) by (intros y E; destruct (I4 y) as [E'|[_ F]]; [congruence|rewrite E in F; contradiction]). set (r := fun y => if s y =? res i then x else s y).
  assert (St : forall j, In j a -> may deco j -> rename r j = rename s j).
  { intros j Hj Mj. apply rename_ext. intros y Hy. unfold r. destruct (s y =? res i) eqn:E; [|reflexivity]. exfalso. apply N.eqb_eq, Only in E. subst y. apply in_split in Hj. destruct Hj as (c & d & Ea).
    assert (El' : l = c ++ j :: (d ++ i :: b)) by (rewrite El, Ea, <- app_assoc; reflexivity). apply (va_order _ V c j _ (res i) El' (proj2 Mj) Hy). right. rewrite map_app. apply in_or_app. right. left. reflexivity. }
  constructor.
  - intros k z H. destruct (I1 k z H) as (j & Hj & Mj & Ej & Nj & Kj). exists j. split; [apply in_or_app; auto|]. split; [exact Mj|]. split; [exact Ej|]. split; [|rewrite (St j Hj Mj); exact Kj]. intros [K|K]; [|contradiction]. apply New. rewrite K, <- Ej. apply in_map, Hj.
  - exact I2.
  - intros j Hj Mj Nj. apply in_app_or in Hj. destruct Hj as [Hj|[<-|[]]]; [|destruct Nj; left; reflexivity]. rewrite (St j Hj Mj). apply I3; [exact Hj|exact Mj|]. intros K. apply Nj. right. exact K.
  - intros y. unfold r. rewrite map_app. destruct (s y =? res i) eqn:E.
    + apply N.eqb_eq, Only in E. subst y. right. split; [left; reflexivity|]. apply in_or_app. left. rewrite <- Eh. apply in_map, Hh.
    + destruct (I4 y) as [F|[F G]]; [auto|]. right. split; [right; exact F|apply in_or_app; auto].
  - intros y [<-|H]; [exists i; split; [apply in_or_app; right; left; reflexivity|auto]|]. destruct (I5 y H) as (j & Hj & R). exists j. split; [apply in_or_app; auto|exact R].
  - intros y. unfold r. destruct (s y =? res i) eqn:E; intros [K|K]; [congruence|contradiction| |exact (I6 y K)]. apply N.eqb_neq in E. congruence.
  - intros A sem v C y. unfold r. destruct (s y =? res i) eqn:E; [|exact (I7 A sem v C y)]. apply N.eqb_eq, Only in E. subst y. rewrite <- Eh. rewrite (C h (Hl h Hh) (proj2 Mh)), (C i Hi (proj2 M)).
    destruct (kinds_eq s i h Hi (Hl h Hh) (proj2 M) (proj2 Mh) Kh) as (Eo & Et & Es). rewrite Eo. pose proof (I7 A sem v C) as W.
    assert (F : forall k, map (fun o => match o with Id z => inl (v z) | Lit w => inr w end) (map (rename_operand s) k) = map (fun o => match o with Id z => inl (v z) | Lit w => inr w end) k).
    { intros k. rewrite map_map. apply map_ext. intros [z|w]; cbn; [rewrite W|]; reflexivity. }
    rewrite <- (F (ops h)), <- (F (ops i)), Es, <- (W (ty h)), <- (W (ty i)), Et. reflexivity.
Qed.
Lemma run_ok : forall b a t s gone, l = a ++ b -> inv a t s gone -> exists t', inv l t' (fst (run deco b t s gone)) (snd (run deco b t s gone)).
Proof using V.
  induction b as [|i b IH]; intros a t s gone El I; [exists t; rewrite app_nil_r in El; subst a; exact I|]. cbn [run]. assert (El' : l = (a ++ [i]) ++ b) by (rewrite <- app_assoc; exact El). destruct (deco (res i)) eqn:D.
  - apply (IH _ _ _ _ El'), skip; [exact I|]. intros [K _]. congruence.
  - destruct (unifiable (op i)) eqn:U.
    + assert (M : may deco i) by (split; assumption). destruct (lookup t (key (rename s i))) as [x|] eqn:L; [|apply (IH _ _ _ _ El'), (add a i b); assumption]. destruct (drop a i b t s gone x El I M L) as [Nx I']. apply N.eqb_neq in Nx. rewrite Nx. exact (IH _ _ _ _ El' I').
    + apply (IH _ _ _ _ El'), skip; [exact I|]. intros [_ K]. rewrite <- same in K. congruence.
Qed.
Lemma unify_ok : exists t, inv l t (fst (unify deco l)) (snd (unify deco l)).
Proof using V.
  apply (run_ok l [] [] (fun x => x) [] eq_refl). constructor; [intros k x []|intros k x y []|intros i []|auto|intros y []|intros y []|reflexivity].
Qed.
End Run.
