(** Proofs about the linker: finding, checking and replacing symbols. *)
From Verif Require Import Base OperandTypes IrModule IrSpec Words Linker LinkerSpec LinkerProofs.
Local Open Scope N_scope.

Lemma name_eqb_spec a b : name_eqb a b = true <-> a = b.
Proof. unfold name_eqb. destruct (list_eq_dec N.eq_dec a b); split; congruence. Qed.
Lemma name_eqb_refl a : name_eqb a a = true.
Proof. apply name_eqb_spec. reflexivity. Qed.
Lemma name_eqb_false a b : name_eqb a b = false <-> a <> b.
Proof. rewrite <- name_eqb_spec. destruct (name_eqb a b); split; congruence. Qed.

(** ** Decorations *)
(** The triple of a linkage decoration. *)
Definition lk (i : inst) : option (N * list N * N) :=
  if opcode (body i) =? OpDecorate then
    match operands (body i) with
    | [(T_ID, [id]); (_, [d]); (T_LITERAL_STRING, ws); (_, [kind])] => if d =? DecorationLinkageAttributes then Some (id, fst (make_string ws), kind) else None
    | _ => None
    end
  else None.
Lemma id_type_T_ID t : is_id_type t = false -> t <> T_TYPE_ID /\ t <> T_RESULT_ID /\ t <> T_ID.
Proof. intro H. repeat split; intro E; subst; discriminate. Qed.
Lemma lk_of i id name kind : linkage_decoration i id name kind -> lk i = Some (id, name, kind).
Proof. intros (Ho & t1 & ws & t2 & E & _ & _ & ->). unfold lk. rewrite Ho, E. reflexivity. Qed.
Lemma linkage_unique i id name kind id' name' kind' : linkage_decoration i id name kind -> linkage_decoration i id' name' kind' -> id = id' /\ name = name' /\ kind = kind'.
Proof. intros H H'. apply lk_of in H, H'. rewrite H in H'. inversion H'. auto. Qed.
Lemma shape_lk i : decoration_shape i -> forall id name kind, lk i = Some (id, name, kind) -> linkage_decoration i id name kind.
Proof.
  intros (_ & id0 & t1 & d & rest & E & _ & H) id name kind Hl. pose proof Hl as Hl0. unfold lk in Hl. destruct (N.eqb_spec (opcode (body i)) OpDecorate) as [Ho|]; [|discriminate].
  rewrite E in Hl. destruct rest as [|[t2 ws] rest]; [discriminate|]. destruct t2; try discriminate. destruct rest as [|[t3 k] rest]; [discriminate|].
  destruct k as [|k [|? ?]]; try discriminate. destruct rest; [|discriminate]. destruct (N.eqb_spec d DecorationLinkageAttributes) as [Hd|]; [|discriminate].
  destruct (H Ho Hd) as (name' & kind' & Hk). pose proof (lk_of _ _ _ _ Hk) as E'. rewrite Hl0 in E'. inversion E'; subst. exact Hk.
Qed.
Lemma shape_none i : decoration_shape i -> lk i = None -> forall id name kind, ~ linkage_decoration i id name kind.
Proof. intros _ Hn id name kind H. apply lk_of in H. congruence. Qed.
Lemma shape_ops i : decoration_shape i -> exists id t1 d rest, operands (body i) = (T_ID, [id]) :: (t1, [d]) :: rest /\ first_id i = Some id /\
  single_word_in_operand (body i) 0 = Ok id /\ single_word_in_operand (body i) 1 = Ok d /\ type_result_id_count (body i) = 0%nat /\ is_id_type t1 = false.
Proof.
  intros (_ & id & t1 & d & rest & E & Ht & _). exists id, t1, d, rest. unfold first_id, single_word_in_operand, single_word_operand, type_result_id_count. rewrite E.
  repeat (split; [reflexivity|]). exact Ht.
Qed.
Lemma is_decoration_spec i : is_decoration (body i) = true <-> decorates i.
Proof. unfold is_decoration, decorates. rewrite !Bool.orb_true_iff, !N.eqb_eq. tauto. Qed.
Lemma targets_spec i id : decoration_shape i -> (targets id i = true <-> first_id i = Some id).
Proof.
  intro H. destruct (shape_ops i H) as (x & t1 & d & rest & E & Hf & H0 & _). unfold targets. rewrite H0, Hf. rewrite N.eqb_eq. split; congruence.
Qed.
Lemma linkage_first i id name kind : linkage_decoration i id name kind -> first_id i = Some id.
Proof. intros (_ & t1 & ws & t2 & E & _). unfold first_id. rewrite E. reflexivity. Qed.
Lemma is_linkage_spec i : decoration_shape i -> (is_linkage i = true <-> exists id name kind, linkage_decoration i id name kind).
Proof.
  intro H. destruct (shape_ops i H) as (x & t1 & d & rest & E & Hf & H0 & H1 & _). unfold is_linkage. rewrite H1, Bool.andb_true_iff, !N.eqb_eq. split.
  - intros [Ho Hd]. destruct H as (_ & id & t1' & d' & rest' & E' & _ & Hl). rewrite E in E'. inversion E'; subst. exists id. apply Hl; auto.
  - intros (id & name & kind & Ho & t & ws & t2 & E' & _). rewrite E in E'. inversion E'; subst. auto.
Qed.

Section Module.
Variable m : lmodule.
Hypothesis Hwf : well_formed m.
Lemma shape_in i : In i (annotations m) -> decoration_shape i.
Proof. intro H. exact (proj1 (Forall_forall _ _) (proj1 Hwf) i H). Qed.
Lemma one_linkage i j id n1 k1 n2 k2 : In i (annotations m) -> In j (annotations m) -> linkage_decoration i id n1 k1 -> linkage_decoration j id n2 k2 ->
  n1 = n2 /\ k1 = k2.
Proof.
  pose proof Hwf as (_ & _ & _ & _ & _ & _ & Hone & _). intros Hi Hj H1 H2. apply In_nth_error in Hi as (a & Ha). apply In_nth_error in Hj as (b & Hb).
  assert (a = b) by (eapply Hone; eauto). subst. rewrite Ha in Hb. inversion Hb; subst. destruct (linkage_unique _ _ _ _ _ _ _ H1 H2) as (_ & ? & ?). auto.
Qed.
Lemma links_one id n1 k1 n2 k2 : links m id n1 k1 -> links m id n2 k2 -> n1 = n2 /\ k1 = k2.
Proof. intros (i & Hi & H1 & _) (j & Hj & H2 & _). exact (one_linkage i j id n1 k1 n2 k2 Hi Hj H1 H2). Qed.

Lemma in_decorations_for i id : In i (decorations_for m id) <-> In i (annotations m) /\ first_id i = Some id /\ ~ exists id name kind, linkage_decoration i id name kind.
Proof.
  unfold decorations_for, direct_decorations. rewrite !filter_In, Bool.andb_true_iff, Bool.negb_true_iff. split.
  - intros [[Hi [Hd Ht]] Hl]. split; [exact Hi|]. pose proof (shape_in i Hi) as Hs. split; [apply targets_spec; assumption|].
    rewrite <- is_linkage_spec by exact Hs. congruence.
  - intros (Hi & Hf & Hl). pose proof (shape_in i Hi) as Hs. split; [split; [exact Hi|]; split; [apply is_decoration_spec, Hs | apply targets_spec; assumption]|].
    apply Bool.not_true_iff_false. rewrite is_linkage_spec by exact Hs. exact Hl.
Qed.
(** Only for linkage-decorated ids: member decorations are read as if they were decorations. *)
Lemma is_built_in_spec j id name kind : In j (annotations m) -> linkage_decoration j id name kind -> (is_built_in m id = true <-> built_in m id).
Proof.
  intros Hj Hk. unfold is_built_in. rewrite existsb_exists. split.
  - intros (i & Hi & E). apply in_decorations_for in Hi as (Hi & Hf & Hl). destruct (shape_ops i (shape_in i Hi)) as (x & t1 & d & rest & Eo & Hf' & _ & H1 & _).
    rewrite H1 in E. apply N.eqb_eq in E. subst d. rewrite Hf in Hf'. inversion Hf'; subst x. exists i, t1, rest. split; [exact Hi|]. split; [|exact Eo].
    intro Hm. pose proof Hwf as (_ & _ & _ & _ & _ & _ & _ & Hmem & _). exact (Hmem j i id name kind Hj Hi Hk Hm Hf).
  - intros (i & t1 & rest & Hi & _ & Eo). exists i. split.
    + apply in_decorations_for. split; [exact Hi|]. unfold first_id. rewrite Eo. split; [reflexivity|]. intros (id' & n' & k' & _ & ? & ? & ? & E & _). rewrite Eo in E. inversion E.
    + unfold single_word_in_operand, single_word_operand, type_result_id_count. rewrite Eo. reflexivity.
Qed.

(** ** Definitions *)
Lemma get_def_spec id d : get_def m id = Some d <-> In d (module_insts m) /\ result_id (body d) = id /\ id <> 0.
Proof.
  unfold get_def. split.
  - intro H. apply find_some in H as [H1 H2]. apply in_rev in H1. apply Bool.andb_true_iff in H2 as [H2 H3]. apply N.eqb_eq in H2. apply Bool.negb_true_iff, N.eqb_neq in H3. auto.
  - intros (H1 & H2 & H3). destruct (find _ _) as [d'|] eqn:E.
    + apply find_some in E as [E1 E2]. apply in_rev in E1. apply Bool.andb_true_iff in E2 as [E2 _]. apply N.eqb_eq in E2. f_equal.
      pose proof Hwf as (_ & _ & _ & Hu & _). apply Hu; congruence.
    + exfalso.
      pose proof (find_none _ _ E d) as F. rewrite <- in_rev in F. specialize (F ltac:(assumption)). rewrite H2, N.eqb_refl in F. apply N.eqb_neq in H3. rewrite H3 in F. discriminate.
Qed.

(** ** Collecting *)
Definition triple : Type := N * list N * N.
Definition triples_of (i : inst) : list triple :=
  match lk i with Some (id, n, k) => if is_built_in m id then [] else [(id, n, k)] | None => [] end.
Definition triples (is : list inst) : list triple := flat_map triples_of is.
Lemma in_triples_of i id n k : In i (annotations m) -> (In (id, n, k) (triples_of i) <-> links_by m i id n k).
Proof.
  intro Hi. unfold triples_of, links_by. destruct (lk i) as [[[id' n'] k']|] eqn:E.
  - pose proof (shape_lk i (shape_in i Hi) _ _ _ E) as Hk. pose proof (is_built_in_spec i id' n' k' Hi Hk) as Hb.
    destruct (is_built_in m id') eqn:Eb.
    + split; [intros []|]. intros [H1 H2]. destruct (linkage_unique _ _ _ _ _ _ _ Hk H1) as (-> & _). exfalso. apply H2, Hb. reflexivity.
    + split.
      * intros [H|[]]. inversion H; subst. split; [exact Hk|]. rewrite <- Hb. discriminate.
      * intros [H1 _]. destruct (linkage_unique _ _ _ _ _ _ _ Hk H1) as (-> & -> & ->). left. reflexivity.
  - split; [intros []|]. intros [H _]. exfalso. exact (shape_none i (shape_in i Hi) E _ _ _ H).
Qed.
Lemma in_triples id n k : In (id, n, k) (triples (annotations m)) <-> links m id n k.
Proof.
  unfold triples, links. rewrite in_flat_map. split; intros (i & Hi & H); exists i; (split; [exact Hi|]); apply in_triples_of; assumption.
Qed.

Definition put (t : tables) (s : symbol) (kind : N) : tables :=
  if kind =? LinkageImport then mkTables (t_imports t ++ [s]) (t_exports t) (t_linkonce t)
  else if kind =? LinkageExport then mkTables (t_imports t) (add_export s (t_exports t)) (t_linkonce t)
  else if kind =? LinkageLinkOnceODR then
    match lookup (s_name s) (t_linkonce t) with
    | None => mkTables (t_imports t) (t_exports t) (t_linkonce t ++ [(s_name s, s)])
    | Some _ => t
    end
  else t.
Fixpoint col (t : tables) (ts : list triple) : outcome tables :=
  match ts with [] => Ok t | (id, n, k) :: ts' => s <- symbol_info m id n; col (put t s k) ts' end.
Lemma col_app t a b : col t (a ++ b) = (t <- col t a; col t b).
Proof.
  revert t. induction a as [|[[id n] k] a IH]; intro t; [reflexivity|]. cbn [app col]. destruct (symbol_info m id n); cbn [bind]; auto.
Qed.
Lemma symbol_info_fields id n s : symbol_info m id n = Ok s -> s_id s = id /\ s_name s = n.
Proof.
  unfold symbol_info. destruct (get_def m id) as [d|]; [|discriminate]. destruct (_ =? _); [intro E; inversion E; auto|]. destruct (_ =? _); [|discriminate].
  unfold bind. destruct (single_word_in_operand (body d) 1); try discriminate. intro E. inversion E. auto.
Qed.
Lemma collect_one_triple t i : In i (annotations m) -> collect_one m t i = col t (triples_of i).
Proof.
  intro Hi. pose proof (shape_in i Hi) as Hs. destruct (shape_ops i Hs) as (x & t1 & d & rest & E & Hf & H0 & H1 & H2 & _).
  unfold collect_one, triples_of. destruct (N.eqb_spec (opcode (body i)) OpDecorate) as [Ho|Ho]; cbn [negb].
  2: { unfold lk. apply N.eqb_neq in Ho. rewrite Ho. reflexivity. }
  rewrite H1. cbn [bind]. destruct (N.eqb_spec d DecorationLinkageAttributes) as [Hd|Hd]; cbn [negb].
  2: { unfold lk. rewrite E. destruct (_ =? OpDecorate); [|reflexivity]. destruct rest as [|[t2 ws] rest]; [reflexivity|]. destruct t2; try reflexivity.
       destruct rest as [|[t3 k] rest]; [reflexivity|]. destruct k as [|k [|? ?]]; try reflexivity. destruct rest; [|reflexivity].
       apply N.eqb_neq in Hd. rewrite Hd. reflexivity. }
  destruct Hs as (_ & id' & t1' & d' & rest' & E' & _ & Hl). rewrite E in E'. inversion E'; subst id' t1' d' rest'. destruct (Hl Ho Hd) as (name & kind & Hk).
  rewrite (lk_of _ _ _ _ Hk), H0. cbn [bind]. destruct (is_built_in m x); [reflexivity|].
  destruct Hk as (_ & ty1 & ws & ty2 & Eo & _ & _ & ->).
  replace (single_word_in_operand (body i) 3) with (Ok kind) by (unfold single_word_in_operand, single_word_operand; rewrite H2, Eo; reflexivity).
  replace (operand_string (body i) (2 + type_result_id_count (body i))) with (Ok (fst (make_string ws))) by (unfold operand_string; rewrite H2, Eo; reflexivity).
  cbn [bind col]. destruct (symbol_info m x (fst (make_string ws))) as [s| |] eqn:Es; cbn [bind]; try reflexivity.
  destruct (symbol_info_fields _ _ _ Es) as [_ En]. unfold put. rewrite En.
  destruct (kind =? LinkageImport); [reflexivity|]. destruct (kind =? LinkageExport); [reflexivity|]. destruct (kind =? LinkageLinkOnceODR); [|reflexivity].
  destruct (lookup _ _); reflexivity.
Qed.
Lemma collect_triples : forall is t, incl is (annotations m) -> collect m t is = col t (triples is).
Proof.
  induction is as [|i is IH]; intros t Hi; [reflexivity|]. cbn [collect triples flat_map]. fold (triples is). rewrite col_app, collect_one_triple by (apply Hi; left; reflexivity).
  destruct (col t (triples_of i)); cbn [bind]; try reflexivity. apply IH. intros x Hx. apply Hi. right. exact Hx.
Qed.

(** ** The tables *)
(** The symbols of the triples of one kind, and of one kind and name. *)
Definition sym_of (x : triple) : list symbol := match symbol_info m (fst (fst x)) (snd (fst x)) with Ok s => [s] | _ => [] end.
Definition of_kind (kind : N) (ts : list triple) : list symbol := flat_map sym_of (filter (fun x => snd x =? kind) ts).
Definition named (kind : N) (n : list N) (ts : list triple) : list symbol :=
  flat_map sym_of (filter (fun x => (snd x =? kind) && name_eqb (snd (fst x)) n) ts).
Definition exported (n : list N) (e : list (list N * list symbol)) : list symbol := match lookup n e with Some l => l | None => [] end.
Lemma lookup_add_export s e n : lookup n (add_export s e) = if name_eqb (s_name s) n then Some (exported n e ++ [s]) else lookup n e.
Proof.
  induction e as [|[k ss] e IH]; cbn [add_export lookup exported].
  - destruct (name_eqb (s_name s) n); reflexivity.
  - destruct (name_eqb k (s_name s)) eqn:E1; cbn [lookup].
    + apply name_eqb_spec in E1 as ->. unfold exported. cbn [lookup]. destruct (name_eqb (s_name s) n); reflexivity.
    + rewrite IH. unfold exported. cbn [lookup]. destruct (name_eqb (s_name s) n) eqn:E2.
      * apply name_eqb_spec in E2 as <-. rewrite E1. reflexivity.
      * destruct (name_eqb k n); reflexivity.
Qed.
Lemma lookup_app {A} n (a b : list (list N * A)) : lookup n (a ++ b) = match lookup n a with Some x => Some x | None => lookup n b end.
Proof. induction a as [|[k x] a IH]; [reflexivity|]. cbn [app lookup]. destruct (name_eqb k n); auto. Qed.
Lemma lookup_none_keys {A} n (l : list (list N * A)) : lookup n l = None <-> ~ In n (map fst l).
Proof.
  induction l as [|[k x] l IH]; cbn [lookup map fst]; [split; auto|]. destruct (name_eqb k n) eqn:E.
  - apply name_eqb_spec in E as ->. split; [discriminate|]. intro H. exfalso. apply H. left. reflexivity.
  - apply name_eqb_false in E. rewrite IH. split; [intros H [F|F]; auto | intros H F; apply H; right; exact F].
Qed.
Lemma lookup_in {A} n x (l : list (list N * A)) : NoDup (map fst l) -> (lookup n l = Some x <-> In (n, x) l).
Proof.
  induction l as [|[k y] l IH]; intro Hn; cbn [lookup]; [split; [discriminate | intros []]|]. inversion Hn; subst. destruct (name_eqb k n) eqn:E.
  - apply name_eqb_spec in E as ->. split; [intro F; inversion F; left; reflexivity|]. intros [F|F]; [inversion F; reflexivity|].
    exfalso. apply H1. apply (in_map fst) in F. exact F.
  - apply name_eqb_false in E. rewrite IH by assumption. split; [right; assumption | intros [F|F]; [inversion F; congruence | exact F]].
Qed.
Lemma add_export_keys s e : map fst (add_export s e) = map fst e \/ ~ In (s_name s) (map fst e) /\ map fst (add_export s e) = map fst e ++ [s_name s].
Proof.
  induction e as [|[k ss] e IH]; cbn [add_export map fst]; [right; split; [intros [] | reflexivity]|]. destruct (name_eqb k (s_name s)) eqn:E; cbn [map fst]; [left; reflexivity|].
  apply name_eqb_false in E. destruct IH as [->|[H ->]]; [left; reflexivity|]. right. split; [|reflexivity]. intros [F|F]; auto.
Qed.
Lemma NoDup_snoc {A} (l : list A) a : NoDup l -> ~ In a l -> NoDup (l ++ [a]).
Proof.
  intros H1 H2. apply NoDup_rev in H1. rewrite <- (rev_involutive (l ++ [a])). apply NoDup_rev. rewrite rev_app_distr. constructor; [|exact H1]. rewrite <- in_rev. exact H2.
Qed.
Record table_inv (t : tables) : Prop := {
  inv_exports : NoDup (map fst (t_exports t));
  inv_nonempty : forall n, lookup n (t_exports t) <> Some [];
  inv_linkonce : NoDup (map fst (t_linkonce t)) }.
Lemma put_inv t s k : table_inv t -> table_inv (put t s k).
Proof.
  intros [H1 H2 H3]. unfold put. destruct (k =? LinkageImport); [constructor; assumption|]. destruct (k =? LinkageExport).
  - constructor; cbn [t_exports t_linkonce]; try assumption.
    + destruct (add_export_keys s (t_exports t)) as [->|[Hn ->]]; [exact H1 | apply NoDup_snoc; assumption].
    + intros n. rewrite lookup_add_export. destruct (name_eqb _ _); [|apply H2]. intro E. inversion E. destruct (exported n (t_exports t)); discriminate.
  - destruct (k =? LinkageLinkOnceODR); [|constructor; assumption]. destruct (lookup (s_name s) (t_linkonce t)) eqn:E; [constructor; assumption|].
    constructor; cbn [t_exports t_linkonce]; try assumption. rewrite map_app. apply NoDup_snoc; [exact H3|]. apply lookup_none_keys. exact E.
Qed.
Lemma exported_put t s k n : exported n (t_exports (put t s k)) = exported n (t_exports t) ++ (if (k =? LinkageExport) && name_eqb (s_name s) n then [s] else []).
Proof.
  unfold put. destruct (N.eqb_spec k LinkageImport) as [->|]; [cbn; rewrite app_nil_r; reflexivity|]. destruct (N.eqb_spec k LinkageExport); cbn [andb].
  - cbn [t_exports]. unfold exported. rewrite lookup_add_export. destruct (name_eqb (s_name s) n); [reflexivity|]. rewrite app_nil_r. reflexivity.
  - rewrite app_nil_r. destruct (k =? LinkageLinkOnceODR); [|reflexivity]. destruct (lookup _ _); reflexivity.
Qed.
Lemma imports_put t s k : t_imports (put t s k) = t_imports t ++ (if k =? LinkageImport then [s] else []).
Proof.
  unfold put. destruct (k =? LinkageImport); [reflexivity|]. rewrite app_nil_r. destruct (k =? LinkageExport); [reflexivity|].
  destruct (k =? LinkageLinkOnceODR); [|reflexivity]. destruct (lookup _ _); reflexivity.
Qed.
Lemma linkonce_put t s k n : lookup n (t_linkonce (put t s k)) =
  match lookup n (t_linkonce t) with Some x => Some x | None => if (k =? LinkageLinkOnceODR) && name_eqb (s_name s) n then Some s else None end.
Proof.
  unfold put. destruct (N.eqb_spec k LinkageImport) as [->|]; [cbn; destruct (lookup n (t_linkonce t)); reflexivity|].
  destruct (N.eqb_spec k LinkageExport) as [->|]; [cbn; destruct (lookup n (t_linkonce t)); reflexivity|].
  destruct (k =? LinkageLinkOnceODR); cbn [andb]; [|destruct (lookup n (t_linkonce t)); reflexivity].
  destruct (name_eqb (s_name s) n) eqn:En.
  - apply name_eqb_spec in En as <-. destruct (lookup (s_name s) (t_linkonce t)) eqn:El; [rewrite El; reflexivity|]. cbn [t_linkonce].
    rewrite lookup_app, El. cbn [lookup]. rewrite name_eqb_refl. reflexivity.
  - destruct (lookup (s_name s) (t_linkonce t)) eqn:El; [destruct (lookup n (t_linkonce t)); reflexivity|]. cbn [t_linkonce].
    rewrite lookup_app. cbn [lookup]. rewrite En. reflexivity.
Qed.
Lemma col_ok : forall ts t t', col t ts = Ok t' -> table_inv t ->
  table_inv t' /\ t_imports t' = t_imports t ++ of_kind LinkageImport ts /\
  (forall n, exported n (t_exports t') = exported n (t_exports t) ++ named LinkageExport n ts) /\
  (forall n, lookup n (t_linkonce t') = match lookup n (t_linkonce t) with Some x => Some x | None => hd_error (named LinkageLinkOnceODR n ts) end).
Proof.
  induction ts as [|[[id n0] k] ts IH]; intros t t' H Hi.
  - inversion H; subst. unfold of_kind, named. cbn [filter flat_map]. rewrite app_nil_r. split; [exact Hi|]. split; [reflexivity|]. split; intro n.
    + rewrite app_nil_r. reflexivity.
    + cbn. destruct (lookup n (t_linkonce t')); reflexivity.
  - cbn [col] in H. destruct (symbol_info m id n0) as [s| |] eqn:Es; cbn [bind] in H; try discriminate.
    destruct (symbol_info_fields _ _ _ Es) as [_ En]. destruct (IH _ _ H (put_inv t s k Hi)) as (J1 & J2 & J3 & J4). split; [exact J1|].
    assert (Hsym : sym_of (id, n0, k) = [s]) by (unfold sym_of; cbn [fst snd]; rewrite Es; reflexivity).
    split; [|split].
    + rewrite J2, imports_put, <- app_assoc. f_equal. unfold of_kind. cbn [filter snd]. destruct (k =? LinkageImport); cbn [flat_map]; [rewrite Hsym|]; reflexivity.
    + intro n. rewrite J3, exported_put, <- app_assoc. f_equal. unfold named. cbn [filter fst snd]. rewrite En. destruct ((k =? LinkageExport) && name_eqb n0 n); cbn [flat_map]; [rewrite Hsym|]; reflexivity.
    + intro n. rewrite J4, linkonce_put. destruct (lookup n (t_linkonce t)); [reflexivity|]. unfold named. cbn [filter fst snd]. rewrite En.
      destruct ((k =? LinkageLinkOnceODR) && name_eqb n0 n); cbn [flat_map]; [rewrite Hsym|]; reflexivity.
Qed.
Lemma col_succeeds : forall ts t, (exists t', col t ts = Ok t') <-> (forall id n k, In (id, n, k) ts -> exists s, symbol_info m id n = Ok s).
Proof.
  induction ts as [|[[id n] k] ts IH]; intro t; [split; [intros _ ? ? ? [] | intros _; eexists; reflexivity]|]. cbn [col]. split.
  - intros [t' H] id' n' k' [E|E].
    + inversion E; subst. destruct (symbol_info m id' n') as [s| |]; try discriminate. eauto.
    + destruct (symbol_info m id n) as [s| |]; try discriminate. cbn [bind] in H. apply (proj1 (IH (put t s k)) (ex_intro _ t' H) _ _ _ E).
  - intro H. destruct (H id n k (or_introl eq_refl)) as [s ->]. cbn [bind]. apply IH. intros id' n' k' Hin. apply (H id' n' k'). right. exact Hin.
Qed.

(** ** Pairs *)
Lemma add_linkonce_spec : forall l e, NoDup (map fst l) ->
  ((exists e', add_linkonce l e = Ok e') <-> forall n, In n (map fst l) -> lookup n e = None) /\
  forall e', add_linkonce l e = Ok e' ->
    (forall n, lookup n e' = match lookup n e with Some x => Some x | None => option_map (fun s => [s]) (lookup n l) end) /\
    (NoDup (map fst e) -> NoDup (map fst e')).
Proof.
  induction l as [|[n0 s0] l IH]; intros e Hn; cbn [add_linkonce map fst].
  - split; [split; [intros _ ? [] | eauto]|]. intros e' E. inversion E; subst. split; [|auto]. intro n. cbn. destruct (lookup n e'); reflexivity.
  - inversion Hn; subst. destruct (lookup n0 e) eqn:E0.
    + split; [|discriminate]. split; [intros [e' H]; discriminate|]. intro H. rewrite (H n0 (or_introl eq_refl)) in E0. discriminate.
    + destruct (IH (e ++ [(n0, [s0])]) H2) as [I1 I2]. split.
      * rewrite I1. split.
        -- intros H n [<-|Hin]; [exact E0|]. specialize (H n Hin). rewrite lookup_app in H. destruct (lookup n e); [discriminate | reflexivity].
        -- intros H n Hin. rewrite lookup_app, (H n (or_intror Hin)). cbn [lookup]. destruct (name_eqb n0 n) eqn:En; [|reflexivity].
           apply name_eqb_spec in En as ->. contradiction.
      * intros e' E. destruct (I2 e' E) as [J1 J2]. split.
        -- intro n. rewrite J1, lookup_app. cbn [lookup]. destruct (lookup n e); [reflexivity|]. destruct (name_eqb n0 n); reflexivity.
        -- intro He. apply J2. rewrite map_app. apply NoDup_snoc; [exact He|]. apply lookup_none_keys. exact E0.
Qed.
Lemma find_pairs_spec allow_partial e : forall imports l, find_pairs allow_partial imports e = Ok l <->
  (allow_partial = true \/ forall i, In i imports -> hd_error (exported (s_name i) e) <> None) /\
  l = flat_map (fun i => match hd_error (exported (s_name i) e) with Some x => [(i, x)] | None => [] end) imports.
Proof.
  induction imports as [|i imports IH]; intro l; cbn [find_pairs flat_map].
  - split; [intro E; inversion E; split; [right; intros ? []|]; reflexivity | intros [_ ->]; reflexivity].
  - change (match lookup (s_name i) e with Some l0 => l0 | None => [] end) with (exported (s_name i) e). destruct (exported (s_name i) e) as [|x xs] eqn:Ex; cbn [hd_error].
    + destruct allow_partial.
      * rewrite IH. cbn [app]. split; intros [_ ->]; split; auto.
      * split; [discriminate|]. intros [[H|H] _]; [discriminate|]. exfalso. apply (H i (or_introl eq_refl)). rewrite Ex. reflexivity.
    + unfold bind. split.
      * destruct (find_pairs allow_partial imports e) as [l'| |] eqn:Ef; try discriminate. intro E. inversion E; subst.
        destruct (proj1 (IH l') eq_refl) as [H ->]. split; [|reflexivity]. destruct H as [H|H]; [left; exact H|]. right. intros j [<-|Hj]; [rewrite Ex; discriminate | auto].
      * intros [H ->]. erewrite (proj2 (IH _)); [reflexivity|]. split; [|reflexivity]. destruct H as [H|H]; [left; exact H|]. right. intros j Hj. apply H. right. exact Hj.
Qed.
Let T := triples (annotations m).
Definition provider (n : list N) : option symbol :=
  match named LinkageExport n T with x :: _ => Some x | [] => hd_error (named LinkageLinkOnceODR n T) end.
Definition pairs : list (symbol * symbol) :=
  flat_map (fun i => match provider (s_name i) with Some x => [(i, x)] | None => [] end) (of_kind LinkageImport T).
Lemma empty_inv : table_inv (mkTables [] [] []).
Proof. constructor; cbn; try constructor. discriminate. Qed.
Lemma get_pairs_raw allow_partial l : get_import_export_pairs allow_partial m = Ok l <->
  (forall id n k, In (id, n, k) T -> exists s, symbol_info m id n = Ok s) /\
  (forall n, named LinkageLinkOnceODR n T <> [] -> named LinkageExport n T = []) /\
  (forall n, (length (named LinkageExport n T) <= 1)%nat) /\
  (allow_partial = true \/ forall i, In i (of_kind LinkageImport T) -> provider (s_name i) <> None) /\ l = pairs.
Proof.
  unfold get_import_export_pairs. rewrite (collect_triples (annotations m) _ (incl_refl _)). fold T.
  pose proof (col_succeeds T (mkTables [] [] [])) as Hs.
  destruct (col (mkTables [] [] []) T) as [t| |] eqn:Ec; cbn [bind].
  2,3: split; [discriminate|]; intros (H & _); destruct (proj2 Hs H); discriminate.
  destruct (col_ok T _ _ Ec empty_inv) as ([V1 V2 V3] & Ei & Ee & El). cbn [t_imports t_exports t_linkonce exported lookup app] in Ei, Ee, El.
  assert (HT : forall id n k, In (id, n, k) T -> exists s, symbol_info m id n = Ok s) by (apply Hs; eauto). clear Hs.
  assert (Hnone : forall n, lookup n (t_exports t) = None <-> named LinkageExport n T = []).
  { intro n. rewrite <- Ee. unfold exported. specialize (V2 n). destruct (lookup n (t_exports t)); split; congruence. }
  destruct (add_linkonce_spec (t_linkonce t) (t_exports t) V3) as [A1 A2].
  assert (Hx : (forall n, In n (map fst (t_linkonce t)) -> lookup n (t_exports t) = None) <-> (forall n, named LinkageLinkOnceODR n T <> [] -> named LinkageExport n T = [])).
  { split; intros H n Hn; apply Hnone.
    - apply H. destruct (in_dec (list_eq_dec N.eq_dec) n (map fst (t_linkonce t))) as [I|I]; [exact I|]. apply lookup_none_keys in I. rewrite El in I.
      destruct (named LinkageLinkOnceODR n T); [contradiction | discriminate].
    - apply H. intro E. specialize (El n). rewrite E in El. cbn in El. apply lookup_none_keys in El. contradiction. }
  destruct (add_linkonce (t_linkonce t) (t_exports t)) as [e| |] eqn:Ea; cbn [bind].
  2,3: split; [discriminate|]; intros (_ & H & _); destruct (proj2 A1 (proj2 Hx H)); discriminate.
  assert (HX : forall n, named LinkageLinkOnceODR n T <> [] -> named LinkageExport n T = []) by (apply Hx, A1; eauto).
  destruct (A2 e eq_refl) as [L1 L2]. specialize (L2 V1).
  assert (Hexp : forall n, exported n e = match named LinkageExport n T with [] => match named LinkageLinkOnceODR n T with [] => [] | s :: _ => [s] end | l => l end).
  { intro n. unfold exported. rewrite L1. specialize (Ee n). unfold exported in Ee. pose proof (V2 n) as V. destruct (lookup n (t_exports t)) as [x|].
    - rewrite <- Ee. destruct x; [congruence | reflexivity].
    - rewrite <- Ee, El. destruct (named LinkageLinkOnceODR n T); reflexivity. }
  assert (Hprov : forall n, hd_error (exported n e) = provider n).
  { intro n. rewrite Hexp. unfold provider. destruct (named LinkageExport n T); [|reflexivity]. destruct (named LinkageLinkOnceODR n T); reflexivity. }
  assert (Hlen : existsb (fun p => (1 <? length (snd p))%nat) e = false <-> forall n, (length (named LinkageExport n T) <= 1)%nat).
  { split.
    - intros H n. destruct (named LinkageExport n T) as [|x [|y l']] eqn:En; cbn [length]; try lia. exfalso.
      assert (Hl : lookup n e = Some (x :: y :: l')).
      { rewrite L1. specialize (Ee n). rewrite En in Ee. unfold exported in Ee. destruct (lookup n (t_exports t)); congruence. }
      apply (lookup_in n _ e L2) in Hl. assert (existsb (fun p => (1 <? length (snd p))%nat) e = true); [|congruence].
      apply existsb_exists. exists (n, x :: y :: l'). split; [exact Hl | reflexivity].
    - intro H. apply Bool.not_true_iff_false. intro F. apply existsb_exists in F as ([n ss] & Hin & Hlt). cbn [snd] in Hlt. apply Nat.ltb_lt in Hlt.
      apply (lookup_in n ss e L2) in Hin. specialize (H n). specialize (Hexp n). unfold exported in Hexp. rewrite Hin in Hexp. subst ss.
      destruct (named LinkageExport n T) as [|x xs]; [destruct (named LinkageLinkOnceODR n T); cbn in Hlt; lia|]. cbn [length] in *. lia. }
  destruct (existsb (fun p => (1 <? length (snd p))%nat) e) eqn:Ex.
  - split; [discriminate|]. intros (_ & _ & H & _). apply Hlen in H. discriminate.
  - rewrite find_pairs_spec, Ei.
    assert (Hp : flat_map (fun i => match hd_error (exported (s_name i) e) with Some x => [(i, x)] | None => [] end) (of_kind LinkageImport T) = pairs).
    { unfold pairs. apply flat_map_ext. intro i. rewrite Hprov. reflexivity. }
    rewrite Hp. split.
    + intros [H ->]. split; [exact HT|]. split; [exact HX|]. split; [apply Hlen; reflexivity|]. split; [|reflexivity].
      destruct H as [H|H]; [left; exact H | right; intros i Hi; rewrite <- Hprov; auto].
    + intros (_ & _ & _ & H & ->). split; [|reflexivity]. destruct H as [H|H]; [left; exact H | right; intros i Hi; rewrite Hprov; auto].
Qed.

(** ** In terms of the specification *)
Lemma symbol_info_type id n s : symbol_info m id n = Ok s -> symbol_type m id (s_type s).
Proof.
  unfold symbol_info, symbol_type. destruct (get_def m id) as [d|] eqn:Ed; [|discriminate]. apply get_def_spec in Ed as (H1 & H2 & _).
  destruct (N.eqb_spec (opcode (body d)) OpVariable).
  - intro E. inversion E; subst. exists d. cbn. auto.
  - destruct (N.eqb_spec (opcode (body d)) OpFunction); [|discriminate]. unfold bind. destruct (single_word_in_operand (body d) 1) eqn:Et; try discriminate.
    intro E. inversion E; subst. exists d. cbn. auto.
Qed.
Lemma symbol_info_ok id n : id <> 0 -> ((exists s, symbol_info m id n = Ok s) <-> exists t, symbol_type m id t).
Proof.
  intro H0. split; [intros [s H]; exists (s_type s); exact (symbol_info_type id n s H)|].
  intros (t & d & H1 & H2 & H3). unfold symbol_info. rewrite (proj2 (get_def_spec id d) (conj H1 (conj H2 H0))).
  destruct H3 as [[Ho ->]|[Ho Ht]]; rewrite Ho; [eexists; reflexivity|]. rewrite Ht. cbn [bind]. eexists. reflexivity.
Qed.
Lemma symbol_type_unique id t t' : id <> 0 -> symbol_type m id t -> symbol_type m id t' -> t = t'.
Proof.
  intros H0 (d & D1 & D2 & D3) (d' & D1' & D2' & D3'). pose proof Hwf as (_ & _ & _ & Hu & _). assert (d = d') by (apply Hu; congruence). subst d'.
  destruct D3 as [[Ho ->]|[Ho Ht]], D3' as [[Ho' ->]|[Ho' Ht']]; try reflexivity.
  - rewrite Ho in Ho'. discriminate.
  - rewrite Ho in Ho'. discriminate.
  - rewrite Ht in Ht'. inversion Ht'. reflexivity.
Qed.
Lemma links_nonzero id n k : links m id n k -> id <> 0.
Proof. intros (i & Hi & H & _). pose proof Hwf as (_ & _ & _ & _ & _ & H0 & _). exact (H0 i id n k Hi H). Qed.

Section Symbols.
Hypothesis HT : forall id n k, In (id, n, k) T -> exists s, symbol_info m id n = Ok s.
Lemma in_named k n s : In s (named k n T) <-> exists id, links m id n k /\ symbol_info m id n = Ok s.
Proof.
  unfold named. rewrite in_flat_map. split.
  - intros ([[id n'] k'] & Hx & Hs). apply filter_In in Hx as [Hx Hc]. cbn [fst snd] in Hc. apply Bool.andb_true_iff in Hc as [H1 H2]. apply N.eqb_eq in H1. apply name_eqb_spec in H2.
    subst. exists id. split; [apply in_triples; exact Hx|]. unfold sym_of in Hs. cbn [fst snd] in Hs. destruct (symbol_info m id n); [destruct Hs as [->|[]]; reflexivity | destruct Hs | destruct Hs].
  - intros (id & Hl & Hs). exists (id, n, k). split; [|unfold sym_of; cbn [fst snd]; rewrite Hs; left; reflexivity].
    apply filter_In. split; [apply in_triples; exact Hl|]. cbn [fst snd]. rewrite N.eqb_refl, name_eqb_refl. reflexivity.
Qed.
Lemma in_of_kind k s : In s (of_kind k T) <-> exists id n, links m id n k /\ symbol_info m id n = Ok s.
Proof.
  unfold of_kind. rewrite in_flat_map. split.
  - intros ([[id n'] k'] & Hx & Hs). apply filter_In in Hx as [Hx Hc]. cbn [fst snd] in Hc. apply N.eqb_eq in Hc.
    subst. exists id, n'. split; [apply in_triples; exact Hx|]. unfold sym_of in Hs. cbn [fst snd] in Hs. destruct (symbol_info m id n'); [destruct Hs as [->|[]]; reflexivity | destruct Hs | destruct Hs].
  - intros (id & n & Hl & Hs). exists (id, n, k). split; [|unfold sym_of; cbn [fst snd]; rewrite Hs; left; reflexivity].
    apply filter_In. split; [apply in_triples; exact Hl|]. cbn [fst snd]. rewrite N.eqb_refl. reflexivity.
Qed.
Lemma named_nil k n : named k n T = [] <-> forall id, ~ links m id n k.
Proof.
  split.
  - intros E id Hl. destruct (HT id n k (proj2 (in_triples id n k) Hl)) as [s Hs]. assert (In s (named k n T)) by (apply in_named; eauto). rewrite E in H. destruct H.
  - intro H. destruct (named k n T) as [|s l] eqn:E; [reflexivity|]. exfalso. destruct (proj1 (in_named k n s)) as (id & Hl & _); [rewrite E; left; reflexivity|].
    exact (H id Hl).
Qed.
Lemma triples_nodup : NoDup (map (fun x => fst (fst x)) T).
Proof.
  subst T. pose proof Hwf as (_ & _ & _ & _ & _ & _ & Hone & _). pose proof (incl_refl (annotations m)) as Hincl. revert Hone Hincl.
  generalize (annotations m) at 1 2 3 5. intro is. induction is as [|i is IH]; intros Hone Hincl; [constructor|]. cbn [triples flat_map]. rewrite map_app.
  fold (triples is).
  assert (IH' : NoDup (map (fun x => fst (fst x)) (triples is))).
  { apply IH; [|intros x Hx; apply Hincl; right; exact Hx]. intros k1 k2 i1 i2 id n1 kd1 n2 kd2 E1 E2 L1 L2.
    assert (Datatypes.S k1 = Datatypes.S k2) by (eapply Hone; eauto). congruence. }
  unfold triples_of. destruct (lk i) as [[[id n] k]|] eqn:El; [|exact IH']. destruct (is_built_in m id) eqn:Eb; [exact IH'|]. cbn [map app fst]. constructor; [|exact IH'].
  intro Hin. apply in_map_iff in Hin as ([[id' n'] k'] & Eid & Hin). cbn [fst] in Eid. subst id'. apply in_flat_map in Hin as (j & Hj & Hin).
  assert (Hja : In j (annotations m)) by (apply Hincl; right; exact Hj). apply in_triples_of in Hin as [Hlj _]; [|exact Hja].
  pose proof (shape_lk i (shape_in i (Hincl i (or_introl eq_refl))) _ _ _ El) as Hli. apply In_nth_error in Hj as (p & Hp).
  assert (0%nat = Datatypes.S p) by (eapply (Hone 0%nat (Datatypes.S p) i j); eauto). discriminate.
Qed.
Lemma sublist_nodup_ids k : NoDup (map s_id (of_kind k T)).
Proof.
  unfold of_kind. pose proof triples_nodup as Hn. clear HT. revert Hn. generalize T. intro ts. induction ts as [|[[id n] k'] ts IH]; intro Hn; [constructor|].
  inversion Hn; subst. cbn [filter snd]. destruct (k' =? k); [|apply IH; assumption]. cbn [flat_map]. unfold sym_of at 1. cbn [fst snd].
  destruct (symbol_info m id n) as [s| |] eqn:Es; cbn [app]; try (apply IH; assumption). cbn [map]. constructor; [|apply IH; assumption].
  destruct (symbol_info_fields _ _ _ Es) as [-> _]. intro Hin. apply H1. apply in_map_iff in Hin as (s' & Ei & Hs'). apply in_flat_map in Hs' as ([[id' n'] kk] & Hx & Hs').
  apply filter_In in Hx as [Hx _]. unfold sym_of in Hs'. cbn [fst snd] in Hs'. destruct (symbol_info m id' n') as [s''| |] eqn:Es'; try destruct Hs'. subst s''.
  destruct (symbol_info_fields _ _ _ Es') as [E _]. cbn [fst]. apply in_map_iff. exists (id', n', kk). split; [cbn; congruence | exact Hx]. destruct H.
Qed.
Lemma named_sub k n s : In s (named k n T) -> In s (of_kind k T).
Proof. rewrite in_named, in_of_kind. intros (id & H). eauto. Qed.
Lemma named_nodup k n : NoDup (named k n T).
Proof.
  unfold named. pose proof triples_nodup as Hn. clear HT. revert Hn. generalize T. intro ts. induction ts as [|[[id n0] k'] ts IH]; intro Hn; [constructor|].
  inversion Hn; subst. cbn [filter snd fst]. destruct ((k' =? k) && name_eqb n0 n); [|apply IH; assumption]. cbn [flat_map]. unfold sym_of at 1. cbn [fst snd].
  destruct (symbol_info m id n0) as [s| |] eqn:Es; cbn [app]; try (apply IH; assumption). constructor; [|apply IH; assumption].
  intro Hin. apply H1. apply in_flat_map in Hin as ([[id' n'] kk] & Hx & Hs').
  apply filter_In in Hx as [Hx _]. unfold sym_of in Hs'. cbn [fst snd] in Hs'. destruct (symbol_info m id' n') as [s''| |] eqn:Es'; try destruct Hs'. subst s''.
  destruct (symbol_info_fields _ _ _ Es') as [E _]. destruct (symbol_info_fields _ _ _ Es) as [E2 _]. cbn [fst]. apply in_map_iff. exists (id', n', kk). split; [cbn; congruence | exact Hx]. destruct H.
Qed.
Lemma unique_exports : (forall n, (length (named LinkageExport n T) <= 1)%nat) <-> (forall a b n, links m a n LinkageExport -> links m b n LinkageExport -> a = b).
Proof.
  split.
  - intros H a b n Ha Hb. destruct (HT a n _ (proj2 (in_triples _ _ _) Ha)) as [sa Sa]. destruct (HT b n _ (proj2 (in_triples _ _ _) Hb)) as [sb Sb].
    assert (Ia : In sa (named LinkageExport n T)) by (apply in_named; eauto). assert (Ib : In sb (named LinkageExport n T)) by (apply in_named; eauto).
    specialize (H n). destruct (named LinkageExport n T) as [|x [|y l]]; [destruct Ia | | cbn in H; lia]. destruct Ia as [->|[]], Ib as [->|[]].
    destruct (symbol_info_fields _ _ _ Sa), (symbol_info_fields _ _ _ Sb). congruence.
  - intros H n. pose proof (named_nodup LinkageExport n) as Hn. destruct (named LinkageExport n T) as [|x [|y l]] eqn:E; cbn [length]; try lia. exfalso.
    assert (Ix : In x (named LinkageExport n T)) by (rewrite E; left; reflexivity). assert (Iy : In y (named LinkageExport n T)) by (rewrite E; right; left; reflexivity).
    apply in_named in Ix as (a & La & Sa). apply in_named in Iy as (b & Lb & Sb). assert (a = b) by (eapply H; eauto). subst b. rewrite Sa in Sb. inversion Sb; subst.
    inversion Hn; subst. apply H2. left. reflexivity.
Qed.
Lemma named_app k n a b : named k n (a ++ b) = named k n a ++ named k n b.
Proof. unfold named. rewrite filter_app, flat_map_app. reflexivity. Qed.
Lemma hd_named k n s : forall is, incl is (annotations m) -> (hd_error (named k n (triples is)) = Some s <->
  exists l1 i l2 id, is = l1 ++ i :: l2 /\ links_by m i id n k /\ symbol_info m id n = Ok s /\ forall j id, In j l1 -> ~ links_by m j id n k).
Proof.
  induction is as [|i is IH]; intro Hincl.
  - split; [discriminate|]. intros (l1 & i & l2 & id & E & _). destruct l1; discriminate.
  - assert (Hi : In i (annotations m)) by (apply Hincl; left; reflexivity). assert (Hincl' : incl is (annotations m)) by (intros x Hx; apply Hincl; right; exact Hx).
    specialize (IH Hincl'). cbn [triples flat_map]. fold (triples is). rewrite named_app.
    set (h := named k n (triples_of i)).
    assert (Hh : (h = [] /\ forall id, ~ links_by m i id n k) \/ exists id s', h = [s'] /\ links_by m i id n k /\ symbol_info m id n = Ok s').
    { subst h. unfold named. destruct (triples_of i) as [|[[id n'] k'] tl] eqn:Et.
      - left. split; [reflexivity|]. intros id Hl. apply in_triples_of in Hl; [|exact Hi]. rewrite Et in Hl. destruct Hl.
      - assert (tl = []) as ->.
        { unfold triples_of in Et. destruct (lk i) as [[[a b] c]|]; [|discriminate]. destruct (is_built_in m a); inversion Et. reflexivity. }
        assert (Hl : links_by m i id n' k') by (apply in_triples_of; [exact Hi|]; rewrite Et; left; reflexivity).
        cbn [filter fst snd]. destruct ((k' =? k) && name_eqb n' n) eqn:Ec.
        + apply Bool.andb_true_iff in Ec as [E1 E2]. apply N.eqb_eq in E1. apply name_eqb_spec in E2. subst. right.
          destruct (HT id n k) as [s' Hs']; [apply in_triples; exists i; auto|]. exists id, s'. cbn [flat_map]. unfold sym_of. cbn [fst snd]. rewrite Hs'. auto.
        + left. split; [reflexivity|]. intros id' Hl'. destruct Hl as [Hl _], Hl' as [Hl' _]. destruct (linkage_unique _ _ _ _ _ _ _ Hl Hl') as (_ & -> & ->).
          rewrite N.eqb_refl, name_eqb_refl in Ec. discriminate. }
    destruct Hh as [[-> Hno]|(id0 & s' & -> & Hl & Hs')]; cbn [app].
    + rewrite IH. split.
      * intros (l1 & j & l2 & id & -> & H1 & H2 & H3). exists (i :: l1), j, l2, id. repeat (split; [assumption || reflexivity|]). intros j' id' [<-|Hj]; [apply Hno | apply H3; exact Hj].
      * intros (l1 & j & l2 & id & E & H1 & H2 & H3). destruct l1 as [|x l1]; inversion E; subst; [exfalso; exact (Hno id H1)|]. exists l1, j, l2, id.
        repeat (split; [assumption || reflexivity|]). intros j' id' Hj. apply H3. right. exact Hj.
    + split.
      * intro E. inversion E; subst. exists [], i, is, id0. repeat (split; [assumption || reflexivity|]). intros j id [].
      * intros (l1 & j & l2 & id & E & H1 & H2 & H3). destruct l1 as [|x l1]; inversion E; subst.
        -- destruct Hl as [Hl _], H1 as [H1 _]. destruct (linkage_unique _ _ _ _ _ _ _ Hl H1) as (-> & _). rewrite Hs' in H2. inversion H2. reflexivity.
        -- exfalso. exact (H3 x id0 (or_introl eq_refl) Hl).
Qed.
Lemma first_link_once_spec n e : first_link_once m n e <-> exists s, hd_error (named LinkageLinkOnceODR n T) = Some s /\ symbol_info m e n = Ok s.
Proof.
  split.
  - intros (l1 & i & l2 & E & H1 & H2). assert (Hl : links m e n LinkageLinkOnceODR) by (exists i; split; [rewrite E; apply in_elt | exact H1]).
    destruct (HT _ _ _ (proj2 (in_triples _ _ _) Hl)) as [s Hs]. exists s. split; [|exact Hs]. apply (hd_named _ n s _ (incl_refl _)). exists l1, i, l2, e. auto.
  - intros (s & H & Hs). apply (hd_named _ n s _ (incl_refl _)) in H as (l1 & i & l2 & id & E & H1 & H2 & H3). exists l1, i, l2. split; [exact E|]. split; [|exact H3].
    destruct (symbol_info_fields _ _ _ Hs), (symbol_info_fields _ _ _ H2). congruence.
Qed.
Hypothesis HX : forall n, named LinkageLinkOnceODR n T <> [] -> named LinkageExport n T = [].
Hypothesis HU : forall n, (length (named LinkageExport n T) <= 1)%nat.
Lemma provider_spec n e : provides m n e <-> exists x, provider n = Some x /\ symbol_info m e n = Ok x.
Proof.
  unfold provides, provider. specialize (HU n). specialize (HX n). split.
  - intros [H|H].
    + destruct (HT _ _ _ (proj2 (in_triples _ _ _) H)) as [s Hs]. assert (Hin : In s (named LinkageExport n T)) by (apply in_named; eauto).
      destruct (named LinkageExport n T) as [|x [|y l]]; [destruct Hin | | cbn in HU; lia]. destruct Hin as [->|[]]. eauto.
    + apply first_link_once_spec in H as (s & Hs & Hi). exists s. split; [|exact Hi]. rewrite HX; [exact Hs|]. intro E. rewrite E in Hs. discriminate.
  - intros (x & Hp & Hi). destruct (named LinkageExport n T) as [|y l] eqn:E.
    + right. apply first_link_once_spec. eauto.
    + left. inversion Hp; subst. assert (Hin : In x (named LinkageExport n T)) by (rewrite E; left; reflexivity). apply in_named in Hin as (id & Hl & Hs).
      destruct (symbol_info_fields _ _ _ Hi), (symbol_info_fields _ _ _ Hs). congruence.
Qed.
Lemma in_pairs i x : In (i, x) pairs <-> exists id n e, links m id n LinkageImport /\ provides m n e /\ symbol_info m id n = Ok i /\ symbol_info m e n = Ok x.
Proof.
  unfold pairs. rewrite in_flat_map. split.
  - intros (i' & Hi & Hp). apply in_of_kind in Hi as (id & n & Hl & Hs). destruct (symbol_info_fields _ _ _ Hs) as [_ En]. rewrite En in Hp.
    destruct (provider n) as [y|] eqn:Ep; [|destruct Hp]. destruct Hp as [Hp|[]]. inversion Hp; subst i' y.
    assert (Hx : exists e, symbol_info m e n = Ok x).
    { unfold provider in Ep. destruct (named LinkageExport n T) as [|y l] eqn:E.
      - destruct (named LinkageLinkOnceODR n T) as [|y l] eqn:E'; [discriminate|]. cbn in Ep. assert (y = x) by congruence. subst y.
        destruct (proj1 (in_named LinkageLinkOnceODR n x)) as (e & _ & He); [rewrite E'; left; reflexivity | eauto].
      - assert (y = x) by congruence. subst y. destruct (proj1 (in_named LinkageExport n x)) as (e & _ & He); [rewrite E; left; reflexivity | eauto]. }
    destruct Hx as [e He]. exists id, n, e. split; [exact Hl|]. split; [apply provider_spec; eauto | auto].
  - intros (id & n & e & Hl & Hp & Hi & Hx). exists i. split; [apply in_of_kind; eauto|]. destruct (symbol_info_fields _ _ _ Hi) as [_ ->].
    apply provider_spec in Hp as (y & Ey & Hy). rewrite Ey. rewrite Hx in Hy. inversion Hy. left. reflexivity.
Qed.
Lemma pairs_nodup : NoDup (map (fun p => s_id (fst p)) pairs).
Proof.
  unfold pairs. pose proof (sublist_nodup_ids LinkageImport) as Hn. revert Hn. generalize (of_kind LinkageImport T). intro l. induction l as [|i l IH]; intro Hn; [constructor|].
  inversion Hn; subst. cbn [flat_map]. destruct (provider (s_name i)) as [x|]; [|apply IH; assumption]. cbn [app map fst]. constructor; [|apply IH; assumption].
  intro Hin. apply H1. apply in_map_iff in Hin as ([j y] & E & Hin). cbn [fst] in E. apply in_flat_map in Hin as (j' & Hj & Hin). destruct (provider (s_name j')); [|destruct Hin].
  destruct Hin as [Hin|[]]. inversion Hin; subst. rewrite <- E. apply in_map. exact Hj.
Qed.
End Symbols.

Definition findable (allow_partial : bool) : Prop :=
  (forall id name kind, links m id name kind -> exists t, symbol_type m id t) /\
  (forall a b name, links m a name LinkageExport -> links m b name LinkageExport -> a = b) /\
  (forall a b name, links m a name LinkageExport -> ~ links m b name LinkageLinkOnceODR) /\
  (allow_partial = true \/ forall id name, links m id name LinkageImport -> exists e, provides m name e).
Lemma symbols_ok : (forall id name kind, links m id name kind -> exists t, symbol_type m id t) <-> (forall id n k, In (id, n, k) T -> exists s, symbol_info m id n = Ok s).
Proof.
  split; intros H id n k Hl.
  - apply in_triples in Hl. apply symbol_info_ok; [exact (links_nonzero id n k Hl) | exact (H id n k Hl)].
  - apply (symbol_info_ok id n); [exact (links_nonzero id n k Hl)|]. apply (H id n k). apply in_triples. exact Hl.
Qed.
Lemma get_pairs_spec allow_partial l : get_import_export_pairs allow_partial m = Ok l <-> findable allow_partial /\ l = pairs.
Proof.
  rewrite get_pairs_raw. unfold findable. rewrite symbols_ok. split.
  - intros (H1 & H2 & H3 & H4 & ->). split; [|reflexivity]. split; [exact H1|]. split; [apply (unique_exports H1); exact H3|]. split.
    + intros a b n Ha Hb. assert (named LinkageLinkOnceODR n T <> []) by (rewrite (named_nil H1); intro F; exact (F b Hb)).
      apply H2 in H. rewrite (named_nil H1) in H. exact (H a Ha).
    + destruct H4 as [H4|H4]; [left; exact H4|]. right. intros id n Hl. destruct (H1 _ _ _ (proj2 (in_triples _ _ _) Hl)) as [s Hs].
      specialize (H4 s). destruct (symbol_info_fields _ _ _ Hs) as [_ En]. rewrite En in H4.
      destruct (provider n) as [x|] eqn:Ep; [|exfalso; apply H4; [apply in_of_kind; eauto | reflexivity]].
      assert (Hx : exists e, symbol_info m e n = Ok x).
      { unfold provider in Ep. destruct (named LinkageExport n T) as [|y l'] eqn:E.
        - destruct (named LinkageLinkOnceODR n T) as [|y l'] eqn:E'; [discriminate|]. cbn in Ep. assert (y = x) by congruence. subst y.
          destruct (proj1 (in_named LinkageLinkOnceODR n x)) as (e & _ & He); [rewrite E'; left; reflexivity | eauto].
        - assert (y = x) by congruence. subst y. destruct (proj1 (in_named LinkageExport n x)) as (e & _ & He); [rewrite E; left; reflexivity | eauto]. }
      destruct Hx as [e He]. exists e. apply (provider_spec H1 H2 H3). eauto.
  - intros ((H1 & H2 & H3 & H4) & ->).
    assert (HX : forall n, named LinkageLinkOnceODR n T <> [] -> named LinkageExport n T = []).
    { intros n Hn. apply (named_nil H1). intros a Ha. apply Hn. apply (named_nil H1). intros b Hb. exact (H3 a b n Ha Hb). }
    assert (HU : forall n, (length (named LinkageExport n T) <= 1)%nat) by (apply (unique_exports H1); exact H2).
    split; [exact H1|]. split; [exact HX|]. split; [exact HU|]. split; [|reflexivity].
    destruct H4 as [H4|H4]; [left; exact H4|]. right. intros i Hi. apply in_of_kind in Hi as (id & n & Hl & Hs). destruct (symbol_info_fields _ _ _ Hs) as [_ ->].
    destruct (H4 id n Hl) as [e He]. apply (provider_spec H1 HX HU) in He as (x & -> & _). discriminate.
Qed.
Lemma findable_pairs allow_partial : findable allow_partial ->
  (forall i x, In (i, x) pairs <-> exists id n e, links m id n LinkageImport /\ provides m n e /\ symbol_info m id n = Ok i /\ symbol_info m e n = Ok x) /\
  NoDup (map (fun p => s_id (fst p)) pairs).
Proof.
  intros (H1 & H2 & H3 & _). rewrite symbols_ok in H1. split; [|exact pairs_nodup]. apply (in_pairs H1).
  - intros n Hn. apply (named_nil H1). intros a Ha. apply Hn. apply (named_nil H1). intros b Hb. exact (H3 a b n Ha Hb).
  - apply (unique_exports H1). exact H2.
Qed.
End Module.
