(** Properties C37, C42 and C43: target environments. *)
From Coq Require Import String.
From Verif Require Import Base Bytes TextLex ParseNumber TargetEnv TargetEnvSpec TargetEnvProofs.
Local Open Scope list_scope.
Local Open Scope N_scope.

Lemma target_env_eq_dec : forall a b : target_env, {a = b} + {a <> b}.
Proof. decide equality. Defined.

(** ** C37 *)
(** A string is recognised as the environment with the longest name it starts with; otherwise the call fails
    and reports SPIR-V 1.0. *)
Theorem target_env_longest_name : forall s e,
  (parse_target_env (Some s) = (true, e) <->
   exists n, In (n, e) target_env_names /\ prefix_of n s /\
     forall n' e', In (n', e') target_env_names -> prefix_of n' s -> (length n' <= length n)%nat) /\
  (fst (parse_target_env (Some s)) = false <->
   forall n e', In (n, e') target_env_names -> ~ prefix_of n s) /\
  (forall r, fst (parse_target_env r) = false -> snd (parse_target_env r) = UNIVERSAL_1_0).
Proof.
  intros s e. unfold parse_target_env. split; [|split].
  - rewrite <- (find_name_longest s target_env_names e names_no_shadowing).
    destruct (find_name s target_env_names); split; congruence.
  - rewrite <- find_name_none. destruct (find_name s target_env_names); simpl; split; congruence.
  - intros [r|]; [|reflexivity]. destruct (find_name r target_env_names); [discriminate | reflexivity].
Qed.

(** Every name is recognised as its own environment. *)
Theorem target_env_names_round_trip : forall n e, In (n, e) target_env_names ->
  parse_target_env (Some n) = (true, e).
Proof.
  assert (H : forallb (fun p => match parse_target_env (Some (fst p)) with
                                | (true, e) => if target_env_eq_dec e (snd p) then true else false
                                | _ => false end) target_env_names = true) by (vm_compute; reflexivity).
  rewrite forallb_forall in H. intros n e Hin. specialize (H _ Hin). cbn [fst snd] in H.
  destruct (parse_target_env (Some n)) as [[] e']; [|discriminate].
  destruct (target_env_eq_dec e' e); [congruence | discriminate].
Qed.

(** The environments with a name are the valid ones, each with exactly one name, whose first letters tell the
    class of the environment (and log string); every valid environment has a version 1.0 to 1.6, which its description
    confirms. *)
Definition named (prefix : list N) (e : target_env) : Prop := exists rest, In (prefix ++ rest, e) target_env_names.
Definition namedb (prefix : list N) (e : target_env) : bool :=
  existsb (fun p => (if target_env_eq_dec (snd p) e then true else false) && is_prefix prefix (fst p)) target_env_names.
Lemma namedb_spec p e : namedb p e = true <-> named p e.
Proof.
  unfold namedb, named. rewrite existsb_exists. split.
  - intros ([n e'] & Hin & H). apply andb_true_iff in H as [H1 H2]. cbn [fst snd] in *.
    destruct (target_env_eq_dec e' e); [subst | discriminate]. apply is_prefix_spec in H2 as [rest ->]. eauto.
  - intros [rest Hin]. exists (p ++ rest, e). split; [exact Hin|]. cbn [fst snd].
    destruct (target_env_eq_dec e e); [|congruence]. apply is_prefix_spec. exists rest. reflexivity.
Qed.
Lemma all_envs_complete e : In e all_envs.
Proof. destruct e; vm_compute; tauto. Qed.
Lemma check_all (f : target_env -> bool) : forallb f all_envs = true -> forall e, f e = true.
Proof. rewrite forallb_forall. intros H e. apply H, all_envs_complete. Qed.
Lemma class_check c p : forallb (fun e => Bool.eqb (c e) (namedb p e)) all_envs = true ->
  forall e, c e = true <-> named p e.
Proof.
  intros H e. pose proof (check_all _ H e) as He. apply Bool.eqb_prop in He. rewrite He. apply namedb_spec.
Qed.
Lemma names_functional : NoDup (map snd target_env_names).
Proof.
  cbn [map snd target_env_names]. repeat constructor; simpl; intuition discriminate.
Qed.
Lemma nodup_snd_functional {A B} (l : list (A * B)) a a' b : NoDup (map snd l) -> In (a, b) l -> In (a', b) l -> a = a'.
Proof.
  induction l as [|[x y] l IH]; simpl; intros Hn; [tauto|]. inversion Hn; subst.
  intros [E|H] [E'|H']; try congruence.
  - inversion E; subst. exfalso. apply H1. apply (in_map snd) in H'. exact H'.
  - inversion E'; subst. exfalso. apply H1. apply (in_map snd) in H. exact H.
  - apply IH; auto.
Qed.

Theorem target_envs_consistent : forall e,
  (is_valid_env e = true <-> named [] e) /\
  (forall n n', In (n, e) target_env_names -> In (n', e) target_env_names -> n = n') /\
  (is_vulkan_env e = true <-> named (bytes "vulkan") e) /\
  (is_opencl_env e = true <-> named (bytes "opencl") e) /\
  (is_opengl_env e = true <-> named (bytes "opengl") e) /\
  (log_string_for_env e = bytes "Universal" <-> named (bytes "spv") e) /\
  (log_string_for_env e = bytes "Vulkan" <-> is_vulkan_env e = true) /\
  (log_string_for_env e = bytes "OpenCL" <-> is_opencl_env e = true) /\
  (log_string_for_env e = bytes "OpenGL" <-> is_opengl_env e = true) /\
  (is_valid_env e = true ->
     exists minor, minor <= 6 /\ version_for_target_env e = spirv_word minor /\
       prefix_of (bytes "SPIR-V 1." ++ [48 + minor]) (target_env_description e)).
Proof.
  intro e.
  assert (Hlog : forall s c, forallb (fun e => Bool.eqb (c e) (if list_eq_dec N.eq_dec (log_string_for_env e) s then true else false)) all_envs = true ->
                 (log_string_for_env e = s <-> c e = true)).
  { intros s c H. pose proof (check_all _ H e) as He. apply Bool.eqb_prop in He. rewrite He.
    destruct (list_eq_dec N.eq_dec (log_string_for_env e) s); split; congruence. }
  split; [apply class_check; vm_compute; reflexivity|].
  split; [intros n n'; apply nodup_snd_functional, names_functional|].
  split; [apply class_check; vm_compute; reflexivity|].
  split; [apply class_check; vm_compute; reflexivity|].
  split; [apply class_check; vm_compute; reflexivity|].
  split; [rewrite <- namedb_spec; apply (Hlog _ (namedb (bytes "spv"))); vm_compute; reflexivity|].
  split; [apply Hlog; vm_compute; reflexivity|].
  split; [apply Hlog; vm_compute; reflexivity|].
  split; [apply Hlog; vm_compute; reflexivity|].
  assert (Hv : forallb (fun e => negb (is_valid_env e) ||
            existsb (fun minor => (version_for_target_env e =? spirv_word minor) &&
                       is_prefix (bytes "SPIR-V 1." ++ [48 + minor]) (target_env_description e))
              [0; 1; 2; 3; 4; 5; 6]) all_envs = true) by (vm_compute; reflexivity).
  pose proof (check_all _ Hv e) as He. intro V. cbv beta in He. rewrite V in He. cbn [negb orb] in He.
  apply existsb_exists in He as (minor & Hin & H). apply andb_true_iff in H as [H1 H2].
  exists minor. split; [simpl in Hin; lia|]. split; [apply N.eqb_eq; exact H1 | apply is_prefix_spec; exact H2].
Qed.

(** ** C42 *)
(** The environment read from a text is the released version announced by the first announcing line, and only
    blank and comment lines may come before it. *)
Theorem environment_from_text_header : forall text e,
  read_environment_from_text text = Some e <->
  exists before l after minor,
    lines_of text = before ++ l :: after /\
    Forall (fun h => header_line h /\ ~ version_line h) before /\
    announces l minor /\ universal minor e.
Proof. intros text e. apply read_environment_spec. lia. Qed.
Example environment_from_text_example :
  read_environment_from_text (bytes "; SPIR-V" ++ [10; 32; 13; 10] ++ bytes " ; Version: 1.15" ++ [10] ++ bytes "; Version: 1.5" ++ [13; 10] ++ bytes "OpNop")
    = Some UNIVERSAL_1_5 /\
  read_environment_from_text (bytes "OpNop" ++ [10] ++ bytes "; Version: 1.5") = None /\
  read_environment_from_text (bytes "; Version: 1.7 ") = None.
Proof. vm_compute. auto. Qed.

(** ** C43 *)
(** The environment chosen for a Vulkan and a SPIR-V version supports both, and no environment that supports
    both is less capable in either; the call fails only if there is none. *)
Definition supports (e : target_env) (vulkan spirv : N) : Prop :=
  exists v s, In (e, v, s) ordered_vulkan_envs /\ vulkan <= v /\ spirv <= s.
Theorem vulkan_env_least_sufficient : forall vulkan spirv,
  (forall e, parse_vulkan_env vulkan spirv = Some e ->
     supports e vulkan spirv /\ is_vulkan_env e = true /\
     spirv <= version_for_target_env e /\
     forall e', supports e' vulkan spirv ->
       version_for_target_env e <= version_for_target_env e' /\
       (forall v s v' s', In (e, v, s) ordered_vulkan_envs -> In (e', v', s') ordered_vulkan_envs -> v <= v' /\ s <= s')) /\
  (parse_vulkan_env vulkan spirv = None <-> forall e, ~ supports e vulkan spirv).
Proof.
  intros vulkan spirv.
  assert (Hchain : forallb (fun p => forallb (fun q =>
      let '(e, v, s) := p in let '(e', v', s') := q in
      if target_env_eq_dec e e' then (v =? v') && (s =? s') else true) ordered_vulkan_envs) ordered_vulkan_envs = true)
    by (vm_compute; reflexivity).
  assert (Hver : forall e v s, In (e, v, s) ordered_vulkan_envs -> version_for_target_env e = s /\ is_vulkan_env e = true).
  { assert (H : forallb (fun p => let '(e, v, s) := p in (version_for_target_env e =? s) && is_vulkan_env e) ordered_vulkan_envs = true)
      by (vm_compute; reflexivity).
    rewrite forallb_forall in H. intros e v s Hin. specialize (H _ Hin). cbv beta iota in H.
    apply andb_true_iff in H as [H1 H2]. split; [apply N.eqb_eq; exact H1 | exact H2]. }
  assert (Huniq : forall e v s v' s', In (e, v, s) ordered_vulkan_envs -> In (e, v', s') ordered_vulkan_envs -> v = v' /\ s = s').
  { rewrite forallb_forall in Hchain. intros e v s v' s' H1 H2. specialize (Hchain _ H1). rewrite forallb_forall in Hchain.
    specialize (Hchain _ H2). cbv beta iota in Hchain. destruct (target_env_eq_dec e e); [|congruence].
    apply andb_true_iff in Hchain as [A B]. split; apply N.eqb_eq; assumption. }
  (* the table is ordered *)
  assert (Gen : forall table, (forall p, In p table -> In p ordered_vulkan_envs) ->
     ForallOrdPairs (fun p q => snd (fst p) <= snd (fst q) /\ snd p <= snd q) table ->
     (forall e, find_vulkan table vulkan spirv = Some e -> exists v s, In (e, v, s) table /\ vulkan <= v /\ spirv <= s /\
        forall e' v' s', In (e', v', s') table -> vulkan <= v' -> spirv <= s' -> v <= v' /\ s <= s') /\
     (find_vulkan table vulkan spirv = None <-> forall e v s, In (e, v, s) table -> ~ (vulkan <= v /\ spirv <= s))).
  { induction table as [|[[e v] s] table IH]; intros Hsub Ho.
    - split; [discriminate|]. split; [intros _ ? ? ? [] | reflexivity].
    - inversion Ho as [|? ? Hfirst Ho']; subst. destruct (IH (fun p H => Hsub p (or_intror H)) Ho') as [IH1 IH2].
      cbn [find_vulkan]. destruct (N.leb_spec vulkan v) as [Lv|Lv]; [destruct (N.leb_spec spirv s) as [Ls|Ls]|]; cbn [andb].
      + split; [|split; [discriminate|intro H; exfalso; apply (H e v s); [left; reflexivity | auto]]].
        intros e0 He. inversion He; subst. exists v, s. split; [left; reflexivity|]. split; [exact Lv|]. split; [exact Ls|].
        intros e' v' s' [Eq|Hin] _ _; [inversion Eq; lia|]. rewrite Forall_forall in Hfirst. apply (Hfirst _ Hin).
      + split.
        * intros e0 He. destruct (IH1 e0 He) as (v0 & s0 & Hin & A & B & C). exists v0, s0. split; [right; exact Hin|].
          split; [exact A|]. split; [exact B|]. intros e' v' s' [Eq|Hin'] X Y; [inversion Eq; subst; lia | eapply C; eauto].
        * rewrite IH2. split; [intros H e' v' s' [Eq|Hin']; [inversion Eq; subst; lia | apply (H _ _ _ Hin')] |].
          intros H e' v' s' Hin'. apply (H e' v' s'). right. exact Hin'.
      + split.
        * intros e0 He. destruct (IH1 e0 He) as (v0 & s0 & Hin & A & B & C). exists v0, s0. split; [right; exact Hin|].
          split; [exact A|]. split; [exact B|]. intros e' v' s' [Eq|Hin'] X Y; [inversion Eq; subst; lia | eapply C; eauto].
        * rewrite IH2. split; [intros H e' v' s' [Eq|Hin']; [inversion Eq; subst; lia | apply (H _ _ _ Hin')] |].
          intros H e' v' s' Hin'. apply (H e' v' s'). right. exact Hin'. }
  destruct (Gen ordered_vulkan_envs) as [G1 G2]; [auto | |].
  { unfold ordered_vulkan_envs. repeat constructor; vm_compute; discriminate. }
  split.
  - intros e He. destruct (G1 e He) as (v & s & Hin & Lv & Ls & Hmin). destruct (Hver _ _ _ Hin) as [Hs Hvk].
    split; [exists v, s; auto|]. split; [exact Hvk|]. split; [rewrite Hs; exact Ls|].
    intros e' (v' & s' & Hin' & Lv' & Ls'). destruct (Hver _ _ _ Hin') as [Hs' _]. rewrite Hs, Hs'.
    destruct (Hmin _ _ _ Hin' Lv' Ls') as [A B]. split; [exact B|].
    intros v1 s1 v2 s2 H1 H2. destruct (Huniq _ _ _ _ _ Hin H1) as [<- <-]. destruct (Huniq _ _ _ _ _ Hin' H2) as [<- <-]. auto.
  - unfold parse_vulkan_env. rewrite G2. unfold supports. split.
    + intros H e (v & s & Hin & A & B). apply (H e v s Hin); auto.
    + intros H e v s Hin [A B]. apply (H e). exists v, s. auto.
Qed.
Example vulkan_env_example :
  parse_vulkan_env (vulkan_ver 1 1) (spirv_ver 1 4) = Some VULKAN_1_1_SPIRV_1_4 /\
  parse_vulkan_env (vulkan_ver 1 0) (spirv_ver 1 5) = Some VULKAN_1_2 /\
  parse_vulkan_env (vulkan_ver 1 5) (spirv_ver 1 0) = None.
Proof. vm_compute. auto. Qed.
Example target_env_example :
  parse_target_env (Some (bytes "vulkan1.1spv1.4")) = (true, VULKAN_1_1_SPIRV_1_4) /\
  parse_target_env (Some (bytes "vulkan1.1spv1.3")) = (true, VULKAN_1_1) /\
  parse_target_env (Some (bytes "vulkan")) = (false, UNIVERSAL_1_0).
Proof. vm_compute. auto. Qed.

Print Assumptions target_env_longest_name.
Print Assumptions target_env_names_round_trip.
Print Assumptions target_envs_consistent.
Print Assumptions environment_from_text_header.
Print Assumptions vulkan_env_least_sufficient.
