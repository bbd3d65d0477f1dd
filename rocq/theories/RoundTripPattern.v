(** Round trip: which operand types the pattern of an instruction can hold at which place. *)
From Verif Require Import Base Words Operand OperandProofs BinaryParse ParseSpec BinaryParseProofs.
From Verif Require Import TextLex TextSpec Assembler Disassembler RoundTripSpec RoundTripOperand.
Local Open Scope N_scope.
Set Default Proof Using "Type".
Notation lead := RoundTripSpec.lead.

Lemma take_first_case P ty p : take_first_matchable P = Some (ty, p) ->
  (exists t r, P = t :: r /\ ((expand_once t r = None /\ ty = t /\ p = r) \/ expand_once t r = Some (ty :: p))) /\
  (forall q, expand_once ty q = None).
Proof.
  unfold take_first_matchable. destruct P as [|t r]; [discriminate|]. cbn [take_first_loop].
  destruct (expand_once t r) as [p'|] eqn:E.
  - destruct p' as [|a q]; [discriminate|]. cbn [take_first_loop].
    destruct (expand_once a q) as [|] eqn:E2; [discriminate|]. intros H; injection H as <- <-.
    split; [exists t, r; split; [reflexivity|right; exact E]|].
    intros q'. destruct t; try discriminate E; injection E as <- <-; reflexivity.
  - intros H; injection H as <- <-. split; [exists t, r; split; [reflexivity|left; auto]|].
    intros q. destruct t; try discriminate E; reflexivity.
Qed.

Section Pattern.
Variable g : grammar.
Variable t : tables.
Hypothesis K : tables_ok g t.
Variable words : list N.
Variable op : N.
Variable ts : list otype.

Definition plainp (ty : otype) : Prop := plain_type ty = true /\ (strict_mask ty = true -> In ty ts).

Inductive pinv : nat -> pattern -> Prop :=
| pi_lead k tail : (k < length (lead t op))%nat -> ts = lead t op ++ tail -> Forall plainp tail ->
    (only_lead op = true -> tail = []) -> pinv (S k) (skipn k (lead t op) ++ tail)
| pi_tail off p : Forall plainp p -> (length (lead t op) < off)%nat -> (only_lead op = true -> p = []) -> pinv off p
| pi_switch off p : op = OpSwitch -> (3 <= off)%nat ->
    p = [T_ID; T_VARIABLE_LITERAL_INTEGER_ID] \/ p = [T_VARIABLE_LITERAL_INTEGER_ID] -> pinv off p.

Inductive loc (off : nat) (ty : otype) : Prop :=
| loc_lead : (1 <= off)%nat -> nth_error (lead t op) (off - 1) = Some ty -> loc off ty
| loc_switch : op = OpSwitch -> (3 <= off)%nat -> ty = T_ID \/ ty = T_OPTIONAL_TYPED_LITERAL_INTEGER -> loc off ty
| loc_tail : (length (lead t op) < off)%nat -> plainp ty -> only_lead op = false -> loc off ty.

Lemma inner_plainp l : Forall inner_type l -> Forall plainp l.
Proof. intros F. eapply Forall_impl; [|exact F]. intros a [A B]. split; [exact A|]. rewrite B. discriminate. Qed.
Lemma push_plainp l p : Forall inner_type l -> Forall plainp p -> Forall plainp (push_operand_types l p).
Proof.
  intros F H. rewrite push_operand_types_spec. apply Forall_app. split; [|exact H].
  apply inner_plainp. apply Forall_forall. intros a I. apply filter_In in I. destruct I as [I _].
  rewrite Forall_forall in F. exact (F _ I).
Qed.
Lemma mask_plainp ty n w p p' : mask_loop g ty n w p = Ok (Some p') -> Forall plainp p -> Forall plainp p'.
Proof using K.
  revert w p. induction n as [|n IH]; intros w p; cbn [mask_loop].
  - destruct (w =? 0); [intros H; injection H as <-; auto|discriminate].
  - destruct (w =? 0); [intros H; injection H as <-; auto|]. cbv zeta.
    destruct (negb _); [|apply IH].
    destruct (g_operand g ty (2 ^ N.of_nat n)) eqn:E; [|discriminate].
    intros H F. eapply IH; [exact H|]. apply push_plainp; [exact (tk_operand _ _ K _ _ _ E)|exact F].
Qed.

Lemma variable_plainp : plainp T_VARIABLE_ID.
Proof. split; [reflexivity|discriminate]. Qed.

(** The pattern after an operand of a tail *)
Lemma step_tail io ty word off st c st1 c1 o :
  pcase g words io op ty word off st c st1 c1 o -> Forall plainp (c_exp c) -> Forall plainp (c_exp c1).
Proof using K.
  intros [] F; cbn [c_exp with_exp with_type with_result with_ext]; auto.
  - destruct (is_non_semantic _); apply push_plainp; try exact (tk_ext _ _ K _ _ _ H0); auto.
    constructor; [exact variable_plainp|exact F].
  - constructor; [exact variable_plainp|exact F].
  - apply push_plainp; [exact (tk_spec _ _ K _ _ _ _ H0 H1)|exact F].
  - apply push_plainp; [exact (tk_operand _ _ K _ _ _ H0)|exact F].
  - pose proof (mask_plainp _ _ _ _ _ H0 F) as F'. destruct (word =? 0); [|exact F'].
    destruct (g_operand g ty 0) eqn:E; [|exact F']. apply push_plainp; [exact (tk_operand _ _ K _ _ _ E)|exact F'].
Qed.

Lemma expand_plainp ty r a p : expand_once ty r = Some (a :: p) -> plain_type ty = true -> Forall plainp r ->
  (strict_mask ty = true -> In ty ts) ->
  plainp a /\ Forall plainp p.
Proof.
  intros E P F S. destruct ty; try discriminate E; try discriminate P; injection E as <- <-;
    (split; [split; [reflexivity|discriminate]|]); repeat constructor; try reflexivity; try discriminate; exact F.
Qed.

Lemma lead_step io k ty0 ty word off st c st1 c1 o tail :
  nth_error (lead t op) k = Some ty0 -> (only_lead op = true -> tail = []) -> Forall plainp tail ->
  (forall q, expand_once ty q = None) ->
  (expand_once ty0 (skipn (S k) (lead t op) ++ tail) = None /\ ty = ty0 /\ c_exp c = skipn (S k) (lead t op) ++ tail) \/
    expand_once ty0 (skipn (S k) (lead t op) ++ tail) = Some (ty :: c_exp c) ->
  pcase g words io op ty word off st c st1 c1 o ->
  (o_num_words o = 1 /\ c_exp c1 = skipn (S k) (lead t op) ++ tail) \/
  (length (lead t op) = S k /\ Forall plainp (c_exp c1) /\ (only_lead op = true -> c_exp c1 = [])) \/
  (op = OpSwitch /\ k = 2%nat /\ ty = T_OPTIONAL_TYPED_LITERAL_INTEGER /\ c_exp c1 = [T_ID; T_VARIABLE_LITERAL_INTEGER_ID]).
Proof using K.
  intros L OT FT NV T P.
  assert (C : In ty0 [T_TYPE_ID; T_RESULT_ID; T_ID; T_LITERAL_INTEGER] \/
              (ty0 = T_VARIABLE_LITERAL_INTEGER_ID /\ op = OpSwitch /\ k = 2%nat /\ tail = []) \/
              (length (lead t op) = S k /\
               (In ty0 [T_TYPED_LITERAL_NUMBER; T_LITERAL_STRING; T_OPTIONAL_FPENCODING] /\ tail = [] \/
                ty0 = T_EXTENSION_INSTRUCTION_NUMBER /\ only_lead op = false))).
  { revert L OT. unfold lead, only_lead.
    destruct (N.eqb_spec op OpExtInst) as [->|]; [intros L OT|].
    { destruct k as [|[|[|[|[|k]]]]]; try discriminate L; injection L as <-; simpl; tauto. }
    destruct (N.eqb_spec op OpExtInstWithForwardRefsKHR) as [->|]; [intros L OT|].
    { destruct k as [|[|[|[|[|k]]]]]; try discriminate L; injection L as <-; simpl; tauto. }
    cbn [orb]. destruct (N.eqb_spec op OpConstant); cbn [orb].
    { intros L OT. destruct k as [|[|[|[|k]]]]; try discriminate L; injection L as <-; simpl; tauto. }
    destruct (N.eqb_spec op OpSpecConstant); cbn [orb].
    { intros L OT. destruct k as [|[|[|[|k]]]]; try discriminate L; injection L as <-; simpl; tauto. }
    destruct (N.eqb_spec op OpSwitch); cbn [orb].
    { intros L OT. destruct k as [|[|[|[|k]]]]; try discriminate L; injection L as <-; simpl; tauto. }
    destruct (N.eqb_spec op OpExtInstImport); cbn [orb].
    { intros L OT. destruct k as [|[|[|k]]]; try discriminate L; injection L as <-; simpl; tauto. }
    destruct (N.eqb_spec op OpTypeInt); cbn [orb].
    { intros L OT. destruct k as [|[|[|[|k]]]]; try discriminate L; injection L as <-; simpl; tauto. }
    destruct (N.eqb_spec op OpTypeFloat); cbn [orb].
    { intros L OT. destruct k as [|[|[|[|k]]]]; try discriminate L; injection L as <-; simpl; tauto. }
    intros L OT. destruct (t_has_type t op), (t_has_result t op); cbn [app] in L;
      destruct k as [|[|k]]; try discriminate L; try (destruct k; discriminate L); injection L as <-; simpl; tauto. }
  destruct C as [C|[(-> & O & -> & ->)|(LL & C)]].
  - left.
    assert (X : ty = ty0 /\ c_exp c = skipn (S k) (lead t op) ++ tail).
    { destruct T as [(_ & A & B)|T]; [auto|]. simpl in C.
      destruct C as [<-|[<-|[<-|[<-|[]]]]]; discriminate T. }
    destruct X as [-> X]. rewrite <- X. clear T NV. simpl in C.
    destruct P; cbn [c_exp with_type with_result with_ext with_exp o_num_words plain_op]; auto;
      exfalso; destruct C as [<-|[<-|[<-|[<-|[]]]]]; try discriminate; repeat match goal with
        | H : _ \/ _ |- _ => destruct H; try discriminate end.
  - right; right. assert (X : ty = T_OPTIONAL_TYPED_LITERAL_INTEGER /\
       c_exp c = [T_ID; T_VARIABLE_LITERAL_INTEGER_ID]).
    { assert (SK : skipn 3 (lead t op) = []) by (rewrite O; reflexivity). rewrite SK in T.
      destruct T as [(T & _)|T]; [discriminate T|]. cbn in T. injection T as <- <-. auto. }
    destruct X as [-> X]. split; [exact O|]. split; [reflexivity|]. split; [reflexivity|].
    destruct P; try discriminate; cbn [c_exp]; auto; repeat match goal with
        | H : _ \/ _ |- _ => destruct H; try discriminate end.
  - right; left. split; [exact LL|].
    assert (SK : skipn (S k) (lead t op) = []) by (rewrite <- LL; apply skipn_all).
    rewrite SK in T. cbn [app] in T.
    assert (X : ty = ty0 /\ c_exp c = tail).
    { destruct T as [(_ & A & B)|T]; [auto|].
      destruct C as [[C _]|[-> _]]; [|discriminate T]. simpl in C.
      destruct C as [<-|[<-|[<-|[]]]]; discriminate T. }
    destruct X as [-> X]. split.
    { eapply step_tail; [exact P|]. rewrite X. exact FT. }
    intros OL. destruct C as [[C ->]|[_ OL']]; [|congruence]. simpl in C. clear T.
    destruct P; cbn [c_exp with_type with_result with_ext with_exp]; auto;
      try (exfalso; destruct C as [<-|[<-|[<-|[]]]]; try discriminate; repeat match goal with
        | H : _ \/ _ |- _ => destruct H; try discriminate end; fail).
    destruct C as [<-|[<-|[<-|[]]]]; try (destruct H; discriminate).
    destruct (tk_enc _ _ K _ _ H0) as [-> _]. exact X.
Qed.

Lemma skipn_cons_nth {A} k (l : list A) x r : skipn k l = x :: r -> nth_error l k = Some x /\ r = skipn (S k) l.
Proof.
  revert l. induction k as [|k IH]; intros [|a l] H; try discriminate; cbn in H.
  - injection H as <- <-. auto.
  - apply (IH l H).
Qed.

Lemma lead_var k x0 : nth_error (lead t op) k = Some x0 ->
  (forall q, expand_once x0 q = None) \/ (op = OpSwitch /\ x0 = T_VARIABLE_LITERAL_INTEGER_ID /\ k = 2%nat).
Proof.
  unfold lead.
  destruct (_ || _); [intros L; destruct k as [|[|[|[|[|k]]]]]; try discriminate L; injection L as <-; left; reflexivity|].
  destruct (_ || _); [intros L; destruct k as [|[|[|[|k]]]]; try discriminate L; injection L as <-; left; reflexivity|].
  destruct (N.eqb_spec op OpSwitch).
  { intros L; destruct k as [|[|[|[|k]]]]; try discriminate L; injection L as <-; (left; reflexivity) || (right; auto). }
  destruct (N.eqb_spec op OpExtInstImport).
  { intros L; destruct k as [|[|[|[|k]]]]; try discriminate L; injection L as <-; left; reflexivity. }
  destruct (N.eqb_spec op OpTypeInt).
  { intros L; destruct k as [|[|[|[|k]]]]; try discriminate L; injection L as <-; left; reflexivity. }
  destruct (N.eqb_spec op OpTypeFloat).
  { intros L; destruct k as [|[|[|[|k]]]]; try discriminate L; injection L as <-; left; reflexivity. }
  intros L. left. destruct (t_has_type t op), (t_has_result t op); cbn [app] in L;
    destruct k as [|[|k]]; try discriminate L; try (destruct k; discriminate L); injection L as <-; reflexivity.
Qed.

Lemma pstep io off P ty p word st c st1 c1 o nw :
  pinv off P -> take_first_matchable P = Some (ty, p) ->
  pcase g words io op ty word (N.of_nat off) st (with_exp c p) st1 c1 o ->
  o_num_words o = N.of_nat nw -> (1 <= nw)%nat ->
  pinv (off + nw) (c_exp c1) /\ loc off ty.
Proof using K.
  intros I T PC NW GE. destruct (take_first_case _ _ _ T) as [(t0 & r & EP & TC) NV].
  destruct I as [k tail LT ET FT OT|off P FP LT OT|off P OS LE EP'].
  - destruct (skipn k (lead t op)) as [|x0 r0] eqn:SK.
    { exfalso. apply (f_equal (@length otype)) in SK. rewrite skipn_length in SK. cbn in SK. lia. }
    destruct (skipn_cons_nth _ _ _ _ SK) as [NE ->]. cbn [app] in EP. injection EP as <- <-.
    destruct (lead_step io k x0 ty word _ st (with_exp c p) st1 c1 o tail NE OT FT NV TC PC)
      as [(N1 & EX)|[(LL & FX & OX)|(OS & -> & -> & EX)]].
    + assert (nw = 1)%nat by lia. subst nw.
      assert (ty = x0 \/ (op = OpSwitch /\ x0 = T_VARIABLE_LITERAL_INTEGER_ID /\ k = 2%nat)).
      { destruct TC as [(_ & -> & _)|TC]; [auto|]. right.
        destruct (lead_var _ _ NE) as [V|V]; [rewrite V in TC; discriminate|exact V]. }
      assert (X : ty = x0).
      { destruct H as [H|(-> & -> & ->)]; [exact H|]. exfalso. cbn in TC.
        destruct TC as [(TC & _)|TC]; [discriminate|]. cbn in TC. injection TC as <- <-.
        destruct PC; repeat match goal with
        | H : _ \/ _ |- _ => destruct H; try discriminate end; try discriminate.
        all: cbn in EX; rewrite (OT eq_refl) in EX; discriminate EX. }
      subst x0. split.
      * rewrite EX. destruct (Nat.eq_dec (S k) (length (lead t op))) as [L|L].
        { rewrite L, skipn_all. cbn [app]. apply pi_tail; [exact FT|lia|exact OT]. }
        { replace (S k + 1)%nat with (S (S k)) by lia. apply pi_lead; auto. lia. }
      * apply loc_lead; [lia|]. replace (S k - 1)%nat with k by lia. exact NE.
    + split; [apply pi_tail; [exact FX|lia|exact OX]|].
      assert (X : ty = x0).
      { destruct TC as [(_ & -> & _)|TC]; [reflexivity|]. exfalso.
        destruct (lead_var _ _ NE) as [V|(-> & -> & _)]; [rewrite V in TC; discriminate|].
        specialize (OX eq_refl). cbn in TC. injection TC as <- <-.
        destruct PC; cbn in OX; try discriminate OX; repeat match goal with
        | H : _ \/ _ |- _ => destruct H; try discriminate end; try discriminate. }
      subst x0. apply loc_lead; [lia|]. replace (S k - 1)%nat with k by lia. exact NE.
    + split; [rewrite EX; apply pi_switch; auto; lia|]. apply loc_switch; auto.
  - rewrite EP in FP. inversion FP as [|? ? [PL ST] FR]; subst.
    assert (OL : only_lead op = false).
    { destruct (only_lead op) eqn:OL; [|reflexivity]. discriminate (OT eq_refl). }
    destruct TC as [(_ & -> & ->)|TC].
    + split; [|apply loc_tail; auto; split; auto].
      apply pi_tail; [eapply step_tail; [exact PC|exact FR]|lia|congruence].
    + destruct (expand_plainp _ _ _ _ TC PL FR ST) as [PA PP].
      split; [|apply loc_tail; auto].
      apply pi_tail; [eapply step_tail; [exact PC|exact PP]|lia|congruence].
  - destruct EP' as [-> | ->]; injection EP as <- <-.
    + destruct TC as [(_ & -> & ->)|TC]; [|discriminate TC]. split; [|apply loc_switch; auto].
      apply pi_switch; [exact OS|lia|]. right.
      destruct PC; cbn; auto; repeat match goal with
        | H : _ \/ _ |- _ => destruct H; try discriminate end; try discriminate.
    + destruct TC as [(TC & _)|TC]; [discriminate TC|]. cbn in TC. injection TC as <- <-.
      split; [|apply loc_switch; auto]. apply pi_switch; [exact OS|lia|]. left.
      destruct PC; cbn; auto; repeat match goal with
        | H : _ \/ _ |- _ => destruct H; try discriminate end; try discriminate.
Qed.

Lemma pinv_start tail : ts = lead t op ++ tail -> Forall (fun ty => plain_type ty = true) tail ->
  (only_lead op = true -> tail = []) -> pinv 1 ts.
Proof.
  intros E F O.
  assert (FP : Forall plainp tail).
  { apply Forall_forall. intros a I. rewrite Forall_forall in F. split; [exact (F _ I)|]. intros _. rewrite E.
    apply in_or_app. auto. }
  destruct (lead t op) as [|a l] eqn:L.
  - cbn in E. subst tail. apply pi_tail; auto. rewrite L. cbn. lia.
  - pose proof (pi_lead 0 tail) as X. rewrite L in X. cbn [skipn] in X. rewrite <- E in X. apply X; auto. cbn. lia.
Qed.
End Pattern.
