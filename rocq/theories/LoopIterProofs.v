(** Lemmas on the iteration counts. *)
From Verif Require Import Base LoopIter LoopIterSpec.
Local Open Scope Z_scope.

(** ** Readings *)
Lemma pow_half w : 0 < w -> 2 ^ w = 2 * 2 ^ (w - 1).
Proof. intros H. rewrite <- Z.pow_succ_r by lia. f_equal. lia. Qed.

Lemma reading_mod op w x : 0 < w -> fits op w x -> reading op w (x mod 2 ^ w) = x.
Proof.
  intros Hw. unfold fits, reading, as_signed. pose proof (pow_half w Hw) as E.
  assert (0 < 2 ^ (w - 1)) by (apply Z.pow_pos_nonneg; lia).
  set (h := 2 ^ (w - 1)) in *. rewrite E.
  destruct (op_signed op); intros Hx.
  - destruct (Z_lt_ge_dec x 0) as [Hn|Hn].
    + replace (x mod (2 * h)) with (x + 2 * h) by (apply Z.mod_unique with (-1); lia).
      destruct (x + 2 * h <? h) eqn:E1; lia.
    + rewrite Z.mod_small by lia. destruct (x <? h) eqn:E1; lia.
  - apply Z.mod_small. lia.
Qed.

Lemma mod_reading op w x : 0 < w -> 0 <= x < 2 ^ w -> reading op w x mod 2 ^ w = x.
Proof.
  intros Hw Hx. unfold reading, as_signed. destruct (op_signed op).
  - destruct (x <? 2 ^ (w - 1)).
    + now apply Z.mod_small.
    + symmetry. apply Z.mod_unique with (-1); lia.
  - now apply Z.mod_small.
Qed.

Lemma reading_fits op w x : 0 < w -> 0 <= x < 2 ^ w -> fits op w (reading op w x).
Proof.
  intros Hw Hx. unfold fits, reading, as_signed. pose proof (pow_half w Hw) as E.
  destruct (op_signed op); [|exact Hx].
  destruct (x <? 2 ^ (w - 1)) eqn:E1; lia.
Qed.

Lemma fits_between op w a b x : fits op w a -> fits op w b ->
  (a <= x <= b \/ b <= x <= a) -> fits op w x.
Proof. unfold fits. destruct (op_signed op); lia. Qed.

(** The comparison of the values read. *)
Definition cmpz (op : cmpop) (a b : Z) : bool :=
  match op with
  | ULT | SLT => a <? b
  | UGT | SGT => b <? a
  | UGE | SGE => b <=? a
  | ULE | SLE => a <=? b
  end.

Lemma compares_cmpz op w x y : compares op w x y = cmpz op (reading op w x) (reading op w y).
Proof. reflexivity. Qed.

(** ** The counting formula *)
Lemma ceil_spec d s : 0 < s ->
  let n := if d mod s =? 0 then d / s else d / s + 1 in (n - 1) * s < d <= n * s.
Proof.
  intros Hs. pose proof (Z.div_mod d s ltac:(lia)) as E.
  pose proof (Z.mod_pos_bound d s Hs) as B. cbv zeta.
  destruct (d mod s =? 0) eqn:E0; nia.
Qed.

Lemma ceil_unique d s n : 0 < s -> (n - 1) * s < d <= n * s ->
  (if d mod s =? 0 then d / s else d / s + 1) = n.
Proof.
  intros Hs Hn. pose proof (ceil_spec d s Hs) as H. cbv zeta in H.
  set (m := if d mod s =? 0 then d / s else d / s + 1) in *. clearbody m. nia.
Qed.

Definition stays_then_leaves (op : cmpop) (init step bound n : Z) : Prop :=
  (forall k, 0 <= k < n -> cmpz op (init + k * step) bound = true)
  /\ cmpz op (init + n * step) bound = false.

Ltac b2p := repeat match goal with
  | H : (_ && _) = true |- _ => apply andb_prop in H; destruct H
  | H : (_ || _) = false |- _ => apply orb_false_elim in H; destruct H
  | H : negb _ = false |- _ => apply negb_false_iff in H
  | H : negb _ = true |- _ => apply negb_true_iff in H
  end.

Lemma get_iterations_sound op bound init step n :
  get_iterations op bound init step = Found n -> 0 < n -> stays_then_leaves op init step bound n.
Proof.
  unfold get_iterations, s64. intros H Hn.
  destruct (step =? 0) eqn:E0; [injection H as <-; lia|].
  unfold stays_then_leaves.
  destruct op; cbn [cmpz] in *;
    match type of H with context[negb ?c] => destruct (negb c) eqn:E1 end;
    try (injection H as <-; lia); b2p;
    repeat match type of H with
    | context[in64 ?x] => destruct (in64 x) eqn:?; [|discriminate]
    | (if ?c then _ else _) = _ => destruct c eqn:E2
    end; try (injection H as <-; lia);
    injection H as H; 
    match type of H with context[Z.abs ?d mod Z.abs step] =>
      pose proof (ceil_spec (Z.abs d) (Z.abs step) ltac:(lia)) as C; cbv zeta in C; rewrite H in C end;
    clear H; (split; [intros k Hk|]); 
    (assert (0 < step \/ step < 0) as [Hs|Hs] by lia; [|]); try lia; nia.
Qed.

Lemma stays_unique op init step bound n m : 0 <= n -> 0 <= m ->
  stays_then_leaves op init step bound n -> stays_then_leaves op init step bound m -> n = m.
Proof.
  intros Hn Hm [A1 A2] [B1 B2].
  destruct (Z_lt_ge_dec n m); [specialize (B1 n); rewrite A2 in B1; lia|].
  destruct (Z_lt_ge_dec m n); [specialize (A1 m); rewrite B2 in A1; lia|]. lia.
Qed.

(** Away from the ends of int64_t, a loop that stays and then leaves is counted. *)
Lemma get_iterations_complete op bound init step n :
  - 2 ^ 32 <= bound <= 2 ^ 32 -> - 2 ^ 32 <= init <= 2 ^ 32 ->
  0 < n -> stays_then_leaves op init step bound n ->
  get_iterations op bound init step = Found n.
Proof.
  intros Hb Hi Hn [S1 S2]. pose proof (S1 0 ltac:(lia)) as S0. pose proof (S1 (n - 1) ltac:(lia)) as Sp.
  clear S1. unfold get_iterations, s64, in64.
  assert (step <> 0) as Hs.
  { intros ->. rewrite !Z.mul_0_r in *. congruence. }
  destruct (step =? 0) eqn:E0; [lia|]. rewrite Z.mul_0_l, Z.add_0_r in S0.
  change (2 ^ 63) with 9223372036854775808. change (2 ^ 32) with 4294967296 in *.
  destruct op; cbn [cmpz] in *;
    rewrite ?S0; cbn [negb];
    repeat match goal with |- context[(?a <=? ?b) && (?c <? ?d)] =>
      replace ((a <=? b) && (c <? d)) with true by (symmetry; apply andb_true_intro; lia) end;
    match goal with |- context[if ?c then Found 0 else _] => destruct c eqn:E2 end;
    try (exfalso; apply orb_prop in E2; destruct E2 as [E2|E2]; apply andb_prop in E2; nia);
    b2p; f_equal; (apply ceil_unique; [lia|]);
    (assert (0 < step \/ step < 0) as [Hs'|Hs'] by lia); nia.
Qed.

(** ** Constants *)
Lemma constant_range L w id sgn x : constant_value L w id sgn x -> (0 < w <= 32 \/ w = 64) /\ 0 <= x < 2 ^ w.
Proof.
  intros [s ws Hd He | s Hd Hw].
  - assert (0 < w <= 32 \/ w = 64) as Hw.
    { unfold encoded in He. destruct ws as [|lo [|hi [|? ?]]]; try contradiction; lia. }
    split; [exact Hw|]. assert (0 < 2 ^ w) by (apply Z.pow_pos_nonneg; lia).
    unfold literal_bits. destruct ws as [|lo [|hi [|? ?]]]; try lia; apply Z.mod_pos_bound; lia.
  - split; [exact Hw|]. assert (0 < 2 ^ w) by (apply Z.pow_pos_nonneg; lia). lia.
Qed.

Lemma pow_le32 w : 0 < w <= 32 -> 1 <= 2 ^ (w - 1) <= 2 ^ 31.
Proof.
  intros H. split.
  - assert (0 < 2 ^ (w - 1)) by (apply Z.pow_pos_nonneg; lia). lia.
  - apply Z.pow_le_mono_r; lia.
Qed.

Lemma to_s32_val x : 0 <= x < 2 ^ 32 -> to_s32 x = if x <? 2 ^ 31 then x else x - 2 ^ 32.
Proof.
  intros H. unfold to_s32. destruct (x <? 2 ^ 31) eqn:E.
  - rewrite Z.mod_small; lia.
  - replace ((x + 2 ^ 31) mod 2 ^ 32) with (x - 2 ^ 31); [lia|]. apply Z.mod_unique with 1; lia.
Qed.

Lemma to_s64_val x : 0 <= x < 2 ^ 64 -> to_s64 x = if x <? 2 ^ 63 then x else x - 2 ^ 64.
Proof.
  intros H. unfold to_s64. destruct (x <? 2 ^ 63) eqn:E.
  - rewrite Z.mod_small; lia.
  - replace ((x + 2 ^ 63) mod 2 ^ 64) with (x - 2 ^ 63); [lia|]. apply Z.mod_unique with 1; lia.
Qed.

(** A narrow signed literal. *)
Lemma narrow_signed w lo : 0 < w <= 32 -> 0 <= lo < 2 ^ 32 ->
  lo < 2 ^ (w - 1) \/ 2 ^ 32 - 2 ^ (w - 1) <= lo ->
  to_s32 lo = as_signed w (lo mod 2 ^ w).
Proof.
  intros Hw Hlo He. rewrite to_s32_val by exact Hlo. pose proof (pow_le32 w Hw) as Hh.
  pose proof (pow_half w ltac:(lia)) as E. unfold as_signed. rewrite E.
  set (h := 2 ^ (w - 1)) in *. change (2 ^ 31) with 2147483648 in *. change (2 ^ 32) with 4294967296 in *.
  destruct He as [He|He].
  - rewrite Z.mod_small by lia. destruct (lo <? 2147483648) eqn:E1; destruct (lo <? h) eqn:E2; lia.
  - assert (exists q, 4294967296 = 2 * h * q) as [q Hq].
    { exists (2 ^ (32 - w)). rewrite <- E, <- Z.pow_add_r by lia.
      replace (w + (32 - w)) with 32 by lia. reflexivity. }
    replace (lo mod (2 * h)) with (lo - 4294967296 + 2 * h)
      by (apply Z.mod_unique with (q - 1); lia).
    destruct (lo <? 2147483648) eqn:E1; destruct (lo - 4294967296 + 2 * h <? h) eqn:E2; lia.
Qed.

(** What the counting reads is the value of the constant, by its own type. *)
Lemma extended_value L w id sgn x : constant_value L w id sgn x ->
  exists ws, declared_constant L id = Some (Some (w, sgn, ws))
    /\ (sgn = true -> extended (w, sgn, ws) = as_signed w x)
    /\ (sgn = false -> (w <= 32 \/ x < 2 ^ (w - 1)) -> extended (w, sgn, ws) = x).
Proof.
  intros [s ws Hd He | s Hd Hw]; unfold declared_constant; rewrite Hd.
  - exists (Some ws). split; [reflexivity|]. unfold encoded in He. cbn [extended].
    destruct ws as [|lo [|hi [|? ?]]]; try contradiction; cbn [literal_bits].
    + destruct He as (Hw & Hlo & He). unfold sign_extended, zero_extended.
      replace (w <=? 32) with true by lia. cbn [word0 nth].
      split; intros ->.
      * apply narrow_signed; assumption.
      * intros _. rewrite Z.mod_small by lia. reflexivity.
    + destruct He as (-> & Hlo & Hhi). unfold sign_extended, zero_extended. cbn [word0 word1 nth].
      change (64 <=? 32) with false. cbv iota.
      rewrite Z.mod_small by (change (2 ^ 64) with 18446744073709551616; change (2 ^ 32) with 4294967296 in *; lia).
      rewrite to_s64_val by (change (2 ^ 64) with 18446744073709551616; change (2 ^ 32) with 4294967296 in *; lia).
      replace (hi * 2 ^ 32 + lo) with (lo + 2 ^ 32 * hi) by lia.
      split; intros ->; [reflexivity|]. intros [H|H]; [lia|].
      change (64 - 1) with 63 in H. destruct (lo + 2 ^ 32 * hi <? 2 ^ 63) eqn:E; lia.
  - exists None. split; [reflexivity|]. cbn [extended sign_extended zero_extended].
    unfold as_signed. assert (0 < 2 ^ (w - 1)) by (apply Z.pow_pos_nonneg; lia).
    split; intros ->; [|reflexivity]. replace (0 <? 2 ^ (w - 1)) with true by lia. reflexivity.
Qed.

Lemma extended_reading L op w id sgn x : constant_value L w id sgn x -> reads_alike op w sgn x ->
  exists ws, declared_constant L id = Some (Some (w, sgn, ws))
    /\ extended (w, sgn, ws) = reading op w x.
Proof.
  intros Hc Ha. pose proof (constant_range _ _ _ _ _ Hc) as [Hw Hx].
  destruct (extended_value _ _ _ _ _ Hc) as (ws & Hd & Ht & Hf). exists ws. split; [exact Hd|].
  unfold reads_alike in Ha. unfold reading.
  destruct sgn.
  - rewrite Ht by reflexivity. destruct Ha as [[E _]|Ha].
    + rewrite <- E. reflexivity.
    + destruct (op_signed op); [reflexivity|]. unfold as_signed.
      replace (x <? 2 ^ (w - 1)) with true by lia. reflexivity.
  - rewrite Hf; [|reflexivity|destruct Ha as [[_ [H|H]]|H]; [discriminate|left; exact H|right; exact H]].
    destruct Ha as [[E _]|Ha].
    + rewrite <- E. reflexivity.
    + destruct (op_signed op); [|reflexivity]. unfold as_signed.
      replace (x <? 2 ^ (w - 1)) with true by lia. reflexivity.
Qed.

(** The step that is read is the step, modulo the width. *)
Lemma step_value L w id sgn ws :
  lp_def L id = Some (LConst w sgn ws) -> encoded w sgn ws -> short_step w sgn (literal_bits w ws) ->
  (if sgn then to_s32 (word0 ws) else word0 ws) mod 2 ^ w = literal_bits w ws.
Proof.
  intros Hd He Hs. pose proof (cv_literal L w id sgn ws Hd He) as Hc.
  apply constant_range in Hc. destruct Hc as [Hw Hx].
  unfold encoded in He. destruct ws as [|lo [|hi [|? ?]]]; try contradiction; cbn [literal_bits word0 nth] in *.
  - destruct He as (Hw' & Hlo & He). destruct sgn.
    + rewrite (narrow_signed w) by assumption.
      exact (mod_reading SLT w (lo mod 2 ^ w) ltac:(lia) Hx).
    + reflexivity.
  - destruct He as (-> & Hlo & Hhi). unfold short_step in Hs.
    change (2 ^ 64) with 18446744073709551616 in *. change (2 ^ 32) with 4294967296 in *.
    rewrite (Z.mod_small (lo + 4294967296 * hi)) in * by lia.
    destruct Hs as [Hs|Hs]; [lia|]. destruct sgn.
    + rewrite to_s32_val by (change (2 ^ 32) with 4294967296; lia).
      change (2 ^ 31) with 2147483648 in *. change (2 ^ 32) with 4294967296 in *.
      destruct (lo <? 2147483648) eqn:E.
      * rewrite Z.mod_small by lia. destruct Hs as [Hs|Hs]; nia.
      * symmetry. apply Z.mod_unique with (-1); [lia|]. destruct Hs as [Hs|Hs]; nia.
    + rewrite Z.mod_small by lia. nia.
Qed.

(** ** The shape of a counted loop *)

(** One value from outside, one from inside, in either order. *)
Definition two_args (L : loop) (args : list (N * N)) (vo bo vi bi : N) : Prop :=
  (args = [(vo, bo); (vi, bi)] \/ args = [(vi, bi); (vo, bo)])
  /\ lp_inside L bo = false /\ lp_inside L bi = true.

Record shape (L : loop) (block c t f phi bnd : N) (op : cmpop) (w : Z) (args : list (N * N))
    (vo bo vi bi st : N) (sub : bool) (ssgn : bool) (sws : list Z) : Prop := mkShape {
  sh_term : lp_term L block = Some (TBranchCond c t f);
  sh_cond : lp_def L c = Some (LCmp op phi bnd);
  sh_phi : lp_def L phi = Some (LPhi w args);
  sh_args : two_args L args vo bo vi bi;
  sh_step : lp_def L vi = Some (if sub then LSub phi st else LAdd phi st);
  sh_const : exists w', lp_def L st = Some (LConst w' ssgn sws)
}.

Lemma only_inside_in L ps : forall acc r, only_inside L ps acc = Some r ->
  forall p, In p ps -> lp_inside L p = true -> r = Some p.
Proof.
  induction ps as [|q ps IH]; intros acc r H p Hp Hi; [destruct Hp|].
  cbn [only_inside] in H. destruct (lp_inside L q) eqn:E.
  - destruct acc as [a|]; [discriminate|].
    destruct Hp as [->|Hp].
    + assert (forall ps a r, only_inside L ps (Some a) = Some r -> r = Some a) as G.
      { clear. induction ps as [|q ps IH]; intros a r H; cbn [only_inside] in H; [congruence|].
        destruct (lp_inside L q); [discriminate|]. eapply IH, H. }
      eapply G, H.
    + eapply IH; eassumption.
  - destruct Hp as [->|Hp]; [congruence|]. eapply IH; eassumption.
Qed.

Lemma two_args_shape L v1 l1 v2 l2 vi vo :
  inside_value L [(v1, l1); (v2, l2)] = Some vi ->
  outside_value L [(v1, l1); (v2, l2)] None = Some vo ->
  exists bo bi, two_args L [(v1, l1); (v2, l2)] vo bo vi bi.
Proof.
  cbn [inside_value outside_value]. unfold two_args. intros Hi Ho.
  destruct (lp_inside L l1) eqn:E1; destruct (lp_inside L l2) eqn:E2; try discriminate;
    injection Hi as <-; injection Ho as <-.
  - exists l2, l1. auto.
  - exists l1, l2. auto.
Qed.

(** What a reported count says about the loop. *)
Lemma found_shape L phi c block t f op bnd w v1 l1 v2 l2 r :
  lp_term L block = Some (TBranchCond c t f) ->
  lp_def L c = Some (LCmp op phi bnd) ->
  lp_def L phi = Some (LPhi w [(v1, l1); (v2, l2)]) ->
  find_number_of_iterations L phi c = Found r ->
  exists vo bo vi bi st sub ssgn sws cb ci,
    shape L block c t f phi bnd op w [(v1, l1); (v2, l2)] vo bo vi bi st sub ssgn sws
    /\ declared_constant L bnd = Some (Some cb)
    /\ declared_constant L vo = Some (Some ci)
    /\ c_init r = extended ci
    /\ c_step r = (if sub then - (if ssgn then to_s32 (word0 sws) else word0 sws)
                   else (if ssgn then to_s32 (word0 sws) else word0 sws))
    /\ get_iterations op (extended cb) (c_init r) (c_step r) = Found (c_iterations r)
    /\ 0 < c_iterations r.
Proof.
  intros Ht Hc Hp H. unfold find_number_of_iterations in H. rewrite Hc, Hp in H.
  destruct (declared_constant L bnd) as [[[[wb sb] wsb]|]|] eqn:Eb; try discriminate.
  destruct (64 <? wb); [discriminate|].
  unfold induction_step in H.
  destruct (inside_value L [(v1, l1); (v2, l2)]) as [vi|] eqn:Ei; [|discriminate].
  assert (exists sub a b, lp_def L vi = Some (if sub : bool then LSub a b else LAdd a b)
          /\ (fbind (if negb (a =? phi)%N && negb (b =? phi)%N then Absent
          else match lp_def L a, lp_def L b with
               | Some ia, Some ib =>
                   if negb (is_op_constant ia) && negb (is_op_constant ib) then Absent
                   else Found (sub, a, b)
               | _, _ => Undef
               end) (fun st =>
                let '(sub, _, b) := st in
                match declared_constant L b with
                | None => Absent
                | Some (Some (_, ssgn, Some sws)) =>
                    let v := if ssgn then to_s32 (word0 sws) else word0 sws in
                    let step := if sub then - v else v in
                    fbind (induction_init L [(v1, l1); (v2, l2)]) (fun init =>
                    fbind (get_iterations op (extended (wb, sb, wsb)) init step) (fun n =>
                    if n <=? 0 then Absent else Found (mkCount n step init)))
                | Some _ => Undef
                end)) = Found r) as (sub & a & b & Hv & H').
  { destruct (lp_def L vi) as [[]|] eqn:Ev; try discriminate.
    - exists false, a, b. split; [reflexivity|]. exact H.
    - exists true, a, b. split; [reflexivity|]. exact H. }
  clear H. rename H' into H.
  destruct (negb (a =? phi)%N && negb (b =? phi)%N) eqn:En; [discriminate|].
  destruct (lp_def L a) as [ia|] eqn:Ea; [|discriminate].
  destruct (lp_def L b) as [ib|] eqn:Eib; [|discriminate].
  destruct (negb (is_op_constant ia) && negb (is_op_constant ib)) eqn:Eo; [discriminate|].
  cbn [fbind] in H.
  destruct (declared_constant L b) as [[[[ws' ssgn] [sws|]]|]|] eqn:Est; try discriminate.
  cbv zeta in H.
  destruct (induction_init L [(v1, l1); (v2, l2)]) as [init| |] eqn:Eini; try discriminate.
  cbn [fbind] in H.
  match type of H with fbind ?g _ = _ => destruct g as [n| |] eqn:Eg end; try discriminate.
  cbn [fbind] in H. destruct (n <=? 0) eqn:Enn; [discriminate|]. injection H as <-.
  unfold induction_init in Eini.
  destruct (outside_value L [(v1, l1); (v2, l2)] None) as [vo|] eqn:Eout; [|discriminate].
  destruct (declared_constant L vo) as [[ci|]|] eqn:Eci; try discriminate. injection Eini as <-.
  destruct (two_args_shape _ _ _ _ _ _ _ Ei Eout) as (bo & bi & Hta).
  assert (lp_def L b = Some (LConst ws' ssgn sws)) as Hst.
  { unfold declared_constant in Est. rewrite Eib in Est. rewrite Eib.
    destruct ib; try discriminate; injection Est; intros; subst; reflexivity. }
  assert (a = phi) as ->.
  { assert (b <> phi) as Hne by (intros ->; congruence).
    apply andb_false_iff in En. destruct En as [En|En]; apply negb_false_iff in En; apply N.eqb_eq in En; congruence. }
  exists vo, bo, vi, bi, b, sub, ssgn, sws, (wb, sb, wsb), ci. cbn [c_init c_step c_iterations].
  repeat split; try assumption; try lia.
  - exact (proj1 Hta).
  - apply Hta.
  - apply Hta.
  - now exists ws'.
Qed.

(** ** The counter *)
Section Run.
Variables (L : loop) (block c t f phi bnd : N) (op : cmpop) (w : Z) (args : list (N * N)).
Variables (vo bo vi bi st : N) (sub ssgn : bool) (sws : list Z).
Hypothesis Hsh : shape L block c t f phi bnd op w args vo bo vi bi st sub ssgn sws.

Lemma two_in : In (vo, bo) args /\ In (vi, bi) args.
Proof using Hsh.
  destruct (sh_args _ _ _ _ _ _ _ _ _ _ _ _ _ _ _ _ _ _ Hsh) as [[-> | ->] _]; cbn; auto.
Qed.

Lemma shape_inside : lp_inside L bo = false /\ lp_inside L bi = true.
Proof using Hsh. exact (proj2 (sh_args _ _ _ _ _ _ _ _ _ _ _ _ _ _ _ _ _ _ Hsh)). Qed.

Lemma st_not_phi : st <> phi.
Proof using Hsh.
  intros ->. pose proof (sh_phi _ _ _ _ _ _ _ _ _ _ _ _ _ _ _ _ _ _ Hsh) as H.
  destruct (sh_const _ _ _ _ _ _ _ _ _ _ _ _ _ _ _ _ _ _ Hsh) as [w' Hc]. rewrite H in Hc. discriminate.
Qed.

Variables (isgn : bool) (x0 z : Z).
Hypothesis Hx0 : constant_value L w vo isgn x0.
Hypothesis Hz : constant_value L w st ssgn z.

Lemma counter_at step : step mod 2 ^ w = (if sub then (- z) mod 2 ^ w else z) ->
  forall k, counter L phi w k ((x0 + Z.of_nat k * step) mod 2 ^ w).
Proof using Hsh Hx0 Hz.
  intros Hs. destruct two_in as [Hino Hini]. destruct shape_inside as [Eo Ei].
  pose proof (constant_range _ _ _ _ _ Hx0) as [Hw Hr].
  pose proof (constant_range _ _ _ _ _ Hz) as [_ Hrz].
  induction k as [|k IH].
  - rewrite Z.mul_0_l, Z.add_0_r, Z.mod_small by exact Hr.
    eapply counter_first; [exact (sh_phi _ _ _ _ _ _ _ _ _ _ _ _ _ _ _ _ _ _ Hsh)|exact Hino|exact Eo|exact Hx0].
  - eapply counter_next; [exact IH|exact (sh_phi _ _ _ _ _ _ _ _ _ _ _ _ _ _ _ _ _ _ Hsh)|exact Hini|exact Ei|].
    replace ((x0 + Z.of_nat (S k) * step) mod 2 ^ w) with
      (if sub then ((x0 + Z.of_nat k * step) mod 2 ^ w - z) mod 2 ^ w
       else ((x0 + Z.of_nat k * step) mod 2 ^ w + z) mod 2 ^ w).
    + pose proof (sh_step _ _ _ _ _ _ _ _ _ _ _ _ _ _ _ _ _ _ Hsh) as Hst. pose proof st_not_phi as Hne. clear Hsh IH. destruct sub.
      * eapply rv_sub; [exact Hst|apply ov_phi|eapply ov_constant; [exact Hne|exact Hz]].
      * eapply rv_add; [exact Hst|apply ov_phi|eapply ov_constant; [exact Hne|exact Hz]].
    + replace (x0 + Z.of_nat (S k) * step) with ((x0 + Z.of_nat k * step) + step) by lia.
      rewrite (Zplus_mod (x0 + Z.of_nat k * step) step), Hs. destruct sub.
      * rewrite Zplus_mod_idemp_r. reflexivity.
      * reflexivity.
Qed.

Lemma constant_unique id s1 s2 x y : constant_value L w id s1 x -> constant_value L w id s2 y -> x = y.
Proof using Type.
  intros [s ws Hd He|s Hd Hw] [s' ws' Hd' He'|s' Hd' Hw']; congruence.
Qed.

Lemma counter_val step : step mod 2 ^ w = (if sub then (- z) mod 2 ^ w else z) ->
  forall k x, counter L phi w k x -> x = (x0 + Z.of_nat k * step) mod 2 ^ w.
Proof using Hsh Hx0 Hz.
  intros Hs. destruct shape_inside as [Eo Ei].
  pose proof (constant_range _ _ _ _ _ Hx0) as [Hw Hr].
  pose proof (sh_phi _ _ _ _ _ _ _ _ _ _ _ _ _ _ _ _ _ _ Hsh) as Hphi.
  pose proof (sh_args _ _ _ _ _ _ _ _ _ _ _ _ _ _ _ _ _ _ Hsh) as [Hargs _].
  pose proof (sh_step _ _ _ _ _ _ _ _ _ _ _ _ _ _ _ _ _ _ Hsh) as Hst.
  pose proof st_not_phi as Hne.
  intros k x H. induction H as [args' v b sgn x Hp Hin Hb Hc | k x args' v b y H IH Hp Hin Hb Hr'].
  - rewrite Z.mul_0_l, Z.add_0_r, Z.mod_small by exact Hr.
    rewrite Hphi in Hp. injection Hp as <-.
    assert (v = vo) as ->.
    { destruct Hargs as [-> | ->]; cbn in Hin; destruct Hin as [Hin|[Hin|[]]]; congruence. }
    eapply constant_unique; eassumption.
  - rewrite Hphi in Hp. injection Hp as <-.
    assert (v = vi) as ->.
    { destruct Hargs as [-> | ->]; cbn in Hin; destruct Hin as [Hin|[Hin|[]]]; congruence. }
    assert (forall u, operand_value L phi w x phi u -> u = x) as P.
    { intros u Hu. inversion Hu; subst; [reflexivity|congruence]. }
    assert (forall u, operand_value L phi w x st u -> u = z) as Q.
    { intros u Hu. inversion Hu; subst; [congruence|]. eapply constant_unique; eassumption. }
    replace (x0 + Z.of_nat (S k) * step) with ((x0 + Z.of_nat k * step) + step) by lia.
    rewrite (Zplus_mod (x0 + Z.of_nat k * step) step), Hs, <- IH.
    destruct Hr' as [a b' y z' Hd Ha Hb' | a b' y z' Hd Ha Hb']; rewrite Hst in Hd; destruct sub;
      try discriminate; injection Hd as <- <-; apply P in Ha; apply Q in Hb'; subst.
    + reflexivity.
    + rewrite Zplus_mod_idemp_r. reflexivity.
Qed.
End Run.

(** ** Exactness *)

Lemma stays_to_runs L block c t m phi bnd op w args vo bo vi bi st sub ssgn sws isgn x0 z bsgn y
    (step n : Z) :
  shape L block c t m phi bnd op w args vo bo vi bi st sub ssgn sws ->
  lp_merge L = Some m -> t <> m ->
  constant_value L w vo isgn x0 -> constant_value L w st ssgn z -> constant_value L w bnd bsgn y ->
  step mod 2 ^ w = (if sub then (- z) mod 2 ^ w else z) ->
  0 <= n -> fits op w (reading op w x0 + n * step) ->
  (runs_exactly L block phi w (Z.to_nat n)
   <-> stays_then_leaves op (reading op w x0) step (reading op w y) n).
Proof.
  intros Hsh Hm Htm Hx0 Hz Hy Hs Hn Hfit.
  pose proof (constant_range _ _ _ _ _ Hx0) as [Hw Hr].
  pose proof (constant_range _ _ _ _ _ Hy) as [_ Hry].
  assert (0 < w) as Hw0 by lia.
  pose proof (reading_fits op w x0 Hw0 Hr) as F0.
  assert (bnd <> phi) as Hbp.
  { intros ->. pose proof (sh_phi _ _ _ _ _ _ _ _ _ _ _ _ _ _ _ _ _ _ Hsh) as H.
    destruct Hy as [? ? Hd _|? Hd _]; congruence. }
  assert (forall k, 0 <= k <= n -> reading op w ((x0 + k * step) mod 2 ^ w) = reading op w x0 + k * step) as Hread.
  { intros k Hk. rewrite <- (mod_reading op w x0 Hw0 Hr) at 1. rewrite Zplus_mod_idemp_l.
    apply reading_mod; [exact Hw0|].
    eapply fits_between; [exact F0|exact Hfit|]. destruct (Z_le_gt_dec 0 step); [left|right]; nia. }
  assert (forall k x b', 0 <= k <= n -> branches_to L block phi w ((x0 + k * step) mod 2 ^ w) x ->
            b' = cmpz op (reading op w x0 + k * step) (reading op w y) -> x = if b' then t else m) as Hbr.
  { intros k x b' Hk Hb ->. rewrite <- (Hread k Hk).
    destruct Hb as [c' t' f' op' a b x' y' Ht' Hc' Ha Hb].
    rewrite (sh_term _ _ _ _ _ _ _ _ _ _ _ _ _ _ _ _ _ _ Hsh) in Ht'. injection Ht' as <- <- <-.
    rewrite (sh_cond _ _ _ _ _ _ _ _ _ _ _ _ _ _ _ _ _ _ Hsh) in Hc'. injection Hc' as <- <- <-.
    rewrite compares_cmpz.
    inversion Ha; subst; [|congruence]. inversion Hb; subst; [congruence|].
    assert (y' = y) as -> by (eapply (constant_unique L w bnd); [eassumption|exact Hy]). reflexivity. }
  assert (forall k, 0 <= k <= n -> branches_to L block phi w ((x0 + k * step) mod 2 ^ w)
            (if cmpz op (reading op w x0 + k * step) (reading op w y) then t else m)) as Hbe.
  { intros k Hk. rewrite <- (Hread k Hk), <- compares_cmpz.
    eapply bt; [exact (sh_term _ _ _ _ _ _ _ _ _ _ _ _ _ _ _ _ _ _ Hsh)
               |exact (sh_cond _ _ _ _ _ _ _ _ _ _ _ _ _ _ _ _ _ _ Hsh)
               |apply ov_phi|eapply ov_constant; [exact Hbp|exact Hy]]. }
  pose proof (counter_at _ _ _ _ _ _ _ _ _ _ _ _ _ _ _ _ _ _ Hsh _ _ _ Hx0 Hz step Hs) as Hat.
  pose proof (counter_val _ _ _ _ _ _ _ _ _ _ _ _ _ _ _ _ _ _ Hsh _ _ _ Hx0 Hz step Hs) as Hval.
  clear Hread F0 Hr Hry Hfit.
  split.
  - intros [R1 R2]. split.
    + intros k Hk. destruct (R1 (Z.to_nat k) ltac:(clear - Hk; lia)) as (x & tt & Hc & Hb & Hne).
      apply Hval in Hc. rewrite Z2Nat.id in Hc by (clear - Hk; lia). subst x.
      pose proof (Hbr k tt _ ltac:(clear - Hk; lia) Hb eq_refl) as E.
      destruct (cmpz op (reading op w x0 + k * step) (reading op w y)); [reflexivity|].
      rewrite E in Hne. contradiction.
    + destruct R2 as (x & tt & Hc & Hb & He).
      apply Hval in Hc. rewrite Z2Nat.id in Hc by exact Hn. subst x.
      pose proof (Hbr n tt _ ltac:(clear - Hn; lia) Hb eq_refl) as E.
      destruct (cmpz op (reading op w x0 + n * step) (reading op w y)); [|reflexivity].
      rewrite Hm in He. injection He as He. congruence.
  - intros [S1 S2]. split.
    + intros k Hk. specialize (Hat k). specialize (Hbe (Z.of_nat k) ltac:(clear - Hk; lia)).
      rewrite (S1 (Z.of_nat k) ltac:(clear - Hk; lia)) in Hbe. eexists _, _. split; [exact Hat|]. split; [exact Hbe|].
      rewrite Hm. intros E. injection E as E. congruence.
    + specialize (Hat (Z.to_nat n)). rewrite Z2Nat.id in Hat by exact Hn. specialize (Hbe n ltac:(clear - Hn; lia)).
      rewrite S2 in Hbe. eexists _, _. split; [exact Hat|]. split; [exact Hbe|exact Hm].
Qed.

Lemma declared_value L w id c args bnd :
  well_typed L w args bnd -> id = bnd \/ is_start L args id \/ is_step_operand L args id ->
  declared_constant L id = Some (Some c) ->
  exists x, constant_value L w id (snd (fst c)) x.
Proof.
  intros Hwt Hid Hd. specialize (Hwt id Hid). unfold declared_constant in Hd.
  destruct (lp_def L id) as [[]|] eqn:E; try discriminate; injection Hd as <-; cbn [fst snd].
  - destruct Hwt as [-> He]. eexists. eapply cv_literal; eassumption.
  - destruct Hwt as [-> He]. eexists. eapply cv_null; eassumption.
Qed.

Lemma step_mod (w z v : Z) (sub : bool) : 0 < w -> v mod 2 ^ w = z ->
  (if sub then - v else v) mod 2 ^ w = (if sub then (- z) mod 2 ^ w else z).
Proof.
  intros Hw E. destruct sub; [|exact E]. rewrite <- E.
  pose proof (Zminus_mod_idemp_r 0 v (2 ^ w)) as H. rewrite !Z.sub_0_l in H. symmetry. exact H.
Qed.

Lemma count_exact L block c t m op phi bnd w args r :
  lp_merge L = Some m -> lp_term L block = Some (TBranchCond c t m) -> t <> m ->
  lp_inside L block = true -> In block (lp_merge_preds L) ->
  lp_def L c = Some (LCmp op phi bnd) -> lp_def L phi = Some (LPhi w args) ->
  well_typed L w args bnd ->
  (forall id sgn x, id = bnd \/ is_start L args id -> constant_value L w id sgn x -> reads_alike op w sgn x) ->
  (forall id sgn x, is_step_operand L args id -> constant_value L w id sgn x -> short_step w sgn x) ->
  loop_count L = Found r ->
  fits op w (c_init r + c_iterations r * c_step r) ->
  0 < c_iterations r /\ runs_exactly L block phi w (Z.to_nat (c_iterations r)).
Proof.
  intros Hm Ht Htm Hib Hpr Hc Hp Hwt Hal Hsh Hcount Hfit.
  unfold loop_count in Hcount.
  destruct (find_condition_block L) as [b|] eqn:Eb; [|discriminate].
  assert (b = block) as ->.
  { unfold find_condition_block in Eb. rewrite Hm in Eb.
    destruct (only_inside L (lp_merge_preds L) None) as [q|] eqn:Eo; [|discriminate].
    rewrite (only_inside_in _ _ _ _ Eo _ Hpr Hib) in Eb. rewrite Ht in Eb.
    destruct ((t =? m)%N || (m =? m)%N); congruence. }
  rewrite Ht in Hcount. unfold find_condition_variable in Hcount. rewrite Ht, Hc, Hp in Hcount.
  destruct args as [|[v1 l1] [|[v2 l2] [|? ?]]]; try discriminate.
  destruct (negb (lp_inside L l1) && negb (lp_inside L l2)); [discriminate|].
  destruct (negb (l1 =? lp_latch L)%N && negb (l2 =? lp_latch L)%N); [discriminate|].
  destruct (find_number_of_iterations L phi c) as [r'| |] eqn:Ef; try discriminate.
  cbn [fbind] in Hcount. rewrite Ef in Hcount. injection Hcount as ->.
  destruct (found_shape _ _ _ _ _ _ _ _ _ _ _ _ _ _ Ht Hc Hp Ef)
    as (vo & bo & vi & bi & st & sub & ssgn & sws & [[cbw cbs] cbws] & [[ciw cis] ciws] & S & Dbnd & Dvo & Ei & Es & Eg & Hn).
  split; [exact Hn|].
  pose proof (two_in _ _ _ _ _ _ _ _ _ _ _ _ _ _ _ _ _ _ S) as [Ino Ini].
  pose proof (shape_inside _ _ _ _ _ _ _ _ _ _ _ _ _ _ _ _ _ _ S) as [Eo Ein].
  assert (is_start L [(v1, l1); (v2, l2)] vo) as Hst by (exists bo; auto).
  assert (is_step_operand L [(v1, l1); (v2, l2)] st) as Hsp.
  { exists vi, bi, phi, st. split; [exact Ini|]. split; [exact Ein|].
    pose proof (sh_step _ _ _ _ _ _ _ _ _ _ _ _ _ _ _ _ _ _ S) as Q. destruct sub; auto. }
  destruct (declared_value _ _ _ _ _ _ Hwt (or_introl eq_refl) Dbnd) as [y Hy].
  destruct (declared_value _ _ _ _ _ _ Hwt (or_intror (or_introl Hst)) Dvo) as [x0 Hx0].
  destruct (sh_const _ _ _ _ _ _ _ _ _ _ _ _ _ _ _ _ _ _ S) as [w' Hsc].
  pose proof (Hwt st (or_intror (or_intror Hsp))) as Hte. rewrite Hsc in Hte. destruct Hte as [-> Henc].
  pose proof (cv_literal L w st ssgn sws Hsc Henc) as Hz.
  pose proof (step_value L w st ssgn sws Hsc Henc (Hsh _ _ _ Hsp Hz)) as Hsv.
  destruct (extended_reading _ op _ _ _ _ Hy (Hal _ _ _ (or_introl eq_refl) Hy)) as (wsb & D1 & R1).
  destruct (extended_reading _ op _ _ _ _ Hx0 (Hal _ _ _ (or_intror Hst) Hx0)) as (wso & D2 & R2).
  cbn [fst snd] in *.
  rewrite D1 in Dbnd. injection Dbnd as <- <-. rewrite D2 in Dvo. injection Dvo as <- <-.
  rewrite R1 in Eg. rewrite R2 in Ei.
  pose proof (constant_range _ _ _ _ _ Hz) as [Hw _].
  eapply stays_to_runs; [exact S|exact Hm|exact Htm|exact Hx0|exact Hz|exact Hy| |lia|rewrite <- Ei; exact Hfit|].
  - rewrite Es. apply step_mod; [lia|exact Hsv].
  - rewrite <- Ei. apply get_iterations_sound; assumption.
Qed.

(** ** Completeness *)
Lemma only_inside_filter L ps : forall acc,
  only_inside L ps acc =
  match acc, filter (lp_inside L) ps with
  | Some a, [] => Some (Some a)
  | Some _, _ => None
  | None, [] => Some None
  | None, [p] => Some (Some p)
  | None, _ => None
  end.
Proof.
  induction ps as [|q ps IH]; intros acc; cbn [only_inside filter].
  - now destruct acc.
  - destruct (lp_inside L q).
    + destruct acc; [reflexivity|]. rewrite IH. now destruct (filter (lp_inside L) ps).
    + apply IH.
Qed.

Lemma own_step_value L w st sgn ws : lp_def L st = Some (LConst w sgn ws) -> encoded w sgn ws -> w <= 32 ->
  (if sgn then to_s32 (word0 ws) else word0 ws) = own_value w sgn (literal_bits w ws).
Proof.
  intros Hd He Hw. unfold encoded in He. unfold own_value.
  destruct ws as [|lo [|hi [|? ?]]]; try contradiction; [|lia].
  destruct He as (Hw' & Hlo & He). cbn [word0 nth literal_bits]. destruct sgn.
  - now apply narrow_signed.
  - rewrite Z.mod_small by lia. reflexivity.
Qed.

Lemma reading_small op w x : 0 < w <= 32 -> 0 <= x < 2 ^ w -> - 2 ^ 32 <= reading op w x <= 2 ^ 32.
Proof.
  intros Hw Hx. pose proof (reading_fits op w x ltac:(lia) Hx) as F. unfold fits in F.
  pose proof (pow_le32 w Hw). pose proof (pow_half w ltac:(lia)).
  change (2 ^ 32) with 4294967296. change (2 ^ 31) with 2147483648 in *.
  destruct (op_signed op); lia.
Qed.

Lemma count_complete L block m phi bnd vo st op w sub ssgn sws isgn x0 bsgn y n :
  counting_loop L block m phi bnd vo st op w sub ->
  w <= 32 ->
  lp_def L st = Some (LConst w ssgn sws) -> encoded w ssgn sws ->
  constant_value L w vo isgn x0 -> reads_alike op w isgn x0 ->
  constant_value L w bnd bsgn y -> reads_alike op w bsgn y ->
  let v := own_value w ssgn (literal_bits w sws) in
  let step := if sub then - v else v in
  fits op w (reading op w x0 + n * step) ->
  0 < n -> runs_exactly L block phi w (Z.to_nat n) ->
  loop_count L = Found (mkCount n step (reading op w x0)).
Proof.
  intros CL Hw32 Hst Henc Hx0 Ha0 Hy Hay v step Hfit Hn Hrun.
  destruct CL as [Hm Hex (c & t & Ht & Htm & Hc) (args & bo & vi & Hp & Hargs & Ho & Hi & Hvi)].
  pose proof (constant_range _ _ _ _ _ Hx0) as [Hw Hr0].
  pose proof (constant_range _ _ _ _ _ Hy) as [_ Hry].
  assert (0 < w <= 32) as Hwr by (clear - Hw Hw32; lia).
  assert (shape L block c t m phi bnd op w args vo bo vi (lp_latch L) st sub ssgn sws) as S.
  { constructor; try assumption; [|now exists w]. split; [exact Hargs|]. now split. }
  pose proof (cv_literal L w st ssgn sws Hst Henc) as Hz.
  assert (v = (if ssgn then to_s32 (word0 sws) else word0 sws)) as Ev
    by (symmetry; exact (own_step_value L w st ssgn sws Hst Henc Hw32)).
  assert (v mod 2 ^ w = literal_bits w sws) as Hmv.
  { rewrite Ev. apply (step_value L w st); [exact Hst|exact Henc|left; exact Hw32]. }
  assert (step mod 2 ^ w = (if sub then (- literal_bits w sws) mod 2 ^ w else literal_bits w sws)) as Hsm.
  { unfold step. apply step_mod; [clear - Hwr; lia|exact Hmv]. }
  apply (stays_to_runs _ _ _ _ _ _ _ _ _ _ _ _ _ _ _ _ _ _ _ _ _ _ _ step n S Hm Htm Hx0 Hz Hy Hsm) in Hrun;
    [|clear - Hn; lia|exact Hfit].
  apply get_iterations_complete in Hrun; [|now apply reading_small|now apply reading_small|exact Hn].
  destruct (extended_reading _ op _ _ _ _ Hx0 Ha0) as (wso & D2 & R2).
  destruct (extended_reading _ op _ _ _ _ Hy Hay) as (wsb & D1 & R1).
  assert (find_number_of_iterations L phi c = Found (mkCount n step (reading op w x0))) as Hf.
  { unfold find_number_of_iterations. rewrite Hc, D1.
    replace (64 <? w) with false by (clear - Hwr; lia). rewrite Hp.
    assert (induction_step L phi args = Found (sub, phi, st)) as ->.
    { unfold induction_step.
      assert (inside_value L args = Some vi) as ->.
      { destruct Hargs as [-> | ->]; cbn [inside_value]; rewrite ?Ho, Hi; reflexivity. }
      rewrite Hvi. destruct sub; rewrite N.eqb_refl, Hp, Hst; reflexivity. }
    cbn [fbind]. unfold declared_constant at 1. rewrite Hst. cbv zeta. rewrite <- Ev. fold step.
    assert (induction_init L args = Found (reading op w x0)) as ->.
    { unfold induction_init.
      assert (outside_value L args None = Some vo) as ->.
      { destruct Hargs as [-> | ->]; cbn [outside_value]; rewrite Hi, Ho; reflexivity. }
      rewrite D2, R2. reflexivity. }
    cbn [fbind]. rewrite R1, Hrun. cbn [fbind].
    replace (n <=? 0) with false by (clear - Hn; lia). reflexivity. }
  unfold loop_count, find_condition_block. rewrite Hm, only_inside_filter, Hex, Ht.
  rewrite N.eqb_refl, orb_true_r. rewrite Ht. unfold find_condition_variable. rewrite Ht, Hc, Hp.
  destruct Hargs as [-> | ->]; rewrite Hi, Ho, N.eqb_refl; cbn [negb andb];
    rewrite ?andb_false_r; rewrite Hf; exact Hf.
Qed.

(** ** The residual loop of partial unrolling *)
Lemma residual_splits op w init step bound n factor :
  w = 32 -> fits op w init -> 0 <= bound < 2 ^ w -> 2 <= factor -> 0 < n ->
  (op = SLT \/ op = ULT \/ op = SGT \/ op = UGT) ->
  fits op w (init + n * step) ->
  stays_then_leaves op init step (reading op w bound) n ->
  in64 init = true -> in64 (init + n * step) = true ->
  split_bodies op w (init mod 2 ^ w) step (residual_bound op init step n factor) bound factor n.
Proof.
  intros -> Hi Hb Hf Hn Hop Hfit [S1 S2] I1 I2.
  set (r := n mod factor).
  assert (0 <= r < factor) as Hr by (apply Z.mod_pos_bound; lia).
  assert (n = factor * (n / factor) + r) as Edm by (apply Z.div_mod; lia).
  set (q := n / factor) in *. assert (0 <= q) as Hq by (apply Z.div_pos; lia).
  assert (forall k, 0 <= k <= n -> fits op 32 (init + k * step)) as Hfk.
  { intros k Hk. eapply fits_between; [exact Hi|exact Hfit|].
    destruct (Z_le_gt_dec 0 step); [left|right]; nia. }
  assert (forall k, value_at 32 (init mod 2 ^ 32) step k = (init + k * step) mod 2 ^ 32) as Hv.
  { intros k. unfold value_at. apply Zplus_mod_idemp_l. }
  assert (forall k, 0 <= k <= n -> reading op 32 (value_at 32 (init mod 2 ^ 32) step k) = init + k * step) as Hrd.
  { intros k Hk. rewrite Hv. apply reading_mod; [lia|]. now apply Hfk. }
  assert (residual_bound op init step n factor = (init + r * step) mod 2 ^ 32) as Hrb.
  { unfold residual_bound, residual_value. fold r.
    assert (to_s64 (init + r * step) = init + r * step) as ->.
    { unfold to_s64. unfold in64 in I1, I2. rewrite Z.mod_small; [lia|].
      apply andb_prop in I1, I2. destruct I1 as [I1 I1']. destruct I2 as [I2 I2'].
      change (2 ^ 63) with 9223372036854775808 in *. change (2 ^ 64) with 18446744073709551616.
      apply Z.leb_le in I1, I2. apply Z.ltb_lt in I1', I2'.
      assert (init <= init + r * step <= init + n * step \/ init + n * step <= init + r * step <= init).
      { destruct (Z_le_gt_dec 0 step); [left|right]; nia. }
      lia. }
    destruct Hop as [-> | [-> | [-> | ->]]]; reflexivity. }
  assert (r <= n) as Hrn by nia.
  exists r, q. split; [|split].
  - split; [lia|]. rewrite Hrb. split.
    + intros k Hk. rewrite compares_cmpz, Hrd, reading_mod by (try lia; apply Hfk; lia).
      destruct (Z_lt_ge_dec 0 step) as [Hs|Hs].
      * pose proof (S1 0 ltac:(lia)) as S0. rewrite Z.mul_0_l, Z.add_0_r in S0.
        assert (op = SLT \/ op = ULT) as [-> | ->].
        { destruct Hop as [-> | [-> | [-> | ->]]]; auto; exfalso; cbn [cmpz] in *; nia. }
        { cbn [cmpz]. nia. }
        { cbn [cmpz]. nia. }
      * assert (step <> 0) by (intros ->; rewrite !Z.mul_0_r in *; specialize (S1 0 ltac:(lia)); rewrite Z.mul_0_l in S1; congruence).
        pose proof (S1 0 ltac:(lia)) as S0. rewrite Z.mul_0_l, Z.add_0_r in S0.
        assert (op = SGT \/ op = UGT) as [-> | ->].
        { destruct Hop as [-> | [-> | [-> | ->]]]; auto; exfalso; cbn [cmpz] in *; nia. }
        { cbn [cmpz]. nia. }
        { cbn [cmpz]. nia. }
    + rewrite compares_cmpz, Hrd, reading_mod by (try lia; apply Hfk; lia).
      destruct Hop as [-> | [-> | [-> | ->]]]; cbn [cmpz]; lia.
  - assert (forall k, 0 <= k <= q -> reading op 32 (value_at 32 (value_at 32 (init mod 2 ^ 32) step r) step (k * factor))
                        = init + (r + k * factor) * step) as Hrd2.
    { intros k Hk. unfold value_at at 1. rewrite Hv, Zplus_mod_idemp_l.
      replace (init + r * step + k * factor * step) with (init + (r + k * factor) * step) by lia.
      apply reading_mod; [lia|]. apply Hfk. nia. }
    split; [lia|]. split.
    + intros k Hk. rewrite compares_cmpz, Hrd2 by lia. apply S1. nia.
    + rewrite compares_cmpz, Hrd2 by lia.
      replace (r + q * factor) with n by lia. exact S2.
  - lia.
Qed.
