(** Specification for C14 and C15: what floating point bit patterns and hexadecimal
    floating point texts mean, and what correct rounding is. *)
From Verif Require Import Base NumberSpec.
Local Open Scope N_scope.

(** A non-negative number m * 2^e, and the order on such numbers. *)
Definition dyadic := (N * Z)%type.
Definition scaled (v : dyadic) (k : Z) : Z := (Z.of_N (fst v) * 2 ^ (snd v - k))%Z.
Definition dle (a b : dyadic) : Prop :=
  (scaled a (Z.min (snd a) (snd b)) <= scaled b (Z.min (snd a) (snd b)))%Z.
Definition dlt (a b : dyadic) : Prop :=
  (scaled a (Z.min (snd a) (snd b)) < scaled b (Z.min (snd a) (snd b)))%Z.
Definition deq (a b : dyadic) : Prop :=
  (scaled a (Z.min (snd a) (snd b)) = scaled b (Z.min (snd a) (snd b)))%Z.

(** *** Bit patterns of a format with [eb] exponent bits and [fb] fraction bits *)

(** The sign bit and the rest. *)
Definition sign_of (eb fb b : N) : bool := N.testbit b (eb + fb).
Definition magnitude (eb fb b : N) : N := b mod 2 ^ (eb + fb).
Definition make (eb fb : N) (neg : bool) (p : N) : N := (if neg then 2 ^ (eb + fb) else 0) + p.
(** The number a pattern without sign stands for.  The exponent field with all bits set is read
    like any other here: this gives infinities and NaNs the numbers that their texts denote, and
    the 8-bit E4M3 format uses it for ordinary numbers. *)
Definition value (eb fb p : N) : dyadic :=
  let e := p / 2 ^ fb in
  let m := p mod 2 ^ fb in
  let bias := (2 ^ (Z.of_N eb - 1) - 1)%Z in
  if e =? 0 then (m, (1 - bias - Z.of_N fb)%Z) else (2 ^ fb + m, (Z.of_N e - bias - Z.of_N fb)%Z).
(** Finite numbers, infinity and NaN of the IEEE formats. *)
Definition infinity (eb fb : N) : N := (2 ^ eb - 1) * 2 ^ fb.
Definition finite (eb fb p : N) : Prop := p < infinity eb fb.
Definition is_nan (eb fb p : N) : Prop := infinity eb fb < p < 2 ^ (eb + fb).

(** *** Hexadecimal floating point texts *)
Definition number (base : N) (ds : list N) : N := fold_left (fun a d => base * a + d) ds 0.
Definition decimal_digit (c d : N) : Prop := c = 48 + d /\ d < 10.
(** [hex_float text neg v n w]: the text is a hexadecimal float, negative if [neg], of magnitude
    [v]; it has [n] hexadecimal digits and its exponent is written as plus or minus [w]. *)
Inductive hex_float : list N -> bool -> dyadic -> nat -> N -> Prop :=
  | hf_intro sg neg x ip ids dot fp fds esg eneg es eds :
      (sg, neg) = ([], false) \/ (sg, neg) = ([43], false) \/ (sg, neg) = ([45], true) ->
      x = 120 \/ x = 88 ->
      Forall2 digit ip ids ->
      dot = [] /\ fp = [] \/ dot = [46] ->
      Forall2 digit fp fds ->
      (esg, eneg) = ([], false) \/ (esg, eneg) = ([43], false) \/ (esg, eneg) = ([45], true) ->
      es <> [] -> Forall2 decimal_digit es eds ->
      hex_float (sg ++ [48; x] ++ ip ++ dot ++ fp ++ [112] ++ esg ++ es) neg
        (number 16 (ids ++ fds),
         ((if eneg then - Z.of_N (number 10 eds) else Z.of_N (number 10 eds))
          - 4 * Z.of_nat (length fds))%Z)
        (length (ids ++ fds)) (number 10 eds).

(** *** Rounding of a magnitude [v] to a pattern [p] without sign *)

(** Towards zero: the greatest pattern not above [v].  Patterns are ordered like the numbers
    they stand for, so this is the pattern whose successor is above [v]. *)
Definition rounds_down (eb fb : N) (v : dyadic) (p : N) : Prop :=
  dle (value eb fb p) v /\ dlt v (value eb fb (p + 1)).
(** Away from zero: the least pattern not below [v]. *)
Definition rounds_up (eb fb : N) (v : dyadic) (p : N) : Prop :=
  dle v (value eb fb p) /\ forall q, dle v (value eb fb q) -> p <= q.
(** To the nearest, ties to even: with [p] the pattern below, compare twice [v] with the sum of
    the two neighbours. *)
Definition double (v : dyadic) : dyadic := (fst v, (snd v + 1)%Z).
Definition middle (eb fb p : N) : dyadic :=
  let a := value eb fb p in let b := value eb fb (p + 1) in
  let k := Z.min (snd a) (snd b) in
  (Z.to_N (scaled a k + scaled b k), k).
Definition rounds_nearest (eb fb : N) (v : dyadic) (p : N) : Prop :=
  exists q, rounds_down eb fb v q /\
    (p = q /\ (dlt (double v) (middle eb fb q) \/ deq (double v) (middle eb fb q) /\ N.even q = true
               \/ deq v (value eb fb q))
     \/ p = q + 1 /\ ~ deq v (value eb fb q) /\
        (dlt (middle eb fb q) (double v) \/ deq (double v) (middle eb fb q) /\ N.even q = false)).

(** The pattern that a rounding mode selects for a number of sign [neg] and magnitude [v]. *)
Inductive mode := Toward_zero | Nearest_even | Toward_positive | Toward_negative.
Definition downwards (m : mode) (neg : bool) : bool :=
  match m with Toward_zero => true | Toward_positive => neg | Toward_negative => negb neg | Nearest_even => false end.
Definition selects (eb fb : N) (m : mode) (neg : bool) (v : dyadic) (p : N) : Prop :=
  match m with
  | Nearest_even => rounds_nearest eb fb v p
  | _ => if downwards m neg then rounds_down eb fb v p else rounds_up eb fb v p
  end.
