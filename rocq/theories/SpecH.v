(** * Specification vocabulary: binary64 with an arbitrary [hypot]

    [Float::hypot] is the only operation used by the code whose result is not determined by
    IEEE 754: it is a libm function.  [FNh h] is the binary64 instance with [h] in its place, so that
    theorems can be stated for every sufficiently accurate [hypot]; [FN] is the case of a correctly
    rounded one. *)
From Coq Require Import Reals ZArith List.
From Coq.Floats Require Import SpecFloat.
From Flocq Require Import Core BinarySingleNaN.
From Verif Require Import Scalar Arr Inst SpecF.
Local Open Scope R_scope.

Definition FNh (h : spec_float -> spec_float -> spec_float) : Num := {|
  T := spec_float;
  n0 := n0 FN;
  n1 := n1 FN;
  nadd := nadd FN;
  nsub := nsub FN;
  nmul := nmul FN;
  ndiv := ndiv FN;
  nopp := nopp FN;
  nabs := nabs FN;
  nsqrt := nsqrt FN;
  nsignum := nsignum FN;
  nhypot := h;
  nmax := nmax FN;
  nis_zero := nis_zero FN;
  nle := nle FN;
  nlt := nlt FN;
  neq := neq FN;
  nis_neg := nis_neg FN;
  nepsilon := nepsilon FN;
  nneg_inf := nneg_inf FN;
  nofQ := nofQ FN
|}.
#[global] Arguments FNh : simpl never.
Lemma FNh_hypot : FNh f_hypot = FN. Proof. reflexivity. Qed.

(** A [hypot] whose relative error is at most 3 u whenever it returns a number, and that propagates
    NaN.  The arguments are finite and at most 2^500 in size. *)
Definition hyp_good (h : spec_float -> spec_float -> spec_float) : Prop :=
  (forall x y, fvalid x -> ffin x -> fvalid y -> ffin y -> Rabs (fr x) <= bpow radix2 500 -> Rabs (fr y) <= bpow radix2 500 ->
    let r := sqrt (fr x * fr x + fr y * fr y) in
    h x y = S754_nan \/ (fvalid (h x y) /\ ffin (h x y) /\ Rabs (fr (h x y) - r) <= 3 * uro * r)) /\
  (forall y, ffin y -> h S754_nan y = S754_nan).
(** A [hypot] that is within one ulp: 2 u relative, and 2^-1074 = 2 eta for subnormal results. *)
Definition hyp_ulp (h : spec_float -> spec_float -> spec_float) : Prop :=
  (forall x y, fvalid x -> ffin x -> fvalid y -> ffin y -> Rabs (fr x) <= bpow radix2 500 -> Rabs (fr y) <= bpow radix2 500 ->
    let r := sqrt (fr x * fr x + fr y * fr y) in
    fvalid (h x y) /\ ffin (h x y) /\ Rabs (fr (h x y) - r) <= 2 * uro * r + 2 * eta) /\
  (forall y, ffin y -> h S754_nan y = S754_nan).
(** [hypot] with a guard: NaN instead of a result below 2^-1000, where one ulp may be a large
    relative error. *)
Definition guarded (h : spec_float -> spec_float -> spec_float) (x y : spec_float) : spec_float :=
  let r := h x y in if SFltb r (SpecFloat.binary_round prec emax false 1 (-1000)) then S754_nan else r.
