(** * Specification vocabulary for binary64 results

    The real numbers denoted by binary64 values and the constants of rounding-error bounds.  [SF2R]
    is Flocq's interpretation of the standard library's [spec_float] as a real number. *)
From Coq Require Import Reals ZArith List.
From Coq.Floats Require Import SpecFloat.
From Flocq Require Import Core BinarySingleNaN.
From Verif Require Import Scalar Arr Inst Spec.
Local Open Scope R_scope.

(** A value of type f64: mantissa and exponent are canonical and in range. *)
Definition fvalid (x : spec_float) : Prop := valid_binary prec emax x = true.
(** neither infinite nor NaN *)
Definition ffin (x : spec_float) : Prop := is_finite_SF x = true.
(** the real number denoted (0 for infinities and NaN) *)
Definition fr (x : spec_float) : R := SF2R radix2 x.
(** unit roundoff 2^-53 and half of the smallest subnormal, 2^-1075 *)
Definition uro : R := / IZR (2 ^ 53).
Definition eta : R := bpow radix2 (-1075).
(** relative error of a product of k factors, each rounded: (1 + u)^k - 1.
    [PRound.gam_usual]: at most k u / (1 - k u), the usual "gamma_k", when k u < 1. *)
Definition gam (k : nat) : R := (1 + uro) ^ k - 1.

(** Entries of binary64 matrices and vectors as real numbers; every entry is a value of type f64 *)
Definition frm (m : mat FN) : M := fun i j => fr (get m i j).
Definition frv (v : list FN) : nat -> R := fun i => fr (vget v i).
Definition mvalid (m : mat FN) : Prop := forall i j, (i < nr m)%nat -> (j < nc m)%nat -> fvalid (get m i j).
(** absolute values of all entries *)
Definition mabs (A : M) : M := fun i j => Rabs (A i j).
