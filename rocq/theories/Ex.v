(** * Concrete matrices used in the non-vacuity examples *)
From Coq Require Import Reals List ZArith.
From Coq.Floats Require Import SpecFloat.
From Verif Require Import Scalar Arr Inst.
Import ListNotations.

(** Real and binary64 matrices from lists of integer rows *)
Definition rmat (c : nat) (l : list (list Z)) : mat RN := Mat (length l) c (map (map IZR) l).
Definition fmat (c : nat) (l : list (list Z)) : mat FN := Mat (length l) c (map (map f_of_Z) l).
Definition fnan : FN := S754_nan.

(** The rational value of a finite binary64 number (0 for NaN and infinities) *)
Definition fq (x : spec_float) : QArith_base.Q :=
  match x with
  | S754_finite s m e =>
      QArith_base.Qmult (QArith_base.inject_Z (cond_Zopp s (Zpos m))) (QArith_base.Qpower (QArith_base.inject_Z 2) e)
  | _ => QArith_base.inject_Z 0
  end.
(** 2^e as a binary64 number *)
Definition fpow2 (e : Z) : spec_float := binary_round prec emax false 1 e.
