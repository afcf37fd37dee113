(** * Instances of [Num]: exact real arithmetic and IEEE 754 binary64 *)
From Coq Require Import Reals ZArith Bool Lra.
From Coq.Floats Require Import SpecFloat.
From Verif Require Import Scalar.

(** ** Exact real arithmetic *)

Definition Rltb (x y : R) : bool := if Rlt_dec x y then true else false.
Definition Rleb (x y : R) : bool := if Rle_dec x y then true else false.
Definition Reqb (x y : R) : bool := if Req_EM_T x y then true else false.

(** [signum] of zero is +1 as for +0.0.  [nneg_inf] is any negative number: the code only folds
    [max] over absolute values starting from it.  [nis_neg] is [x < 0] (no negative zero). *)
Definition RN : Num := {|
  T := R;
  n0 := 0%R;
  n1 := 1%R;
  nadd := Rplus;
  nsub := Rminus;
  nmul := Rmult;
  ndiv := Rdiv;
  nopp := Ropp;
  nabs := Rabs;
  nsqrt := sqrt;
  nsignum := fun x => if Rltb x 0 then (-1)%R else 1%R;
  nhypot := fun x y => sqrt (x * x + y * y);
  nmax := Rmax;
  nis_zero := fun x => Reqb x 0;
  nle := Rleb;
  nlt := Rltb;
  neq := Reqb;
  nis_neg := fun x => Rltb x 0;
  nepsilon := (/ IZR (2 ^ 52))%R;
  nneg_inf := (-1)%R;
  nofQ := fun z p => (IZR z / IZR (Zpos p))%R
|}.

(** ** IEEE 754 binary64, computed with the standard library's executable specification
    [SpecFloat] (round to nearest even); no axioms and no primitive floats are involved. *)

Definition prec := 53%Z.
Definition emax := 1024%Z.

Definition f_of_Z (z : Z) : spec_float :=
  match z with
  | Z0 => S754_zero false
  | Zpos p => binary_round prec emax false p 0
  | Zneg p => binary_round prec emax true p 0
  end.
Definition f_neg (x : spec_float) : bool :=
  match x with
  | S754_zero s | S754_infinity s | S754_finite s _ _ => s
  | S754_nan => false
  end.
Definition f_is_nan (x : spec_float) : bool := match x with S754_nan => true | _ => false end.
Definition f_max (x y : spec_float) : spec_float :=
  if f_is_nan x then y else if f_is_nan y then x else if SFltb x y then y else x.
Definition f_signum (x : spec_float) : spec_float :=
  if f_is_nan x then S754_nan else if f_neg x then f_of_Z (-1) else f_of_Z 1.

(** Correctly rounded [hypot]: the sum of squares is formed exactly, then rooted and rounded once.
    (libm's hypot is within 1 ulp of this.) *)
Definition f_sqrt_exact (m : positive) (e : Z) : spec_float :=
  let '(mz, ez, lz) := SFsqrt_core_binary prec emax (Zpos m) e in
  binary_round_aux prec emax false mz ez lz.
Definition f_hypot (x y : spec_float) : spec_float :=
  match x, y with
  | S754_infinity _, _ | _, S754_infinity _ => S754_infinity false
  | S754_nan, _ | _, S754_nan => S754_nan
  | S754_zero _, _ => SFabs y
  | _, S754_zero _ => SFabs x
  | S754_finite _ m1 e1, S754_finite _ m2 e2 =>
      let e := Z.min e1 e2 in
      let a := Z.shiftl (Zpos m1 * Zpos m1) (2 * (e1 - e)) in
      let b := Z.shiftl (Zpos m2 * Zpos m2) (2 * (e2 - e)) in
      match (a + b)%Z with
      | Zpos p => f_sqrt_exact p (2 * e)
      | _ => S754_nan
      end
  end.

Definition FN : Num := {|
  T := spec_float;
  n0 := S754_zero false;
  n1 := f_of_Z 1;
  nadd := SFadd prec emax;
  nsub := SFsub prec emax;
  nmul := SFmul prec emax;
  ndiv := SFdiv prec emax;
  nopp := SFopp;
  nabs := SFabs;
  nsqrt := SFsqrt prec emax;
  nsignum := f_signum;
  nhypot := f_hypot;
  nmax := f_max;
  nis_zero := fun x => SFeqb x (S754_zero false);
  nle := SFleb;
  nlt := SFltb;
  neq := SFeqb;
  nis_neg := f_neg;
  nepsilon := binary_round prec emax false 1 (-52);
  nneg_inf := S754_infinity true;
  nofQ := fun z p => SFdiv prec emax (f_of_Z z) (f_of_Z (Zpos p))
|}.

#[global] Arguments RN : simpl never.
#[global] Arguments FN : simpl never.
#[global] Arguments T : simpl never.
#[global] Arguments n0 : simpl never.
#[global] Arguments n1 : simpl never.
#[global] Arguments nadd : simpl never.
#[global] Arguments nsub : simpl never.
#[global] Arguments nmul : simpl never.
#[global] Arguments ndiv : simpl never.
#[global] Arguments nopp : simpl never.
#[global] Arguments nabs : simpl never.
#[global] Arguments nsqrt : simpl never.
#[global] Arguments nsignum : simpl never.
#[global] Arguments nhypot : simpl never.
#[global] Arguments nmax : simpl never.
#[global] Arguments nis_zero : simpl never.
#[global] Arguments nle : simpl never.
#[global] Arguments nlt : simpl never.
#[global] Arguments neq : simpl never.
#[global] Arguments nis_neg : simpl never.
#[global] Arguments nepsilon : simpl never.
#[global] Arguments nneg_inf : simpl never.
#[global] Arguments nofQ : simpl never.
#[global] Arguments ntwo : simpl never.
#[global] Arguments nhalf : simpl never.
