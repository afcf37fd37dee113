(** * IEEE 754 binary32: the instance of the generic code at [f32] *)
From Coq Require Import ZArith Bool.
From Coq.Floats Require Import SpecFloat.
From Verif Require Import Scalar Inst.

(** The crate is generic in [A: NdFloat] (src/lib.rs, ndarray's trait, implemented for f32 and f64); this is the other instance.
    The literals of the crate are f64 and converted by [A::from], which rounds them once more. *)
Definition prec32 := 24%Z.
Definition emax32 := 128%Z.

Definition g_of_Z (z : Z) : spec_float :=
  match z with
  | Z0 => S754_zero false
  | Zpos p => binary_round prec32 emax32 false p 0
  | Zneg p => binary_round prec32 emax32 true p 0
  end.
(** [x as f32] *)
Definition to_single (x : spec_float) : spec_float :=
  match x with
  | S754_finite s m e => binary_round prec32 emax32 s m e
  | _ => x
  end.
Definition g_signum (x : spec_float) : spec_float :=
  if f_is_nan x then S754_nan else if f_neg x then g_of_Z (-1) else g_of_Z 1.
Definition g_sqrt_exact (m : positive) (e : Z) : spec_float :=
  let '(mz, ez, lz) := SFsqrt_core_binary prec32 emax32 (Zpos m) e in
  binary_round_aux prec32 emax32 false mz ez lz.
(** Correctly rounded, as [f_hypot] *)
Definition g_hypot (x y : spec_float) : spec_float :=
  match x, y with
  | S754_infinity _, _ | _, S754_infinity _ => S754_infinity false
  | S754_nan, _ | _, S754_nan => S754_nan
  | S754_zero _, _ => SFabs y
  | _, S754_zero _ => SFabs x
  | S754_finite _ m1 e1, S754_finite _ m2 e2 =>
      let e := Z.min e1 e2 in
      let a := Z.shiftl (Zpos m1 * Zpos m1) (2 * (e1 - e)) in
      let b := Z.shiftl (Zpos m2 * Zpos m2) (2 * (e2 - e)) in
      match (a + b)%Z with
      | Zpos p => g_sqrt_exact p (2 * e)
      | _ => S754_nan
      end
  end.

Definition FN32 : Num := {|
  T := spec_float;
  n0 := S754_zero false;
  n1 := g_of_Z 1;
  nadd := SFadd prec32 emax32;
  nsub := SFsub prec32 emax32;
  nmul := SFmul prec32 emax32;
  ndiv := SFdiv prec32 emax32;
  nopp := SFopp;
  nabs := SFabs;
  nsqrt := SFsqrt prec32 emax32;
  nsignum := g_signum;
  nhypot := g_hypot;
  nmax := f_max;
  nis_zero := fun x => SFeqb x (S754_zero false);
  nle := SFleb;
  nlt := SFltb;
  neq := SFeqb;
  nis_neg := f_neg;
  nepsilon := binary_round prec32 emax32 false 1 (-23);
  nneg_inf := S754_infinity true;
  nofQ := fun z p => to_single (SFdiv prec emax (f_of_Z z) (f_of_Z (Zpos p)))
|}.
#[global] Arguments FN32 : simpl never.
