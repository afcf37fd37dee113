(** * Property C61: binary64 eigh can return vectors that are nowhere near an eigenvector *)
From Coq Require Import Reals List Arith Lia Lra Bool ZArith QArith Psatz Qreals.
From Coq.Floats Require Import SpecFloat.
From Flocq Require Import Core BinarySingleNaN.
From Verif Require Import Scalar Arr MBase MDirect MDecomp MEigh Inst Spec SpecF Ex RLin Properties_Rounding Properties_Underflow.
Import ListNotations.
Local Open Scope R_scope.

(** [[-1, o]; [o, fl(1/10)]] with o = 5 * 2^-54, just above the deflation threshold *)
Definition near_off : FN := SpecFloat.binary_round prec emax false 5%positive (-54)%Z.
Definition near_diag : mat FN := Mat 2 2 [[f_of_Z (-1); near_off]; [near_off; ndiv FN (f_of_Z 1) (f_of_Z 10)]].

Definition nd (j : nat) (q : mat FN) : Q := fq (get q j 0%nat).
Definition far_check (a q : mat FN) : bool :=
  let q0 := nd 0%nat q in let q1 := nd 1%nat q in
  let a0 := (fq (get a 0%nat 0%nat) * q0 + fq (get a 0%nat 1%nat) * q1)%Q in
  let a1 := (fq (get a 1%nat 0%nat) * q0 + fq (get a 1%nat 1%nat) * q1)%Q in
  let D := (a0 * q1 - a1 * q0)%Q in
  let s := (q0 * q0 + q1 * q1)%Q in
  Qle_bool (s * s) (25 * (D * D)) && Qle_bool (9 # 10) s && Qle_bool s (11 # 10).

Lemma far_check_ok a q : far_check a q = true ->
  let s := Rsum 2 (fun i => frm q i 0%nat * frm q i 0%nat) in
  9 / 10 <= s <= 11 / 10 /\
  forall lam, s <= 25 * Rsum 2 (fun i => let r := Rsum 2 (fun j => frm a i j * frm q j 0%nat) - lam * frm q i 0%nat in r * r).
Proof.
  unfold far_check, nd. intros h. apply andb_prop in h as [h h3]. apply andb_prop in h as [h1 h2].
  apply Qle_bool_iff, Qle_Rle in h1. apply Qle_bool_iff, Qle_Rle in h2. apply Qle_bool_iff, Qle_Rle in h3.
  repeat (rewrite Q2R_mult in h1 || rewrite Q2R_plus in h1 || rewrite Q2R_minus in h1). repeat (rewrite Q2R_mult in h2 || rewrite Q2R_plus in h2). repeat (rewrite Q2R_mult in h3 || rewrite Q2R_plus in h3).
  repeat rewrite <- Q2R_fq in h1. rewrite <- !Q2R_fq in h2, h3.
  replace (Q2R 25) with 25 in h1 by (unfold Q2R; simpl; lra). replace (Q2R (9 # 10)) with (9 / 10) in h2 by (unfold Q2R; simpl; lra).
  replace (Q2R (11 # 10)) with (11 / 10) in h3 by (unfold Q2R; simpl; lra).
  cbn [Rsum]. unfold frm in *. set (q0 := fr (get q 0%nat 0%nat)) in *. set (q1 := fr (get q 1%nat 0%nat)) in *.
  set (a0 := fr (get a 0%nat 0%nat) * q0 + fr (get a 0%nat 1%nat) * q1) in *. set (a1 := fr (get a 1%nat 0%nat) * q0 + fr (get a 1%nat 1%nat) * q1) in *.
  split; [lra|]. intros lam.
  replace (0 + fr (get a 0%nat 0%nat) * q0 + fr (get a 0%nat 1%nat) * q1) with a0 by (unfold a0; ring).
  replace (0 + fr (get a 1%nat 0%nat) * q0 + fr (get a 1%nat 1%nat) * q1) with a1 by (unfold a1; ring).
  set (r0 := a0 - lam * q0). set (r1 := a1 - lam * q1). set (s := q0 * q0 + q1 * q1) in *.
  assert (e : a0 * q1 - a1 * q0 = r0 * q1 - r1 * q0) by (unfold r0, r1; ring). rewrite e in h1.
  assert (cs : (r0 * q1 - r1 * q0) * (r0 * q1 - r1 * q0) <= (r0 * r0 + r1 * r1) * s).
  { pose proof (Rle_0_sqr (r0 * q0 + r1 * q1)) as g. unfold Rsqr in g. unfold s. nra. }
  assert (s * s <= 25 * (r0 * r0 + r1 * r1) * s) by lra.
  assert (s <= 25 * (r0 * r0 + r1 * r1)) by (apply Rmult_le_reg_r with s; lra).
  unfold s in *. lra.
Qed.

(** C61.  A finite symmetric matrix with entries of size at most 1 on which eigh succeeds and returns a
    vector v of norm close to 1 with ||A v - lam v|| >= ||v|| / 5 for every number lam. *)
Theorem C61_eigenvectors_refuted : exists (a : mat FN) vals q,
  mokb a = true /\ a = transpose a /\ nr a = 2%nat /\ nc a = 2%nat /\
  (forall i j, (i < 2)%nat -> (j < 2)%nat -> Rabs (frm a i j) <= 1) /\
  eigh 100 a = Ret (vals, q) /\
  let s := Rsum 2 (fun i => frm q i 0%nat * frm q i 0%nat) in
  9 / 10 <= s <= 11 / 10 /\
  forall lam, s <= 25 * Rsum 2 (fun i => let r := Rsum 2 (fun j => frm a i j * frm q j 0%nat) - lam * frm q i 0%nat in r * r).
Proof.
  assert (chk : forall a (f : mat FN -> bool), match eigh 100 a with Ret (_, q) => f q | _ => false end = true -> exists vals q, eigh 100 a = Ret (vals, q) /\ f q = true).
  { intros a f. destruct (eigh 100 a) as [[v q]| | | |]; try discriminate. intros h. exists v, q. auto. }
  destruct (chk near_diag (far_check near_diag)) as (v & q & e & h); [vm_compute; reflexivity|].
  exists near_diag, v, q. split; [vm_compute; reflexivity|]. split; [vm_compute; reflexivity|]. split; [reflexivity|]. split; [reflexivity|]. split; [|split; [exact e|]].
  - intros i j hi hj. unfold frm. rewrite Q2R_fq.
    assert (g : Qle_bool (fq (get near_diag i j)) 1 && Qle_bool (-1) (fq (get near_diag i j)) = true).
    { destruct i as [|[|i]]; [| |lia]; (destruct j as [|[|j]]; [| |lia]); vm_compute; reflexivity. }
    apply andb_prop in g as [g1 g2]. apply Qle_bool_iff, Qle_Rle in g1, g2. apply Rabs_le.
    replace (Q2R 1) with 1 in g1 by (unfold Q2R; simpl; lra). replace (Q2R (-1)) with (-1) in g2 by (unfold Q2R; simpl; lra). lra.
  - exact (far_check_ok _ _ h).
Qed.
Print Assumptions C61_eigenvectors_refuted.

(** The values returned for the same matrix are fine: within 2^-50 of fl(1/10) and -1. *)
Example C61_values : match eigvalsh 100 near_diag with
  | Ret d => Qle_bool (Qabs.Qabs (fq (vget d 0) - (1 # 10))) (1 # 2 ^ 50) && Qle_bool (Qabs.Qabs (fq (vget d 1) + 1)) (1 # 2 ^ 50)
  | _ => false end = true.
Proof. vm_compute. reflexivity. Qed.
