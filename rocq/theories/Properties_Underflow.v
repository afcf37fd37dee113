(** * Property C58: underflow in the Householder step gives wrong eigenvalues and singular values *)
From Coq Require Import Reals List Arith Lia Lra Bool ZArith QArith Qpower Psatz Qreals.
From Coq.Floats Require Import SpecFloat.
From Flocq Require Import Core BinarySingleNaN.
From Verif Require Import Scalar Arr MBase MDirect MDecomp MEigh MSvd Inst Spec SpecF Ex RLin PHouseF Properties_Rounding.
Import ListNotations.
Local Open Scope R_scope.

(** t = 78 * 2^-543, about 2.7e-162; its square is subnormal *)
Definition tiny_off : FN := SpecFloat.binary_round prec emax false 78%positive (-543)%Z.
Definition tiny_sym : mat FN := Mat 2 2 [[f_of_Z 1; tiny_off]; [tiny_off; f_of_Z 1]].
Definition tiny_low : mat FN := Mat 2 2 [[f_of_Z 1; f_of_Z 0]; [tiny_off; f_of_Z 1]].

Lemma tiny_bound : 0 < fr tiny_off <= bpow radix2 (-536).
Proof.
  assert (e : tiny_off = S754_finite false 5488762045857792 (-589)) by (vm_compute; reflexivity).
  rewrite e. unfold fr, SF2R, F2R. cbn [Fnum Fexp cond_Zopp]. split.
  - apply Rmult_lt_0_compat; [apply IZR_lt; reflexivity|apply bpow_gt_0].
  - change (bpow radix2 (-536)) with (bpow radix2 (53 + -589)). rewrite bpow_plus. apply Rmult_le_compat_r; [apply bpow_ge_0|]. change (bpow radix2 53) with 9007199254740992. apply IZR_le. discriminate.
Qed.

Lemma pos_pow_1 p : (1 ^ p = 1)%positive.
Proof. apply Pos2Z.inj. rewrite Pos2Z.inj_pow. apply Z.pow_1_l. discriminate. Qed.
Lemma Q2R_fq x : fr x = Q2R (fq x).
Proof.
  destruct x as [s|s| |s m e]; try (unfold fr; simpl; unfold Q2R; simpl; lra).
  unfold fr, SF2R, fq, F2R. cbn [Fnum Fexp]. rewrite Q2R_mult. unfold inject_Z at 1. unfold Q2R at 1. cbn [Qnum Qden]. rewrite Rinv_1, Rmult_1_r. f_equal.
  destruct e as [|p|p]; cbn [Qpower].
  - unfold Q2R. simpl. lra.
  - unfold inject_Z. rewrite (Qpower_decomp_positive p 2 1). unfold Q2R. cbn [Qnum Qden]. rewrite pos_pow_1, Rinv_1, Rmult_1_r. reflexivity.
  - rewrite Q2R_inv; [|intros h0; apply (Qpower_not_0_positive (inject_Z 2) p); [discriminate|exact h0]].
    unfold inject_Z. rewrite (Qpower_decomp_positive p 2 1). unfold Q2R. cbn [Qnum Qden]. rewrite pos_pow_1, Rinv_1, Rmult_1_r. reflexivity.
Qed.
Lemma fq_gt x (n : Z) : (inject_Z n < fq x)%Q -> IZR n < fr x.
Proof. intros h. rewrite Q2R_fq. apply Qlt_Rlt in h. unfold Q2R in h at 1. cbn [Qnum Qden inject_Z] in h. rewrite Rinv_1, Rmult_1_r in h. exact h. Qed.

(** C58.  eigvalsh of the finite symmetric matrix [[1, t]; [t, 1]] returns an eigenvalue above 2,
    although every eigenvalue of that matrix is within 2^-536 of 1. *)
Theorem C58_eigvalsh_refuted : exists (a : mat FN) d,
  mokb a = true /\ a = transpose a /\ nr a = 2%nat /\ nc a = 2%nat /\ eigvalsh 100 a = Ret d /\ 2 < fr (vget d 1) /\
  forall (lam : R) (x : nat -> R), (exists i, (i < 2)%nat /\ x i <> 0) ->
    (forall i, (i < 2)%nat -> Rsum 2 (fun j => frm a i j * x j) = lam * x i) -> Rabs (lam - 1) <= bpow radix2 (-536).
Proof.
  assert (chk : forall a (f : list FN -> bool), match eigvalsh 100 a with Ret d => f d | _ => false end = true -> exists d, eigvalsh 100 a = Ret d /\ f d = true).
  { intros a f. destruct (eigvalsh 100 a) as [d| | | |]; try discriminate. intros h. exists d. auto. }
  destruct (chk tiny_sym (fun d => negb (Qle_bool (fq (vget d 1)) 2))) as (d & e & h); [vm_compute; reflexivity|].
  exists tiny_sym, d. split; [vm_compute; reflexivity|]. split; [vm_compute; reflexivity|]. split; [reflexivity|]. split; [reflexivity|]. split; [exact e|]. clear e. split.
  - apply (fq_gt (vget d 1) 2). apply negb_true_iff in h. apply Qnot_le_lt. intros h'. apply Qle_bool_iff in h'. change (inject_Z 2) with 2%Q in h'. congruence.
  - intros lam x (i & hi & hx) he. pose proof (he 0%nat ltac:(lia)) as h0. pose proof (he 1%nat ltac:(lia)) as h1. cbn [Rsum] in h0, h1.
    change (frm tiny_sym 0%nat 0%nat) with (fr (f_of_Z 1)) in h0. change (frm tiny_sym 0%nat 1%nat) with (fr tiny_off) in h0.
    change (frm tiny_sym 1%nat 0%nat) with (fr tiny_off) in h1. change (frm tiny_sym 1%nat 1%nat) with (fr (f_of_Z 1)) in h1. rewrite fr_f1 in h0, h1.
    pose proof tiny_bound as ht. set (t := fr tiny_off) in *. set (u := x 0%nat) in *. set (v := x 1%nat) in *.
    assert (k0 : t * v = (lam - 1) * u) by lra. assert (k1 : t * u = (lam - 1) * v) by lra.
    apply Rle_trans with t; [|lra]. destruct (Rle_lt_dec (Rabs (lam - 1)) t) as [|hlt]; auto. exfalso.
    pose proof (Rabs_pos u). pose proof (Rabs_pos v).
    assert (a0 : t * Rabs v = Rabs (lam - 1) * Rabs u) by (rewrite <- (Rabs_pos_eq t) at 1 by lra; rewrite <- !Rabs_mult; now f_equal).
    assert (a1 : t * Rabs u = Rabs (lam - 1) * Rabs v) by (rewrite <- (Rabs_pos_eq t) at 1 by lra; rewrite <- !Rabs_mult; now f_equal).
    assert (hs : (Rabs (lam - 1) - t) * (Rabs u + Rabs v) = 0) by lra.
    apply Rmult_integral in hs. assert (z0 : Rabs u = 0) by lra. assert (z1 : Rabs v = 0) by lra.
    apply hx. destruct i as [|[|i]]; [|  |lia]; fold u v.
    + destruct (Req_dec u 0); auto. exfalso. now apply (Rabs_no_R0 u).
    + destruct (Req_dec v 0); auto. exfalso. now apply (Rabs_no_R0 v).
Qed.
Print Assumptions C58_eigvalsh_refuted.

(** svd of [[1, 0]; [t, 1]] returns a singular value above 1.4, although every singular value of that
    matrix is below 1 + 2^-535: |A x| <= (1 + t) |x|. *)
Theorem C58_svd_refuted : exists (a : mat FN) u d v,
  mokb a = true /\ nr a = 2%nat /\ nc a = 2%nat /\ svd 100 a false false = Ret (u, d, v) /\ 14 < 10 * fr (vget d 1) /\
  forall (s : R) (x y : nat -> R), 0 <= s -> (exists i, (i < 2)%nat /\ x i <> 0) ->
    (forall i, (i < 2)%nat -> Rsum 2 (fun j => frm a i j * x j) = s * y i) ->
    (forall j, (j < 2)%nat -> Rsum 2 (fun i => frm a i j * y i) = s * x j) -> s <= 1 + bpow radix2 (-536).
Proof.
  assert (chk : forall a (f : list FN -> bool), match svd 100 a false false with Ret (_, d, _) => f d | _ => false end = true -> exists u d v, svd 100 a false false = Ret (u, d, v) /\ f d = true).
  { intros a f. destruct (svd 100 a false false) as [[[u d] v]| | | |]; try discriminate. intros h. exists u, d, v. auto. }
  destruct (chk tiny_low (fun d => negb (Qle_bool (10 * fq (vget d 1)) 14))) as (u & d & v & e & h); [vm_compute; reflexivity|].
  exists tiny_low, u, d, v. split; [vm_compute; reflexivity|]. split; [reflexivity|]. split; [reflexivity|]. split; [exact e|]. clear e. split.
  - apply negb_true_iff in h. assert (h2 : (14 < 10 * fq (vget d 1))%Q) by (apply Qnot_le_lt; intros h'; apply Qle_bool_iff in h'; congruence).
    rewrite Q2R_fq. apply Qlt_Rlt in h2. rewrite Q2R_mult in h2. unfold Q2R in h2 at 1 2. cbn [Qnum Qden] in h2. lra.
  - intros s x y hs (i & hi & hx) h1 h2. 
    pose proof (h1 0%nat ltac:(lia)) as a0. pose proof (h1 1%nat ltac:(lia)) as a1. pose proof (h2 0%nat ltac:(lia)) as b0. pose proof (h2 1%nat ltac:(lia)) as b1. cbn [Rsum] in a0, a1, b0, b1.
    change (frm tiny_low 0%nat 0%nat) with (fr (f_of_Z 1)) in *. change (frm tiny_low 0%nat 1%nat) with 0 in *.
    change (frm tiny_low 1%nat 0%nat) with (fr tiny_off) in *. change (frm tiny_low 1%nat 1%nat) with (fr (f_of_Z 1)) in *. rewrite fr_f1 in *.
    pose proof tiny_bound as ht. set (t := fr tiny_off) in *. set (p := x 0%nat) in *. set (q := x 1%nat) in *. set (w := y 0%nat) in *. set (z := y 1%nat) in *.
    apply Rle_trans with (1 + t); [|lra]. destruct (Rle_lt_dec s (1 + t)) as [|hlt]; auto. exfalso.
    (* s^2 |x|^2 = |A x|^2 <= (1+t)^2 |x|^2 *)
    assert (e1 : p = s * w) by lra. assert (e2 : t * p + q = s * z) by lra. assert (e3 : w + t * z = s * p) by lra. assert (e4 : z = s * q) by lra.
    assert (f1 : s * s * p = p + t * (t * p + q)). { replace (s * s * p) with (s * (s * p)) by ring. rewrite <- e3. replace (s * (w + t * z)) with (s * w + t * (s * z)) by ring. rewrite <- e1, <- e2. reflexivity. }
    assert (f2 : s * s * q = t * p + q) by (rewrite e2; rewrite e4; ring).
    pose proof (Rle_0_sqr p) as hp. pose proof (Rle_0_sqr q) as hq. pose proof (Rle_0_sqr (p - q)) as hpq. unfold Rsqr in *.
    assert (f3 : s * s * (p * p + q * q) = p * p + t * t * (p * p) + 2 * t * (p * q) + q * q).
    { replace (s * s * (p * p + q * q)) with (p * (s * s * p) + q * (s * s * q)) by ring. rewrite f1, f2. ring. }
    assert (f4 : s * s * (p * p + q * q) <= (1 + t) * (1 + t) * (p * p + q * q)).
    { rewrite f3. pose proof (Rmult_le_pos t _ ltac:(lra) hpq). pose proof (Rmult_le_pos t _ ltac:(lra) hp). pose proof (Rmult_le_pos t _ ltac:(lra) hq). pose proof (Rmult_le_pos (t * t) _ ltac:(apply Rle_0_sqr) hq). lra. }
    assert (f5 : (1 + t) * (1 + t) < s * s) by (apply Rmult_le_0_lt_compat; lra).
    assert (f6 : p * p + q * q <= 0).
    { destruct (Rle_lt_dec (p * p + q * q) 0) as [|hl]; auto. exfalso. pose proof (Rmult_lt_compat_r _ _ _ hl f5). lra. }
    assert (z0 : p * p = 0) by lra. assert (z1 : q * q = 0) by lra. apply Rmult_integral in z0, z1.
    apply hx. destruct i as [|[|i]]; [|  |lia]; fold p q; tauto.
Qed.
Print Assumptions C58_svd_refuted.
