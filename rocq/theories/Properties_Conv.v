(** * C50: the QR iteration of eigh.rs terminates in exact arithmetic *)
From Coq Require Import Reals List Arith ZArith Lia Lra Bool.
From Verif Require Import Scalar Arr MBase MDirect MDecomp MEigh Inst Hoare Spec RLin PTri PHouse PGivens PEigh PEighR PConv Ex.
Import ListNotations.
Local Open Scope R_scope.

(** ** Specification *)
(** lambda is an eigenvalue of the symmetric 2x2 matrix [[p, q], [q, r]] *)
Definition eigval2 (p q r lambda : R) : Prop := (p - lambda) * (r - lambda) - q * q = 0.
(** the smallest singular value of the n x n matrix A is at least s *)
Definition smin_ge (n : nat) (A : M) (s : R) : Prop :=
  0 <= s /\ forall x : nat -> R, s * s * vnorm2 n x <= vnorm2 n (fun i => Rsum n (fun k => A i k * x k)).

(** ** The shift: src/eigh.rs:179-187 computes the eigenvalue of [[tmm, tmn], [tmn, tnn]] closest to tnn *)
Theorem C50_wilkinson_shift (tmm tnn tmn : R) : let w := wilkinson_shift (N:=RN) tmm tnn tmn in
  eigval2 tmm tmn tnn w /\ forall w', eigval2 tmm tmn tnn w' -> Rabs (tnn - w) <= Rabs (tnn - w').
Proof.
  cbv zeta. destruct (Req_dec tmn 0) as [e|hb].
  - unfold wilkinson_shift. change (nis_zero RN tmn) with (Reqb tmn 0). destruct (Reqb_spec tmn 0); [|contradiction]. cbn [negb].
    unfold eigval2. rewrite e. split; [ring|]. intros w' _. replace (tnn - tnn) with 0 by ring. rewrite Rabs_R0. apply Rabs_pos.
  - destruct (wilkinson_real tmm tnn tmn hb) as (h1 & h2 & h3). set (w := wilkinson_shift (N:=RN) tmm tnn tmn) in *.
    unfold eigval2. split; [lra|]. intros w' hw'.
    assert (hh : (w' - w) * (w' - (tmm + tnn - w)) = 0) by lra.
    apply Rmult_integral in hh. destruct hh as [hh|hh].
    + replace w' with w by lra. lra.
    + replace (tnn - w') with (- (tmm - w)) by lra. rewrite Rabs_Ropp. auto.
Qed.
Print Assumptions C50_wilkinson_shift.
Example C50_wilkinson_run : wilkinson_shift (N:=RN) 2 5 2 = 6 /\ eigval2 2 2 5 6 /\ eigval2 2 2 5 1.
Proof.
  assert (h : forall w, eigval2 2 2 5 w <-> w = 6 \/ w = 1).
  { intros w. unfold eigval2. split; [|intros [-> | ->]; ring]. intros h. assert (hh : (w - 6) * (w - 1) = 0) by lra.
    apply Rmult_integral in hh. destruct hh; [left|right]; lra. }
  destruct (C50_wilkinson_shift 2 5 2) as (h1 & h2). split; [|split; unfold eigval2; ring].
  set (w := wilkinson_shift (N:=RN) 2 5 2) in *. apply h in h1. destruct h1 as [|h1]; auto. exfalso.
  specialize (h2 6 ltac:(apply h; auto)). rewrite h1 in h2. replace (5 - 1) with 4 in h2 by ring. replace (5 - 6) with (-1) in h2 by ring.
  rewrite (Rabs_left (-1)), (Rabs_right 4) in h2 by lra. lra.
Qed.

(** ** One sweep (src/eigh.rs:55-102) on an unreduced block start..=end_ with at least three rows:
    with b1, b2 the last two off-diagonal entries of the block, b1'^4 <= (b1 b2)^2 / 2 and (b1'^2 b2')^2 <= (b1^2 b2)^2 / 2 *)
Theorem C50_sweep n start end_ eps (es es' : eig_state RN) Q e' : (start + 2 <= end_ < n)%nat ->
  length (es_diag es) = n -> length (es_off es) = (n - 1)%nat -> es_q es = Some Q -> nr Q = n -> nc Q = n ->
  ((0 < start)%nat -> vent (es_off es) (start - 1) = 0) ->
  (forall j, (start <= j < end_)%nat -> vent (es_off es) j <> 0) ->
  eig_big (N:=RN) start end_ eps es = Ret (es', e') ->
  let b1 := vent (es_off es) (end_ - 1) in let b2 := vent (es_off es) (end_ - 2) in
  let c1 := vent (es_off es') (end_ - 1) in let c2 := vent (es_off es') (end_ - 2) in
  c1 ^ 4 <= (b1 * b2) ^ 2 / 2 /\ (c1 ^ 2 * c2) ^ 2 <= (b1 ^ 2 * b2) ^ 2 / 2.
Proof. intros. eapply sweep_conv; eauto. Qed.
Print Assumptions C50_sweep.
Definition c50_es : eig_state RN := @ES RN [2; 3; 5] [1; 1] (Some (@eye RN 3)).
Example C50_sweep_nonvacuous : let es := c50_es in
  length (es_diag es) = 3%nat /\ length (es_off es) = 2%nat /\ (forall j, (0 <= j < 2)%nat -> vent (es_off es) j <> 0) /\
  exists r, eig_big (N:=RN) 0 2 (nepsilon RN) es = Ret r.
Proof.
  cbv zeta. split; [reflexivity|]. split; [reflexivity|]. split.
  - intros j hj. destruct j as [|[|j]]; [| |lia]; cbn; lra.
  - destruct (wp_ret _ _ (eig_big_safe (N:=RN) 3 0 2 (nepsilon RN) c50_es
      ltac:(repeat split; dims; reflexivity) ltac:(lia) ltac:(lia))) as (r & hr & _). eauto.
Qed.

(** ** Termination.  F is the Frobenius norm; each of the at most n deflations takes at most N + 416 iterations when (F / c)^8 < 2^N,
    where c is the smallest singular value less the total perturbation the deflation tolerance allows *)
Theorem C50_eigh_terminates fuel (a : mat RN) (s : R) (N : nat) : let n := nr a in let F := frob n n (ent a) in
  let c := s - INR (n - 1) * (2 * / IZR (2 ^ 52) * F) in
  nr a = nc a -> symmetric n (ent a) -> smin_ge n (ent a) s -> 0 < c -> F ^ 8 < c ^ 8 * 2 ^ N -> (n * (N + 416) <= fuel)%nat ->
  exists vals q, eigh fuel a = Ret (vals, q).
Proof.
  intros n F c sq hs (s0 & hlow) hc hN hfu.
  destruct (symmetric_eig_conv fuel a s c N sq hs) as (vals & q & e); auto.
  - intros x. fold n. specialize (hlow (fun i => x i 0%nat)).
    apply Rsqr_incr_0_var; [|apply frob_nonneg]. unfold Rsqr.
    replace (s * frob n 1 x * (s * frob n 1 x)) with (s * s * (frob n 1 x * frob n 1 x)) by ring. rewrite !frob_sq.
    replace (frob2 n 1 x) with (vnorm2 n (fun i => x i 0%nat)); [|unfold vnorm2, frob2; apply Rsum_ext; intros; cbn [Rsum]; ring].
    replace (frob2 n 1 (mmul n (ent a) x)) with (vnorm2 n (fun i => Rsum n (fun k => ent a i k * x k 0%nat))); auto.
    unfold vnorm2, frob2, mmul. apply Rsum_ext. intros. cbn [Rsum]. ring.
  - apply Rle_refl.
  - exists vals, q. unfold eigh. rewrite e. reflexivity.
Qed.
Print Assumptions C50_eigh_terminates.

(** Whenever c is positive there is a bound on the number of iterations; eigvalsh terminates with it. *)
Theorem C50_terminates (a : mat RN) (s : R) : let n := nr a in
  nr a = nc a -> symmetric n (ent a) -> smin_ge n (ent a) s ->
  INR (n - 1) * (2 * / IZR (2 ^ 52) * frob n n (ent a)) < s ->
  exists bound, forall fuel, (bound <= fuel)%nat ->
    (exists vals q, eigh fuel a = Ret (vals, q)) /\ exists vals, eigvalsh fuel a = Ret vals.
Proof.
  intros n sq hs hlow hlt. set (F := frob n n (ent a)) in *. set (c := s - INR (n - 1) * (2 * / IZR (2 ^ 52) * F)).
  assert (hc : 0 < c) by (unfold c; lra). assert (hc8 : 0 < c ^ 8) by (apply pow_lt; auto).
  destruct (Pow_x_infinity 2 ltac:(rewrite Rabs_right; lra) (F ^ 8 / c ^ 8 + 1)) as (N & hN).
  specialize (hN N ltac:(lia)). rewrite Rabs_right in hN by (apply Rle_ge, pow_le; lra).
  exists (n * (N + 416))%nat. intros fuel hf.
  assert (h1 : exists vals q, eigh fuel a = Ret (vals, q)).
  { apply (C50_eigh_terminates fuel a s N); auto. fold n F c.
    apply Rlt_le_trans with (c ^ 8 * (F ^ 8 / c ^ 8 + 1)); [|apply Rmult_le_compat_l; lra].
    replace (c ^ 8 * (F ^ 8 / c ^ 8 + 1)) with (F ^ 8 + c ^ 8) by (field; lra). lra. }
  split; auto. destruct h1 as (vals & q & e). exists vals. rewrite eigvalsh_eigh, e. reflexivity.
Qed.
Print Assumptions C50_terminates.

Definition c50_a : mat RN := rmat 3 [[2;1;0];[1;3;1];[0;1;5]]%Z.
Example C50_nonvacuous : nr c50_a = nc c50_a /\ symmetric 3 (ent c50_a) /\ smin_ge 3 (ent c50_a) 1 /\
  let F := frob 3 3 (ent c50_a) in let c := 1 - INR (3 - 1) * (2 * / IZR (2 ^ 52) * F) in 0 < c /\ F ^ 8 < c ^ 8 * 2 ^ 30 /\
  exists vals q, eigh 1338 c50_a = Ret (vals, q).
Proof.
  assert (h1 : nr c50_a = nc c50_a) by reflexivity.
  assert (h2 : symmetric 3 (ent c50_a)) by (intros i j hi hj; unfold mtr; destruct i as [|[|[|i]]], j as [|[|[|j]]]; try lia; reflexivity).
  assert (h3 : smin_ge 3 (ent c50_a) 1).
  { split; [lra|]. intros x. unfold vnorm2, c50_a, ent. cbn [Rsum rmat get rows length map nth nr]. cbn.
    set (u := x 0%nat). set (v := x 1%nat). set (w := x 2%nat).
    pose proof (Rle_0_sqr (4 * u + 5 * v + w)). pose proof (Rle_0_sqr (15 * v + 27 * w)). pose proof (Rle_0_sqr w). unfold Rsqr in *. nra. }
  split; auto. split; auto. split; auto. cbv zeta.
  set (F := frob 3 3 (ent c50_a)).
  assert (hF : F * F = 42). { unfold F. rewrite frob_sq. unfold frob2, c50_a, ent. cbn [Rsum rmat length map nr]. cbn. ring. }
  assert (hF0 : 0 <= F) by apply frob_nonneg. assert (hF7 : F <= 7) by nra.
  set (c := 1 - _).
  assert (hc : / 2 <= c).
  { unfold c. replace (INR (3 - 1)) with 2 by (simpl; ring).
    assert (he : 0 < / IZR (2 ^ 52) <= / 100). { split; [apply Rinv_0_lt_compat; apply IZR_lt; reflexivity|]. apply Rinv_le_contravar; [lra|]. apply IZR_le. discriminate. }
    assert (/ IZR (2 ^ 52) * F <= / 100 * 7) by (apply Rmult_le_compat; lra). lra. }
  assert (hN : F ^ 8 < c ^ 8 * 2 ^ 30).
  { replace (F ^ 8) with ((F * F) * (F * F) * ((F * F) * (F * F))) by ring. rewrite hF.
    apply Rlt_le_trans with ((/ 2) ^ 8 * 2 ^ 30); [|apply Rmult_le_compat_r; [apply pow_le; lra|]; apply pow_incr; lra].
    replace ((/ 2) ^ 8 * 2 ^ 30) with (2 ^ 22) by (simpl; field). simpl. lra. }
  assert (hc0 : 0 < c) by lra. split; auto. split; auto. apply (C50_eigh_terminates 1338 c50_a 1 30 h1 h2 h3 hc0 hN).
  change (nr c50_a) with 3%nat. lia.
Qed.
(** The same matrix in binary64: a handful of iterations *)
Example C50_run : (let* (v, q) := eigh 6 (fmat 3 [[2;1;0];[1;3;1];[0;1;5]]%Z) in Ret (length v, nr q))%res = Ret (3%nat, 3%nat).
Proof. vm_compute. reflexivity. Qed.
