(** * Property C54: Householder QR in binary64 is backward stable

    Everything here is about the instance [FN] of the model: the operations of IEEE 754 binary64 in
    exactly the order in which the code performs them. *)
From Coq Require Import Reals List Arith Lia Lra Bool ZArith QArith.
From Coq.Floats Require Import SpecFloat.
From Flocq Require Import Core BinarySingleNaN.
From Verif Require Import Scalar Arr MBase MDirect Inst Hoare Spec SpecF Ex RLin PRound PTriF PHouseF PQRF PQRG Properties_Rounding.
Import ListNotations.
Local Open Scope R_scope.

(** Euclidean norm of column j of a matrix with n rows *)
Definition colnorm (n : nat) (A : M) (j : nat) : R := sqrt (Rsum n (fun i => A i j * A i j)).
(** The three constants: a relative error of c (10 n + 70) roundings, the absolute contribution of
    underflow, and their sum *)
Definition rel_qr (n c : nat) : R := gam (c * (10 * n + 70)).
Definition abs_qr (n c : nat) : R := INR c * (1 + rel_qr n c) * bpow radix2 (-507).
Definition eps_qr (n c : nat) : R := rel_qr n c + abs_qr n c.
(** What is asked of a computed pair of factors: finite, and the squares of the diagonal entries of
    R stay clear of overflow and underflow.  At most 2^47 rows. *)
Definition in_range (x : spec_float) : Prop := fr x = 0 \/ bpow radix2 (-480) <= fr x <= bpow radix2 510.
Definition qr_clean (n c : nat) (q r : mat FN) : Prop :=
  INR n * (64 * uro) <= 1 /\
  (forall i j, (i < n)%nat -> (j < c)%nat -> ffin (get q i j)) /\
  (forall i j, (i < c)%nat -> (j < c)%nat -> ffin (get r i j)) /\
  (forall k, (k < c)%nat -> in_range (get r k k)).

Lemma colnorm_vn n A j : colnorm n A j = vn n (fun i => A i j).
Proof.
  unfold colnorm. rewrite <- (sqrt_Rsqr (vn n (fun i => A i j))) by apply vn_nonneg. f_equal. unfold Rsqr. now rewrite vn_sq.
Qed.
Lemma abs_qr_eq n c : abs_qr n c = qr_abs n c.
Proof. unfold abs_qr, qr_abs, omega, zeta. f_equal. replace (-507)%Z with (1 + -508)%Z by reflexivity. rewrite bpow_plus. reflexivity. Qed.
Lemma eps_qr_eq n c : eps_qr n c = qr_eps n c.
Proof. unfold eps_qr, qr_eps. now rewrite abs_qr_eq. Qed.

(** C54.  The computed factors (of a matrix of any shape the code accepts) are the exact factors of
    a nearby matrix with nearby orthonormal columns: there is an exactly orthonormal Q such that
    Q R differs from A by a tiny multiple of the norm of each column, and the computed Q from the
    exact one by the same tiny number.  That R is finite also shows that A was. *)
Theorem C54_qr_backward_stable (a : mat FN) d q r :
  mvalid a -> qr_into a = Ret d -> qr_into_decomp d = Ret (q, r) ->
  let n := nr a in let c := nc a in qr_clean n c q r ->
  (forall i j, (i < n)%nat -> (j < c)%nat -> ffin (get a i j)) /\
  exists Q : M, orthonormal_cols n c Q /\
    (forall j, (j < c)%nat -> colnorm n (msub (frm a) (mmul c Q (frm r))) j <= rel_qr n c * colnorm n (frm a) j + abs_qr n c) /\
    (forall j, (j < c)%nat -> colnorm n (msub (frm q) Q) j <= eps_qr n c).
Proof.
  intros va e ed n c (h1 & h2 & h3 & h4).
  destruct (qr_decomp_float a d q r va e ed h1 h2 h3 h4) as (g1 & Q & g2 & g3 & g4).
  split; auto. exists Q. split; [exact g2|]. split; intros j hj; rewrite ?eps_qr_eq, ?abs_qr_eq, !colnorm_vn; [apply (g3 j hj)|apply (g4 j hj)].
Qed.
Print Assumptions C54_qr_backward_stable.

(** The computed product reproduces A ... *)
Theorem C54_qr_residual (a : mat FN) d q r :
  mvalid a -> qr_into a = Ret d -> qr_into_decomp d = Ret (q, r) ->
  let n := nr a in let c := nc a in qr_clean n c q r ->
  forall j, (j < c)%nat -> colnorm n (msub (frm a) (mmul c (frm q) (frm r))) j <=
    (rel_qr n c + sqrt (INR c) * eps_qr n c * (1 + rel_qr n c)) * colnorm n (frm a) j + (1 + sqrt (INR c) * eps_qr n c) * abs_qr n c.
Proof.
  intros va e ed n c (h1 & h2 & h3 & h4) j hj.
  destruct (qr_decomp_float a d q r va e ed h1 h2 h3 h4) as (_ & Q & g2 & g3 & g4).
  rewrite eps_qr_eq, abs_qr_eq, !colnorm_vn. exact (residual_float n c (frm a) Q (frm q) (frm r) g2 g3 g4 j hj).
Qed.
Print Assumptions C54_qr_residual.

(** ... and the computed Q is orthonormal up to twice the error of a column. *)
Theorem C54_q_orthonormal (a : mat FN) d q r :
  mvalid a -> qr_into a = Ret d -> qr_into_decomp d = Ret (q, r) ->
  let n := nr a in let c := nc a in qr_clean n c q r ->
  forall i j, (i < c)%nat -> (j < c)%nat ->
    Rabs (mmul n (mtr (frm q)) (frm q) i j - mid i j) <= 2 * eps_qr n c + eps_qr n c * eps_qr n c.
Proof.
  intros va e ed n c (h1 & h2 & h3 & h4) i j hi hj.
  destruct (qr_decomp_float a d q r va e ed h1 h2 h3 h4) as (_ & Q & g2 & g3 & g4).
  rewrite eps_qr_eq. apply (ortho_float n c Q (frm q)); auto. apply qr_eps_facts.
Qed.
Print Assumptions C54_q_orthonormal.

(** The constants are small: about c (10 n + 70) 2^-53. *)
Theorem C54_constants (n c : nat) : INR (c * (10 * n + 70)) * uro <= / 2 ->
  0 <= rel_qr n c <= 2 * INR (c * (10 * n + 70)) * uro /\ 0 <= abs_qr n c <= INR c * bpow radix2 (-506).
Proof.
  intros h. unfold abs_qr. assert (hr : 0 <= rel_qr n c <= 2 * INR (c * (10 * n + 70)) * uro).
  { unfold rel_qr. set (k := (c * (10 * n + 70))%nat) in *. split; [apply gam_nonneg|]. pose proof (gam_usual k ltac:(lra)) as g. eapply Rle_trans; [exact g|].
    pose proof (pos_INR k). pose proof uro_pos. apply Rmult_le_reg_r with (1 - INR k * uro); [lra|].
    unfold Rdiv. rewrite Rmult_assoc, Rinv_l by lra. assert (0 <= INR k * uro) by (apply Rmult_le_pos; lra). nra. }
  split; auto. pose proof (pos_INR c). pose proof (bpow_gt_0 radix2 (-507)). split.
  - apply Rmult_le_pos; [apply Rmult_le_pos|]; lra.
  - replace (-506)%Z with (1 + -507)%Z by reflexivity. rewrite bpow_plus. change (bpow radix2 1) with 2. rewrite Rmult_assoc. apply Rmult_le_compat_l; auto. nra.
Qed.
Print Assumptions C54_constants.

(** ** Examples *)
Definition rangeb (x : spec_float) : bool :=
  match x with S754_zero _ => true | S754_finite false m e => (-480 <=? e)%Z && (e + Zpos (digits2_pos m) <=? 510)%Z | _ => false end.
Lemma rangeb_ok x : rangeb x = true -> in_range x.
Proof.
  destruct x as [s|s| |[|] m e]; try discriminate; [left; reflexivity|]. cbn [rangeb].
  intros h. apply andb_prop in h. destruct h as (h1 & h2). apply Z.leb_le in h1, h2. right.
  unfold fr, SF2R, F2R, cond_Zopp. cbn [Fnum Fexp]. split.
  - apply Rle_trans with (bpow radix2 e); [apply bpow_le; auto|]. rewrite <- (Rmult_1_l (bpow radix2 e)) at 1. apply Rmult_le_compat_r; [apply bpow_ge_0|]. apply IZR_le. lia.
  - apply Rle_trans with (bpow radix2 (e + Zpos (digits2_pos m))); [|apply bpow_le; auto].
    rewrite Zpos_digits2_pos. rewrite Z.add_comm. left.
    assert (g := Digits.Zdigits_correct radix2 (Zpos m)).
    rewrite bpow_plus. apply Rmult_lt_compat_r; [apply bpow_gt_0|].
    rewrite <- IZR_Zpower by apply Digits.Zdigits_ge_0. apply IZR_lt. apply g.
Qed.
Definition cleanb (n c : nat) (q r : mat FN) : bool :=
  mokb q && mokb r && Nat.eqb (nr q) n && Nat.eqb (nc q) c && Nat.eqb (nr r) c && Nat.eqb (nc r) c &&
  forallb (fun k => rangeb (get r k k)) (seq 0 c) && (n <? 100)%nat.
Lemma cleanb_ok n c q r : cleanb n c q r = true -> qr_clean n c q r.
Proof.
  unfold cleanb. rewrite !andb_true_iff. intros [[[[[[[h1 h2] h3] h4] h5] h6] h7] h8].
  apply Nat.eqb_eq in h3, h4, h5, h6. apply Nat.ltb_lt in h8. repeat split.
  - apply Rle_trans with (100 * (64 * uro)).
    + apply Rmult_le_compat_r; [pose proof uro_pos; lra|]. apply lt_INR in h8. change 100 with (IZR (Z.of_nat 100)). rewrite <- INR_IZR_INZ. lra.
    + unfold uro. change (2 ^ 53)%Z with 9007199254740992%Z. lra.
  - intros i j hi hj. apply (mokb_ok q h1 i j); lia.
  - intros i j hi hj. apply (mokb_ok r h2 i j); lia.
  - intros k hk. apply rangeb_ok. rewrite forallb_forall in h7. apply h7. apply in_seq. lia.
Qed.

Definition qr_checkb (a : mat FN) (f : mat FN -> mat FN -> bool) : bool :=
  match qr_into a with Ret d => match qr_into_decomp d with Ret (q, r) => f q r | _ => false end | _ => false end.
Lemma qr_checkb_ok a f : qr_checkb a f = true -> exists d q r, qr_into a = Ret d /\ qr_into_decomp d = Ret (q, r) /\ f q r = true.
Proof.
  unfold qr_checkb. destruct (qr_into a) as [d| | | |]; try discriminate.
  destruct (qr_into_decomp d) as [[q r]| | | |] eqn:e; try discriminate. intros h. exists d, q, r. auto.
Qed.

(** A 3x2 matrix whose factors are not exact in binary64 *)
Example C54_example : let a := fmat 2 [[3; 1]; [4; 2]; [0; 7]]%Z in
  mvalid a /\ exists d q r, qr_into a = Ret d /\ qr_into_decomp d = Ret (q, r) /\ qr_clean 3 2 q r /\
    ~ (fq (get q 0 0) * fq (get r 0 0) == 3)%Q.
Proof.
  split.
  - intros i j. apply (mokb_ok (fmat 2 [[3; 1]; [4; 2]; [0; 7]]%Z)). vm_compute. reflexivity.
  - destruct (qr_checkb_ok (fmat 2 [[3; 1]; [4; 2]; [0; 7]]%Z) (fun q r => cleanb 3 2 q r && negb (Qeq_bool (fq (get q 0 0) * fq (get r 0 0)) 3))) as (d & q & r & h1 & h2 & h3).
    + vm_compute. reflexivity.
    + exists d, q, r. apply andb_prop in h3. destruct h3 as (h3 & h4). split; [exact h1|]. split; [exact h2|]. split; [apply cleanb_ok; exact h3|].
      apply negb_true_iff in h4. apply Qeq_bool_neq. exact h4.
Qed.

(** ** The range condition cannot be dropped

    The code squares the entries of a column without scaling them.  Entries of 2^511 (about 7e153)
    make 2 (|a|^2 + |a_0||a|) overflow: the reflection axis becomes 0 and the sign of the factor is
    lost, without any error.  All values returned are finite, Q is exactly orthogonal, and Q R = -A. *)
Theorem C54_overflow_refuted : exists (a : mat FN) d q r,
  mokb a = true /\ qr_into a = Ret d /\ qr_into_decomp d = Ret (q, r) /\ mokb q = true /\ mokb r = true /\
  nr a = 1%nat /\ nc a = 1%nat /\
  (fq (get q 0 0) * fq (get q 0 0) == 1)%Q /\ (fq (get q 0 0) * fq (get r 0 0) == - fq (get a 0 0))%Q /\ ~ (fq (get a 0 0) == 0)%Q.
Proof.
  set (a := Mat 1 1 [[fpow2 511]] : mat FN).
  assert (h : qr_checkb a (fun q r => mokb q && mokb r && Qeq_bool (fq (get q 0 0) * fq (get q 0 0)) 1 && Qeq_bool (fq (get q 0 0) * fq (get r 0 0)) (- fq (get a 0 0))) = true) by (vm_compute; reflexivity).
  destruct (qr_checkb_ok a _ h) as (d & q & r & h1 & h2 & h3). rewrite !andb_true_iff in h3.
  exists a, d, q, r. split; [vm_compute; reflexivity|]. split; [exact h1|]. split; [exact h2|].
  destruct h3 as [[[h3 h4] h5] h6]. apply Qeq_bool_eq in h5, h6.
  do 2 (split; [assumption|]). do 2 (split; [reflexivity|]). split; [exact h5|]. split; [exact h6|]. vm_compute. discriminate.
Qed.
Print Assumptions C54_overflow_refuted.

(** A nonzero column of subnormal square (entries about 2^-537) gives a Q whose square is above 2. *)
Theorem C54_underflow_refuted : exists (a : mat FN) d q r,
  mokb a = true /\ qr_into a = Ret d /\ qr_into_decomp d = Ret (q, r) /\ mokb q = true /\ mokb r = true /\
  nr a = 1%nat /\ nc a = 1%nat /\ (2 < fq (get q 0 0) * fq (get q 0 0))%Q.
Proof.
  set (a := Mat 1 1 [[SpecFloat.binary_round prec emax false 77%positive (-543)%Z]] : mat FN).
  assert (h : qr_checkb a (fun q r => mokb q && mokb r && negb (Qle_bool (fq (get q 0 0) * fq (get q 0 0)) 2)) = true) by (vm_compute; reflexivity).
  destruct (qr_checkb_ok a _ h) as (d & q & r & h1 & h2 & h3). rewrite !andb_true_iff in h3.
  exists a, d, q, r. split; [vm_compute; reflexivity|]. split; [exact h1|]. split; [exact h2|].
  destruct h3 as [[h3 h4] h5]. do 2 (split; [assumption|]). do 2 (split; [reflexivity|]).
  apply Qnot_le_lt. intros h6. apply Qle_bool_iff in h6. rewrite h6 in h5. discriminate.
Qed.
Print Assumptions C54_underflow_refuted.
