(** * Property C59: symmetric tridiagonalisation in binary64 is backward stable

    Everything here is about the instance [FN] of the model: the operations of IEEE 754 binary64 in
    exactly the order in which the code performs them. *)
From Coq Require Import Reals List Arith Lia Lra Bool ZArith QArith.
From Coq.Floats Require Import SpecFloat.
From Flocq Require Import Core BinarySingleNaN.
From Verif Require Import Scalar Arr MBase MDirect MDecomp Inst Hoare Spec SpecF Ex RLin PEighR PRound PTriF PHouseF PQRF PQRG PTrdF PTrdH Properties_Rounding Properties_QRFloat.
Import ListNotations.
Local Open Scope R_scope.

(** The constant: about 1300 n^3 roundings *)
Definition rel_trd (n : nat) : R := 650 * INR n ^ 2 * gam (2 * n + 20).
Definition trd_err (n : nat) (A : M) : R := rel_trd n * (frob n n A + bpow radix2 (-450)).
(** An exactly symmetric matrix of finite numbers, of a size for which the constant is below 1 (all
    n up to 10000, see C59_constants) and of norm at most 2^498 *)
Definition trd_input (n : nat) (a : mat FN) : Prop :=
  nr a = n /\ nc a = n /\ (1 <= n)%nat /\ rel_trd n <= 1 /\
  (forall i j, (i < n)%nat -> (j < n)%nat -> fvalid (get a i j) /\ ffin (get a i j)) /\
  symmetric n (frm a) /\ frob n n (frm a) <= bpow radix2 498.
(** No off-diagonal entry of the result is so small that its square underflowed *)
Definition trd_clean (n : nat) (t : mat FN) : Prop :=
  forall i, (i + 1 < n)%nat -> fr (get t (i + 1) i) = 0 \/ bpow radix2 (-480) <= fr (get t (i + 1) i).
Definition tridiagonal (n : nat) (T : M) : Prop := forall i j, (i < n)%nat -> (j < n)%nat -> (i + 1 < j \/ j + 1 < i)%nat -> T i j = 0.

Lemma frob_mmul r n c A B : frob r c (mmul n A B) <= frob r n A * frob n c B.
Proof.
  apply Rsqr_incr_0_var; [|apply Rmult_le_pos; apply frob_nonneg]. unfold Rsqr.
  replace (frob r n A * frob n c B * (frob r n A * frob n c B)) with ((frob r n A * frob r n A) * (frob n c B * frob n c B)) by ring. rewrite (frob_sq r c), (frob_sq n c).
  rewrite <- (frob2_tr c r), <- (frob2_tr c n). unfold frob2. rewrite <- Rsum_scal_l. apply Rsum_le. intros j hj.
  change (Rsum r (fun i => mtr (mmul n A B) j i * mtr (mmul n A B) j i)) with (Rsum r (fun i => mmul n A B i j * mmul n A B i j)).
  rewrite <- (vn_sq r (fun i => mmul n A B i j)). change (Rsum n (fun j0 => mtr B j j0 * mtr B j j0)) with (Rsum n (fun l => B l j * B l j)). rewrite <- (vn_sq n (fun l => B l j)).
  pose proof (vn_mv r n A (fun l => B l j)) as h. pose proof (vn_nonneg r (fun i => mmul n A B i j)).
  replace (frob r n A * frob r n A * (vn n (fun l => B l j) * vn n (fun l => B l j))) with ((frob r n A * vn n (fun l => B l j)) * (frob r n A * vn n (fun l => B l j))) by ring.
  apply Rmult_le_compat; auto.
Qed.
Lemma frob_cols r c E e : 0 <= e -> (forall j, (j < c)%nat -> vn r (fun i => E i j) <= e) -> frob r c E <= sqrt (INR c) * e.
Proof.
  intros he h. apply Rsqr_incr_0_var; [|apply Rmult_le_pos; auto; apply sqrt_pos]. unfold Rsqr.
  replace (sqrt (INR c) * e * (sqrt (INR c) * e)) with ((sqrt (INR c) * sqrt (INR c)) * (e * e)) by ring. rewrite sqrt_sqrt by apply pos_INR.
  rewrite frob_sq, <- (frob2_tr c r). unfold frob2. rewrite <- (Rsum_const c (e * e)). apply Rsum_le. intros j hj.
  change (Rsum r (fun i => mtr E j i * mtr E j i)) with (Rsum r (fun i => E i j * E i j)). rewrite <- (vn_sq r (fun i => E i j)). pose proof (vn_nonneg r (fun i => E i j)). pose proof (h j hj). apply Rmult_le_compat; auto.
Qed.

(** C59.  The reduction always returns, and unless an off-diagonal entry is in the underflow range,
    the returned matrix t is finite, tridiagonal and symmetric, and is exactly orthogonally similar
    to a matrix that differs from A by a tiny multiple of the norm of A; the generated q is close to
    that orthogonal matrix.  Nothing is assumed about intermediate results: no overflow can occur. *)
Theorem C59_tridiagonal_backward_stable (n : nat) (a : mat FN) : trd_input n a ->
  exists d q t, sym_tridiagonal a = Ret d /\ tri_generate_q d = Ret q /\ tri_into_matrix d = Ret t /\
    nr q = n /\ nc q = n /\ nr t = n /\ nc t = n /\ tridiagonal n (frm t) /\
    (trd_clean n t ->
      (forall i j, (i < n)%nat -> (j < n)%nat -> ffin (get q i j) /\ ffin (get t i j)) /\ symmetric n (frm t) /\
      exists Q : M, orthogonal n Q /\
        frob n n (msub (frm a) (mmul n Q (mmul n (frm t) (mtr Q)))) <= trd_err n (frm a) /\
        forall j, (j < n)%nat -> colnorm n (msub (frm q) Q) j <= eps_qr n n).
Proof.
  intros (h1 & h2 & h3 & h4 & h5 & h6 & h7). subst n. set (n := nr a) in *.
  assert (es : 650 * (INR n * INR n) * gam (2 * n + 20) = rel_trd n) by (unfold rel_trd; ring).
  destruct (tri_decomp_float a) as (d & q & t & e1 & e2 & e3 & q1 & q2 & t1 & t2 & hc); fold n; auto.
  - intros i j hi hj. rewrite h2 in hj. apply h5; auto.
  - intros i j hi hj. apply h5; auto.
  - lra.
  - assert (bpow radix2 498 + zfl <= bpow radix2 499).
    { replace (bpow radix2 499) with (2 * bpow radix2 498) by (change 2 with (bpow radix2 1); rewrite <- bpow_plus; reflexivity). assert (zfl <= bpow radix2 498) by (apply bpow_le; lia). lra. }
    assert (cap = 2 * bpow radix2 499) by (unfold cap; change 2 with (bpow radix2 1); rewrite <- bpow_plus; reflexivity). lra.
  - exists d, q, t. fold n in q1, q2, t1, t2, hc. repeat (split; [assumption|]).
    assert (ht : forall p j, (p < n)%nat -> (j < n)%nat -> get t p j =
      if Nat.eqb p j then get (diag_matrix d) p p else if Nat.eqb p (j + 1) then nabs FN (vget (off_diagonal d) j) else if Nat.eqb j (p + 1) then nabs FN (vget (off_diagonal d) p) else n0 FN).
    { pose proof (PTrid.sym_tridiagonal_class a) as hcl. rewrite e1 in hcl. destruct hcl as (_ & _ & c1 & c2 & c3).
      destruct (wp_ret _ _ (PTrid.tri_into_matrix_ok d n h3 c1 c2 c3)) as (t' & et & _ & _ & t3). rewrite e3 in et. injection et as <-. exact t3. }
    split. { intros p j hp hj hpj. unfold frm. rewrite ht by auto. destruct (Nat.eqb_spec p j); [lia|]. destruct (Nat.eqb_spec p (j + 1)); [lia|]. destruct (Nat.eqb_spec j (p + 1)); [lia|]. reflexivity. }
    intros hcl. destruct (hc hcl) as (b1 & b2 & Q & b3 & b4 & b5). split; [intros i j hi hj; split; [apply b1|apply b2]; auto|]. split.
    { intros p j hp hj. unfold mtr, frm. rewrite !ht by auto. destruct (Nat.eqb_spec p j) as [->|]; [rewrite Nat.eqb_refl; reflexivity|]. destruct (Nat.eqb_spec j p); [lia|].
      destruct (Nat.eqb_spec p (j + 1)), (Nat.eqb_spec j (p + 1)); try lia; reflexivity. }
    exists Q. split; [exact b3|]. split.
    + eapply Rle_trans; [exact b4|]. right. unfold trd_err. change (bpow radix2 (-450)) with zfl. rewrite <- es. ring.
    + intros j hj. rewrite eps_qr_eq, colnorm_vn. unfold qr_eps, qr_abs, qr_gam. rewrite <- U_gam. apply (b5 j hj).
Qed.
Print Assumptions C59_tridiagonal_backward_stable.

(** The computed factors reproduce A, and the computed q is orthogonal up to rounding. *)
Theorem C59_tridiagonal_residual (n : nat) (a : mat FN) d q t : trd_input n a ->
  sym_tridiagonal a = Ret d -> tri_generate_q d = Ret q -> tri_into_matrix d = Ret t -> trd_clean n t ->
  let f := sqrt (INR n) * eps_qr n n in
  frob n n (msub (frm a) (mmul n (frm q) (mmul n (frm t) (mtr (frm q))))) <= trd_err n (frm a) + (2 * f + f * f) * (frob n n (frm a) + trd_err n (frm a)) /\
  forall i j, (i < n)%nat -> (j < n)%nat -> Rabs (mmul n (mtr (frm q)) (frm q) i j - mid i j) <= 2 * eps_qr n n + eps_qr n n * eps_qr n n.
Proof.
  intros hin e1 e2 e3 hcl f. destruct (C59_tridiagonal_backward_stable n a hin) as (d' & q' & t' & e1' & e2' & e3' & _ & _ & _ & _ & _ & h).
  rewrite e1 in e1'. injection e1' as <-. rewrite e2 in e2'. injection e2' as <-. rewrite e3 in e3'. injection e3' as <-.
  destruct (h hcl) as (_ & _ & Q & ho & hE & hq). assert (he : 0 <= eps_qr n n) by (rewrite eps_qr_eq; apply qr_eps_facts).
  assert (hqv : forall j, (j < n)%nat -> vn n (fun i => frm q i j - Q i j) <= eps_qr n n) by (intros j hj; rewrite <- (colnorm_vn n (fun i j => frm q i j - Q i j)); apply (hq j hj)).
  split; [|intros i j hi hj; apply (ortho_float n n Q (frm q)); auto; apply ho].
  set (F := msub (frm q) Q) in *. set (T := frm t) in *. set (A := frm a) in *. set (E := msub A (mmul n Q (mmul n T (mtr Q)))) in *.
  assert (hF : frob n n F <= f) by (apply frob_cols; auto).
  assert (hT : frob n n T <= frob n n A + trd_err n A).
  { rewrite <- (frob_conj n Q T ho). rewrite (frob_ext n n _ (madd A (mscal (-1) E))) by (intros i j hi hj; unfold E, madd, mscal, msub; ring).
    eapply Rle_trans; [apply frob_triangle|]. rewrite frob_scal, Rabs_left by lra. lra. }
  assert (hQF : forall X, frob n n (mmul n Q X) = frob n n X) by (intros X; unfold frob; f_equal; apply frob2_orth_l; apply ho).
  assert (hXQ : forall X, frob n n (mmul n X (mtr Q)) = frob n n X).
  { intros X. unfold frob. f_equal. apply frob2_orth_r. rewrite mtr_mtr. apply ho. }
  assert (eq0 : frm q =[n, n]= madd Q F) by (intros i j hi hj; unfold F, madd, msub; ring).
  assert (dec : msub A (mmul n (frm q) (mmul n T (mtr (frm q)))) =[n, n]=
    madd E (mscal (-1) (madd (mmul n F (mmul n T (mtr Q))) (madd (mmul n Q (mmul n T (mtr F))) (mmul n F (mmul n T (mtr F))))))).
  { assert (et : mtr (frm q) =[n, n]= madd (mtr Q) (mtr F)) by (intros i j hi hj; unfold mtr; rewrite (eq0 j i hj hi); reflexivity).
    assert (ep : mmul n (frm q) (mmul n T (mtr (frm q))) =[n, n]= madd (madd (mmul n Q (mmul n T (mtr Q))) (mmul n Q (mmul n T (mtr F)))) (madd (mmul n F (mmul n T (mtr Q))) (mmul n F (mmul n T (mtr F))))).
    { rewrite eq0 at 1. rewrite et. rewrite (mmul_add_r n n n T). rewrite (mmul_add_l n n n). rewrite !(mmul_add_r n n n). reflexivity. }
    intros i j hi hj. unfold msub at 1. rewrite (ep i j hi hj). unfold E, msub, madd, mscal. ring. }
  rewrite (frob_ext n n _ _ dec). eapply Rle_trans; [apply frob_triangle|]. rewrite frob_scal, Rabs_left by lra.
  pose proof (frob_nonneg n n F) as hF0. pose proof (frob_nonneg n n T) as hT0. assert (hf0 : 0 <= f) by lra.
  assert (p1 : frob n n (mmul n F (mmul n T (mtr Q))) <= f * frob n n T).
  { eapply Rle_trans; [apply frob_mmul|]. rewrite hXQ. apply Rmult_le_compat_r; auto. }
  assert (p2 : frob n n (mmul n Q (mmul n T (mtr F))) <= f * frob n n T).
  { rewrite hQF. eapply Rle_trans; [apply frob_mmul|]. rewrite PTrdG.frob_tr, Rmult_comm. apply Rmult_le_compat_r; auto. }
  assert (p3 : frob n n (mmul n F (mmul n T (mtr F))) <= f * f * frob n n T).
  { eapply Rle_trans; [apply frob_mmul|]. assert (frob n n (mmul n T (mtr F)) <= f * frob n n T) by (eapply Rle_trans; [apply frob_mmul|]; rewrite PTrdG.frob_tr, Rmult_comm; apply Rmult_le_compat_r; auto).
    rewrite Rmult_assoc. apply Rmult_le_compat; auto. apply frob_nonneg. }
  pose proof (frob_triangle n n (mmul n F (mmul n T (mtr Q))) (madd (mmul n Q (mmul n T (mtr F))) (mmul n F (mmul n T (mtr F))))) as t1.
  pose proof (frob_triangle n n (mmul n Q (mmul n T (mtr F))) (mmul n F (mmul n T (mtr F)))) as t2.
  assert ((2 * f + f * f) * frob n n T <= (2 * f + f * f) * (frob n n A + trd_err n A)) by (apply Rmult_le_compat_l; auto; nra).
  change (fun i j => frm q i j - Q i j) with F in *. lra.
Qed.
Print Assumptions C59_tridiagonal_residual.

(** Every exact eigenpair of t is an approximate eigenpair of A: the residual of Q y is tiny. *)
Theorem C59_eigenpairs (n : nat) (a : mat FN) d q t : trd_input n a ->
  sym_tridiagonal a = Ret d -> tri_generate_q d = Ret q -> tri_into_matrix d = Ret t -> trd_clean n t ->
  forall (lam : R) (y : nat -> R), (forall i, (i < n)%nat -> Rsum n (fun j => frm t i j * y j) = lam * y i) -> Rsum n (fun i => y i * y i) = 1 ->
  exists x : nat -> R, Rsum n (fun i => x i * x i) = 1 /\
    sqrt (Rsum n (fun i => (Rsum n (fun j => frm a i j * x j) - lam * x i) ^ 2)) <= trd_err n (frm a).
Proof.
  intros hin e1 e2 e3 hcl lam y hy hu. destruct (C59_tridiagonal_backward_stable n a hin) as (d' & q' & t' & e1' & e2' & e3' & _ & _ & _ & _ & _ & h).
  rewrite e1 in e1'. injection e1' as <-. rewrite e2 in e2'. injection e2' as <-. rewrite e3 in e3'. injection e3' as <-.
  destruct (h hcl) as (_ & _ & Q & ho & hE & _). set (x := fun i => Rsum n (fun l => Q i l * y l)).
  assert (hx : vn n x = vn n y) by (apply PQRS.vn_hx; auto). assert (hx1 : vn n x = 1) by (rewrite hx; apply vn_unit; auto).
  exists x. split. { rewrite <- (vn_sq n x), hx1. ring. }
  set (E := msub (frm a) (mmul n Q (mmul n (frm t) (mtr Q)))) in *.
  assert (er : forall i, (i < n)%nat -> Rsum n (fun j => frm a i j * x j) - lam * x i = Rsum n (fun j => E i j * x j)).
  { intros i hi. assert (hb : mmul n (mmul n Q (mmul n (frm t) (mtr Q))) (colm x) =[n, 1]= mscal lam (colm x)).
    { assert (ec : colm x =[n, 1]= mmul n Q (colm y)) by (intros p j hp hj; unfold colm, x, mmul; reflexivity).
      assert (ety : mmul n (frm t) (colm y) =[n, 1]= mscal lam (colm y)) by (intros p j hp hj; unfold mmul, colm, mscal; apply hy; auto).
      rewrite ec. rewrite (mmul_assoc n n n 1 Q). rewrite (mmul_assoc n n n 1 (frm t)). rewrite <- (mmul_assoc n n n 1 (mtr Q) Q). destruct ho as (ho & _). rewrite ho, mmul_1_l, ety.
      intros p j hp hj. unfold mmul, mscal. rewrite <- Rsum_scal_l. apply Rsum_ext. intros. ring. }
    specialize (hb i 0%nat hi ltac:(lia)). unfold mscal, colm at 2 in hb. rewrite <- hb. unfold mmul at 1, colm. rewrite <- Rsum_minus. apply Rsum_ext. intros j hj. unfold E, msub. ring. }
  rewrite (Rsum_ext n _ (fun i => Rsum n (fun j => E i j * x j) * Rsum n (fun j => E i j * x j))) by (intros i hi; rewrite er by auto; ring).
  rewrite <- (vn_sq n (fun i => Rsum n (fun j => E i j * x j))), sqrt_square by apply vn_nonneg.
  eapply Rle_trans; [apply vn_mv|]. rewrite hx1, Rmult_1_r. exact hE.
Qed.
Print Assumptions C59_eigenpairs.

(** The constant: below 1300 n^2 (2 n + 20) 2^-53 whenever it is below 1/2 that way, in particular
    below 1 for every n up to 10000. *)
Theorem C59_constants (n : nat) :
  (INR (2 * n + 20) * uro <= / 2 -> 0 <= rel_trd n <= 1300 * INR n ^ 2 * (INR (2 * n + 20) * uro)) /\
  (INR n <= 10000 -> rel_trd n <= 1).
Proof.
  assert (hb : INR (2 * n + 20) * uro <= / 2 -> 0 <= rel_trd n <= 1300 * INR n ^ 2 * (INR (2 * n + 20) * uro)).
  { intros h. unfold rel_trd. set (k := (2 * n + 20)%nat) in *. pose proof (gam_nonneg k). pose proof (gam_usual k ltac:(lra)) as g. pose proof (pos_INR k). pose proof uro_pos.
    assert (gam k <= 2 * (INR k * uro)).
    { eapply Rle_trans; [exact g|]. apply Rmult_le_reg_r with (1 - INR k * uro); [lra|]. unfold Rdiv. rewrite Rmult_assoc, Rinv_l by lra. assert (0 <= INR k * uro) by (apply Rmult_le_pos; lra). nra. }
    assert (0 <= INR n ^ 2) by apply pow2_ge_0. split; [apply Rmult_le_pos; auto; lra|].
    replace (1300 * INR n ^ 2 * (INR k * uro)) with (650 * INR n ^ 2 * (2 * (INR k * uro))) by ring. apply Rmult_le_compat_l; [lra|auto]. }
  split; auto. intros h1.
  pose proof (pos_INR n) as h0. pose proof uro_pos as hu.
  assert (hk : INR (2 * n + 20) <= 20020). { rewrite plus_INR, mult_INR. assert (e2 : INR 2 = 2) by (simpl; lra). assert (e20 : INR 20 = 20) by (simpl; lra). rewrite e2, e20. lra. }
  assert (hv : uro * 9007199254740992 = 1) by (unfold uro; change (2 ^ 53)%Z with 9007199254740992%Z; lra).
  assert (hku : INR (2 * n + 20) * uro <= 20020 * uro) by (apply Rmult_le_compat_r; lra).
  destruct (hb ltac:(lra)) as (_ & hr). eapply Rle_trans; [exact hr|].
  assert (h2 : INR n ^ 2 <= 10000 ^ 2) by (apply pow_incr; lra). pose proof (pow2_ge_0 (INR n)). pose proof (pos_INR (2 * n + 20)).
  apply Rle_trans with (1300 * 10000 ^ 2 * (20020 * uro)); [|lra]. apply Rmult_le_compat; [lra|apply Rmult_le_pos; lra|lra|auto].
Qed.
Print Assumptions C59_constants.

(** ** Examples *)
Definition trd_checkb (a : mat FN) (f : mat FN -> mat FN -> bool) : bool :=
  match sym_tridiagonal a with Ret d => match tri_generate_q d, tri_into_matrix d with Ret q, Ret t => f q t | _, _ => false end | _ => false end.
Lemma trd_checkb_ok a f : trd_checkb a f = true -> exists d q t, sym_tridiagonal a = Ret d /\ tri_generate_q d = Ret q /\ tri_into_matrix d = Ret t /\ f q t = true.
Proof.
  unfold trd_checkb. destruct (sym_tridiagonal a) as [d| | | |]; try discriminate. destruct (tri_generate_q d) as [q| | | |] eqn:e1; try discriminate.
  destruct (tri_into_matrix d) as [t| | | |] eqn:e2; try discriminate. intros h. exists d, q, t. auto.
Qed.
Definition trd_cleanb (n : nat) (t : mat FN) : bool := forallb (fun i => rangeb (get t (i + 1) i)) (seq 0 (n - 1)).
Lemma trd_cleanb_ok n t : trd_cleanb n t = true -> trd_clean n t.
Proof.
  unfold trd_cleanb. rewrite forallb_forall. intros h i hi. destruct (rangeb_ok _ (h i ltac:(apply in_seq; lia))) as [g|g]; [left|right]; tauto.
Qed.
Definition trd_a : mat FN := fmat 4 [[2; 3; 4; 1]; [3; 1; 0; 5]; [4; 0; 1; 2]; [1; 5; 2; 7]]%Z.
Lemma trd_a_input : trd_input 4 trd_a.
Proof.
  repeat (split; [reflexivity || lia|]). split. { apply C59_constants. simpl. lra. }
  split. { intros i j hi hj. assert (hm : mokb trd_a = true) by (vm_compute; reflexivity). split; apply (mokb_ok _ hm i j); auto. }
  split.
  - intros i j hi hj. destruct i as [|[|[|[|]]]]; try lia; destruct j as [|[|[|[|]]]]; try lia; reflexivity.
  - assert (hz : forall z, fr (f_of_Z z) = fr (f_of_Z z)) by reflexivity.
    apply Rle_trans with (INR 4 * bpow radix2 4).
    + rewrite <- (frob_const 4 (bpow radix2 4)) by apply bpow_ge_0. apply frob_le. intros i j hi hj. rewrite (Rabs_pos_eq (bpow radix2 4)) by apply bpow_ge_0. change (bpow radix2 4) with 16.
      destruct i as [|[|[|[|]]]]; try lia; destruct j as [|[|[|[|]]]]; try lia; unfold frm; cbn; unfold fr, F2R; cbn; rewrite ?Rabs_R0; try (rewrite Rabs_pos_eq by lra); lra.
    + apply Rle_trans with (bpow radix2 6); [simpl; lra|apply bpow_le; lia].
Qed.
(** a 4x4 matrix whose reduction is not exact in binary64 *)
Example C59_example : trd_input 4 trd_a /\ exists d q t, sym_tridiagonal trd_a = Ret d /\ tri_generate_q d = Ret q /\ tri_into_matrix d = Ret t /\ trd_clean 4 t /\
  ~ (fq (get t 1 0) * fq (get t 1 0) == 26)%Q /\ ~ (fq (get t 2 1) == 0)%Q.
Proof.
  split; [exact trd_a_input|].
  destruct (trd_checkb_ok trd_a (fun q t => trd_cleanb 4 t && negb (Qeq_bool (fq (get t 1 0) * fq (get t 1 0)) 26) && negb (Qeq_bool (fq (get t 2 1)) 0))) as (d & q & t & h1 & h2 & h3 & h4).
  - vm_compute. reflexivity.
  - exists d, q, t.  apply andb_prop in h4. destruct h4 as (h4 & h6). apply andb_prop in h4. destruct h4 as (h4 & h5).
    repeat (split; [assumption|]). split; [apply trd_cleanb_ok; exact h4|]. split; apply Qeq_bool_neq; apply negb_true_iff; assumption.
Qed.
