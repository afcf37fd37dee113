(** * Property C60: bidiagonalisation in binary64 is backward stable

    Everything here is about the instance [FN] of the model: the operations of IEEE 754 binary64 in
    exactly the order in which the code performs them. *)
From Coq Require Import Reals List Arith Lia Lra Bool ZArith QArith.
From Coq.Floats Require Import SpecFloat.
From Flocq Require Import Core BinarySingleNaN.
From Verif Require Import Scalar Arr MBase MDirect MDecomp Inst Hoare Spec SpecF Ex RLin PEighR PSvdR PRound PTriF PHouseF PQRF PQRG PTrdF PBidG Properties_Rounding Properties_QRFloat Properties_TridFloat.
Import ListNotations.
Local Open Scope R_scope.

(** The constant: about 8 d (10 n + 70) roundings, for d the smaller and n the larger dimension *)
Definition rel_bid (r c : nat) : R := 4 * INR (Nat.min r c) * gam (10 * Nat.max r c + 70).
Definition bid_err (r c : nat) (A : M) : R := rel_bid r c * (frob r c A + bpow radix2 (-450)).
(** A non-empty matrix of finite numbers of norm at most 2^498, with at most about three million rows
    and columns (C60_constants) *)
Definition bid_size (n : nat) : Prop := INR (n * (10 * n + 70)) * uro <= / 100.
Definition bid_input (r c : nat) (a : mat FN) : Prop :=
  nr a = r /\ nc a = c /\ (1 <= r)%nat /\ (1 <= c)%nat /\ bid_size (Nat.max r c) /\
  (forall i j, (i < r)%nat -> (j < c)%nat -> fvalid (get a i j) /\ ffin (get a i j)) /\
  frob r c (frm a) <= bpow radix2 498.
(** No entry of the result is so small that its square underflowed *)
Definition bid_clean (d : nat) (b : mat FN) : Prop :=
  forall i j, (i < d)%nat -> (j < d)%nat -> fr (get b i j) = 0 \/ bpow radix2 (-480) <= fr (get b i j).
(** Upper bidiagonal for matrices at least as tall as wide, lower bidiagonal for the others *)
Definition bidiagonal_shape (r c : nat) (B : M) : Prop := let d := Nat.min r c in
  forall i j, (i < d)%nat -> (j < d)%nat -> i <> j -> (if Nat.leb c r then j <> (i + 1)%nat else i <> (j + 1)%nat) -> B i j = 0.

(** C60.  The reduction always returns, and unless an entry of the result is in the underflow range,
    the returned bidiagonal b is finite and non-negative, and P b Q^T with exactly orthonormal P and Q
    differs from A by a tiny multiple of the norm of A; the generated u and v^T are close to P and
    Q^T.  Nothing is assumed about intermediate results: no overflow can occur. *)
Theorem C60_bidiagonal_backward_stable (r c : nat) (a : mat FN) : bid_input r c a -> let d := Nat.min r c in let n := Nat.max r c in
  exists bd u b vt, bidiagonal a = Ret bd /\ generate_u bd = Ret u /\ into_b bd = Ret b /\ generate_vt bd = Ret vt /\
    nr u = r /\ nc u = d /\ nr b = d /\ nc b = d /\ nr vt = d /\ nc vt = c /\ bidiagonal_shape r c (frm b) /\
    (bid_clean d b ->
      (forall i j, (i < r)%nat -> (j < d)%nat -> ffin (get u i j)) /\
      (forall i j, (i < d)%nat -> (j < d)%nat -> ffin (get b i j) /\ 0 <= fr (get b i j)) /\
      (forall i j, (i < d)%nat -> (j < c)%nat -> ffin (get vt i j)) /\
      exists P Q : M, orthonormal_cols r d P /\ orthonormal_cols c d Q /\
        frob r c (msub (frm a) (mmul d P (mmul d (frm b) (mtr Q)))) <= bid_err r c (frm a) /\
        (forall j, (j < d)%nat -> colnorm r (msub (frm u) P) j <= eps_qr n d) /\
        (forall j, (j < d)%nat -> colnorm c (msub (mtr (frm vt)) Q) j <= eps_qr n d)).
Proof.
  intros (h1 & h2 & h3 & h4 & h5 & h6 & h7) d n. subst r c. set (r := nr a) in *. set (c := nc a) in *.
  destruct (bid_decomp_float a) as (bd & u & b & vt & e1 & e2 & e3 & e4 & e5 & u1 & u2 & b1 & b2 & v1 & v2 & hz & hc); fold r c; auto.
  - fold d. unfold d. lia.
  - assert (bpow radix2 498 + zfl <= bpow radix2 499).
    { replace (bpow radix2 499) with (2 * bpow radix2 498) by (change 2 with (bpow radix2 1); rewrite <- bpow_plus; reflexivity). assert (zfl <= bpow radix2 498) by (apply bpow_le; lia). lra. }
    assert (cap = 2 * bpow radix2 499) by (unfold cap; change 2 with (bpow radix2 1); rewrite <- bpow_plus; reflexivity). lra.
  - fold r c in u1, u2, b1, b2, v1, v2, hz, hc. fold d n in u1, u2, b1, b2, v1, v2, hz, hc. exists bd, u, b, vt. repeat (split; [assumption|]).
    intros hcl. destruct (hc hcl) as (g1 & g2 & g3 & P & Q & g4 & g5 & g6 & g7 & g8).
    split; [intros i j hi hj; apply g1; auto|]. split; [intros i j hi hj; destruct (g2 i j hi hj) as ((_ & q1) & q2); auto|]. split; [intros i j hi hj; apply g3; auto|].
    exists P, Q. split; [exact g4|]. split; [exact g5|]. split.
    + eapply Rle_trans; [exact g6|]. right. unfold bid_err, rel_bid. fold d n. change (bpow radix2 (-450)) with zfl. ring.
    + split; intros j hj; rewrite eps_qr_eq, colnorm_vn; unfold qr_eps, qr_abs, qr_gam; rewrite <- U_gam; [apply (g7 j hj)|apply (g8 j hj)].
Qed.
Print Assumptions C60_bidiagonal_backward_stable.

(** The computed factors reproduce A, and the computed factors are orthogonal up to rounding. *)
Theorem C60_bidiagonal_residual (r c : nat) (a : mat FN) bd u b vt : bid_input r c a ->
  bidiagonal a = Ret bd -> generate_u bd = Ret u -> into_b bd = Ret b -> generate_vt bd = Ret vt -> bid_clean (Nat.min r c) b ->
  let d := Nat.min r c in let eps := eps_qr (Nat.max r c) d in let f := sqrt (INR d) * eps in
  frob r c (msub (frm a) (mmul d (frm u) (mmul d (frm b) (frm vt)))) <= bid_err r c (frm a) + (2 * f + f * f) * (frob r c (frm a) + bid_err r c (frm a)) /\
  (forall i j, (i < d)%nat -> (j < d)%nat -> Rabs (mmul r (mtr (frm u)) (frm u) i j - mid i j) <= 2 * eps + eps * eps) /\
  (forall i j, (i < d)%nat -> (j < d)%nat -> Rabs (mmul c (frm vt) (mtr (frm vt)) i j - mid i j) <= 2 * eps + eps * eps).
Proof.
  intros hin e1 e2 e3 e4 hcl d eps f. destruct (C60_bidiagonal_backward_stable r c a hin) as (bd' & u' & b' & vt' & e1' & e2' & e3' & e4' & _ & _ & _ & _ & _ & _ & _ & h). fold d in h.
  rewrite e1 in e1'. injection e1' as <-. rewrite e2 in e2'. injection e2' as <-. rewrite e3 in e3'. injection e3' as <-. rewrite e4 in e4'. injection e4' as <-.
  destruct (h hcl) as (_ & _ & _ & P & Q & hP & hQ & hE & hu & hv). assert (he : 0 <= eps) by (unfold eps; rewrite eps_qr_eq; apply qr_eps_facts).
  assert (huv : forall j, (j < d)%nat -> vn r (fun i => frm u i j - P i j) <= eps) by (intros j hj; rewrite <- (colnorm_vn r (fun i j => frm u i j - P i j)); apply (hu j hj)).
  assert (hvv : forall j, (j < d)%nat -> vn c (fun i => mtr (frm vt) i j - Q i j) <= eps) by (intros j hj; rewrite <- (colnorm_vn c (fun i j => mtr (frm vt) i j - Q i j)); apply (hv j hj)).
  split; [|split; intros i j hi hj; [apply (ortho_float r d P (frm u)); auto|apply (ortho_float c d Q (mtr (frm vt))); auto]].
  set (F := msub (frm u) P) in *. set (G := msub (mtr (frm vt)) Q) in *. set (T := frm b) in *. set (A := frm a) in *. set (E := msub A (mmul d P (mmul d T (mtr Q)))) in *.
  assert (hF : frob r d F <= f) by (apply frob_cols; auto). assert (hG : frob c d G <= f) by (apply frob_cols; auto).
  assert (hT : frob d d T <= frob r c A + bid_err r c A).
  { rewrite <- (frob_ocols_r d d c Q T hQ). rewrite <- (frob_ocols r d c P (mmul d T (mtr Q)) hP). rewrite (frob_ext r c _ (madd A (mscal (-1) E))) by (intros i j hi hj; unfold E, madd, mscal, msub; ring).
    eapply Rle_trans; [apply frob_triangle|]. rewrite frob_scal, Rabs_left by lra. lra. }
  assert (dec : msub A (mmul d (frm u) (mmul d T (frm vt))) =[r, c]=
    madd E (mscal (-1) (madd (mmul d F (mmul d T (mtr Q))) (madd (mmul d P (mmul d T (mtr G))) (mmul d F (mmul d T (mtr G))))))).
  { assert (eu : frm u =[r, d]= madd P F) by (intros i j hi hj; unfold F, madd, msub; ring).
    assert (et : frm vt =[d, c]= madd (mtr Q) (mtr G)) by (intros i j hi hj; unfold G, madd, msub, mtr; ring).
    assert (ep : mmul d (frm u) (mmul d T (frm vt)) =[r, c]= madd (madd (mmul d P (mmul d T (mtr Q))) (mmul d P (mmul d T (mtr G)))) (madd (mmul d F (mmul d T (mtr Q))) (mmul d F (mmul d T (mtr G))))).
    { rewrite eu, et. rewrite (mmul_add_r d d c T). rewrite (mmul_add_l r d c). rewrite !(mmul_add_r r d c). reflexivity. }
    intros i j hi hj. unfold msub at 1. rewrite (ep i j hi hj). unfold E, msub, madd, mscal. ring. }
  rewrite (frob_ext r c _ _ dec). eapply Rle_trans; [apply frob_triangle|]. rewrite frob_scal, Rabs_left by lra.
  pose proof (frob_nonneg r d F) as hF0. pose proof (frob_nonneg d d T) as hT0. assert (hf0 : 0 <= f) by lra.
  assert (hTG : frob d c (mmul d T (mtr G)) <= f * frob d d T) by (eapply Rle_trans; [apply frob_mmul|]; rewrite frob_tr, Rmult_comm; apply Rmult_le_compat_r; auto).
  assert (p1 : frob r c (mmul d F (mmul d T (mtr Q))) <= f * frob d d T).
  { eapply Rle_trans; [apply frob_mmul|]. rewrite (frob_ocols_r d d c Q T hQ). apply Rmult_le_compat_r; auto. }
  assert (p2 : frob r c (mmul d P (mmul d T (mtr G))) <= f * frob d d T) by (rewrite (frob_ocols r d c P) by auto; exact hTG).
  assert (p3 : frob r c (mmul d F (mmul d T (mtr G))) <= f * f * frob d d T).
  { eapply Rle_trans; [apply frob_mmul|]. rewrite Rmult_assoc. apply Rmult_le_compat; auto. apply frob_nonneg. }
  pose proof (frob_triangle r c (mmul d F (mmul d T (mtr Q))) (madd (mmul d P (mmul d T (mtr G))) (mmul d F (mmul d T (mtr G))))) as t1.
  pose proof (frob_triangle r c (mmul d P (mmul d T (mtr G))) (mmul d F (mmul d T (mtr G)))) as t2.
  assert ((2 * f + f * f) * frob d d T <= (2 * f + f * f) * (frob r c A + bid_err r c A)) by (apply Rmult_le_compat_l; auto; nra). lra.
Qed.
Print Assumptions C60_bidiagonal_residual.

(** Every exact singular triple of b is an approximate singular triple of A. *)
Theorem C60_singular_triples (r c : nat) (a : mat FN) bd u b vt : bid_input r c a ->
  bidiagonal a = Ret bd -> generate_u bd = Ret u -> into_b bd = Ret b -> generate_vt bd = Ret vt -> bid_clean (Nat.min r c) b -> let d := Nat.min r c in
  forall (s : R) (x y : nat -> R), Rsum d (fun i => x i * x i) = 1 -> Rsum d (fun i => y i * y i) = 1 ->
  (forall i, (i < d)%nat -> Rsum d (fun j => frm b i j * y j) = s * x i) ->
  (forall j, (j < d)%nat -> Rsum d (fun i => frm b i j * x i) = s * y j) ->
  exists x' y' : nat -> R, Rsum r (fun i => x' i * x' i) = 1 /\ Rsum c (fun i => y' i * y' i) = 1 /\
    sqrt (Rsum r (fun i => (Rsum c (fun j => frm a i j * y' j) - s * x' i) ^ 2)) <= bid_err r c (frm a) /\
    sqrt (Rsum c (fun j => (Rsum r (fun i => frm a i j * x' i) - s * y' j) ^ 2)) <= bid_err r c (frm a).
Proof.
  intros hin e1 e2 e3 e4 hcl d s x y hx hy h1 h2. destruct (C60_bidiagonal_backward_stable r c a hin) as (bd' & u' & b' & vt' & e1' & e2' & e3' & e4' & _ & _ & _ & _ & _ & _ & _ & h). fold d in h.
  rewrite e1 in e1'. injection e1' as <-. rewrite e2 in e2'. injection e2' as <-. rewrite e3 in e3'. injection e3' as <-. rewrite e4 in e4'. injection e4' as <-.
  destruct (h hcl) as (_ & _ & _ & P & Q & hP & hQ & hE & _ & _).
  pose proof hP as oP. pose proof hQ as oQ. unfold orthonormal_cols in oP, oQ.
  set (x' := fun i => Rsum d (fun l => P i l * x l)). set (y' := fun i => Rsum d (fun l => Q i l * y l)).
  assert (nx : vn r x' = 1) by (unfold x'; rewrite (vn_ocols r d P x hP); apply vn_unit; auto).
  assert (ny : vn c y' = 1) by (unfold y'; rewrite (vn_ocols c d Q y hQ); apply vn_unit; auto).
  exists x', y'. split; [rewrite <- (vn_sq r x'), nx; ring|]. split; [rewrite <- (vn_sq c y'), ny; ring|].
  set (E := msub (frm a) (mmul d P (mmul d (frm b) (mtr Q)))) in *. set (T := frm b) in *.
  assert (ecx : colm x' =[r, 1]= mmul d P (colm x)) by (intros p j hp hj; unfold colm, x', mmul; reflexivity).
  assert (ecy : colm y' =[c, 1]= mmul d Q (colm y)) by (intros p j hp hj; unfold colm, y', mmul; reflexivity).
  assert (hs : forall m k Z w, mmul m Z (mscal s w) =[k, 1]= mscal s (mmul m Z w)) by (intros m k Z w p j hp hj; unfold mmul, mscal; rewrite <- Rsum_scal_l; apply Rsum_ext; intros; ring).
  split.
  - assert (er : forall i, (i < r)%nat -> Rsum c (fun j => frm a i j * y' j) - s * x' i = Rsum c (fun j => E i j * y' j)).
    { intros i hi. assert (hb : mmul c (mmul d P (mmul d T (mtr Q))) (colm y') =[r, 1]= mscal s (colm x')).
      { assert (ety : mmul d T (colm y) =[d, 1]= mscal s (colm x)) by (intros p j hp hj; unfold mmul, colm, mscal; apply h1; auto).
        rewrite ecy, ecx. rewrite (mmul_assoc r d c 1 P). rewrite (mmul_assoc d d c 1 T). rewrite <- (mmul_assoc d c d 1 (mtr Q) Q). rewrite oQ, mmul_1_l, ety. apply hs. }
      specialize (hb i 0%nat hi ltac:(lia)). unfold mscal, colm at 2 in hb. rewrite <- hb. unfold mmul at 1, colm. rewrite <- Rsum_minus. apply Rsum_ext. intros j hj. unfold E, msub. ring. }
    rewrite (Rsum_ext r _ (fun i => Rsum c (fun j => E i j * y' j) * Rsum c (fun j => E i j * y' j))) by (intros i hi; rewrite er by auto; ring).
    rewrite <- (vn_sq r (fun i => Rsum c (fun j => E i j * y' j))), sqrt_square by apply vn_nonneg.
    eapply Rle_trans; [apply vn_mv|]. rewrite ny, Rmult_1_r. exact hE.
  - assert (er : forall i, (i < c)%nat -> Rsum r (fun j => frm a j i * x' j) - s * y' i = Rsum r (fun j => mtr E i j * x' j)).
    { intros i hi. assert (hb : mmul r (mtr (mmul d P (mmul d T (mtr Q)))) (colm x') =[c, 1]= mscal s (colm y')).
      { assert (ety : mmul d (mtr T) (colm x) =[d, 1]= mscal s (colm y)).
        { intros p j hp hj. unfold mscal, colm at 2. rewrite <- (h2 p hp). reflexivity. }
        rewrite (mtr_mmul r d c P), (mtr_mmul d d c T), (mtr_mtr c d Q). rewrite ecy, ecx. rewrite (mmul_assoc c d r 1). rewrite <- (mmul_assoc d r d 1 (mtr P) P). rewrite oP, mmul_1_l. rewrite (mmul_assoc c d d 1 Q), ety. apply hs. }
      specialize (hb i 0%nat hi ltac:(lia)). unfold mscal, colm at 2 in hb. rewrite <- hb. unfold mmul at 1, colm. rewrite <- Rsum_minus. apply Rsum_ext. intros j hj. unfold E, msub, mtr. ring. }
    rewrite (Rsum_ext c _ (fun i => Rsum r (fun j => mtr E i j * x' j) * Rsum r (fun j => mtr E i j * x' j))) by (intros i hi; rewrite er by auto; ring).
    rewrite <- (vn_sq c (fun i => Rsum r (fun j => mtr E i j * x' j))), sqrt_square by apply vn_nonneg.
    eapply Rle_trans; [apply vn_mv|]. rewrite nx, Rmult_1_r, frob_tr. exact hE.
Qed.
Print Assumptions C60_singular_triples.

(** The constants: every matrix with at most a million rows and columns is allowed, and then
    [rel_bid] is at most 8 d (10 n + 70) 2^-53. *)
Theorem C60_constants (r c : nat) : let n := Nat.max r c in
  (INR n <= 1000000 -> bid_size n) /\
  (bid_size n -> 0 <= rel_bid r c <= 8 * INR (Nat.min r c) * (INR (10 * n + 70) * uro) /\ rel_bid r c <= 2 / 25).
Proof.
  intros n. assert (hu := uro_pos). pose proof (pos_INR n) as hn.
  assert (hk : INR (10 * n + 70) = 10 * INR n + 70). { rewrite plus_INR, mult_INR. replace (INR 10) with 10 by (simpl; lra). replace (INR 70) with 70 by (simpl; lra). reflexivity. }
  split.
  - intros h. unfold bid_size. rewrite mult_INR, hk. assert (hv : uro * 9007199254740992 = 1) by (unfold uro; change (2 ^ 53)%Z with 9007199254740992%Z; lra).
    assert (h2 : INR n * (10 * INR n + 70) <= 1000000 * (10 * 1000000 + 70)) by (apply Rmult_le_compat; lra).
    apply Rle_trans with (1000000 * (10 * 1000000 + 70) * uro); [apply Rmult_le_compat_r; lra|lra].
  - unfold bid_size, rel_bid. fold n. set (d := Nat.min r c). intros h. rewrite mult_INR in h. pose proof (pos_INR d) as hd. assert (hdn : INR d <= INR n) by (apply le_INR; unfold d, n; lia).
    destruct (Nat.eq_dec n 0) as [e0|ne].
    { assert (e1 : d = 0%nat) by (unfold d, n in *; lia). rewrite e1. change (INR 0) with 0. lra. }
    assert (h1 : 1 <= INR n) by (apply (le_INR 1); lia). set (k := (10 * n + 70)%nat) in *. pose proof (gam_nonneg k). pose proof (pos_INR k) as hk0.
    assert (hku0 : 0 <= INR k * uro) by (apply Rmult_le_pos; lra). assert (hku : INR k * uro <= / 100) by nra.
    assert (g : gam k <= 2 * (INR k * uro)).
    { eapply Rle_trans; [apply (gam_usual k); lra|]. apply Rmult_le_reg_r with (1 - INR k * uro); [lra|]. unfold Rdiv. rewrite Rmult_assoc, Rinv_l by lra. nra. }
    assert (h3 : INR d * gam k <= INR d * (2 * (INR k * uro))) by (apply Rmult_le_compat_l; auto).
    assert (h4 : INR d * (INR k * uro) <= INR n * (INR k * uro)) by (apply Rmult_le_compat_r; auto).
    assert (0 <= INR d * gam k) by (apply Rmult_le_pos; auto). lra.
Qed.
Print Assumptions C60_constants.

(** ** Examples *)
Definition bid_checkb (a : mat FN) (f : mat FN -> bool) : bool :=
  match bidiagonal a with Ret d => match generate_u d, into_b d, generate_vt d with Ret u, Ret b, Ret vt => f b | _, _, _ => false end | _ => false end.
Lemma bid_checkb_ok a f : bid_checkb a f = true -> exists d u b vt, bidiagonal a = Ret d /\ generate_u d = Ret u /\ into_b d = Ret b /\ generate_vt d = Ret vt /\ f b = true.
Proof.
  unfold bid_checkb. destruct (bidiagonal a) as [d| | | |]; try discriminate. destruct (generate_u d) as [u| | | |] eqn:e1; try discriminate.
  destruct (into_b d) as [b| | | |] eqn:e2; try discriminate. destruct (generate_vt d) as [vt| | | |] eqn:e3; try discriminate. intros h. exists d, u, b, vt. auto.
Qed.
Definition bid_cleanb (d : nat) (b : mat FN) : bool := forallb (fun i => forallb (fun j => rangeb (get b i j)) (seq 0 d)) (seq 0 d).
Lemma bid_cleanb_ok d b : bid_cleanb d b = true -> bid_clean d b.
Proof.
  unfold bid_cleanb. rewrite forallb_forall. intros h i j hi hj. specialize (h i ltac:(apply in_seq; lia)). rewrite forallb_forall in h.
  destruct (rangeb_ok _ (h j ltac:(apply in_seq; lia))) as [g|g]; [left|right]; tauto.
Qed.
Definition bid_tall_a : mat FN := fmat 3 [[2; 3; 4]; [3; 1; 0]; [4; 0; 1]; [1; 5; 2]]%Z.
Definition bid_wide_a : mat FN := fmat 4 [[2; 3; 4; 1]; [3; 1; 0; 5]; [4; 0; 1; 2]]%Z.
Lemma bid_tall_input : bid_input 4 3 bid_tall_a.
Proof.
  repeat (split; [reflexivity || lia|]). split. { apply (C60_constants 4 3). simpl. lra. }
  split. { intros i j hi hj. assert (hm : mokb bid_tall_a = true) by (vm_compute; reflexivity). split; apply (mokb_ok _ hm i j); auto. }
  apply Rle_trans with (1 * frob 4 3 (fun _ _ => 16) + INR 3 * 0).
  - apply PBidF.frob_cols_le; try lra. intros q hq. rewrite Rmult_1_l, Rplus_0_r. apply vn_le. intros p hp. rewrite (Rabs_pos_eq 16) by lra.
    destruct p as [|[|[|[|]]]]; try lia; destruct q as [|[|[|]]]; try lia; unfold frm; cbn; unfold fr, F2R; cbn; rewrite ?Rabs_R0; try (rewrite Rabs_pos_eq by lra); lra.
  - rewrite Rmult_0_r, Rplus_0_r, Rmult_1_l. apply Rle_trans with (bpow radix2 6); [|apply bpow_le; lia]. unfold frob, frob2. cbn [Rsum]. change (bpow radix2 6) with 64.
    apply Rsqr_incr_0_var; [|lra]. unfold Rsqr. rewrite sqrt_sqrt by lra. lra.
Qed.
Lemma bid_wide_input : bid_input 3 4 bid_wide_a.
Proof.
  repeat (split; [reflexivity || lia|]). split. { apply (C60_constants 3 4). simpl. lra. }
  split. { intros i j hi hj. assert (hm : mokb bid_wide_a = true) by (vm_compute; reflexivity). split; apply (mokb_ok _ hm i j); auto. }
  apply Rle_trans with (1 * frob 3 4 (fun _ _ => 16) + INR 4 * 0).
  - apply PBidF.frob_cols_le; try lra. intros q hq. rewrite Rmult_1_l, Rplus_0_r. apply vn_le. intros p hp. rewrite (Rabs_pos_eq 16) by lra.
    destruct p as [|[|[|]]]; try lia; destruct q as [|[|[|[|]]]]; try lia; unfold frm; cbn; unfold fr, F2R; cbn; rewrite ?Rabs_R0; try (rewrite Rabs_pos_eq by lra); lra.
  - rewrite Rmult_0_r, Rplus_0_r, Rmult_1_l. apply Rle_trans with (bpow radix2 6); [|apply bpow_le; lia]. unfold frob, frob2. cbn [Rsum]. change (bpow radix2 6) with 64.
    apply Rsqr_incr_0_var; [|lra]. unfold Rsqr. rewrite sqrt_sqrt by lra. lra.
Qed.
(** a tall and a wide matrix, with results that are not exact in binary64 *)
Example C60_example_tall : bid_input 4 3 bid_tall_a /\ exists d u b vt, bidiagonal bid_tall_a = Ret d /\ generate_u d = Ret u /\ into_b d = Ret b /\ generate_vt d = Ret vt /\
  bid_clean 3 b /\ ~ (fq (get b 0 0) * fq (get b 0 0) == 30)%Q /\ ~ (fq (get b 1 2) == 0)%Q.
Proof.
  split; [exact bid_tall_input|].
  destruct (bid_checkb_ok bid_tall_a (fun b => bid_cleanb 3 b && negb (Qeq_bool (fq (get b 0 0) * fq (get b 0 0)) 30) && negb (Qeq_bool (fq (get b 1 2)) 0))) as (d & u & b & vt & h1 & h2 & h3 & h5 & h4).
  - vm_compute. reflexivity.
  - exists d, u, b, vt. apply andb_prop in h4. destruct h4 as (h4 & h6). apply andb_prop in h4. destruct h4 as (h4 & h7).
    repeat (split; [assumption|]). split; [apply bid_cleanb_ok; exact h4|]. split; apply Qeq_bool_neq; apply negb_true_iff; assumption.
Qed.
Example C60_example_wide : bid_input 3 4 bid_wide_a /\ exists d u b vt, bidiagonal bid_wide_a = Ret d /\ generate_u d = Ret u /\ into_b d = Ret b /\ generate_vt d = Ret vt /\
  bid_clean 3 b /\ ~ (fq (get b 0 0) * fq (get b 0 0) == 30)%Q /\ ~ (fq (get b 2 1) == 0)%Q.
Proof.
  split; [exact bid_wide_input|].
  destruct (bid_checkb_ok bid_wide_a (fun b => bid_cleanb 3 b && negb (Qeq_bool (fq (get b 0 0) * fq (get b 0 0)) 30) && negb (Qeq_bool (fq (get b 2 1)) 0))) as (d & u & b & vt & h1 & h2 & h3 & h5 & h4).
  - vm_compute. reflexivity.
  - exists d, u, b, vt. apply andb_prop in h4. destruct h4 as (h4 & h6). apply andb_prop in h4. destruct h4 as (h4 & h7).
    repeat (split; [assumption|]). split; [apply bid_cleanb_ok; exact h4|]. split; apply Qeq_bool_neq; apply negb_true_iff; assumption.
Qed.
