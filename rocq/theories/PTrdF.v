(** * tridiagonal.rs in floating point *)
From Coq Require Import Reals List Arith Lia Lra Bool ZArith Setoid Morphisms.
From Coq.Floats Require Import SpecFloat.
From Flocq Require Import Core BinarySingleNaN.
From Verif Require Import Scalar Arr MBase MDirect MDecomp Inst Hoare Spec SpecF RLin PTri PHouse PTrid PEighR PRound PTriF PCholF PNormF PHouseF PQRF PQRG PQRS PCholG.
Import ListNotations.
Local Open Scope R_scope.
Local Notation U k := ((1 + uro) ^ k).

(** ** Operations with an absolute error bound *)
Definition fokx (x : FN) : Prop := fvalid x /\ ffin x.
Lemma mul_err x y : fokx x -> fokx y -> Rabs (fr x) * Rabs (fr y) <= bpow radix2 1023 ->
  fokx (nmul FN x y) /\ Rabs (fr (nmul FN x y) - fr x * fr y) <= uro * (Rabs (fr x) * Rabs (fr y)) + eta.
Proof.
  intros (vx & fx) (vy & fy) h. rewrite <- Rabs_mult in *.
  assert (f : ffin (nmul FN x y)) by (apply mul_fin; auto). split; [split; auto; apply fvalid_mul; auto|].
  destruct (mul_std x y vx vy f) as (_ & _ & d & e & hd & he & ->). apply dlt_u in hd.
  replace (fr x * fr y * (1 + d) + e - fr x * fr y) with (d * (fr x * fr y) + e) by ring.
  eapply Rle_trans; [apply Rabs_triang|]. rewrite Rabs_mult. pose proof (Rabs_pos (fr x * fr y)).
  assert (Rabs d * Rabs (fr x * fr y) <= uro * Rabs (fr x * fr y)) by (apply Rmult_le_compat_r; auto). lra.
Qed.
Lemma add_err x y : fokx x -> fokx y -> Rabs (fr x) + Rabs (fr y) <= bpow radix2 1023 ->
  fokx (nadd FN x y) /\ Rabs (fr (nadd FN x y) - (fr x + fr y)) <= uro * (Rabs (fr x) + Rabs (fr y)).
Proof.
  intros (vx & fx) (vy & fy) h. pose proof (Rabs_triang (fr x) (fr y)) as ht.
  assert (f : ffin (nadd FN x y)) by (apply add_fin; auto; lra). split; [split; auto; apply fvalid_add; auto|].
  destruct (add_std x y vx vy f) as (_ & _ & d & hd & ->). apply dlt_u in hd.
  replace ((fr x + fr y) * (1 + d) - (fr x + fr y)) with (d * (fr x + fr y)) by ring.
  rewrite Rabs_mult. pose proof uro_pos. apply Rmult_le_compat; auto; apply Rabs_pos.
Qed.
Lemma dot_err (x y : nat -> FN) m B : (forall j, (j < m)%nat -> fokx (x j)) -> (forall j, (j < m)%nat -> fokx (y j)) ->
  Rsum m (fun j => Rabs (fr (x j)) * Rabs (fr (y j))) <= B -> B <= bpow radix2 1010 -> gam (S m) <= 1 -> INR m * eta <= 1 ->
  fokx (sumn m (fun i => nmul FN (x i) (y i))) /\
  Rabs (fr (sumn m (fun i => nmul FN (x i) (y i))) - Rsum m (fun j => fr (x j) * fr (y j))) <= gam (S m) * B + 2 * (INR m * eta).
Proof.
  intros hx hy hB hb hg he.
  assert (hv : forall j, (j < m)%nat -> fvalid (x j) /\ fvalid (y j)) by (intros j hj; split; [apply (hx j hj)|apply (hy j hj)]).
  assert (f : ffin (sumn m (fun i => nmul FN (x i) (y i)))).
  { apply (dot_fwd x y m B); auto. intros j hj. split; [apply (hx j hj)|apply (hy j hj)]. }
  split; [split; auto; apply sumn_valid; intros j hj; destruct (hv j hj); apply fvalid_mul; auto|].
  destruct (dot_std x y m hv f) as (_ & D & e & h1 & h2 & ->).
  replace (Rsum m (fun j => fr (x j) * fr (y j) * D j) + e - Rsum m (fun j => fr (x j) * fr (y j))) with (Rsum m (fun j => fr (x j) * fr (y j) * (D j - 1)) + e).
  2:{ rewrite (Rsum_ext m (fun i => fr (x i) * fr (y i) * (D i - 1)) (fun i => fr (x i) * fr (y i) * D i - fr (x i) * fr (y i))) by (intros; ring). rewrite Rsum_minus. ring. }
  eapply Rle_trans; [apply Rabs_triang|]. apply Rplus_le_compat.
  - eapply Rle_trans; [apply Rsum_abs|]. eapply Rle_trans; [|apply Rmult_le_compat_l; [apply gam_nonneg|exact hB]].
    rewrite <- Rsum_scal_l. apply Rsum_le. intros j hj. rewrite !Rabs_mult, Rmult_comm. specialize (h1 j hj). unfold near in h1.
    apply Rmult_le_compat_r; auto. apply Rmult_le_pos; apply Rabs_pos.
  - eapply Rle_trans; [exact h2|]. assert (U m <= 2). { pose proof (gam_mono m (S m) ltac:(lia)). unfold gam in *. lra. }
    pose proof (pos_INR m). pose proof eta_pos. replace (INR m * U m * eta) with (U m * (INR m * eta)) by ring.
    apply Rmult_le_compat_r; auto. apply Rmult_le_pos; lra.
Qed.
(** m + al * (x * y), as general_mat_mul computes it with inner dimension 1 *)
Definition updf (m al x y : FN) : FN := nadd FN m (nmul FN al (sumn 1 (fun _ => nmul FN x y))).
Lemma upd_err m al x y C : fokx m -> fokx al -> fokx x -> fokx y ->
  1 <= C -> Rabs (fr x) * Rabs (fr y) <= C -> Rabs (fr al) <= C -> Rabs (fr al) * (Rabs (fr x) * Rabs (fr y)) <= C -> Rabs (fr m) <= C -> C <= bpow radix2 1010 ->
  fokx (updf m al x y) /\
  Rabs (fr (updf m al x y) - (fr m + fr al * (fr x * fr y))) <= 8 * uro * (Rabs (fr m) + Rabs (fr al) * (Rabs (fr x) * Rabs (fr y))) + 8 * ((1 + Rabs (fr al)) * eta).
Proof.
  intros hm hal hx hy hC1 hxy halC hP hmC hC. pose proof uro_pos as hu. pose proof uro_1024 as hu1. pose proof eta_pos as hep.
  assert (he1 : eta <= 1). { change eta with (bpow radix2 (-1075)). apply (bpow_le radix2 (-1075) 0). discriminate. }
  assert (big : 16 * bpow radix2 1010 <= bpow radix2 1023).
  { change 16 with (bpow radix2 4). rewrite <- bpow_plus. apply bpow_le. lia. }
  unfold updf. cbn [sumn].
  destruct (mul_err x y hx hy ltac:(lra)) as (h1 & e1). set (q := nmul FN x y) in *. set (X := Rabs (fr x) * Rabs (fr y)) in *.
  assert (hX0 : 0 <= X) by (apply Rmult_le_pos; apply Rabs_pos). pose proof (Rabs_pos (fr al)) as ha0. pose proof (Rabs_pos (fr m)) as hm0.
  assert (aq : Rabs (fr q) <= X * (1 + uro) + eta).
  { replace (fr q) with ((fr q - fr x * fr y) + fr x * fr y) by ring. eapply Rle_trans; [apply Rabs_triang|]. rewrite (Rabs_mult (fr x)). fold X. lra. }
  assert (z : fokx (n0 FN)) by (split; reflexivity).
  assert (uX : uro * X <= X) by nra.
  destruct (add_err (n0 FN) q z h1) as (h2 & e2). { change (fr (n0 FN)) with 0. rewrite Rabs_R0. lra. }
  set (q' := nadd FN (n0 FN) q) in *. change (fr (n0 FN)) with 0 in e2. rewrite Rplus_0_l, Rabs_R0, Rplus_0_l in e2.
  assert (eq' : Rabs (fr q' - fr x * fr y) <= (3 * uro) * X + 2 * eta).
  { replace (fr q' - fr x * fr y) with ((fr q' - fr q) + (fr q - fr x * fr y)) by ring. eapply Rle_trans; [apply Rabs_triang|].
    assert (uro * Rabs (fr q) <= uro * (X * (1 + uro) + eta)) by (apply Rmult_le_compat_l; lra). assert (uro * (uro * X) <= uro * X) by (apply Rmult_le_compat_l; lra). assert (uro * eta <= eta) by nra. lra. }
  assert (aq' : Rabs (fr q') <= X * (1 + 3 * uro) + 2 * eta).
  { replace (fr q') with ((fr q' - fr x * fr y) + fr x * fr y) by ring. eapply Rle_trans; [apply Rabs_triang|]. rewrite (Rabs_mult (fr x)). fold X. lra. }
  assert (aaq : Rabs (fr al) * Rabs (fr q') <= Rabs (fr al) * X * (1 + 3 * uro) + 2 * (Rabs (fr al) * eta)).
  { eapply Rle_trans; [apply Rmult_le_compat_l; [auto|exact aq']|]. right. ring. }
  set (P := Rabs (fr al) * X) in *. assert (hP0 : 0 <= P) by (apply Rmult_le_pos; auto).
  assert (ae : Rabs (fr al) * eta <= C) by nra. assert (ae0 : 0 <= Rabs (fr al) * eta) by nra. assert (uP : 3 * uro * P <= P) by nra.
  destruct (mul_err al q' hal h2 ltac:(lra)) as (h3 & e3). set (r := nmul FN al q') in *.
  assert (er : Rabs (fr r - fr al * (fr x * fr y)) <= (5 * uro) * P + (3 * (Rabs (fr al) * eta) + eta)).
  { replace (fr r - fr al * (fr x * fr y)) with ((fr r - fr al * fr q') + fr al * (fr q' - fr x * fr y)) by ring. eapply Rle_trans; [apply Rabs_triang|]. rewrite (Rabs_mult (fr al) (fr q' - _)).
    assert (Rabs (fr al) * Rabs (fr q' - fr x * fr y) <= Rabs (fr al) * ((3 * uro) * X + 2 * eta)) by (apply Rmult_le_compat_l; auto).
    assert (uro * (Rabs (fr al) * Rabs (fr q')) <= uro * (P * (1 + 3 * uro) + 2 * (Rabs (fr al) * eta))) by (apply Rmult_le_compat_l; lra).
    assert (uro * (3 * uro * P) <= uro * P) by (apply Rmult_le_compat_l; lra). assert (uro * (Rabs (fr al) * eta) <= / 2 * (Rabs (fr al) * eta)) by (apply Rmult_le_compat_r; lra).
    assert (Rabs (fr al) * ((3 * uro) * X + 2 * eta) = 3 * uro * P + 2 * (Rabs (fr al) * eta)) by (unfold P; ring). lra. }
  assert (ar : Rabs (fr r) <= P * (1 + 5 * uro) + (3 * (Rabs (fr al) * eta) + eta)).
  { replace (fr r) with ((fr r - fr al * (fr x * fr y)) + fr al * (fr x * fr y)) by ring. eapply Rle_trans; [apply Rabs_triang|]. rewrite (Rabs_mult (fr al)), (Rabs_mult (fr x)). fold X. fold P. lra. }
  assert (uP' : 5 * uro * P <= P) by nra.
  destruct (add_err m r hm h3 ltac:(lra)) as (h4 & e4). split; auto.
  set (v := nadd FN m r) in *.
  replace (fr v - (fr m + fr al * (fr x * fr y))) with ((fr v - (fr m + fr r)) + (fr r - fr al * (fr x * fr y))) by ring.
  eapply Rle_trans; [apply Rabs_triang|].
  assert (uro * (Rabs (fr m) + Rabs (fr r)) <= uro * (Rabs (fr m) + (P * (1 + 5 * uro) + (3 * (Rabs (fr al) * eta) + eta)))) by (apply Rmult_le_compat_l; lra).
  assert (uro * (5 * uro * P) <= uro * P) by (apply Rmult_le_compat_l; lra). assert (uro * (3 * (Rabs (fr al) * eta) + eta) <= 1 * (3 * (Rabs (fr al) * eta) + eta)) by (apply Rmult_le_compat_r; lra).
  assert (0 <= uro * Rabs (fr m)) by (apply Rmult_le_pos; lra). assert (0 <= uro * P) by (apply Rmult_le_pos; lra). lra.
Qed.

(** ** Norms *)
Lemma frob_le r c A B : (forall i j, (i < r)%nat -> (j < c)%nat -> Rabs (A i j) <= Rabs (B i j)) -> frob r c A <= frob r c B.
Proof.
  intros h. unfold frob. apply sqrt_le_1_alt. unfold frob2. apply Rsum_le. intros i hi. apply Rsum_le. intros j hj.
  specialize (h i j hi hj). rewrite <- (Rabs_pos_eq (A i j * A i j)), <- (Rabs_pos_eq (B i j * B i j)) by apply sqn. rewrite !Rabs_mult.
  apply Rmult_le_compat; auto; apply Rabs_pos.
Qed.
Lemma frob_outer r c x y : frob r c (fun i j => x i * y j) = vn r x * vn c y.
Proof.
  apply Rsqr_inj; [apply frob_nonneg|apply Rmult_le_pos; apply vn_nonneg|]. unfold Rsqr. rewrite frob_sq.
  replace (vn r x * vn c y * (vn r x * vn c y)) with ((vn r x * vn r x) * (vn c y * vn c y)) by ring. rewrite !vn_sq.
  unfold frob2. rewrite <- Rsum_scal_r. apply Rsum_ext. intros i hi. rewrite <- Rsum_scal_l. apply Rsum_ext. intros j hj. ring.
Qed.
Lemma frob_const m z : 0 <= z -> frob m m (fun _ _ => z) = INR m * z.
Proof.
  intros hz. apply Rsqr_inj; [apply frob_nonneg|apply Rmult_le_pos; [apply pos_INR|auto]|]. unfold Rsqr. rewrite frob_sq. unfold frob2. rewrite Rsum_const, Rsum_const. ring.
Qed.
Lemma frob_bound m E X Y a b z : 0 <= a -> 0 <= b -> 0 <= z ->
  (forall i j, (i < m)%nat -> (j < m)%nat -> Rabs (E i j) <= a * Rabs (X i j) + b * Rabs (Y i j) + z) ->
  frob m m E <= a * frob m m X + b * frob m m Y + INR m * z.
Proof.
  intros ha hb hz h.
  apply Rle_trans with (frob m m (madd (madd (mscal a (fun i j => Rabs (X i j))) (mscal b (fun i j => Rabs (Y i j)))) (fun _ _ => z))).
  - apply frob_le. intros i j hi hj. specialize (h i j hi hj). unfold madd, mscal. pose proof (Rabs_pos (X i j)). pose proof (Rabs_pos (Y i j)).
    rewrite (Rabs_pos_eq (_ + z)); auto. assert (0 <= a * Rabs (X i j)) by (apply Rmult_le_pos; auto). assert (0 <= b * Rabs (Y i j)) by (apply Rmult_le_pos; auto). lra.
  - eapply Rle_trans; [apply frob_triangle|]. rewrite frob_const by auto. apply Rplus_le_compat_r. eapply Rle_trans; [apply frob_triangle|].
    rewrite !frob_scal, (Rabs_pos_eq a), (Rabs_pos_eq b) by auto.
    assert (hs : forall Z, frob m m (fun i j => Rabs (Z i j)) <= frob m m Z) by (intros Z; apply frob_le; intros; rewrite Rabs_Rabsolu; lra).
    apply Rplus_le_compat; apply Rmult_le_compat_l; auto.
Qed.
Lemma vn_mv r c A x : vn r (fun i => Rsum c (fun l => A i l * x l)) <= frob r c A * vn c x.
Proof.
  apply Rsqr_incr_0_var; [|apply Rmult_le_pos; [apply frob_nonneg|apply vn_nonneg]]. unfold Rsqr. rewrite vn_sq.
  replace (frob r c A * vn c x * (frob r c A * vn c x)) with ((frob r c A * frob r c A) * (vn c x * vn c x)) by ring. rewrite frob_sq, vn_sq.
  unfold frob2. rewrite <- Rsum_scal_r. apply Rsum_le. intros i hi. apply Rsum_CS.
Qed.
Lemma vn_abs m f : vn m (fun i => Rabs (f i)) = vn m f.
Proof. apply Rle_antisym; apply vn_le; intros; rewrite Rabs_Rabsolu; lra. Qed.
Lemma vn_const' m c : 0 <= c -> vn m (fun _ => c) <= INR m * c.
Proof. intros h. pose proof (vn_const m c). rewrite (Rabs_pos_eq c) in H by auto. auto. Qed.

(** ** The rank-two update of the trailing block *)
Definition zfl : R := bpow radix2 (-450).
Definition cap : R := bpow radix2 500.
Lemma zfl_pos : 0 < zfl. Proof. apply bpow_gt_0. Qed.
Lemma cap_ge1 : 1 <= cap. Proof. apply (bpow_le radix2 0 500). discriminate. Qed.
Lemma fits_47 n : fits n -> INR n <= bpow radix2 47.
Proof.
  unfold fits. rewrite uro_bpow. intros h. replace 1 with (bpow radix2 47 * (64 * bpow radix2 (-53))) in h.
  - apply Rmult_le_reg_r with (64 * bpow radix2 (-53)); auto. pose proof (bpow_gt_0 radix2 (-53)). lra.
  - change 64 with (bpow radix2 6). rewrite <- !bpow_plus. reflexivity.
Qed.
Lemma zfl_abs1 n m : fits n -> (m <= n)%nat -> 16 * (INR m * ((1 + 8 * cap) * eta)) <= uro * zfl.
Proof.
  intros h hm. pose proof (fits_47 n h) as h1. apply le_INR in hm. pose proof cap_ge1 as hc. pose proof eta_pos as he. pose proof (pos_INR m).
  apply Rle_trans with (16 * (bpow radix2 47 * ((16 * cap) * eta))).
  - apply Rmult_le_compat_l; [lra|]. apply Rmult_le_compat; [auto| |lra|]. { apply Rmult_le_pos; lra. } apply Rmult_le_compat_r; lra.
  - rewrite uro_bpow. unfold zfl, cap. change eta with (bpow radix2 (-1075)). change 16 with (bpow radix2 4). rewrite <- !bpow_plus. apply bpow_le. lia.
Qed.
Lemma zfl_abs2 n m : fits n -> (m <= n)%nat -> 16 * (INR m * ((INR m + 1) * eta)) <= uro * zfl.
Proof.
  intros h hm. pose proof (fits_47 n h) as h1. apply le_INR in hm. pose proof eta_pos as he. pose proof (pos_INR m).
  assert (1 <= bpow radix2 47) by (apply (bpow_le radix2 0 47); lia).
  apply Rle_trans with (16 * (bpow radix2 47 * ((2 * bpow radix2 47) * eta))).
  - apply Rmult_le_compat_l; [lra|]. apply Rmult_le_compat; [auto| |lra|]. { apply Rmult_le_pos; lra. } apply Rmult_le_compat_r; lra.
  - rewrite uro_bpow. unfold zfl. change eta with (bpow radix2 (-1075)). change 16 with (bpow radix2 4). change 2 with (bpow radix2 1). rewrite <- !bpow_plus. apply bpow_le. lia.
Qed.

Section Block.
Variables (n m : nat) (Bf : nat -> nat -> FN) (v : nat -> FN) (w : nat -> R).
Hypothesis hn : fits n.
Hypothesis hm : (m <= n)%nat.
Hypothesis hB : forall a b, (a < m)%nat -> (b < m)%nat -> fokx (Bf a b).
Hypothesis hv : forall a, (a < m)%nat -> fokx (v a).
Hypothesis hw : Rsum m (fun i => w i * w i) = 1 \/ (forall i, (i < m)%nat -> w i = 0).
Let B : M := fun a b => fr (Bf a b).
Let N := frob m m B.
Let Nb := N + zfl.
Let g := gam (2 * m + 20).
Hypothesis hvw : vn m (fun i => fr (v i) - w i) <= gam (2 * m + 15).
Hypothesis hcap : Nb <= cap.

Definition pf (a : nat) : FN := nmul FN ntwo (sumn m (fun k => nmul FN (Bf a k) (v k))).
Definition dotf : FN := sumn m (fun k => nmul FN (v k) (pf k)).
Definition alf : FN := nadd FN dotf dotf.
Definition blk1 (a b : nat) : FN := updf (Bf a b) (nopp FN (n1 FN)) (pf a) (v b).
Definition blk2 (a b : nat) : FN := updf (blk1 a b) (nopp FN (n1 FN)) (v a) (pf b).
Definition blk3 (a b : nat) : FN := updf (blk2 a b) alf (v a) (v b).

Let Bw (a : nat) : R := Rsum m (fun l => B a l * w l).
Let wBw : R := Rsum m (fun l => w l * Bw l).
Let vv (i : nat) : R := fr (v i).
Let pp (i : nat) : R := fr (pf i).

Lemma g_facts : 0 < g /\ g <= / 8 /\ 20 * uro <= g /\ gam (S (S m)) <= g /\ gam (2 * m + 15) <= g.
Proof.
  pose proof uro_pos. pose proof (gam_ge (2 * m + 20)) as h1. rewrite plus_INR in h1. pose proof (pos_INR (2 * m)).
  assert (INR 20 = 20) by (simpl; lra). assert (0 <= INR (2 * m) * uro) by (apply Rmult_le_pos; lra). fold g in h1.
  assert (h20 : 20 * uro <= g) by (rewrite H1 in h1; lra).
  split; [lra|]. split.
  - pose proof (gam_double (2 * m + 20)) as a1. pose proof (gam_double (2 * (2 * m + 20))) as a2. pose proof (gam_double (2 * (2 * (2 * m + 20)))) as a3.
    pose proof (fits_U n (2 * (2 * (2 * (2 * m + 20)))) hn ltac:(lia)) as a4. rewrite U_gam in a4. fold g in a1. lra.
  - split; auto. split; apply gam_mono; lia.
Qed.
Lemma N_nonneg : 0 <= N. Proof. apply frob_nonneg. Qed.
Lemma vdiff : vn m (fun i => vv i - w i) <= g.
Proof. destruct g_facts as (_ & _ & _ & _ & h). unfold vv. lra. Qed.
Lemma V_le : vn m vv <= 1 + g.
Proof.
  rewrite (vn_ext m vv (fun i => w i + (vv i - w i))) by (intros; ring). eapply Rle_trans; [apply vn_plus|].
  pose proof (w_le1 m w hw). pose proof vdiff. lra.
Qed.
Lemma small1 : INR m * eta <= 1 /\ gam (S m) <= 1.
Proof.
  destruct g_facts as (g1 & g2 & g3 & g4 & _). pose proof (gam_mono (S m) (S (S m)) ltac:(lia)). split; [|lra].
  pose proof (zfl_abs1 n m hn hm). pose proof cap_ge1. pose proof eta_pos. pose proof (pos_INR m). pose proof uro_pos. pose proof uro_1024.
  assert (zfl <= 1) by (apply (bpow_le radix2 (-450) 0); lia). pose proof zfl_pos. assert (uro * zfl <= 1) by nra.
  assert (INR m * eta <= INR m * ((1 + 8 * cap) * eta)); [|assert (0 <= INR m * ((1 + 8 * cap) * eta)) by (apply Rmult_le_pos; auto; apply Rmult_le_pos; lra); lra].
  apply Rmult_le_compat_l; auto. rewrite <- (Rmult_1_l eta) at 1. apply Rmult_le_compat_r; lra.
Qed.
Lemma cap_big : 64 * cap <= bpow radix2 1010 /\ 64 * cap <= bpow radix2 1023.
Proof. unfold cap. change 64 with (bpow radix2 6). rewrite <- bpow_plus. split; apply bpow_le; lia. Qed.

Let Ra (a : nat) : R := Rsum m (fun l => Rabs (B a l) * Rabs (vv l)).
Lemma Ra_vn : vn m Ra <= N * (1 + g).
Proof.
  unfold Ra. eapply Rle_trans; [apply (vn_mv m m (fun a l => Rabs (B a l)) (fun l => Rabs (vv l)))|]. rewrite vn_abs.
  apply Rmult_le_compat; [apply frob_nonneg|apply vn_nonneg| |apply V_le].
  apply frob_le. intros. rewrite Rabs_Rabsolu. unfold B. lra.
Qed.
Lemma Ra_nonneg a : 0 <= Ra a.
Proof. apply Rsum_nonneg. intros. apply Rmult_le_pos; apply Rabs_pos. Qed.
Lemma Ra_le a : (a < m)%nat -> Ra a <= 2 * cap.
Proof.
  intros ha. pose proof (vn_entry m Ra a ha) as h. rewrite Rabs_pos_eq in h by apply Ra_nonneg. pose proof Ra_vn. destruct g_facts as (g1 & g2 & _).
  pose proof N_nonneg. pose proof zfl_pos. unfold Nb in hcap. assert (N * (1 + g) <= N * 2) by (apply Rmult_le_compat_l; lra). lra.
Qed.

Lemma p_float : (forall a, (a < m)%nat -> fokx (pf a)) /\ vn m (fun a => pp a - 2 * Bw a) <= 5 * (g * Nb) /\ vn m pp <= 3 * Nb.
Proof.
  destruct g_facts as (g1 & g2 & g3 & g4 & g5). destruct small1 as (s1 & s2). destruct cap_big as (c1 & c2). pose proof uro_pos as hu. pose proof uro_1024 as hu1. pose proof eta_pos as hep.
  pose proof (pos_INR m) as hm0. pose proof cap_ge1 as hc1. pose proof N_nonneg as hN. pose proof zfl_pos as hz.
  assert (he1 : eta <= 1). { change eta with (bpow radix2 (-1075)). apply (bpow_le radix2 (-1075) 0). discriminate. }
  assert (hp : forall a, (a < m)%nat -> fokx (pf a) /\ Rabs (pp a - 2 * Rsum m (fun l => B a l * vv l)) <= 2 * (g * Ra a) + 8 * ((INR m + 1) * eta)).
  { intros a ha. pose proof (Ra_le a ha) as hr. pose proof (Ra_nonneg a) as hr0.
    destruct (dot_err (fun k => Bf a k) v m (Ra a)) as (h1 & e1); auto; [unfold Ra, B, vv; lra|lra|].
    unfold pp, pf. set (s := sumn m (fun k => nmul FN (Bf a k) (v k))) in *.
    change (Rsum m (fun j => fr (Bf a j) * fr (v j))) with (Rsum m (fun l => B a l * vv l)) in e1. set (S0 := Rsum m (fun l => B a l * vv l)) in *.
    assert (aS0 : Rabs S0 <= Ra a). { unfold S0, Ra. eapply Rle_trans; [apply Rsum_abs|]. apply Rsum_le. intros. rewrite Rabs_mult. lra. }
    assert (as1 : Rabs (fr s) <= (1 + gam (S m)) * Ra a + 2 * (INR m * eta)).
    { replace (fr s) with ((fr s - S0) + S0) by ring. eapply Rle_trans; [apply Rabs_triang|]. lra. }
    assert (hgr : gam (S m) * Ra a <= 1 * Ra a) by (apply Rmult_le_compat_r; lra).
    assert (h2f : fokx ntwo) by (rewrite two_f; split; reflexivity). 
    assert (e2f : fr (ntwo (N:=FN)) = 2) by (rewrite two_f; apply fr_f2).
    destruct (mul_err ntwo s h2f h1) as (h2 & e2). { rewrite e2f, (Rabs_pos_eq 2) by lra. lra. }
    split; auto. rewrite e2f, (Rabs_pos_eq 2) in e2 by lra.
    replace (fr (nmul FN ntwo s) - 2 * S0) with ((fr (nmul FN ntwo s) - 2 * fr s) + 2 * (fr s - S0)) by ring.
    eapply Rle_trans; [apply Rabs_triang|]. rewrite (Rabs_mult 2), (Rabs_pos_eq 2) by lra.
    assert (b1 : uro * (2 * Rabs (fr s)) <= uro * (2 * ((1 + gam (S m)) * Ra a + 2 * (INR m * eta)))) by (apply Rmult_le_compat_l; lra).
    assert (b2 : gam (S (S m)) * Ra a <= g * Ra a) by (apply Rmult_le_compat_r; auto).
    assert (b3 : gam (S (S m)) = gam (S m) + uro + gam (S m) * uro).
    { replace (S (S m)) with (S m + 1)%nat by lia. rewrite <- gam_add. unfold gam at 2 4. rewrite pow_1. ring. }
    rewrite b3 in b2. assert (b4 : 0 <= INR m * eta) by (apply Rmult_le_pos; lra). assert (b5 : uro * (INR m * eta) <= INR m * eta) by nra. lra. }
  split; [intros a ha; apply (hp a ha)|].
  assert (e1 : vn m (fun a => pp a - 2 * Rsum m (fun l => B a l * vv l)) <= 2 * g * (N * (1 + g)) + INR m * (8 * ((INR m + 1) * eta))).
  { eapply Rle_trans; [apply (vn_bound m _ Ra (2 * g) (8 * ((INR m + 1) * eta)))|].
    - lra.
    - apply Rmult_le_pos; [lra|]. apply Rmult_le_pos; lra.
    - intros a ha. rewrite (Rabs_pos_eq (Ra a)) by apply Ra_nonneg. eapply Rle_trans; [apply (hp a ha)|]. lra.
    - apply Rplus_le_compat_r. apply Rmult_le_compat_l; [lra|apply Ra_vn]. }
  assert (e2 : vn m (fun a => 2 * Rsum m (fun l => B a l * (vv l - w l))) <= 2 * (N * g)).
  { rewrite vn_scal, (Rabs_pos_eq 2) by lra. apply Rmult_le_compat_l; [lra|]. eapply Rle_trans; [apply vn_mv|]. apply Rmult_le_compat_l; [auto|apply vdiff]. }
  pose proof (zfl_abs2 n m hn hm) as ha2.
  assert (hgN : 0 <= g * N) by (apply Rmult_le_pos; lra). assert (hgZ : uro * zfl <= g * zfl) by (apply Rmult_le_compat_r; lra). assert (hgg : g * (g * N) <= / 8 * (g * N)) by (apply Rmult_le_compat_r; auto). assert (hgZ0 : 0 <= uro * zfl) by (apply Rmult_le_pos; lra).
  assert (main : vn m (fun a => pp a - 2 * Bw a) <= 5 * (g * Nb)).
  { eapply Rle_trans; [right; apply (vn_ext m _ (fun a => (pp a - 2 * Rsum m (fun l => B a l * vv l)) + 2 * Rsum m (fun l => B a l * (vv l - w l))))|].
    - intros a ha. unfold Bw. rewrite (Rsum_ext m (fun l => B a l * (vv l - w l)) (fun l => B a l * vv l - B a l * w l)) by (intros; ring). rewrite Rsum_minus. ring.
    - eapply Rle_trans; [apply vn_plus|]. unfold Nb. lra. }
  split; auto.
  rewrite (vn_ext m pp (fun a => (pp a - 2 * Bw a) + 2 * Bw a)) by (intros; ring). eapply Rle_trans; [apply vn_plus|]. rewrite vn_scal, (Rabs_pos_eq 2) by lra.
  assert (hbw : vn m Bw <= N * 1). { eapply Rle_trans; [apply vn_mv|]. apply Rmult_le_compat_l; auto. apply (w_le1 m w hw). }
  assert (g * Nb <= / 8 * Nb) by (apply Rmult_le_compat_r; unfold Nb; lra). unfold Nb in *. lra.
Qed.
Lemma stage (X : nat -> nat -> FN) (al : FN) (x y : nat -> FN) :
  (forall a b, (a < m)%nat -> (b < m)%nat -> fokx (X a b)) -> fokx al -> (forall a, (a < m)%nat -> fokx (x a)) -> (forall a, (a < m)%nat -> fokx (y a)) ->
  frob m m (fun a b => fr (X a b)) <= 32 * cap -> Rabs (fr al) <= 8 * cap ->
  vn m (fun a => fr (x a)) * vn m (fun a => fr (y a)) <= 32 * cap ->
  Rabs (fr al) * (vn m (fun a => fr (x a)) * vn m (fun a => fr (y a))) <= 32 * cap ->
  (forall a b, (a < m)%nat -> (b < m)%nat -> fokx (updf (X a b) al (x a) (y b))) /\
  frob m m (fun a b => fr (updf (X a b) al (x a) (y b)) - (fr (X a b) + fr al * (fr (x a) * fr (y b)))) <=
    8 * uro * (frob m m (fun a b => fr (X a b)) + Rabs (fr al) * (vn m (fun a => fr (x a)) * vn m (fun a => fr (y a)))) + uro * zfl.
Proof.
  intros hX hal hx hy c1 c2 c3 c4. pose proof cap_ge1 as hc1. destruct cap_big as (cb1 & cb2). pose proof uro_pos as hu. pose proof eta_pos as hep. pose proof (pos_INR m) as hm0.
  pose proof (Rabs_pos (fr al)) as ha0.
  assert (hxy : forall a b, (a < m)%nat -> (b < m)%nat -> Rabs (fr (x a)) * Rabs (fr (y b)) <= vn m (fun a => fr (x a)) * vn m (fun a => fr (y a))).
  { intros a b ha hb. apply Rmult_le_compat; try apply Rabs_pos; [apply (vn_entry m (fun a => fr (x a)) a ha)|apply (vn_entry m (fun a => fr (y a)) b hb)]. }
  assert (hent : forall a b, (a < m)%nat -> (b < m)%nat -> fokx (updf (X a b) al (x a) (y b)) /\
     Rabs (fr (updf (X a b) al (x a) (y b)) - (fr (X a b) + fr al * (fr (x a) * fr (y b)))) <=
       8 * uro * (Rabs (fr (X a b)) + Rabs (fr al) * (Rabs (fr (x a)) * Rabs (fr (y b)))) + 8 * ((1 + Rabs (fr al)) * eta)).
  { intros a b ha hb. pose proof (hxy a b ha hb) as h1. pose proof (frob_entry_le m m (fun a b => fr (X a b)) a b ha hb) as h2. cbv beta in h2.
    apply (upd_err _ _ _ _ (32 * cap)); auto; try lra.
    eapply Rle_trans; [apply Rmult_le_compat_l; [auto|exact h1]|]. lra. }
  split; [intros; apply hent; auto|].
  eapply Rle_trans; [apply (frob_bound m _ (fun a b => fr (X a b)) (fun a b => fr (x a) * fr (y b)) (8 * uro) (8 * uro * Rabs (fr al)) (8 * ((1 + Rabs (fr al)) * eta)))|].
  - lra.
  - apply Rmult_le_pos; lra.
  - apply Rmult_le_pos; [lra|]. apply Rmult_le_pos; lra.
  - intros a b ha hb. eapply Rle_trans; [apply hent; auto|]. rewrite (Rabs_mult (fr (x a))). lra.
  - rewrite frob_outer. pose proof (zfl_abs1 n m hn hm) as hz.
    assert (INR m * (8 * ((1 + Rabs (fr al)) * eta)) <= uro * zfl); [|lra].
    apply Rle_trans with (8 * (INR m * ((1 + 8 * cap) * eta))).
    + replace (INR m * (8 * ((1 + Rabs (fr al)) * eta))) with (8 * (INR m * ((1 + Rabs (fr al)) * eta))) by ring.
      apply Rmult_le_compat_l; [lra|]. apply Rmult_le_compat_l; auto. apply Rmult_le_compat_r; lra.
    + assert (0 <= INR m * ((1 + 8 * cap) * eta)) by (apply Rmult_le_pos; auto; apply Rmult_le_pos; lra). lra.
Qed.

Lemma Bw_le : vn m Bw <= N.
Proof. eapply Rle_trans; [apply vn_mv|]. pose proof N_nonneg as h. pose proof (w_le1 m w hw). rewrite <- (Rmult_1_r N). apply Rmult_le_compat_l; auto. Qed.
Lemma wBw_le : Rabs wBw <= N.
Proof.
  unfold wBw. eapply Rle_trans; [apply vn_dot|]. pose proof Bw_le. pose proof (w_le1 m w hw). pose proof (vn_nonneg m Bw). pose proof (vn_nonneg m w).
  rewrite <- (Rmult_1_l N). apply Rmult_le_compat; auto.
Qed.
Lemma al_float : fokx alf /\ Rabs (fr alf - 4 * wBw) <= 25 * (g * Nb) /\ Rabs (fr alf) <= 8 * Nb.
Proof.
  destruct g_facts as (g1 & g2 & g3 & g4 & g5). destruct small1 as (s1 & s2). destruct cap_big as (c1 & c2). pose proof uro_pos as hu. pose proof uro_1024 as hu1. pose proof eta_pos as hep.
  pose proof (pos_INR m) as hm0. pose proof cap_ge1 as hc1. pose proof N_nonneg as hN. pose proof zfl_pos as hz. pose proof V_le as hV. pose proof vdiff as hd. pose proof wBw_le as hwb.
  destruct p_float as (fp & ep & np). pose proof (vn_nonneg m pp) as np0. pose proof (vn_nonneg m vv) as nv0.
  assert (hNb : 0 < Nb) by (unfold Nb; lra). assert (hgn : g * Nb <= / 8 * Nb) by (apply Rmult_le_compat_r; lra). assert (hgn0 : 0 < g * Nb) by (apply Rmult_lt_0_compat; lra).
  assert (hvp : vn m vv * vn m pp <= 9 / 8 * (3 * Nb)) by (apply Rmult_le_compat; lra).
  destruct (dot_err v pf m (9 / 8 * (3 * Nb))) as (h1 & e1); auto; [|lra|].
  { eapply Rle_trans; [|exact hvp]. pose proof (vn_dot m (fun j => Rabs (vv j)) (fun j => Rabs (pp j))) as h. rewrite !vn_abs in h. rewrite Rabs_pos_eq in h; auto.
    apply Rsum_nonneg. intros. apply Rmult_le_pos; apply Rabs_pos. }
  fold dotf in h1, e1. change (Rsum m (fun j => fr (v j) * fr (pf j))) with (Rsum m (fun j => vv j * pp j)) in e1.
  assert (e2 : Rabs (Rsum m (fun j => vv j * pp j) - 2 * wBw) <= 8 * (g * Nb)).
  { replace (Rsum m (fun j => vv j * pp j) - 2 * wBw) with (Rsum m (fun j => (vv j - w j) * pp j) + Rsum m (fun j => w j * (pp j - 2 * Bw j))).
    2:{ unfold wBw. rewrite <- Rsum_scal_l, <- Rsum_plus, <- Rsum_minus. apply Rsum_ext. intros. ring. }
    eapply Rle_trans; [apply Rabs_triang|].
    assert (Rabs (Rsum m (fun j => (vv j - w j) * pp j)) <= g * (3 * Nb)) by (eapply Rle_trans; [apply (vn_dot m (fun j => vv j - w j) pp)|]; apply Rmult_le_compat; auto; apply vn_nonneg).
    assert (Rabs (Rsum m (fun j => w j * (pp j - 2 * Bw j))) <= 1 * (5 * (g * Nb))) by (eapply Rle_trans; [apply (vn_dot m w (fun j => pp j - 2 * Bw j))|]; apply Rmult_le_compat; auto; try apply vn_nonneg; apply (w_le1 m w hw)).
    lra. }
  assert (e3 : Rabs (fr dotf - 2 * wBw) <= 12 * (g * Nb)).
  { replace (fr dotf - 2 * wBw) with ((fr dotf - Rsum m (fun j => vv j * pp j)) + (Rsum m (fun j => vv j * pp j) - 2 * wBw)) by ring. eapply Rle_trans; [apply Rabs_triang|].
    assert (gam (S m) * (9 / 8 * (3 * Nb)) <= g * (9 / 8 * (3 * Nb))) by (apply Rmult_le_compat_r; [lra|]; pose proof (gam_mono (S m) (S (S m)) ltac:(lia)); lra).
    assert (2 * (INR m * eta) <= / 8 * (g * Nb)); [|lra].
    pose proof (zfl_abs2 n m hn hm) as hz2. assert (INR m * (1 * eta) <= INR m * ((INR m + 1) * eta)) by (apply Rmult_le_compat_l; auto; apply Rmult_le_compat_r; lra).
    assert (uro * zfl <= g * Nb) by (apply Rmult_le_compat; unfold Nb; lra). lra. }
  assert (a3 : Rabs (fr dotf) <= 7 / 2 * Nb).
  { replace (fr dotf) with ((fr dotf - 2 * wBw) + 2 * wBw) by ring. eapply Rle_trans; [apply Rabs_triang|]. rewrite (Rabs_mult 2), (Rabs_pos_eq 2) by lra. unfold Nb in *. lra. }
  destruct (add_err dotf dotf h1 h1) as (h4 & e4); [lra|]. fold alf in h4, e4. split; auto.
  assert (e5 : Rabs (fr alf - 4 * wBw) <= 25 * (g * Nb)).
  { replace (fr alf - 4 * wBw) with ((fr alf - (fr dotf + fr dotf)) + 2 * (fr dotf - 2 * wBw)) by ring. eapply Rle_trans; [apply Rabs_triang|]. rewrite (Rabs_mult 2), (Rabs_pos_eq 2) by lra.
    assert (uro * (Rabs (fr dotf) + Rabs (fr dotf)) <= uro * (7 * Nb)) by (apply Rmult_le_compat_l; lra). assert (20 * uro * Nb <= g * Nb) by (apply Rmult_le_compat_r; lra). lra. }
  split; auto. replace (fr alf) with ((fr alf - 4 * wBw) + 4 * wBw) by ring. eapply Rle_trans; [apply Rabs_triang|]. rewrite (Rabs_mult 4), (Rabs_pos_eq 4) by lra. unfold Nb in *. lra.
Qed.

Definition blkx (a b : nat) : R := B a b - 2 * (Bw a * w b) - 2 * (w a * Bw b) + 4 * wBw * (w a * w b).
Lemma outer_diff (x x' y y' : nat -> R) : frob m m (fun a b => x a * y b - x' a * y' b) <= vn m (fun a => x a - x' a) * vn m y + vn m x' * vn m (fun b => y b - y' b).
Proof.
  eapply Rle_trans; [right; apply (frob_ext m m _ (madd (fun a b => (x a - x' a) * y b) (fun a b => x' a * (y b - y' b))))|].
  - intros a b ha hb. unfold madd. ring.
  - eapply Rle_trans; [apply frob_triangle|]. rewrite !(frob_outer m m). lra.
Qed.
Lemma frob_split2 A C : frob m m A <= frob m m (fun a b => A a b - C a b) + frob m m C.
Proof.
  eapply Rle_trans; [right; apply (frob_ext m m A (madd (fun a b => A a b - C a b) C))|apply frob_triangle]. intros a b ha hb. unfold madd. ring.
Qed.
Lemma block_float : (forall a b, (a < m)%nat -> (b < m)%nat -> fokx (blk3 a b)) /\ frob m m (fun a b => fr (blk3 a b) - blkx a b) <= 80 * (g * Nb).
Proof.
  destruct g_facts as (g1 & g2 & g3 & g4 & g5). pose proof uro_pos as hu. pose proof cap_ge1 as hc1. pose proof N_nonneg as hN. pose proof zfl_pos as hz. pose proof V_le as hV. pose proof vdiff as hd.
  pose proof Bw_le as hbw. pose proof wBw_le as hwb. destruct p_float as (fp & ep & np). destruct al_float as (fa & ea & na). pose proof (vn_nonneg m pp) as np0. pose proof (vn_nonneg m vv) as nv0.
  pose proof (Rabs_pos (fr alf)) as na0. pose proof (w_le1 m w hw) as hw1. pose proof (vn_nonneg m w) as hw0. pose proof (vn_nonneg m Bw) as hb0.
  assert (hNb : 0 < Nb) by (unfold Nb; lra). assert (hNNb : N <= Nb) by (unfold Nb; lra). assert (hgn : g * Nb <= / 8 * Nb) by (apply Rmult_le_compat_r; lra). assert (hgn0 : 0 < g * Nb) by (apply Rmult_lt_0_compat; lra).
  assert (hun : 20 * (uro * Nb) <= g * Nb) by (rewrite <- Rmult_assoc; apply Rmult_le_compat_r; lra). assert (huz : uro * zfl <= uro * Nb) by (apply Rmult_le_compat_l; unfold Nb; lra). assert (hun0 : 0 < uro * Nb) by (apply Rmult_lt_0_compat; lra).
  assert (hpv : vn m pp * vn m vv <= 3 * Nb * (9 / 8)) by (apply Rmult_le_compat; lra). assert (hvp : vn m vv * vn m pp <= 3 * Nb * (9 / 8)) by (rewrite Rmult_comm; auto).
  assert (hvv : vn m vv * vn m vv <= 9 / 8 * (9 / 8)) by (apply Rmult_le_compat; lra). assert (hvv0 : 0 <= vn m vv * vn m vv) by (apply Rmult_le_pos; auto).
  assert (havv : Rabs (fr alf) * (vn m vv * vn m vv) <= 8 * Nb * (9 / 8 * (9 / 8))) by (apply Rmult_le_compat; lra).
  assert (fm1 : fokx (nopp FN (n1 FN))) by (split; reflexivity).
  assert (em1 : fr (nopp FN (n1 FN)) = -1) by apply fr_fm1.
  assert (am1 : Rabs (fr (nopp FN (n1 FN))) = 1) by (rewrite em1, Rabs_left by lra; lra).
  (* the three updates *)
  destruct (stage Bf (nopp FN (n1 FN)) pf v hB fm1 fp hv) as (f1 & e1); try (rewrite am1, ?Rmult_1_l; clear am1).
  { change (N <= 32 * cap). lra. } { lra. } { change (vn m pp * vn m vv <= 32 * cap). lra. } { change (vn m pp * vn m vv <= 32 * cap). lra. }
  rewrite am1, Rmult_1_l, em1 in e1. fold B in e1. change (frob m m (fun a b => fr (Bf a b))) with N in e1. change (vn m (fun a => fr (pf a)) * vn m (fun a => fr (v a))) with (vn m pp * vn m vv) in e1.
  change (frob m m (fun a b => fr (blk1 a b) - (B a b + -1 * (pp a * vv b))) <= 8 * uro * (N + vn m pp * vn m vv) + uro * zfl) in e1.
  assert (e1' : frob m m (fun a b => fr (blk1 a b) - (B a b + -1 * (pp a * vv b))) <= 2 * (g * Nb)).
  { eapply Rle_trans; [exact e1|]. assert (8 * uro * (N + vn m pp * vn m vv) <= 8 * uro * (Nb + 3 * Nb * (9 / 8))) by (apply Rmult_le_compat_l; lra). lra. }
  assert (n1' : frob m m (fun a b => fr (blk1 a b)) <= 5 * Nb).
  { eapply Rle_trans; [apply (frob_split2 _ (fun a b => B a b + -1 * (pp a * vv b)))|]. 
    assert (frob m m (fun a b => B a b + -1 * (pp a * vv b)) <= N + vn m pp * vn m vv); [|lra].
    eapply Rle_trans; [apply (frob_triangle m m B (mscal (-1) (fun a b => pp a * vv b)))|]. rewrite frob_scal, frob_outer, Rabs_left by lra. fold N. lra. }
  destruct (stage blk1 (nopp FN (n1 FN)) v pf f1 fm1 hv fp) as (f2 & e2); try (rewrite am1, ?Rmult_1_l).
  { lra. } { lra. } { change (vn m vv * vn m pp <= 32 * cap). lra. } { change (vn m vv * vn m pp <= 32 * cap). lra. }
  rewrite am1, Rmult_1_l, em1 in e2. change (vn m (fun a => fr (v a)) * vn m (fun a => fr (pf a))) with (vn m vv * vn m pp) in e2.
  change (frob m m (fun a b => fr (blk2 a b) - (fr (blk1 a b) + -1 * (vv a * pp b))) <= 8 * uro * (frob m m (fun a b => fr (blk1 a b)) + vn m vv * vn m pp) + uro * zfl) in e2.
  assert (e2' : frob m m (fun a b => fr (blk2 a b) - (fr (blk1 a b) + -1 * (vv a * pp b))) <= 4 * (g * Nb)).
  { eapply Rle_trans; [exact e2|]. assert (8 * uro * (frob m m (fun a b => fr (blk1 a b)) + vn m vv * vn m pp) <= 8 * uro * (5 * Nb + 3 * Nb * (9 / 8))) by (apply Rmult_le_compat_l; lra). lra. }
  assert (n2' : frob m m (fun a b => fr (blk2 a b)) <= 9 * Nb).
  { eapply Rle_trans; [apply (frob_split2 _ (fun a b => fr (blk1 a b) + -1 * (vv a * pp b)))|]. 
    assert (frob m m (fun a b => fr (blk1 a b) + -1 * (vv a * pp b)) <= 5 * Nb + vn m vv * vn m pp); [|lra].
    eapply Rle_trans; [apply (frob_triangle m m (fun a b => fr (blk1 a b)) (mscal (-1) (fun a b => vv a * pp b)))|]. rewrite frob_scal, frob_outer, Rabs_left by lra. lra. }
  destruct (stage blk2 alf v v f2 fa hv hv) as (f3 & e3); [lra|lra|change (vn m vv * vn m vv <= 32 * cap); lra|change (Rabs (fr alf) * (vn m vv * vn m vv) <= 32 * cap); lra|].
  change (vn m (fun a => fr (v a)) * vn m (fun a => fr (v a))) with (vn m vv * vn m vv) in e3.
  change (frob m m (fun a b => fr (blk3 a b) - (fr (blk2 a b) + fr alf * (vv a * vv b))) <= 8 * uro * (frob m m (fun a b => fr (blk2 a b)) + Rabs (fr alf) * (vn m vv * vn m vv)) + uro * zfl) in e3.
  assert (e3' : frob m m (fun a b => fr (blk3 a b) - (fr (blk2 a b) + fr alf * (vv a * vv b))) <= 8 * (g * Nb)).
  { eapply Rle_trans; [exact e3|]. assert (8 * uro * (frob m m (fun a b => fr (blk2 a b)) + Rabs (fr alf) * (vn m vv * vn m vv)) <= 8 * uro * (9 * Nb + 8 * Nb * (9 / 8 * (9 / 8)))) by (apply Rmult_le_compat_l; lra). lra. }
  split; [exact f3|].
  (* the exact parts *)
  assert (d1 : frob m m (fun a b => pp a * vv b - (2 * Bw a) * w b) <= 8 * (g * Nb)).
  { eapply Rle_trans; [apply (outer_diff pp (fun a => 2 * Bw a) vv w)|]. rewrite vn_scal, (Rabs_pos_eq 2) by lra.
    assert (vn m (fun a => pp a - 2 * Bw a) * vn m vv <= 5 * (g * Nb) * (9 / 8)) by (apply Rmult_le_compat; auto; [apply vn_nonneg|lra]).
    assert (2 * vn m Bw * vn m (fun b => vv b - w b) <= 2 * Nb * g) by (apply Rmult_le_compat; auto; [lra|apply vn_nonneg|lra]). lra. }
  assert (d2 : frob m m (fun a b => vv a * pp b - w a * (2 * Bw b)) <= 8 * (g * Nb)).
  { eapply Rle_trans; [|exact d1]. right. transitivity (frob m m (mtr (fun a b => pp a * vv b - 2 * Bw a * w b))).
    - apply frob_ext. intros a b ha hb. unfold mtr. ring.
    - unfold frob. rewrite frob2_tr. reflexivity. }
  assert (d3 : frob m m (fun a b => fr alf * (vv a * vv b) - 4 * wBw * (w a * w b)) <= 45 * (g * Nb)).
  { eapply Rle_trans; [right; apply (frob_ext m m _ (madd (mscal (fr alf - 4 * wBw) (fun a b => vv a * vv b)) (mscal (4 * wBw) (fun a b => vv a * vv b - w a * w b))))|].
    { intros a b ha hb. unfold madd, mscal. ring. }
    eapply Rle_trans; [apply frob_triangle|]. rewrite !frob_scal, frob_outer.
    pose proof (outer_diff vv w vv w) as ho. 
    assert (o1 : vn m (fun a => vv a - w a) * vn m vv <= g * (9 / 8)) by (apply Rmult_le_compat; auto; [apply vn_nonneg|lra]).
    assert (o2 : vn m w * vn m (fun b => vv b - w b) <= 1 * g) by (apply Rmult_le_compat; auto; apply vn_nonneg).
    assert (Rabs (fr alf - 4 * wBw) * (vn m vv * vn m vv) <= 25 * (g * Nb) * (9 / 8 * (9 / 8))) by (apply Rmult_le_compat; auto; apply Rabs_pos).
    assert (a4 : Rabs (4 * wBw) <= 4 * Nb) by (rewrite Rabs_mult, (Rabs_pos_eq 4) by lra; lra).
    assert (Rabs (4 * wBw) * frob m m (fun a b => vv a * vv b - w a * w b) <= 4 * Nb * (g * (9 / 8) + 1 * g)) by (apply Rmult_le_compat; auto; [apply Rabs_pos|apply frob_nonneg|lra]).
    lra. }
  eapply Rle_trans; [right; apply (frob_ext m m _ (madd (madd (madd (fun a b => fr (blk3 a b) - (fr (blk2 a b) + fr alf * (vv a * vv b))) (fun a b => fr (blk2 a b) - (fr (blk1 a b) + -1 * (vv a * pp b)))) (fun a b => fr (blk1 a b) - (B a b + -1 * (pp a * vv b))))
     (madd (madd (mscal (-1) (fun a b => pp a * vv b - (2 * Bw a) * w b)) (mscal (-1) (fun a b => vv a * pp b - w a * (2 * Bw b)))) (fun a b => fr alf * (vv a * vv b) - 4 * wBw * (w a * w b)))))|].
  - intros a b ha hb. unfold madd, mscal, blkx. ring.
  - eapply Rle_trans; [apply frob_triangle|]. eapply Rle_trans; [apply Rplus_le_compat; apply frob_triangle|].
    eapply Rle_trans; [apply Rplus_le_compat; apply Rplus_le_compat_r; apply frob_triangle|]. rewrite !frob_scal, Rabs_left by lra. lra.
Qed.
End Block.

(** ** The axis does not overflow *)
Lemma mul_sq_nonneg x : fvalid x -> ffin (nmul FN x x) -> 0 <= fr (nmul FN x x).
Proof.
  intros vx h. destruct (mul_std x x vx vx h) as (fx & _). revert h fx. tob. unfold nmul, FN. rewrite mul_equiv, !ffin_B2SF, !fr_B2SF. intros h fx.
  pose proof (Bmult_correct prec emax Hprec Hemax mode_NE x0 x0) as hc. destruct (Rlt_bool _ _).
  - destruct hc as (-> & _). apply round_ge_generic; [apply FLT_exp_valid; reflexivity|apply valid_rnd_round_mode|apply generic_format_0|apply sqn].
  - exfalso. unfold BinarySingleNaN.binary_overflow in hc. destruct (Bmult mode_NE x0 x0); simpl in hc; try discriminate. 
Qed.
Lemma sumsq_nonneg (x : nat -> FN) m : (forall j, (j < m)%nat -> fvalid (x j)) -> ffin (sumn m (fun i => nmul FN (x i) (x i))) -> 0 <= fr (sumn m (fun i => nmul FN (x i) (x i))).
Proof.
  induction m as [|m IH]; intros hv hf; [right; reflexivity|]. cbn [sumn] in *.
  assert (vs : fvalid (sumn m (fun i => nmul FN (x i) (x i)))) by (apply sumn_valid; intros j hj; apply fvalid_mul; apply hv; lia).
  assert (vm : fvalid (x m)) by (apply hv; lia).
  destruct (add_std _ _ vs (fvalid_mul _ _ vm vm) hf) as (f1 & f2 & d & hd & ->).
  pose proof (IH ltac:(auto) f1). pose proof (mul_sq_nonneg _ vm f2). apply dlt_u in hd. apply Rabs_le_inv in hd. pose proof uro_1024.
  apply Rmult_le_pos; lra.
Qed.
Lemma axis_fwd n (c v : list FN) o : fits n -> (0 < length c <= n)%nat -> vvalid c -> (forall i, (i < length c)%nat -> ffin (vget c i)) ->
  vn (length c) (frv c) <= 4 * cap -> reflection_axis_mut c = Ret (v, o) ->
  let x := match o with Some x => x | None => n0 FN end in fvalid x /\ ffin x /\ Rabs (fr x) <= huge.
Proof.
  intros hn hm hv hf hc e x. set (m := length c) in *. destruct (ax_valid c hv ltac:(unfold m in *; lia)) as (v1 & v2 & v3 & v4).
  assert (hx : fvalid x /\ (x = n0 FN \/ x = nopp FN (ax_sn c))).
  { unfold x. rewrite axis_outcome in e by (unfold m in *; lia). cbv zeta in e. destruct (negb (nis_zero FN (ax_nn c))); injection e as <- <-; [split; auto; apply fvalid_opp; auto|split; [reflexivity|auto]]. }
  clearbody x. clear e. destruct hx as (vx & [->| ->]).
  { split; auto. split; [reflexivity|]. change (fr (n0 FN)) with 0. rewrite Rabs_R0. apply huge_pos. }
  split; auto. pose proof cap_ge1 as hc1. pose proof (vn_nonneg m (frv c)) as h0.
  assert (hcc : 16 * (cap * cap) <= bpow radix2 1004). { change 16 with (bpow radix2 4). unfold cap. rewrite <- !bpow_plus. apply bpow_le. lia. }
  assert (hsq : vn m (frv c) * vn m (frv c) <= 16 * (cap * cap)).
  { replace (16 * (cap * cap)) with (4 * cap * (4 * cap)) by ring. apply Rmult_le_compat; auto. }
  rewrite vn_sq in hsq.
  assert (gS : gam (S m) <= 1). { pose proof (fits_U n (S m) hn ltac:(lia)) as h. rewrite U_gam in h. lra. }
  pose proof (fits_eta1 n m hn ltac:(lia)) as he. pose proof uro_pos. pose proof uro_1024.
  destruct (dot_err (vget c) (vget c) m (16 * (cap * cap))) as (h1 & e1).
  { intros j hj. split; auto. } { intros j hj. split; auto. }
  { eapply Rle_trans; [|exact hsq]. right. apply Rsum_ext. intros j hj. rewrite <- Rabs_mult, Rabs_pos_eq by apply sqn. reflexivity. }
  { eapply Rle_trans; [exact hcc|]. apply bpow_le. lia. } { auto. } { lra. }
  change (sumn m (fun i => nmul FN (vget c i) (vget c i))) with (ax_nsq c) in h1, e1.
  assert (n1' : 0 <= fr (ax_nsq c)) by (apply sumsq_nonneg; [auto|apply h1]).
  assert (n2' : fr (ax_nsq c) <= bpow radix2 1006).
  { change (Rsum m (fun j => fr (vget c j) * fr (vget c j))) with (Rsum m (fun j => frv c j * frv c j)) in e1. apply Rabs_le_inv in e1. destruct e1 as (_ & e1). replace (bpow radix2 1006) with (4 * bpow radix2 1004) by (change 4 with (bpow radix2 2); rewrite <- bpow_plus; reflexivity).
    assert (0 <= 16 * (cap * cap)) by nra. assert (gam (S m) * (16 * (cap * cap)) <= 1 * (16 * (cap * cap))) by (apply Rmult_le_compat_r; auto).
    assert (1 <= bpow radix2 1004) by (apply (bpow_le radix2 0 1004); lia). lra. }
  assert (fn : ffin (ax_nrm c)).
  { destruct n1' as [n1'|n1']; [apply sqrt_fin; auto; apply h1|]. destruct (fin0 (ax_nsq c) (proj2 h1) (eq_sym n1')) as (s & es). unfold ax_nrm. rewrite es. destruct s; reflexivity. }
  destruct (sqrt_rel _ v1 fn) as (_ & _ & d & hd & en). fold (ax_nrm c) in en.
  assert (f0 : ffin (vget c 0)) by (apply hf; lia). destruct (signum_fr _ f0) as (us & _).
  unfold ax_sn. rewrite mul_comm_f. destruct (mul_unit _ _ v2 us) as (m1 & m2 & _). split; [apply ffin_opp; apply m1; auto|].
  rewrite fr_opp, Rabs_Ropp, m2 by auto. destruct (unitf_fr _ us) as (_ & _ & hs & _). rewrite Rabs_mult. replace (Rabs (fr (nsignum FN (vget c 0)))) with 1 by (destruct hs as [->| ->]; [rewrite Rabs_R1|rewrite Rabs_left]; lra).
  rewrite Rmult_1_r, en, Rabs_mult. apply dlt_u in hd. rewrite (Rabs_pos_eq (sqrt _)) by apply sqrt_pos.
  assert (s1 : sqrt (fr (ax_nsq c)) <= bpow radix2 503).
  { replace (bpow radix2 503) with (sqrt (bpow radix2 1006)). { apply sqrt_le_1_alt; auto. } replace (bpow radix2 1006) with (bpow radix2 503 * bpow radix2 503) by (rewrite <- bpow_plus; reflexivity). apply sqrt_square. apply bpow_ge_0. }
  assert (s2 : Rabs (1 + d) <= 2). { eapply Rle_trans; [apply Rabs_triang|]. rewrite Rabs_R1. lra. }
  apply Rle_trans with (bpow radix2 503 * 2); [apply Rmult_le_compat; auto; [apply sqrt_pos|apply Rabs_pos]|].
  change 2 with (bpow radix2 1). rewrite <- bpow_plus. apply bpow_le. lia.
Qed.
