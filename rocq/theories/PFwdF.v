(** * Rounding errors of the Cholesky solver in terms of the trace *)
From Coq Require Import Reals List Arith Lia Lra Psatz ZArith.
From Flocq Require Import Core.
From Verif Require Import Scalar Arr MBase MDirect Inst Spec SpecF RLin PRound PTriF PCholF PHouseF PTrdF PBidG PFwd Properties_TridFloat.
Local Open Scope R_scope.

Lemma fits_gam3 n k : fits n -> (k <= 3 * n + 2)%nat -> gam k <= / 15 /\ (1 + uro) ^ k <= 2.
Proof.
  unfold fits. intros h hk. assert (hu : uro <= / 1000000) by (unfold uro; apply Rinv_le; [lra|]; apply IZR_le; discriminate). pose proof uro_pos as up.
  assert (hb : INR (3 * n + 2) * uro <= / 16).
  { rewrite plus_INR, mult_INR. change (INR 3) with (1 + 1 + 1). change (INR 2) with (1 + 1). lra. }
  assert (hg : gam (3 * n + 2) <= / 15).
  { eapply Rle_trans; [apply gam_usual; lra|]. apply Rmult_le_reg_r with (1 - INR (3 * n + 2) * uro); [lra|]. unfold Rdiv. rewrite Rmult_assoc, Rinv_l by lra. lra. }
  pose proof (gam_mono _ _ hk) as h1. split; [lra|]. unfold gam in *. lra.
Qed.
Lemma eta_pos' : 0 <= eta. Proof. unfold eta. apply bpow_ge_0. Qed.
Lemma eta_tiny : eta <= / 1000.
Proof. unfold eta. apply Rle_trans with (bpow radix2 (-10)); [apply bpow_le; lia|]. cbn. lra. Qed.

(** [t]: the trace of A *)
Definition chol_tau (n : nat) (t : R) : R := 2 * (t + 2 * (INR n * (INR n + 1)) * eta).
Definition chol_fwd (n : nat) (t : R) : R := gam (3 * n + 2) * chol_tau n t + 2 * INR n * (INR n + 1 + chol_tau n t) * eta.
Definition chol_fwd0 (n : nat) (t : R) : R := 2 * INR n * (INR n + 1 + chol_tau n t) * (1 + INR n * (1 + chol_tau n t)) * eta.

Section Tr.
Variables (n : nat) (A L : M).
Hypothesis hn : fits n.
Let t := Rsum n (fun i => A i i).
Hypothesis hpos : forall i, (i < n)%nat -> 0 < L i i.
Hypothesis hg : forall i, (i < n)%nat -> Rabs (mmul n L (mtr L) i i - A i i) <= gam (n + 2) * mmul n (mabs L) (mtr (mabs L)) i i + (1 + uro) ^ (n + 2) * (INR n + Rabs (L i i)) * eta.

Lemma tau_bound : frob2 n n L <= chol_tau n t.
Proof.
  destruct (fits_gam3 n (n + 2) hn ltac:(lia)) as (g1 & g2). pose proof (gam_nonneg (n + 2)) as g0. pose proof eta_pos' as e0. pose proof eta_tiny as e1. pose proof (pos_INR n) as n0.
  assert (hr : forall i, (i < n)%nat -> Rsum n (fun k => L i k * L i k) <= A i i + / 15 * Rsum n (fun k => L i k * L i k) + 2 * (INR n + 1 + Rsum n (fun k => L i k * L i k)) * eta).
  { intros i hi. specialize (hg i hi). apply Rabs_le_inv in hg. unfold mmul, mtr, mabs in hg.
    rewrite (Rsum_ext n (fun k => Rabs (L i k) * Rabs (L i k)) (fun k => L i k * L i k)) in hg by (intros; rewrite <- Rabs_mult; apply Rabs_pos_eq; nra).
    set (q := Rsum n (fun k => L i k * L i k)) in *. assert (q0 : 0 <= q) by (apply Rsum_nonneg; intros; nra).
    assert (hl : Rabs (L i i) <= 1 + q).
    { pose proof (Rsum_term_le n (fun k => L i k * L i k) i ltac:(intros; nra) hi) as h. cbv beta in h. fold q in h. apply Rabs_le. nra. }
    assert (h1 : gam (n + 2) * q <= / 15 * q) by (apply Rmult_le_compat_r; auto).
    assert (h2 : (1 + uro) ^ (n + 2) * (INR n + Rabs (L i i)) * eta <= 2 * (INR n + 1 + q) * eta).
    { apply Rmult_le_compat_r; auto. pose proof (Rabs_pos (L i i)). apply Rmult_le_compat; try lra. apply pow_le. pose proof uro_pos; lra. }
    lra. }
  pose proof (Rsum_le n _ _ hr) as hs.
  rewrite (Rsum_ext n (fun i => A i i + / 15 * Rsum n (fun k => L i k * L i k) + 2 * (INR n + 1 + Rsum n (fun k => L i k * L i k)) * eta)
    (fun i => A i i + ((/ 15 + 2 * eta) * Rsum n (fun k => L i k * L i k) + 2 * (INR n + 1) * eta))) in hs by (intros; ring).
  rewrite !Rsum_plus, Rsum_scal_l, Rsum_const in hs. fold (frob2 n n L) in hs. fold t in hs. unfold chol_tau.
  assert (f0 : 0 <= frob2 n n L) by (rewrite <- frob_sq; pose proof (frob_nonneg n n L); nra).
  assert (h3 : (/ 15 + 2 * eta) * frob2 n n L <= / 2 * frob2 n n L) by (apply Rmult_le_compat_r; lra). lra.
Qed.
Lemma tau_entry i j : (i < n)%nat -> (j < n)%nat -> Rabs (L i j) <= 1 + chol_tau n t.
Proof.
  intros hi hj. pose proof tau_bound as hb.
  pose proof (Rsum_term_le n (fun i => Rsum n (fun j => L i j * L i j)) i ltac:(intros; apply Rsum_nonneg; intros; nra) hi) as h1. cbv beta in h1.
  pose proof (Rsum_term_le n (fun k => L i k * L i k) j ltac:(intros; nra) hj) as h2. cbv beta in h2. fold (frob2 n n L) in h1. apply Rabs_le. nra.
Qed.
Lemma tau_nonneg : 0 <= chol_tau n t.
Proof. pose proof tau_bound. assert (f0 : 0 <= frob2 n n L) by (rewrite <- frob_sq; pose proof (frob_nonneg n n L); nra). lra. Qed.

Lemma dA_bound (dA : M) : (forall i j, (i < n)%nat -> (j < n)%nat -> let m := Nat.min i j in
       Rabs (dA i j) <= gam (3 * n + 2) * mmul n (mabs L) (mtr (mabs L)) i j + (1 + uro) ^ (n + 2) * (INR n + Rabs (L m m)) * eta) ->
  frob n n dA <= chol_fwd n t.
Proof.
  intros h. pose proof tau_nonneg as t0. pose proof eta_pos' as e0. pose proof (pos_INR n) as n0. destruct (fits_gam3 n (n + 2) hn ltac:(lia)) as (_ & g2).
  set (z := 2 * (INR n + 1 + chol_tau n t) * eta).
  assert (z0 : 0 <= z) by (unfold z; apply Rmult_le_pos; auto; lra).
  pose proof (gam_nonneg (3 * n + 2)) as g0.
  apply Rle_trans with (frob n n (madd (mscal (gam (3 * n + 2)) (mmul n (mabs L) (mtr (mabs L)))) (fun _ _ => z))).
  - apply frob_le. intros i j hi hj. specialize (h i j hi hj). cbv zeta in h. unfold madd, mscal.
    assert (hm : 0 <= mmul n (mabs L) (mtr (mabs L)) i j) by (apply Rsum_nonneg; intros; unfold mtr, mabs; apply Rmult_le_pos; apply Rabs_pos).
    pose proof (Rmult_le_pos _ _ g0 hm). rewrite (Rabs_pos_eq (_ + z)) by lra. eapply Rle_trans; [exact h|]. apply Rplus_le_compat_l.
    unfold z. apply Rmult_le_compat_r; auto. pose proof (tau_entry (Nat.min i j) (Nat.min i j) ltac:(lia) ltac:(lia)). pose proof (Rabs_pos (L (Nat.min i j) (Nat.min i j))).
    apply Rmult_le_compat; try lra. apply pow_le. pose proof uro_pos; lra.
  - eapply Rle_trans; [apply frob_triangle|]. rewrite frob_const by auto. rewrite frob_scal, (Rabs_pos_eq (gam _)) by auto.
    unfold chol_fwd. replace (2 * INR n * (INR n + 1 + chol_tau n t) * eta) with (INR n * z) by (unfold z; ring). apply Rplus_le_compat_r. apply Rmult_le_compat_l; auto.
    eapply Rle_trans; [apply frob_mmul|]. rewrite frob_trr, frob_sq. eapply Rle_trans; [|apply tau_bound]. apply Req_le.
    unfold frob2, mabs. apply Rsum_ext. intros. apply Rsum_ext. intros. rewrite <- Rabs_mult. apply Rabs_pos_eq. nra.
Qed.
Lemma db_bound (db : nat -> R) : (forall i, (i < n)%nat -> Rabs (db i) <=
       (1 + uro) ^ (2 * n) * (INR n + L i i + Rsum n (fun j => Rabs (L i j) * (INR n + L j j))) * eta) ->
  vn n db <= chol_fwd0 n t.
Proof.
  intros h. pose proof tau_nonneg as t0. pose proof eta_pos' as e0. pose proof (pos_INR n) as n0. destruct (fits_gam3 n (2 * n) hn ltac:(lia)) as (_ & g2).
  set (T := chol_tau n t) in *.
  set (z := 2 * ((INR n + 1 + T) * (1 + INR n * (1 + T))) * eta).
  assert (z0 : 0 <= z).
  { unfold z. apply Rmult_le_pos; auto. apply Rmult_le_pos; [lra|]. apply Rmult_le_pos; [lra|]. pose proof (Rmult_le_pos _ (1 + T) n0 ltac:(lra)). lra. }
  unfold chol_fwd0. fold T. replace (2 * INR n * (INR n + 1 + T) * (1 + INR n * (1 + T)) * eta) with (INR n * z) by (unfold z; ring).
  apply Rle_trans with (vn n (fun _ => z)); [|apply vn_const'; auto]. apply vn_le. intros i hi. rewrite (Rabs_pos_eq z) by auto. eapply Rle_trans; [apply h; auto|].
  unfold z. apply Rmult_le_compat_r; auto.
  assert (hL : forall j, (j < n)%nat -> 0 <= L j j <= 1 + T).
  { intros j hj. pose proof (hpos j hj). pose proof (tau_entry j j hj hj) as q. rewrite Rabs_pos_eq in q by lra. unfold T. lra. }
  assert (hs : 0 <= Rsum n (fun j => Rabs (L i j) * (INR n + L j j)) <= INR n * ((1 + T) * (INR n + (1 + T)))).
  { split.
    - apply Rsum_nonneg. intros j hj. destruct (hL j hj). apply Rmult_le_pos; [apply Rabs_pos|lra].
    - rewrite <- Rsum_const. apply Rsum_le. intros j hj. destruct (hL j hj). pose proof (tau_entry i j hi hj) as q. fold T in q. apply Rmult_le_compat; try lra. apply Rabs_pos. }
  destruct (hL i hi). apply Rmult_le_compat; [apply pow_le; pose proof uro_pos; lra|lra|exact g2|]. nra.
Qed.
End Tr.

(** The forward error of a finite column computed by solvec *)
Lemma solvec_forward (a b x : mat FN) (k : nat) (G : M) (xs : nat -> R) :
  mvalid a -> mvalid b -> (forall i, (i < nr a)%nat -> ffin (get a i i)) ->
  solvec a b = Ret x -> (k < nc b)%nat -> (forall i, (i < nr a)%nat -> ffin (get x i k)) ->
  let n := nr a in let A := sym_of_lower (frm a) in let t := Rsum n (fun i => A i i) in fits n ->
  mmul n G A =[n, n]= mid -> (forall i, (i < n)%nat -> Rsum n (fun j => A i j * xs j) = frm b i k) ->
  vn n (fun i => frm x i k - xs i) <= frob n n G * (chol_fwd n t * vn n (fun i => frm x i k) + chol_fwd0 n t).
Proof.
  intros va vb hd es hk hf n A t hn hG hx.
  destruct (solvec_backward a b x k va vb hd es hk hf) as (sq & _ & l & hl & hp & _ & hfin & dA & db & h1 & h2 & h3).
  fold n in hp, hfin, h1, h2, h3. set (L := tri_of Lower (frm l)) in *.
  assert (hg : forall i, (i < n)%nat -> Rabs (mmul n L (mtr L) i i - A i i) <= gam (n + 2) * mmul n (mabs L) (mtr (mabs L)) i i + (1 + uro) ^ (n + 2) * (INR n + Rabs (L i i)) * eta).
  { intros i hi. pose proof (chol_gram_backward a l va hl ltac:(intros; apply hfin; auto) i i hi hi) as q. unfold chol_uf in q. rewrite Nat.min_id in q. exact q. }
  apply (fwd_norm n A G (fun i => frm x i k) xs (fun i => frm b i k) (fun i => db i + -1 * Rsum n (fun j => dA i j * frm x j k))); auto.
  - intros i hi. pose proof (h3 i hi) as q. fold A in q. unfold madd in q.
    rewrite (Rsum_ext n _ (fun j => A i j * frm x j k + dA i j * frm x j k)) in q by (intros; ring). rewrite Rsum_plus in q. lra.
  - eapply Rle_trans; [apply vn_plus|]. rewrite vn_scal. replace (Rabs (-1)) with 1 by (rewrite Rabs_left; lra).
    pose proof (vn_mv n n dA (fun j => frm x j k)) as q1. pose proof (dA_bound n A L hn hg dA h1) as q2. pose proof (db_bound n A L hn hp hg db h2) as q3.
    fold t in q2, q3. pose proof (Rmult_le_compat_r _ _ _ (vn_nonneg n (fun j => frm x j k)) q2). lra.
Qed.
