(** * Binary64 Cholesky accepts every safely positive definite matrix *)
From Coq Require Import Reals List Arith Lia Lra Bool Psatz.
From Coq.Floats Require Import SpecFloat.
From Flocq Require Import Core BinarySingleNaN.
From Verif Require Import Scalar Arr MBase MDirect Inst Hoare Spec SpecF RLin PTri PChol PRound PTriF PCholF PHouseF PQRF.
Import ListNotations.
Local Open Scope R_scope.

Lemma Rsum_sparse n m j f : (m <= j < n)%nat -> (forall i, (i < n)%nat -> (m <= i)%nat -> i <> j -> f i = 0) ->
  Rsum n f = Rsum m f + f j.
Proof.
  intros h hz. replace n with (m + (n - m))%nat by lia. rewrite Rsum_split. f_equal.
  rewrite (Rsum_single (n - m) (j - m)); [f_equal; lia|lia|]. intros i hi ne. apply hz; lia.
Qed.

(** x^T A x *)
Definition qform (n : nat) (A : M) (x : nat -> R) : R := Rsum n (fun i => x i * Rsum n (fun j => A i j * x j)).

Lemma qform_border n m j (A : M) y : (m <= j < n)%nat -> (forall i, (i < m)%nat -> A i j = A j i) ->
  qform n A (fun i => if Nat.eqb i j then 1 else if Nat.ltb i m then - y i else 0) =
  A j j - 2 * Rsum m (fun i => A j i * y i) + Rsum m (fun i => y i * Rsum m (fun k => A i k * y k)).
Proof.
  intros h hs. set (x := fun i => if Nat.eqb i j then 1 else if Nat.ltb i m then - y i else 0). unfold qform.
  assert (xj : x j = 1) by (unfold x; bd; reflexivity).
  assert (xm : forall i, (i < m)%nat -> x i = - y i) by (intros i hi; unfold x; bd; reflexivity).
  assert (x0 : forall i, (m <= i)%nat -> i <> j -> x i = 0) by (intros i hi ne; unfold x; bd; reflexivity).
  assert (hin : forall i, Rsum n (fun k => A i k * x k) = - Rsum m (fun k => A i k * y k) + A i j).
  { intros i. rewrite (Rsum_sparse n m j) by (auto; intros k hk hm ne; rewrite x0 by auto; ring). rewrite xj.
    rewrite (Rsum_ext m _ (fun k => - (A i k * y k))) by (intros k hk; rewrite xm by auto; ring). rewrite Rsum_opp. ring. }
  rewrite (Rsum_sparse n m j) by (auto; intros k hk hm ne; rewrite x0 by auto; ring). rewrite xj, !hin.
  rewrite (Rsum_ext m _ (fun i => y i * Rsum m (fun k => A i k * y k) - A j i * y i)).
  2:{ intros i hi. rewrite hin, xm, hs by auto. ring. }
  rewrite Rsum_minus. ring.
Qed.

Lemma Rsum_sq_le n f : Rsum n f * Rsum n f <= INR n * Rsum n (fun i => f i * f i).
Proof.
  pose proof (Rsum_CS n (fun _ => 1) f) as h. cbv beta in h. rewrite (Rsum_ext n (fun i => 1 * f i) f) in h by (intros; ring).
  rewrite (Rsum_ext n (fun i => 1 * 1) (fun _ => 1)), Rsum_const, Rmult_1_r in h by (intros; ring). exact h.
Qed.

(** Row j of a factorisation that is exact up to eps sqrt(a_pp a_qq) has squared norm below a_jj. *)
Lemma schur n m j (A L : M) (r s : nat -> R) dl ep : (m <= j < n)%nat ->
  (forall p, (p < n)%nat -> 0 <= s p /\ s p * s p = A p p) -> 0 <= ep ->
  (forall p q, (p < n)%nat -> (q < n)%nat -> A p q = A q p) ->
  (forall x, dl * Rsum n (fun i => A i i * (x i * x i)) <= qform n A x) ->
  lower_tri m m L -> (forall p, (p < m)%nat -> L p p <> 0) ->
  (forall p q, (p < m)%nat -> (q < m)%nat -> Rabs (Rsum m (fun i => L p i * L q i) - A p q) <= ep * (s p * s q)) ->
  (forall q, (q < m)%nat -> Rabs (Rsum m (fun i => L q i * r i) - A j q) <= ep * (s j * s q)) ->
  (INR n + 1) * ep <= dl ->
  (dl - (INR n + 1) * ep) * A j j <= A j j - Rsum m (fun i => r i * r i).
Proof.
  intros hm hs h0 sym pd hlt hd hA hr hdl.
  destruct (upper_solvable m (mtr L) r) as (y & hy).
  { intros p q hp hq hlt'. unfold mtr. apply hlt; auto. }
  { intros p hp. unfold mtr. auto. }
  specialize (pd (fun i => if Nat.eqb i j then 1 else if Nat.ltb i m then - y i else 0)).
  rewrite qform_border in pd; auto. 2:{ intros i hi. apply sym; lia. }
  rewrite (Rsum_sparse n m j) in pd by (auto; intros i hi hmi ne; bd; ring).
  rewrite Nat.eqb_refl in pd.
  rewrite (Rsum_ext m _ (fun i => (s i * Rabs (y i)) * (s i * Rabs (y i)))) in pd.
  2:{ intros i hi. bd. destruct (hs i ltac:(lia)) as (_ & <-). assert (y i * y i = Rabs (y i) * Rabs (y i)) by (rewrite <- Rabs_mult; rewrite Rabs_pos_eq; nra). nra. }
  destruct (hs j ltac:(lia)) as (sj0 & sjj).
  set (T := fun i => s i * Rabs (y i)) in *. change (fun i => s i * Rabs (y i) * (s i * Rabs (y i))) with (fun i => T i * T i) in pd.
  assert (hT : forall i, (i < m)%nat -> 0 <= T i) by (intros i hi; apply Rmult_le_pos; [apply hs; lia|apply Rabs_pos]).
  assert (e1 : Rsum m (fun i => r i * r i) = Rsum m (fun q => y q * Rsum m (fun i => L q i * r i))).
  { rewrite (Rsum_ext m (fun q => y q * _) (fun q => Rsum m (fun i => y q * (L q i * r i)))) by (intros; rewrite Rsum_scal_l; auto).
    rewrite Rsum_swap. apply Rsum_ext. intros i hi. rewrite <- (hy i hi) at 1. rewrite <- Rsum_scal_r. apply Rsum_ext. intros. unfold mtr. ring. }
  assert (e2 : Rsum m (fun i => r i * r i) = Rsum m (fun p => y p * Rsum m (fun q => Rsum m (fun i => L p i * L q i) * y q))).
  { rewrite e1. apply Rsum_ext. intros p hp. f_equal.
    rewrite (Rsum_ext m (fun q => Rsum m (fun i => L p i * L q i) * y q) (fun q => Rsum m (fun i => L p i * L q i * y q))) by (intros; now rewrite Rsum_scal_r).
    rewrite Rsum_swap. apply Rsum_ext. intros i hi. rewrite <- (hy i hi). rewrite <- Rsum_scal_l. apply Rsum_ext. intros. unfold mtr. ring. }
  set (ST := Rsum m T). assert (hST : 0 <= ST) by (apply Rsum_nonneg; auto).
  (* the linear term *)
  assert (g1 : Rabs (Rsum m (fun q => y q * Rsum m (fun i => L q i * r i)) - Rsum m (fun i => A j i * y i)) <= ep * s j * ST).
  { rewrite <- Rsum_minus. eapply Rle_trans; [apply Rsum_abs|]. unfold ST. rewrite <- Rsum_scal_l. apply Rsum_le. intros q hq.
    replace (y q * Rsum m (fun i => L q i * r i) - A j q * y q) with (y q * (Rsum m (fun i => L q i * r i) - A j q)) by ring.
    rewrite Rabs_mult. unfold T. pose proof (hr q hq). pose proof (Rabs_pos (y q)). nra. }
  assert (g2 : Rabs (Rsum m (fun p => y p * Rsum m (fun q => Rsum m (fun i => L p i * L q i) * y q)) - Rsum m (fun i => y i * Rsum m (fun k => A i k * y k))) <= ep * ST * ST).
  { rewrite <- Rsum_minus. eapply Rle_trans; [apply Rsum_abs|]. unfold ST at 2. rewrite <- Rsum_scal_l. apply Rsum_le. intros p hp.
    rewrite <- Rmult_minus_distr_l, <- Rsum_minus, Rabs_mult.
    assert (Rabs (Rsum m (fun i => Rsum m (fun i0 => L p i0 * L i i0) * y i - A p i * y i)) <= ep * s p * ST).
    { eapply Rle_trans; [apply Rsum_abs|]. unfold ST. rewrite <- Rsum_scal_l. apply Rsum_le. intros q hq.
      rewrite <- Rmult_minus_distr_r, Rabs_mult. unfold T. pose proof (hA p q hp hq). pose proof (Rabs_pos (y q)). nra. }
    unfold T. pose proof (Rabs_pos (y p)). nra. }
  rewrite <- e1 in g1. rewrite <- e2 in g2. apply Rabs_le_inv in g1, g2.
  pose proof (Rsum_sq_le m T) as g3. fold ST in g3.
  assert (hmn : INR m + 1 <= INR n) by (rewrite <- S_INR; apply le_INR; lia).
  set (Q := Rsum m (fun i => T i * T i)) in *. assert (hQ : 0 <= Q) by (apply Rsum_nonneg; intros; nra).
  pose proof (pos_INR m) as hm0.
  (* (s_j + ST)^2 <= (m+1) (s_j^2 + Q) *)
  assert (g4 : (s j + ST) * (s j + ST) <= (INR m + 1) * (A j j + Q)).
  { rewrite <- sjj. assert (2 * s j * ST <= INR m * (s j * s j) + Q).
    { destruct (Nat.eq_dec m 0) as [e0|]. { assert (hz : ST = 0) by (unfold ST; rewrite e0; reflexivity). rewrite hz. nra. }
      assert (1 <= INR m) by (change 1 with (INR 1); apply le_INR; lia).
      pose proof (Rle_0_sqr (INR m * s j - ST)) as hsq. unfold Rsqr in hsq. apply Rmult_le_reg_l with (INR m); lra. }
    nra. }
  set (rr := Rsum m (fun i => r i * r i)) in *. set (lin := Rsum m (fun i => A j i * y i)) in *.
  set (quad := Rsum m (fun i => y i * Rsum m (fun k => A i k * y k))) in *.
  assert (hAj : 0 <= A j j) by (rewrite <- sjj; nra).
  assert (k1 : ep * ((s j + ST) * (s j + ST)) <= ep * ((INR m + 1) * (A j j + Q))) by (apply Rmult_le_compat_l; auto).
  assert (k2 : ep * ((INR m + 1) * (A j j + Q)) <= ep * (INR n * (A j j + Q))) by (apply Rmult_le_compat_l; [auto|]; apply Rmult_le_compat_r; lra).
  assert (k3 : 0 <= (dl - INR n * ep) * Q) by (apply Rmult_le_pos; lra).
  assert (k4 : 0 <= ep * A j j) by (apply Rmult_le_pos; auto).
  assert (k5 : 0 <= ep * (s j * s j)) by (apply Rmult_le_pos; nra).
  lra.
Qed.

Lemma sub_fin x y : fvalid x -> fvalid y -> ffin x -> ffin y -> Rabs (fr x - fr y) <= bpow radix2 1023 -> ffin (nsub FN x y).
Proof.
  intros vx vy. tob. unfold nsub, FN. rewrite sub_equiv, !ffin_B2SF, !fr_B2SF. intros fx fy h.
  pose proof (Bminus_correct prec emax Hprec Hemax mode_NE x1 x0 fx fy) as hc. rewrite rnd_lt in hc by auto. apply hc.
Qed.

(** an inner product of moderate size does not overflow *)
Lemma dot_fwd (x y : nat -> FN) m B :
  (forall j, (j < m)%nat -> fvalid (x j) /\ fvalid (y j)) -> (forall j, (j < m)%nat -> ffin (x j) /\ ffin (y j)) ->
  Rsum m (fun j => Rabs (fr (x j)) * Rabs (fr (y j))) <= B -> B <= bpow radix2 1010 -> gam (S m) <= 1 -> INR m * eta <= 1 ->
  ffin (sumn m (fun i => nmul FN (x i) (y i))).
Proof.
  intros hv hf hB hB2. induction m as [|m IH]; intros hg he; [reflexivity|].
  pose proof (gam_mono (S m) (S (S m)) ltac:(lia)) as hg1. rewrite S_INR in he. pose proof eta_pos as hep. pose proof (pos_INR m) as hm0.
  cbn [Rsum] in hB. pose proof (Rabs_pos (fr (x m))) as p1. pose proof (Rabs_pos (fr (y m))) as p2.
  assert (p3 : 0 <= Rsum m (fun j => Rabs (fr (x j)) * Rabs (fr (y j)))) by (apply Rsum_nonneg; intros; apply Rmult_le_pos; apply Rabs_pos).
  assert (p4 : 0 <= Rabs (fr (x m)) * Rabs (fr (y m))) by (apply Rmult_le_pos; auto).
  assert (fs : ffin (sumn m (fun i => nmul FN (x i) (y i)))) by (apply IH; auto; try lra; nra).
  destruct (hv m ltac:(lia)) as (vx & vy). destruct (hf m ltac:(lia)) as (fx & fy).
  assert (big : bpow radix2 1010 + bpow radix2 1010 + bpow radix2 1010 + bpow radix2 1010 + 2 <= bpow radix2 1023).
  { change (bpow radix2 1023) with (bpow radix2 (10 + 1013)). change (bpow radix2 1010) with (bpow radix2 (10 + 1000)).
    rewrite !(bpow_plus radix2 10). set (b := bpow radix2 10). assert (1 <= b) by (apply (bpow_le radix2 0); discriminate).
    change (bpow radix2 1013) with (bpow radix2 (13 + 1000)). rewrite bpow_plus. set (c := bpow radix2 1000). assert (1 <= c) by (apply (bpow_le radix2 0); discriminate).
    change (bpow radix2 13) with 8192. nra. }
  assert (fm : ffin (nmul FN (x m) (y m))).
  { apply mul_fin; auto. rewrite Rabs_mult. lra. }
  assert (vs : fvalid (sumn m (fun i => nmul FN (x i) (y i)))).
  { apply sumn_valid. intros j hj. destruct (hv j ltac:(lia)). apply fvalid_mul; auto. }
  destruct (dot_std x y m ltac:(auto) fs) as (_ & D & e & h1 & h2 & h3).
  destruct (mul_std _ _ vx vy fm) as (_ & _ & d & ep & hd & hep' & e2).
  cbn [sumn]. apply add_fin; auto; [apply fvalid_mul; auto|].
  assert (k1 : Rabs (Rsum m (fun j => fr (x j) * fr (y j) * D j)) <= 2 * Rsum m (fun j => Rabs (fr (x j)) * Rabs (fr (y j)))).
  { eapply Rle_trans; [apply Rsum_abs|]. rewrite <- Rsum_scal_l. apply Rsum_le. intros j hj. rewrite !Rabs_mult.
    pose proof (near_abs _ _ (h1 j hj)) as hn. assert ((1 + uro) ^ S m <= 2) by (unfold gam in hg1, hg; lra).
    pose proof (Rabs_pos (fr (x j))). pose proof (Rabs_pos (fr (y j))). pose proof (Rmult_le_pos _ _ H0 H1). nra. }
  assert (k2 : Rabs (fr (nmul FN (x m) (y m))) <= 2 * (Rabs (fr (x m)) * Rabs (fr (y m))) + eta).
  { rewrite e2. eapply Rle_trans; [apply Rabs_triang|]. rewrite !Rabs_mult. pose proof (near_abs _ _ (near_dlt _ hd)) as hn. rewrite pow_1 in hn.
    pose proof uro_small. assert (Rabs (1 + d) <= 2) by lra. nra. }
  assert (k3 : Rabs e <= 2 * (INR m * eta)).
  { eapply Rle_trans; [exact h2|]. assert ((1 + uro) ^ m <= 2) by (unfold gam in hg; pose proof (pow_u_mono m (S (S m)) ltac:(lia)); lra).
    assert (0 <= INR m * eta) by nra. nra. }
  rewrite h3. pose proof (Rabs_triang (Rsum m (fun j => fr (x j) * fr (y j) * D j) + e) (fr (nmul FN (x m) (y m)))) as t1.
  pose proof (Rabs_triang (Rsum m (fun j => fr (x j) * fr (y j) * D j)) e) as t2.
  lra.
Qed.

Lemma Rabs_le_of_sq x y : 0 <= y -> x * x <= y * y -> Rabs x <= y.
Proof. intros h h1. apply Rsqr_incr_0_var; auto. unfold Rsqr. rewrite <- Rabs_mult, Rabs_pos_eq; auto. apply Rle_0_sqr. Qed.

Definition chol_eps (n : nat) : R := gam (2 * n + 20).
Definition smin : R := bpow radix2 (-450).
Lemma smin_pos : 0 < smin. Proof. apply bpow_gt_0. Qed.
Lemma eta_smin : eta <= uro * uro * uro * (smin * smin) * / 64.
Proof.
  unfold smin. replace uro with (bpow radix2 (-53)) by reflexivity. rewrite <- !bpow_plus. change (/ 64) with (bpow radix2 (-6)). rewrite <- bpow_plus.
  apply bpow_le. discriminate.
Qed.
Lemma eta_smin1 : eta <= uro * smin * / 64.
Proof.
  unfold smin. replace uro with (bpow radix2 (-53)) by reflexivity. rewrite <- !bpow_plus. change (/ 64) with (bpow radix2 (-6)). rewrite <- bpow_plus.
  apply bpow_le. discriminate.
Qed.

Lemma qform_unit n A k : (k < n)%nat -> qform n A (fun i => if Nat.eqb i k then 1 else 0) = A k k.
Proof.
  intros hk. unfold qform. rewrite (Rsum_single n k); auto.
  - rewrite Nat.eqb_refl, (Rsum_single n k); auto; [rewrite Nat.eqb_refl; ring|]. intros i hi ne. bd. ring.
  - intros i hi ne. bd. ring.
Qed.
Lemma ep_of_pd n (A : M) : (0 < n)%nat -> 0 < A 0%nat 0%nat ->
  (forall x, (INR n + 4) * chol_eps n * Rsum n (fun i => A i i * (x i * x i)) <= qform n A x) -> (INR n + 4) * chol_eps n <= 1.
Proof.
  intros npos hr pd. pose proof (pd (fun i => if Nat.eqb i 0 then 1 else 0)) as h. rewrite qform_unit in h by auto.
  rewrite (Rsum_single n 0) in h; [|auto|intros i hi ne; bd; ring]. cbn [Nat.eqb] in h.
  apply Rmult_le_reg_r with (A 0%nat 0%nat); lra.
Qed.

Section Accept.
Variables (n : nat) (af : nat -> nat -> FN).
Let A : M := sym_of_lower (fun i j => fr (af i j)).
Let s (p : nat) : R := sqrt (A p p).
Let ep : R := chol_eps n.
Hypothesis va : forall p q, (p < n)%nat -> (q <= p)%nat -> fvalid (af p q) /\ ffin (af p q).
Hypothesis rng : forall p, (p < n)%nat -> bpow radix2 (-900) <= A p p <= bpow radix2 1000.
Hypothesis npos : (0 < n)%nat.
Hypothesis hep1 : (INR n + 4) * ep <= 1.
Hypothesis pd : forall x, (INR n + 4) * ep * Rsum n (fun i => A i i * (x i * x i)) <= qform n A x.

Lemma symA p q : A p q = A q p.
Proof. unfold A, sym_of_lower. bd; auto; assert (p = q) by lia; subst; reflexivity. Qed.
Lemma s_ok p : (p < n)%nat -> smin <= s p <= bpow radix2 500 /\ s p * s p = A p p.
Proof.
  intros hp. pose proof (rng p hp) as h. pose proof (bpow_gt_0 radix2 (-900)).
  assert (e : s p * s p = A p p) by (apply sqrt_sqrt; lra). split; auto. unfold s, smin. split.
  - rewrite <- (sqrt_Rsqr (bpow radix2 (-450))) by apply bpow_ge_0. apply sqrt_le_1_alt. unfold Rsqr. rewrite <- bpow_plus. apply h.
  - rewrite <- (sqrt_Rsqr (bpow radix2 500)) by apply bpow_ge_0. apply sqrt_le_1_alt. unfold Rsqr. rewrite <- bpow_plus. apply h.
Qed.
Lemma s_pos p : (p < n)%nat -> 0 < s p.
Proof. intros hp. pose proof (s_ok p hp). pose proof smin_pos. lra. Qed.

Lemma ep_small : (INR n + 4) * ep <= 1 /\ 0 <= ep /\ INR n * uro <= / 5 /\ ep <= / 5 /\ uro <= ep.
Proof.
  pose proof (gam_nonneg (2 * n + 20)) as h0. fold (chol_eps n) in h0. fold ep in h0.
  assert (1 <= INR n) by (change 1 with (INR 1); apply le_INR; lia).
  pose proof (gam_ge (2 * n + 20)) as hg. fold (chol_eps n) in hg. fold ep in hg. rewrite plus_INR, mult_INR in hg. change (INR 2) with 2 in hg.
  assert (INR 20 = 20) by (rewrite INR_IZR_INZ; reflexivity). pose proof uro_pos.
  repeat split; auto; nra.
Qed.
Lemma gam_ep k : (k <= 2 * n + 20)%nat -> gam k <= ep.
Proof. intros. apply gam_mono. auto. Qed.
Lemma pow_ep k : (k <= 2 * n + 20)%nat -> (1 + uro) ^ k <= 6 / 5.
Proof. intros h. apply gam_ep in h. destruct ep_small as (_ & _ & _ & h1 & _). unfold gam in h. lra. Qed.

(** underflow is negligible *)
Lemma under1 p q : (p < n)%nat -> (q < n)%nat -> INR n * eta <= uro * (s p * s q) * / 64.
Proof.
  intros hp hq. destruct ep_small as (_ & _ & h1 & _). pose proof eta_smin. pose proof smin_pos. pose proof uro_pos. pose proof uro_small.
  destruct (s_ok p hp) as ((k1 & _) & _). destruct (s_ok q hq) as ((k2 & _) & _). pose proof eta_pos. pose proof (pos_INR n).
  assert (h2 : smin * smin <= s p * s q) by (apply Rmult_le_compat; lra).
  apply Rle_trans with (INR n * (uro * uro * uro * (smin * smin) * / 64)); [apply Rmult_le_compat_l; auto|].
  assert (h3 : INR n * uro * (uro * uro * (smin * smin) * / 64) <= / 5 * (uro * uro * (smin * smin) * / 64)).
  { apply Rmult_le_compat_r; auto. repeat apply Rmult_le_pos; lra. }
  assert (h4 : uro * uro * (smin * smin) * / 64 <= uro * (smin * smin) * / 64).
  { apply Rmult_le_compat_r; [lra|]. apply Rmult_le_compat_r; nra. }
  assert (h5 : uro * (smin * smin) * / 64 <= uro * (s p * s q) * / 64).
  { apply Rmult_le_compat_r; [lra|]. apply Rmult_le_compat_l; lra. }
  assert (0 <= uro * (smin * smin) * / 64) by (repeat apply Rmult_le_pos; lra). lra.
Qed.
Lemma under2 p q : (p < n)%nat -> (q < n)%nat -> s q * eta <= uro * (s p * s q) * / 64.
Proof.
  intros hp hq. pose proof eta_smin1. pose proof smin_pos. pose proof uro_pos. destruct (s_ok p hp) as ((k1 & _) & _). pose proof (s_pos q hq).
  assert (uro * smin * / 64 <= uro * s p * / 64) by (apply Rmult_le_compat_r; [lra|]; apply Rmult_le_compat_l; lra).
  assert (s q * eta <= s q * (uro * s p * / 64)) by (apply Rmult_le_compat_l; lra). lra.
Qed.
Lemma under3 : INR n * eta <= 1.
Proof.
  pose proof (under1 0 0 npos npos) as h. destruct ep_small as (_ & _ & h1 & _). pose proof uro_pos. pose proof (pos_INR n).
  assert (eta <= uro). { unfold eta. replace uro with (bpow radix2 (-53)) by reflexivity. apply bpow_le. discriminate. } nra.
Qed.
Lemma off_small p q : (p < n)%nat -> (q < n)%nat -> Rabs (A p q) <= s p * s q.
Proof.
  intros hp hq. destruct (Nat.eq_dec p q) as [->|ne].
  { destruct (s_ok q hq) as (_ & h). rewrite h. rewrite Rabs_pos_eq; [lra|]. pose proof (rng q hq). pose proof (bpow_gt_0 radix2 (-900)). lra. }
  destruct (s_ok p hp) as (_ & h1). destruct (s_ok q hq) as (_ & h2). pose proof (s_pos p hp) as h3. pose proof (s_pos q hq) as h4.
  assert (key : forall t, t = 1 \/ t = -1 -> 0 <= 2 * (s p * s q) * (s p * s q + t * A p q)).
  { intros t ht. pose proof (pd (fun i => if Nat.eqb i p then s q else if Nat.eqb i q then t * s p else 0)) as h.
    destruct ep_small as (_ & k0 & _). pose proof (pos_INR n).
    assert (hz : 0 <= (INR n + 4) * ep * Rsum n (fun i => A i i * ((if Nat.eqb i p then s q else if Nat.eqb i q then t * s p else 0) * (if Nat.eqb i p then s q else if Nat.eqb i q then t * s p else 0)))).
    { apply Rmult_le_pos; [apply Rmult_le_pos; lra|]. apply Rsum_nonneg. intros i hi. apply Rmult_le_pos; [|apply Rle_0_sqr]. pose proof (rng i hi). pose proof (bpow_gt_0 radix2 (-900)). lra. }
    pose proof (Rle_trans _ _ _ hz h) as h'. clear h hz. rename h' into h.
    unfold qform in h. rewrite (Rsum_two n p q) in h; auto. 2:{ intros i hi n1 n2. bd. ring. }
    rewrite !(Rsum_two n p q) in h; auto; try (intros i hi n1 n2; bd; ring).
    rewrite !Nat.eqb_refl in h. assert (eq1 : Nat.eqb q p = false) by (apply Nat.eqb_neq; auto). rewrite eq1 in h. rewrite <- h1, <- h2, (symA q p) in h. destruct ht; subst t; lra. }
  pose proof (Rmult_lt_0_compat _ _ h3 h4) as hpos.
  pose proof (key 1 ltac:(auto)) as g1. pose proof (key (-1) ltac:(auto)) as g2.
  apply Rabs_le. split; apply Rmult_le_reg_l with (2 * (s p * s q)); lra.
Qed.

Variable l : nat -> nat -> FN.
Notation L p q := (fr (l p q)).
Definition resid_ok (p q : nat) : Prop := Rabs (Rsum (S q) (fun i => L p i * L q i) - A p q) <= ep * (s p * s q).
Definition entry_ok (p q : nat) : Prop := fvalid (l p q) /\ ffin (l p q).
Definition row_ok (p : nat) : Prop :=
  (forall q, (q <= p)%nat -> entry_ok p q /\ resid_ok p q) /\ 0 < L p p /\ Rsum (S p) (fun i => L p i * L p i) <= 2 * A p p.
Definition part_ok (j k : nat) : Prop :=
  (forall q, (q < k)%nat -> entry_ok j q /\ resid_ok j q) /\ Rsum k (fun i => L j i * L j i) <= 2 * A j j.

Lemma tri_sum m p (g : nat -> R) : (p < m)%nat -> Rsum m (fun i => tri_of Lower (fun p q => L p q) p i * g i) = Rsum (S p) (fun i => L p i * g i).
Proof.
  intros hp. rewrite <- (Rsum_if_lt m (S p)) by lia. apply Rsum_ext. intros i hi. unfold tri_of. bd; try lia; try reflexivity; ring.
Qed.

Lemma row_schur j m r : (m <= j < n)%nat -> (forall p, (p < m)%nat -> row_ok p) ->
  (forall q, (q < m)%nat -> Rabs (Rsum (S q) (fun i => L q i * r i) - A j q) <= ep * (s j * s q)) ->
  3 * ep * A j j <= A j j - Rsum m (fun i => r i * r i).
Proof.
  intros hm hrow hr. destruct ep_small as (_ & h0 & _). pose proof (pos_INR n) as hn.
  pose proof (schur n m j A (tri_of Lower (fun p q => L p q)) r s ((INR n + 4) * ep) ep hm) as h.
  assert (hs : forall p, (p < n)%nat -> 0 <= s p /\ s p * s p = A p p) by (intros p hp; destruct (s_ok p hp); pose proof (s_pos p hp); split; lra).
  assert (key : ((INR n + 4) * ep - (INR n + 1) * ep) * A j j <= A j j - Rsum m (fun i => r i * r i)); [|lra].
  apply h; auto.
  - intros; apply symA.
  - intros p q hp hq hlt. unfold tri_of. bd; try lia; reflexivity.
  - intros p hp. unfold tri_of. bd; try lia. destruct (hrow p hp) as (_ & h1 & _). lra.
  - assert (hh : forall p q, (p < m)%nat -> (q <= p)%nat -> Rabs (Rsum m (fun i => tri_of Lower (fun p q => L p q) p i * tri_of Lower (fun p q => L p q) q i) - A p q) <= ep * (s p * s q)).
    { intros p q hp hq. rewrite (Rsum_ext m _ (fun i => tri_of Lower (fun p q => L p q) q i * tri_of Lower (fun p q => L p q) p i)) by (intros; ring).
      rewrite tri_sum by lia. destruct (hrow p hp) as (h1 & _). destruct (h1 q hq) as (_ & h2). unfold resid_ok in h2.
      rewrite (Rsum_ext (S q) _ (fun i => L p i * L q i)); auto. intros i hi. unfold tri_of. bd; try lia. ring. }
    intros p q hp hq. destruct (Nat.le_gt_cases q p); [apply hh; auto|].
    rewrite (Rsum_ext m _ (fun i => tri_of Lower (fun p q => L p q) q i * tri_of Lower (fun p q => L p q) p i)) by (intros; ring).
    rewrite symA, (Rmult_comm (s p)). apply hh; auto; lia.
  - intros q hq. rewrite tri_sum by auto. auto.
  - nra.
Qed.

Lemma cs2 m f g p q : (p < n)%nat -> (q < n)%nat -> Rsum m (fun i => f i * f i) <= 2 * A p p -> Rsum m (fun i => g i * g i) <= 2 * A q q ->
  Rsum m (fun i => Rabs (f i) * Rabs (g i)) <= 2 * (s p * s q).
Proof.
  intros hp hq h1 h2. destruct (s_ok p hp) as (_ & e1). destruct (s_ok q hq) as (_ & e2). pose proof (s_pos p hp) as p1. pose proof (s_pos q hq) as p2.
  pose proof (Rmult_lt_0_compat _ _ p1 p2) as hpp.
  eapply Rle_trans; [apply Rle_abs|]. apply Rabs_le_of_sq; [lra|].
  eapply Rle_trans; [apply (Rsum_CS m (fun i => Rabs (f i)) (fun i => Rabs (g i)))|].
  assert (ea : forall h, Rsum m (fun i => Rabs (h i) * Rabs (h i)) = Rsum m (fun i => h i * h i)).
  { intros h. apply Rsum_ext. intros i hi. rewrite <- Rabs_mult. apply Rabs_pos_eq. apply Rle_0_sqr. }
  rewrite (ea f), (ea g).
  replace (2 * (s p * s q) * (2 * (s p * s q))) with ((2 * (s p * s p)) * (2 * (s q * s q))) by ring. rewrite e1, e2.
  apply Rmult_le_compat; auto; apply Rsum_nonneg; intros; apply Rle_0_sqr.
Qed.
Lemma ss_big p q : (p < n)%nat -> (q < n)%nat -> s p * s q <= bpow radix2 1000.
Proof.
  intros hp hq. destruct (s_ok p hp) as ((_ & h1) & _). destruct (s_ok q hq) as ((_ & h2) & _). pose proof (s_pos p hp). pose proof (s_pos q hq).
  change 1000%Z with (500 + 500)%Z. rewrite bpow_plus. apply Rmult_le_compat; lra.
Qed.
Lemma big10 : 4 * bpow radix2 1000 + 4 * bpow radix2 1000 <= bpow radix2 1010 /\ bpow radix2 1010 <= bpow radix2 1023 /\ bpow radix2 500 <= bpow radix2 1023.
Proof.
  split; [|split; apply bpow_le; discriminate]. change (bpow radix2 1010) with (bpow radix2 (10 + 1000)). rewrite bpow_plus. change (bpow radix2 10) with 1024.
  pose proof (bpow_gt_0 radix2 1000). lra.
Qed.
Lemma gam_sup a b : gam a + gam b <= gam (a + b).
Proof. rewrite <- gam_add. pose proof (gam_nonneg a). pose proof (gam_nonneg b). nra. Qed.

(** an inner product of rows of the factor, and its rounding error *)
Lemma dot_rows j k m : (j < n)%nat -> (k < n)%nat -> (m <= n)%nat ->
  (forall i, (i < m)%nat -> entry_ok k i /\ entry_ok j i) ->
  Rsum m (fun i => L k i * L k i) <= 2 * A k k -> Rsum m (fun i => L j i * L j i) <= 2 * A j j ->
  let sm := sumn m (fun i => nmul FN (l k i) (l j i)) in
  fvalid sm /\ ffin sm /\ Rabs (fr sm - Rsum m (fun i => L k i * L j i)) <= (2 * gam (S m) + uro * / 32) * (s k * s j) /\
  Rabs (fr sm) <= 3 * (s k * s j).
Proof.
  intros hj hk hm hen h1 h2 sm. pose proof (cs2 m (fun i => L k i) (fun i => L j i) k j hk hj h1 h2) as hX.
  pose proof (ss_big k j hk hj) as hbig. destruct big10 as (b1 & b2 & _). destruct ep_small as (_ & h0 & _ & h5 & hu5). pose proof under3 as hu3. pose proof eta_pos as hep. pose proof uro_pos as hu.
  pose proof (le_INR m n hm) as hmn. pose proof (pos_INR m) as hm0. pose proof (Rmult_lt_0_compat _ _ (s_pos k hk) (s_pos j hj)) as hss.
  assert (hv : forall i, (i < m)%nat -> fvalid (l k i) /\ fvalid (l j i)) by (intros i hi; destruct (hen i hi) as ((v & _) & (v' & _)); auto).
  assert (hg : gam (S m) <= ep) by (apply gam_ep; lia). pose proof (gam_nonneg (S m)) as hg0.
  assert (vs : fvalid sm) by (apply sumn_valid; intros i hi; destruct (hv i hi); apply fvalid_mul; auto).
  assert (fs : ffin sm).
  { apply (dot_fwd _ _ m (2 * (s k * s j))); auto; try lra.
    - intros i hi. destruct (hen i hi) as ((_ & v) & (_ & v')); auto.
    - assert (INR m * eta <= INR n * eta) by (apply Rmult_le_compat_r; lra). lra. }
  split; auto. split; auto.
  destruct (dot_std (fun i => l k i) (fun i => l j i) m hv fs) as (_ & D & e & d1 & d2 & d3).
  assert (he : Rabs e <= uro * / 32 * (s k * s j)).
  { eapply Rle_trans; [exact d2|]. pose proof (pow_ep m ltac:(lia)) as hp. pose proof (under1 k j hk hj) as hu1.
    assert (INR m * (1 + uro) ^ m * eta <= INR n * (6 / 5) * eta).
    { apply Rmult_le_compat_r; [lra|]. apply Rmult_le_compat; try lra. pose proof (pow_u_ge1 m). lra. }
    assert (0 <= uro * (s k * s j)) by (apply Rmult_le_pos; lra). lra. }
  assert (hd : Rabs (fr sm - Rsum m (fun i => L k i * L j i)) <= (2 * gam (S m) + uro * / 32) * (s k * s j)).
  { unfold sm. rewrite d3. replace (Rsum m (fun i => L k i * L j i * D i) + e - Rsum m (fun i => L k i * L j i)) with (Rsum m (fun i => L k i * L j i * (D i - 1)) + e).
    2:{ rewrite (Rsum_ext m (fun i => L k i * L j i * (D i - 1)) (fun i => L k i * L j i * D i - L k i * L j i)) by (intros; ring). rewrite Rsum_minus. ring. }
    eapply Rle_trans; [apply Rabs_triang|].
    assert (Rabs (Rsum m (fun i => L k i * L j i * (D i - 1))) <= gam (S m) * (2 * (s k * s j))).
    { eapply Rle_trans; [apply Rsum_abs|]. eapply Rle_trans; [|apply Rmult_le_compat_l; [exact hg0|exact hX]]. rewrite <- Rsum_scal_l. apply Rsum_le. intros i hi.
      rewrite !Rabs_mult. pose proof (d1 i hi) as hn. unfold near in hn. pose proof (Rabs_pos (L k i)). pose proof (Rabs_pos (L j i)). pose proof (Rmult_le_pos _ _ H H0). nra. }
    lra. }
  split; auto.
  assert (hX2 : Rabs (Rsum m (fun i => L k i * L j i)) <= 2 * (s k * s j)).
  { eapply Rle_trans; [apply Rsum_abs|]. eapply Rle_trans; [|exact hX]. right. apply Rsum_ext. intros. apply Rabs_mult. }
  replace (fr sm) with (fr sm - Rsum m (fun i => L k i * L j i) + Rsum m (fun i => L k i * L j i)) by ring.
  eapply Rle_trans; [apply Rabs_triang|].
  assert ((2 * gam (S m) + uro * / 32) * (s k * s j) <= 1 * (s k * s j)) by (apply Rmult_le_compat_r; lra). lra.
Qed.

Lemma row_step j k : (k < j < n)%nat -> (forall p, (p < j)%nat -> row_ok p) -> part_ok j k ->
  l j k = ndiv FN (nsub FN (af j k) (sumn k (fun i => nmul FN (l k i) (l j i)))) (l k k) -> part_ok j (S k).
Proof.
  intros hk hrow (hp1 & hp2) el. destruct (hrow k ltac:(lia)) as (hk1 & hkp & hk2).
  assert (hjn : (j < n)%nat) by lia. assert (hkn : (k < n)%nat) by lia.
  destruct big10 as (b1 & b2 & b3). destruct ep_small as (_ & h0 & _ & h5 & hu5). pose proof eta_pos as hep. pose proof uro_pos as hu. pose proof uro_small as hus.
  pose proof (s_pos k hkn) as hsk. pose proof (s_pos j hjn) as hsj. pose proof (Rmult_lt_0_compat _ _ hsk hsj) as hss.
  destruct (s_ok k hkn) as ((_ & sk2) & ska). destruct (s_ok j hjn) as ((sj1 & sj2) & sja).
  assert (hkk : Rsum k (fun i => L k i * L k i) <= 2 * A k k).
  { eapply Rle_trans; [|exact hk2]. cbn [Rsum]. pose proof (Rle_0_sqr (L k k)). unfold Rsqr in H. lra. }
  destruct (dot_rows j k k hjn hkn ltac:(lia)) as (vs & fs & hd & hsb); auto.
  { intros i hi. destruct (hk1 i ltac:(lia)). destruct (hp1 i hi). auto. }
  set (sm := sumn k (fun i => nmul FN (l k i) (l j i))) in *.
  destruct (va j k hjn ltac:(lia)) as (vaj & faj). destruct (hk1 k ltac:(lia)) as ((vkk & fkk) & _).
  assert (eA : A j k = fr (af j k)) by (unfold A, sym_of_lower; bd; auto; lia).
  pose proof (off_small j k hjn hkn) as hoff. rewrite (Rmult_comm (s j)) in hoff. rewrite eA in hoff.
  assert (habs : Rabs (fr (af j k) - fr sm) <= 4 * (s k * s j)).
  { unfold Rminus. eapply Rle_trans; [apply Rabs_triang|]. rewrite Rabs_Ropp. lra. }
  pose proof (ss_big k j hkn hjn) as hbig.
  assert (ft : ffin (nsub FN (af j k) sm)) by (apply sub_fin; auto; lra).
  destruct (sub_std _ _ vaj vs ft) as (_ & _ & d & hdd & et). apply dlt_u in hdd.
  set (t := nsub FN (af j k) sm) in *. assert (vt : fvalid t) by (apply fvalid_sub; auto).
  set (qq := fr t / fr (l k k)).
  assert (eq1 : fr (l k k) * qq = fr t) by (unfold qq; field; lra).
  (* the row with the exact quotient *)
  assert (hres : Rabs (Rsum (S k) (fun i => L k i * (if Nat.eqb i k then qq else L j i)) - A j k) <= ep * (s j * s k)).
  { cbn [Rsum]. rewrite Nat.eqb_refl, eq1, et, eA. rewrite (Rsum_ext k _ (fun i => L k i * L j i)) by (intros i hi; bd; reflexivity).
    replace (Rsum k (fun i => L k i * L j i) + (fr (af j k) - fr sm) * (1 + d) - fr (af j k)) with (- (fr sm - Rsum k (fun i => L k i * L j i)) + (fr (af j k) - fr sm) * d) by ring.
    eapply Rle_trans; [apply Rabs_triang|]. rewrite Rabs_Ropp, Rabs_mult.
    assert (Rabs (fr (af j k) - fr sm) * Rabs d <= 4 * (s k * s j) * uro) by (apply Rmult_le_compat; auto; apply Rabs_pos).
    assert (hg : 2 * gam (S k) + INR 5 * uro <= ep).
    { pose proof (gam_double (S k)). pose proof (gam_ge 5). pose proof (gam_sup (2 * S k) 5). pose proof (gam_ep (2 * S k + 5) ltac:(lia)). lra. }
    assert (INR 5 = 5) by (rewrite INR_IZR_INZ; reflexivity). rewrite H0 in hg.
    assert ((2 * gam (S k) + 5 * uro) * (s k * s j) <= ep * (s k * s j)) by (apply Rmult_le_compat_r; lra).
    assert (uro * / 32 * (s k * s j) <= uro * (s k * s j)) by (apply Rmult_le_compat_r; lra). lra. }
  pose proof (row_schur j (S k) (fun i => if Nat.eqb i k then qq else L j i) ltac:(lia) ltac:(intros; apply hrow; lia)) as hsch.
  assert (hq2 : Rsum k (fun i => L j i * L j i) + qq * qq <= A j j).
  { pose proof (rng j hjn) as hr. pose proof (bpow_gt_0 radix2 (-900)).
    assert (Rsum (S k) (fun i => (if Nat.eqb i k then qq else L j i) * (if Nat.eqb i k then qq else L j i)) = Rsum k (fun i => L j i * L j i) + qq * qq).
    { cbn [Rsum]. rewrite Nat.eqb_refl. f_equal. apply Rsum_ext. intros i hi. bd. reflexivity. }
    cbv beta in hsch. rewrite H0 in hsch. assert (0 <= ep * A j j) by (apply Rmult_le_pos; lra).
    cut (3 * ep * A j j <= A j j - (Rsum k (fun i => L j i * L j i) + qq * qq)); [lra|]. apply hsch.
    intros q hq. destruct (Nat.eq_dec q k) as [->|]; [exact hres|].
    destruct (hp1 q ltac:(lia)) as (_ & hr1). unfold resid_ok in hr1. rewrite (Rsum_ext (S q) _ (fun i => L j i * L q i)); auto.
    intros i hi. bd. ring. }
  assert (hr0 : 0 <= Rsum k (fun i => L j i * L j i)) by (apply Rsum_nonneg; intros; apply Rle_0_sqr).
  assert (hqa : Rabs qq <= s j) by (apply Rabs_le_of_sq; [lra|]; rewrite sja; lra).
  assert (fz : ffin (l j k)).
  { rewrite el. apply div_fin; auto; [lra|]. fold qq. lra. }
  assert (vz : fvalid (l j k)) by (rewrite el; apply fvalid_div; auto).
  assert (hz2 : Rsum (S k) (fun i => L j i * L j i) <= 2 * A j j).
  { cbn [Rsum]. rewrite el in fz. destruct (div_std t (l k k) vt vkk fkk fz) as (_ & _ & d2 & e2 & hd2 & he2 & ez).
    rewrite el, ez. fold qq. apply dlt_u in hd2.
    assert (ha : Rabs (qq * (1 + d2) + e2) <= 9 / 8 * Rabs qq + s j * / 100).
    { eapply Rle_trans; [apply Rabs_triang|]. rewrite Rabs_mult. 
      assert (Rabs (1 + d2) <= 9 / 8) by (eapply Rle_trans; [apply Rabs_triang|]; rewrite Rabs_R1; lra).
      pose proof (Rabs_pos qq). assert (Rabs qq * Rabs (1 + d2) <= Rabs qq * (9 / 8)) by (apply Rmult_le_compat_l; auto).
      pose proof eta_smin1 as he. pose proof smin_pos. assert (uro * smin * / 64 <= s j * / 100) by nra. lra. }
    assert (hb : (qq * (1 + d2) + e2) * (qq * (1 + d2) + e2) <= (9 / 8 * Rabs qq + s j * / 100) * (9 / 8 * Rabs qq + s j * / 100)).
    { replace ((qq * (1 + d2) + e2) * (qq * (1 + d2) + e2)) with (Rabs (qq * (1 + d2) + e2) * Rabs (qq * (1 + d2) + e2)) by (rewrite <- Rabs_mult; apply Rabs_pos_eq; apply Rle_0_sqr).
      apply Rmult_le_compat; auto; apply Rabs_pos. }
    assert (hc : Rabs qq * Rabs qq = qq * qq) by (rewrite <- Rabs_mult; apply Rabs_pos_eq; apply Rle_0_sqr).
    assert (hc2 : Rabs qq * s j <= s j * s j) by (apply Rmult_le_compat_r; lra).
    pose proof (Rle_0_sqr qq) as hc3. unfold Rsqr in hc3. rewrite sja in hc2. nra. }
  split; [|exact hz2].
  intros q hq. destruct (Nat.eq_dec q k) as [->|]; [|apply hp1; lia]. split; [split; auto|].
  unfold resid_ok. destruct (chol_off_std (fun i => l k i) (fun i => l j i) k (af j k) (l k k) (l j k)) as (_ & _ & hc); auto.
  { intros i hi. destruct (hk1 i ltac:(lia)) as ((v1 & _) & _). destruct (hp1 i hi) as ((v2 & _) & _). auto. }
  cbn [Rsum]. rewrite eA. rewrite (Rsum_ext k _ (fun i => L k i * L j i)) by (intros; ring). rewrite (Rmult_comm (L j k)).
  eapply Rle_trans; [exact hc|].
  pose proof (cs2 (S k) (fun i => L k i) (fun i => L j i) k j hkn hjn hk2 hz2) as hX. cbn [Rsum] in hX.
  assert (hkabs : Rabs (L k k) <= 2 * s k).
  { apply Rabs_le_of_sq; [lra|]. cbn [Rsum] in hk2. pose proof (Rsum_nonneg k (fun i => L k i * L k i) ltac:(intros; apply Rle_0_sqr)). rewrite <- ska in hk2. pose proof (Rle_0_sqr (s k)). unfold Rsqr in *. lra. }
  pose proof (pow_ep (k + 2) ltac:(lia)) as hp. pose proof (pow_u_ge1 (k + 2)) as hp1'.
  assert (hu1 : (1 + uro) ^ (k + 2) * (INR k + Rabs (L k k)) * eta <= uro * (s k * s j)).
  { pose proof (under1 k j hkn hjn) as g1. pose proof (under2 j k hjn hkn) as g2. rewrite (Rmult_comm (s j)) in g2.
    pose proof (le_INR k n ltac:(lia)). pose proof (pos_INR k). pose proof (Rabs_pos (L k k)).
    assert ((INR k + Rabs (L k k)) * eta <= (INR n + 2 * s k) * eta) by (apply Rmult_le_compat_r; lra).
    assert (0 <= (INR k + Rabs (L k k)) * eta) by (apply Rmult_le_pos; lra). nra. }
  assert (hg : 2 * gam (k + 2) + uro <= ep).
  { pose proof (gam_double (k + 2)). pose proof (gam_ge 1). rewrite Rmult_1_l in H0. pose proof (gam_sup (2 * (k + 2)) 1). pose proof (gam_ep (2 * (k + 2) + 1) ltac:(lia)). lra. }
  pose proof (gam_nonneg (k + 2)).
  apply Rle_trans with (gam (k + 2) * (2 * (s k * s j)) + uro * (s k * s j)).
  { apply Rplus_le_compat; auto. apply Rmult_le_compat_l; auto. }
  assert ((2 * gam (k + 2) + uro) * (s k * s j) <= ep * (s k * s j)) by (apply Rmult_le_compat_r; lra). lra.
Qed.

Lemma row_last j : (j < n)%nat -> (forall p, (p < j)%nat -> row_ok p) -> part_ok j j ->
  let pv := nsub FN (af j j) (sumn j (fun i => nmul FN (l j i) (l j i))) in
  ffin pv /\ 0 < fr pv /\ (l j j = nsqrt FN pv -> row_ok j).
Proof.
  intros hjn hrow (hp1 & hp2) pv.
  destruct big10 as (b1 & b2 & b3). destruct ep_small as (_ & h0 & _ & h5 & hu5). pose proof eta_pos as hep. pose proof uro_pos as hu. pose proof uro_small as hus.
  pose proof (s_pos j hjn) as hsj. destruct (s_ok j hjn) as ((sj1 & sj2) & sja). pose proof (rng j hjn) as hr. pose proof (bpow_gt_0 radix2 (-900)) as hb9.
  destruct (dot_rows j j j hjn hjn ltac:(lia)) as (vs & fs & hd & hsb); auto.
  { intros i hi. destruct (hp1 i hi). auto. }
  unfold pv. clear pv. set (sm := sumn j (fun i => nmul FN (l j i) (l j i))) in *. rewrite sja in hd, hsb.
  destruct (va j j hjn ltac:(lia)) as (vaj & faj).
  assert (eA : A j j = fr (af j j)) by (unfold A, sym_of_lower; bd; auto; lia).
  assert (fp : ffin (nsub FN (af j j) sm)).
  { apply sub_fin; auto. rewrite <- eA. unfold Rminus. eapply Rle_trans; [apply Rabs_triang|]. rewrite Rabs_Ropp, (Rabs_pos_eq (A j j)) by lra. lra. }
  destruct (sub_std _ _ vaj vs fp) as (_ & _ & d & hdd & et). pose proof (dlt_pos _ hdd) as hdp. apply dlt_u in hdd. rewrite <- eA in et.
  set (pv := nsub FN (af j j) sm) in *. set (S2 := Rsum j (fun i => L j i * L j i)) in *.
  assert (hsch : 3 * ep * A j j <= A j j - S2).
  { apply (row_schur j j (fun i => L j i)); auto. intros q hq. destruct (hp1 q hq) as (_ & g). unfold resid_ok in g.
    rewrite (Rsum_ext (S q) _ (fun i => L j i * L q i)); auto. intros; ring. }
  assert (hS0 : 0 <= S2) by (apply Rsum_nonneg; intros; apply Rle_0_sqr).
  assert (hg2 : 2 * gam (S j) + uro * / 32 <= ep).
  { pose proof (gam_double (S j)). pose proof (gam_ge 1). rewrite Rmult_1_l in H0. pose proof (gam_sup (2 * S j) 1). pose proof (gam_ep (2 * S j + 1) ltac:(lia)). lra. }
  assert (hd' : Rabs (fr sm - S2) <= ep * A j j) by (eapply Rle_trans; [exact hd|]; apply Rmult_le_compat_r; lra).
  apply Rabs_le_inv in hd'. assert (heA : 0 < ep * A j j) by (apply Rmult_lt_0_compat; lra).
  assert (hpp : 0 < fr pv) by (rewrite et; apply Rmult_lt_0_compat; lra).
  split; auto. split; auto. intros el.
  assert (vp : fvalid pv) by (apply fvalid_sub; auto).
  assert (fz : ffin (l j j)) by (rewrite el; apply sqrt_fin; auto).
  assert (vz : fvalid (l j j)) by (rewrite el; apply fvalid_sqrt; auto).
  assert (hz : 0 < L j j /\ Rsum (S j) (fun i => L j i * L j i) <= 2 * A j j).
  { cbn [Rsum]. fold S2. rewrite el in fz |- *. destruct (sqrt_rel _ vp fz) as (_ & _ & d2 & hd2 & ez). pose proof (dlt_pos _ hd2) as hd2p. apply dlt_u in hd2. rewrite ez. split.
    { apply Rmult_lt_0_compat; auto. apply sqrt_lt_R0; auto. }
    replace (sqrt (fr pv) * (1 + d2) * (sqrt (fr pv) * (1 + d2))) with (sqrt (fr pv) * sqrt (fr pv) * ((1 + d2) * (1 + d2))) by ring. rewrite sqrt_sqrt by lra. rewrite et.
    apply Rabs_le_inv in hdd, hd2. 
    assert (k1 : (A j j - fr sm) * (1 + d) * ((1 + d2) * (1 + d2)) <= (A j j - fr sm) * (3 / 2)).
    { rewrite Rmult_assoc. apply Rmult_le_compat_l; [lra|]. assert ((1 + d2) * (1 + d2) <= 81 / 64) by nra. nra. }
    lra. }
  destruct hz as (hz1 & hz2). split; [|split; auto].
  intros q hq. destruct (Nat.eq_dec q j) as [->|]; [|apply hp1; lia]. split; [split; auto|].
  unfold resid_ok. destruct (chol_diag_std (fun i => l j i) j (af j j) (l j j)) as (_ & hc); auto.
  { intros i hi. destruct (hp1 i hi) as ((v & _) & _). auto. }
  rewrite <- eA in hc. cbn [Rsum]. eapply Rle_trans; [exact hc|].
  assert (hX : Rsum j (fun j0 => Rabs (L j j0) * Rabs (L j j0)) + Rabs (L j j) * Rabs (L j j) <= 2 * A j j).
  { pose proof (cs2 (S j) (fun i => L j i) (fun i => L j i) j j hjn hjn hz2 hz2) as g. cbn [Rsum] in g. rewrite sja in g. exact g. }
  pose proof (pow_ep (j + 2) ltac:(lia)) as hp. pose proof (pow_u_ge1 (j + 2)) as hp1'. pose proof (under1 j j hjn hjn) as g1. rewrite sja in g1 |- *.
  pose proof (le_INR j n ltac:(lia)). pose proof (pos_INR j).
  assert (k1 : (1 + uro) ^ (j + 2) * INR j * eta <= uro * A j j).
  { assert (INR j * eta <= INR n * eta) by (apply Rmult_le_compat_r; lra). assert (0 <= INR j * eta) by (apply Rmult_le_pos; lra). nra. }
  assert (hg : 2 * gam (j + 3) + uro <= ep).
  { pose proof (gam_double (j + 3)). pose proof (gam_ge 1). rewrite Rmult_1_l in H2. pose proof (gam_sup (2 * (j + 3)) 1). pose proof (gam_ep (2 * (j + 3) + 1) ltac:(lia)). lra. }
  pose proof (gam_nonneg (j + 3)).
  apply Rle_trans with (gam (j + 3) * (2 * A j j) + uro * A j j).
  { apply Rplus_le_compat; auto. apply Rmult_le_compat_l; auto. }
  assert ((2 * gam (j + 3) + uro) * A j j <= ep * A j j) by (apply Rmult_le_compat_r; lra). lra.
Qed.
End Accept.

(** ** The program *)
Lemma nle_pos (r : FN) : ffin r -> 0 < fr r -> nle FN r (n0 FN) = false.
Proof.
  destruct r as [b|b| |b m e]; try discriminate.
  - intros _ h. change (0 < 0) in h. lra.
  - intros _ h. destruct b; [|reflexivity]. exfalso. revert h. apply Rle_not_lt. apply Float_prop.F2R_le_0. discriminate.
Qed.

Section Run.
Variable a : mat FN.
Let n := nr a.
Let A : M := sym_of_lower (frm a).
Hypothesis sq : nr a = nc a.
Hypothesis mva : mvalid a.
Hypothesis fin : forall p q, (p < n)%nat -> (q <= p)%nat -> ffin (get a p q).
Hypothesis rng : forall p, (p < n)%nat -> bpow radix2 (-900) <= A p p <= bpow radix2 1000.
Hypothesis pd : forall x, (INR n + 4) * chol_eps n * Rsum n (fun i => A i i * (x i * x i)) <= qform n A x.

Let va : forall p q, (p < n)%nat -> (q <= p)%nat -> fvalid (get a p q) /\ ffin (get a p q).
Proof. intros p q hp hq. split; auto. apply mva; unfold n in *; lia. Qed.

Let hep1 : (0 < n)%nat -> (INR n + 4) * chol_eps n <= 1.
Proof. intros h. apply (ep_of_pd n A); auto. pose proof (rng 0%nat h). pose proof (bpow_gt_0 radix2 (-900)). lra. Qed.

Lemma part_all (l : nat -> nat -> FN) j k : (k <= j)%nat -> (j < n)%nat -> (forall p, (p < j)%nat -> row_ok n (get a) l p) ->
  (forall q, (q < k)%nat -> l j q = ndiv FN (nsub FN (get a j q) (sumn q (fun i => nmul FN (l q i) (l j i)))) (l q q)) ->
  part_ok n (get a) l j k.
Proof.
  induction k as [|k IH]; intros hk hj hrow hq.
  - split; [intros; lia|]. change (0 <= 2 * A j j). pose proof (rng j hj). pose proof (bpow_gt_0 radix2 (-900)). lra.
  - apply (row_step n (get a) va rng ltac:(lia) (hep1 ltac:(lia)) pd); auto. apply IH; auto; lia.
Qed.
Lemma all_rows (l : nat -> nat -> FN) j : (j <= n)%nat ->
  (forall p q, (p < j)%nat -> (q < p)%nat -> l p q = ndiv FN (nsub FN (get a p q) (sumn q (fun i => nmul FN (l q i) (l p i)))) (l q q)) ->
  (forall p, (p < j)%nat -> l p p = nsqrt FN (nsub FN (get a p p) (sumn p (fun i => nmul FN (l p i) (l p i))))) ->
  forall p, (p < j)%nat -> row_ok n (get a) l p.
Proof.
  induction j as [|j IH]; intros hj h1 h2 p hp; [lia|].
  assert (hrow : forall p, (p < j)%nat -> row_ok n (get a) l p) by (intros p' hp'; apply IH; auto; lia).
  destruct (Nat.eq_dec p j) as [->|]; [|apply hrow; lia].
  apply (row_last n (get a) va rng ltac:(lia) (hep1 ltac:(lia)) pd l j); auto; try lia.
  apply part_all; auto.
Qed.

Lemma chol_row_runs j m : (j < n)%nat -> chol_ex a n j m -> exists m', chol_row j m = (m', Ret tt).
Proof.
  intros hj hi. unfold chol_row.
  destruct (wp_ret _ _ (chol_loop_exact a n j m hj hi)) as ([m1 d] & -> & h1 & h2 & h3 & h4 & h5).
  cbn [fst snd] in h1, h2, h3, h4, h5. destruct hi as (i1 & i2 & i3 & i4 & i5).
  unfold at2. rewrite h1, h2. bd. cbn [andb].
  assert (hrow : forall p, (p < j)%nat -> row_ok n (get a) (get m1) p).
  { apply all_rows; [lia| |].
    - intros p q hp hq. rewrite (h3 p q), (h3 q q), (i3 p q) by lia. unfold chol_off. f_equal. f_equal. apply sumn_ext. intros i hi. rewrite !h3 by lia. reflexivity.
    - intros p hp. rewrite (h3 p p) by lia. destruct (i4 p hp) as (_ & ->). unfold chol_pivot. f_equal. f_equal. apply sumn_ext. intros i hi. rewrite !h3 by lia. reflexivity. }
  destruct (row_last n (get a) va rng ltac:(lia) (hep1 ltac:(lia)) pd (get m1) j hj hrow) as (g1 & g2 & _).
  { apply part_all; auto. }
  rewrite <- h5, <- (i5 j j), <- (h3 j j) in g1, g2 by lia. rewrite (nle_pos _ g1 g2).
  unfold atm2. rewrite h1, h2. bd. cbn [andb]. eexists. reflexivity.
Qed.
Lemma chol_rows_run cnt : forall j m, (j + cnt = n)%nat -> chol_ex a n j m -> exists m', chol_rows cnt j m = (m', Ret tt).
Proof.
  induction cnt as [|c IH]; intros j m hj hi; [eexists; reflexivity|]. cbn [chol_rows].
  destruct (chol_row_runs j m ltac:(lia) hi) as (m' & e). rewrite e. apply IH; [lia|]. eapply chol_row_exact; eauto. lia.
Qed.
Lemma cholesky_dirty_accepts : exists l, cholesky_dirty a = Ret l /\ (forall p, (p < n)%nat -> row_ok n (get a) (get l) p).
Proof.
  assert (hi : chol_ex a n 0 a) by (unfold n; repeat split; auto; intros; lia).
  destruct (chol_rows_run n 0 a ltac:(lia) hi) as (l & e).
  assert (ed : cholesky_dirty a = Ret l).
  { unfold cholesky_dirty, cholesky_inplace_dirty, check_square. rewrite <- sq, Nat.eqb_refl. fold n. rewrite e. reflexivity. }
  exists l. split; auto. destruct (cholesky_dirty_exact a l ed) as (_ & (h1 & h2 & h3 & h4 & _)). fold n in h3, h4.
  apply all_rows; auto. intros p hp. apply h4; auto.
Qed.

Lemma cholesky_accepts : exists l, cholesky a = Ret l /\ nr l = n /\ nc l = n /\
  (forall i j, (i < n)%nat -> (j < n)%nat -> ffin (get l i j)) /\ (forall i, (i < n)%nat -> 0 < frm l i i) /\ lower_tri n n (frm l) /\
  (forall i j, (i < n)%nat -> (j < n)%nat -> Rabs (mmul n (frm l) (mtr (frm l)) i j - A i j) <= chol_eps n * (sqrt (A i i) * sqrt (A j j))).
Proof.
  destruct cholesky_dirty_accepts as (l0 & e & hrow). destruct (cholesky_dirty_exact a l0 e) as (_ & (d1 & d2 & _)).
  destruct (wp_ret _ _ (triangular_inplace_ok l0 Lower ltac:(lia))) as (l & et & g1 & g2 & g3 & g4).
  exists l. split; [unfold cholesky; rewrite e; exact et|]. split; [unfold n; lia|]. split; [unfold n; lia|].
  assert (hlow : forall i j, (j <= i < n)%nat -> get l i j = get l0 i j) by (intros i j hij; apply g4; unfold n in *; simpl; lia).
  assert (hup : forall i j, (i < j < n)%nat -> get l i j = n0 FN) by (intros i j hij; apply g3; unfold n in *; simpl; lia).
  assert (hl : lower_tri n n (frm l)) by (intros i j hi hj hij; unfold frm; rewrite hup by lia; reflexivity).
  split. { intros i j hi hj. destruct (Nat.le_gt_cases j i).
    - rewrite hlow by lia. destruct (hrow i hi) as (h1 & _). apply (h1 j); auto.
    - rewrite hup by lia. reflexivity. }
  split. { intros i hi. unfold frm. rewrite hlow by lia. apply (hrow i hi). }
  split; auto.
  assert (hh : forall i j, (i < n)%nat -> (j <= i)%nat -> Rabs (mmul n (frm l) (mtr (frm l)) i j - A i j) <= chol_eps n * (sqrt (A i i) * sqrt (A j j))).
  { intros i j hi hj. rewrite lower_gram by (auto; lia). rewrite Nat.min_r by lia. destruct (hrow i hi) as (h1 & _). destruct (h1 j hj) as (_ & h2). unfold resid_ok in h2.
    rewrite (Rsum_ext (S j) _ (fun k => fr (get l0 i k) * fr (get l0 j k))); [exact h2|]. intros k hk. unfold frm. rewrite !hlow by lia. reflexivity. }
  intros i j hi hj. destruct (Nat.le_gt_cases j i); [apply hh; auto|].
  replace (mmul n (frm l) (mtr (frm l)) i j) with (mmul n (frm l) (mtr (frm l)) j i) by (unfold mmul, mtr; apply Rsum_ext; intros; ring).
  replace (A i j) with (A j i) by (unfold A, sym_of_lower; bd; auto; lia). rewrite (Rmult_comm (sqrt (A i i))). apply hh; auto; lia.
Qed.
End Run.

(** ** Converse: an accepted matrix is positive semidefinite up to rounding *)
Lemma cholesky_rejects (a l : mat FN) : let n := nr a in let A := sym_of_lower (frm a) in
  mvalid a -> (INR n + 4) * chol_eps n <= 1 -> (forall p, (p < n)%nat -> bpow radix2 (-900) <= A p p <= bpow radix2 1000) ->
  cholesky a = Ret l -> (forall i j, (j <= i < n)%nat -> ffin (get l i j)) ->
  (forall i j, (i < n)%nat -> (j < n)%nat -> Rabs (mmul n (frm l) (mtr (frm l)) i j - A i j) <= chol_eps n * (sqrt (A i i) * sqrt (A j j))) /\
  (forall x, - (INR n * chol_eps n) * Rsum n (fun i => A i i * (x i * x i)) <= qform n A x).
Proof.
  intros n A va hep1 rng hc hf. destruct (cholesky_backward a l va hc hf) as (sq & h1 & h2 & h3 & h4 & h5 & h6 & h7). fold n in h1, h2, h4, h5, h7.
  destruct (Nat.eq_dec n 0) as [n0|n0].
  { split; [intros; lia|]. intros x. unfold qform. rewrite n0. simpl. lra. }
  assert (npos : (0 < n)%nat) by lia.
  set (s := fun p => sqrt (A p p)).
  assert (sok : forall p, (p < n)%nat -> smin <= s p <= bpow radix2 500 /\ s p * s p = A p p) by (apply (s_ok n (get a) rng)).
  assert (spos : forall p, (p < n)%nat -> 0 < s p) by (apply (s_pos n (get a) rng)).
  assert (un1 : forall p q, (p < n)%nat -> (q < n)%nat -> INR n * eta <= uro * (s p * s q) * / 64) by (apply (under1 n (get a) rng npos hep1)).
  assert (un2 : forall p q, (p < n)%nat -> (q < n)%nat -> s q * eta <= uro * (s p * s q) * / 64) by (apply (under2 n (get a) rng)).
  destruct (ep_small n npos hep1) as (_ & e0 & _ & e5 & eu).
  pose proof (pow_ep n npos hep1 (n + 2) ltac:(lia)) as hp. pose proof (pow_u_ge1 (n + 2)) as hp1.
  set (L := frm l) in *. pose proof eta_pos as hep. pose proof uro_pos as hu. pose proof uro_small as hus.
  assert (hg : 2 * gam (n + 2) + uro <= chol_eps n).
  { pose proof (gam_double (n + 2)). pose proof (gam_ge 1) as g. rewrite Rmult_1_l in g. pose proof (gam_sup (2 * (n + 2)) 1). pose proof (gam_ep n (2 * (n + 2) + 1) ltac:(lia)). lra. }
  pose proof (gam_nonneg (n + 2)) as hg0.
  assert (hT : forall i, (i < n)%nat -> Rsum n (fun k => L i k * L i k) <= 2 * A i i /\ Rabs (L i i) <= 2 * s i).
  { intros i hi. pose proof (h7 i i hi hi) as h. unfold chol_uf in h. rewrite Nat.min_id in h. unfold mmul, mtr in h.
    rewrite (Rsum_ext n (fun k => mabs L i k * mabs L i k) (fun k => L i k * L i k)) in h by (intros k hk; unfold mabs; rewrite <- Rabs_mult; apply Rabs_pos_eq, Rle_0_sqr).
    set (T := Rsum n (fun k => L i k * L i k)) in *. fold A in h. apply Rabs_le_inv in h.
    assert (hLT : Rabs (L i i) * Rabs (L i i) <= T).
    { rewrite <- Rabs_mult, Rabs_pos_eq by apply Rle_0_sqr. apply (Rsum_term_le n (fun k => L i k * L i k) i); auto. intros; apply Rle_0_sqr. }
    destruct (sok i hi) as (_ & ess). pose proof (spos i hi) as hsi. pose proof (un1 i i hi hi) as g1. pose proof (un2 i i hi hi) as g2.
    pose proof (Rabs_pos (L i i)) as hL0. pose proof (pos_INR n).
    assert (k1 : Rabs (L i i) * eta <= uro * (T + A i i) * / 64).
    { pose proof eta_smin1 as g3. pose proof smin_pos. destruct (sok i hi) as ((g4 & _) & _).
      assert (k : eta <= uro * s i * / 64) by nra.
      apply Rle_trans with (Rabs (L i i) * (uro * s i * / 64)); [apply Rmult_le_compat_l; auto|].
      assert (Rabs (L i i) * s i <= T + A i i). { rewrite <- ess. pose proof (Rle_0_sqr (Rabs (L i i) - s i)) as hq. unfold Rsqr in hq. pose proof (Rle_0_sqr (Rabs (L i i))) as hq2. pose proof (Rle_0_sqr (s i)) as hq3. unfold Rsqr in hq2, hq3. lra. }
      assert (uro * / 64 * (Rabs (L i i) * s i) <= uro * / 64 * (T + A i i)) by (apply Rmult_le_compat_l; lra). lra. }
    assert (hT0 : 0 <= T) by (apply Rsum_nonneg; intros; apply Rle_0_sqr).
    assert (hA0 : 0 < A i i) by (rewrite <- ess; nra).
    rewrite ess in g1.
    assert (k2 : (1 + uro) ^ (n + 2) * (INR n + Rabs (L i i)) * eta <= / 32 * uro * (T + 2 * A i i)).
    { assert (0 <= (INR n + Rabs (L i i)) * eta) by (apply Rmult_le_pos; lra).
      assert ((1 + uro) ^ (n + 2) * ((INR n + Rabs (L i i)) * eta) <= 6 / 5 * ((INR n + Rabs (L i i)) * eta)) by (apply Rmult_le_compat_r; auto).
      assert (0 <= uro * T) by (apply Rmult_le_pos; lra). assert (0 <= uro * A i i) by (apply Rmult_le_pos; lra). lra. }
    assert (k3 : gam (n + 2) * T <= / 10 * T) by (apply Rmult_le_compat_r; lra).
    assert (k4 : uro * T <= / 8 * T) by (apply Rmult_le_compat_r; lra). assert (k5 : uro * A i i <= / 8 * A i i) by (apply Rmult_le_compat_r; lra).
    assert (hT2 : T <= 2 * A i i) by lra. split; auto.
    apply Rabs_le_of_sq; [lra|]. replace (L i i * L i i) with (Rabs (L i i) * Rabs (L i i)) by (rewrite <- Rabs_mult; apply Rabs_pos_eq, Rle_0_sqr). lra. }
  assert (hD : forall i j, (i < n)%nat -> (j < n)%nat -> Rabs (mmul n L (mtr L) i j - A i j) <= chol_eps n * (s i * s j)).
  { intros i j hi hj. eapply Rle_trans; [apply h7; auto|]. unfold chol_uf.
    destruct (hT i hi) as (t1 & _). destruct (hT j hj) as (t2 & _). pose proof (Rmult_lt_0_compat _ _ (spos i hi) (spos j hj)) as hss.
    pose proof (cs2 n (get a) rng n (fun k => L i k) (fun k => L j k) i j hi hj t1 t2) as hX.
    change (mmul n (mabs L) (mtr (mabs L)) i j) with (Rsum n (fun k => Rabs (L i k) * Rabs (L j k))).
    change (sqrt (sym_of_lower (fun i j => fr (get a i j)) i i)) with (s i) in hX. change (sqrt (sym_of_lower (fun i j => fr (get a i j)) j j)) with (s j) in hX.
    set (m := Nat.min i j). assert (hm : (m < n)%nat) by (unfold m; lia). destruct (hT m hm) as (_ & t3).
    assert (k1 : s m * eta <= uro * (s i * s j) * / 64).
    { unfold m. destruct (Nat.min_dec i j) as [->| ->]; [rewrite (Rmult_comm (s i) (s j)); apply un2|apply un2]; auto. }
    pose proof (un1 i j hi hj) as k2. pose proof (pos_INR n). pose proof (Rabs_pos (L m m)).
    assert (k3 : (1 + uro) ^ (n + 2) * (INR n + Rabs (L m m)) * eta <= uro * (s i * s j)).
    { assert ((INR n + Rabs (L m m)) * eta <= (INR n + 2 * s m) * eta) by (apply Rmult_le_compat_r; lra).
      assert (0 <= (INR n + Rabs (L m m)) * eta) by (apply Rmult_le_pos; lra).
      assert ((1 + uro) ^ (n + 2) * ((INR n + Rabs (L m m)) * eta) <= 6 / 5 * ((INR n + Rabs (L m m)) * eta)) by (apply Rmult_le_compat_r; auto).
      assert (0 <= uro * (s i * s j)) by (apply Rmult_le_pos; lra). lra. }
    apply Rle_trans with (gam (n + 2) * (2 * (s i * s j)) + uro * (s i * s j)).
    { apply Rplus_le_compat; auto. apply Rmult_le_compat_l; auto. }
    assert ((2 * gam (n + 2) + uro) * (s i * s j) <= chol_eps n * (s i * s j)) by (apply Rmult_le_compat_r; lra). lra. }
  split; [exact hD|]. intros x.
  (* x^T A x = |L^T x|^2 - x^T D x *)
  assert (hq : qform n A x = Rsum n (fun k => Rsum n (fun i => L i k * x i) * Rsum n (fun i => L i k * x i)) - Rsum n (fun i => x i * Rsum n (fun j => (mmul n L (mtr L) i j - A i j) * x j))).
  { assert (e1 : Rsum n (fun i => x i * Rsum n (fun j => mmul n L (mtr L) i j * x j)) = Rsum n (fun k => Rsum n (fun i => L i k * x i) * Rsum n (fun i => L i k * x i))).
    { rewrite (Rsum_ext n _ (fun i => Rsum n (fun k => x i * L i k * Rsum n (fun j => L j k * x j)))).
      2:{ intros i hi. rewrite (Rsum_ext n (fun j => mmul n L (mtr L) i j * x j) (fun j => Rsum n (fun k => L i k * (L j k * x j)))).
          2:{ intros j hj. unfold mmul, mtr. rewrite <- Rsum_scal_r. apply Rsum_ext. intros. ring. }
          rewrite Rsum_swap, <- Rsum_scal_l. apply Rsum_ext. intros k hk. rewrite Rsum_scal_l. ring. }
      rewrite Rsum_swap. apply Rsum_ext. intros k hk. rewrite <- Rsum_scal_r. apply Rsum_ext. intros. ring. }
    rewrite <- e1, <- Rsum_minus. unfold qform. apply Rsum_ext. intros i hi. rewrite <- Rmult_minus_distr_l, <- Rsum_minus. f_equal. apply Rsum_ext. intros. ring. }
  rewrite hq.
  assert (q0 : 0 <= Rsum n (fun k => Rsum n (fun i => L i k * x i) * Rsum n (fun i => L i k * x i))) by (apply Rsum_nonneg; intros; apply Rle_0_sqr).
  set (T := fun i => s i * Rabs (x i)). set (ST := Rsum n T).
  assert (g2 : Rabs (Rsum n (fun i => x i * Rsum n (fun j => (mmul n L (mtr L) i j - A i j) * x j))) <= chol_eps n * ST * ST).
  { eapply Rle_trans; [apply Rsum_abs|]. unfold ST at 2. rewrite <- Rsum_scal_l. apply Rsum_le. intros p hp'. rewrite Rabs_mult.
    assert (Rabs (Rsum n (fun j => (mmul n L (mtr L) p j - A p j) * x j)) <= chol_eps n * s p * ST).
    { eapply Rle_trans; [apply Rsum_abs|]. unfold ST. rewrite <- Rsum_scal_l. apply Rsum_le. intros q hq'. rewrite Rabs_mult. unfold T. pose proof (hD p q hp' hq'). pose proof (Rabs_pos (x q)). nra. }
    unfold T. pose proof (Rabs_pos (x p)). nra. }
  pose proof (Rsum_sq_le n T) as g3. fold ST in g3.
  rewrite (Rsum_ext n (fun i => T i * T i) (fun i => A i i * (x i * x i))) in g3.
  2:{ intros i hi. destruct (sok i hi) as (_ & <-). unfold T. assert (x i * x i = Rabs (x i) * Rabs (x i)) by (rewrite <- Rabs_mult; symmetry; apply Rabs_pos_eq, Rle_0_sqr). rewrite H. ring. }
  apply Rabs_le_inv in g2. assert (chol_eps n * (ST * ST) <= chol_eps n * (INR n * Rsum n (fun i => A i i * (x i * x i)))) by (apply Rmult_le_compat_l; auto). lra.
Qed.
