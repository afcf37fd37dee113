(** * reflection.rs, householder.rs and qr.rs in floating point *)
From Coq Require Import Reals List Arith Lia Lra Bool ZArith.
From Coq.Floats Require Import SpecFloat.
From Flocq Require Import Core BinarySingleNaN.
From Verif Require Import Scalar Arr MBase MDirect Inst Hoare Spec SpecF RLin PTri PHouse PRound PTriF PCholF PNormF.
Import ListNotations.
Local Open Scope R_scope.

(** ** Numbers within a factor (1+u)^k of 1 *)
Definition prd (k : nat) (x : R) : Prop := / (1 + uro) ^ k <= x <= (1 + uro) ^ k.
Local Notation U k := ((1 + uro) ^ k).
Lemma U_pos k : 0 < U k. Proof. pose proof (pow_u_ge1 k). lra. Qed.
Lemma Ui_pos k : 0 < / U k. Proof. apply Rinv_0_lt_compat, U_pos. Qed.
Lemma Ui_le1 k : / U k <= 1. Proof. pose proof (Rinv_le 1 (U k) Rlt_0_1 (pow_u_ge1 k)) as h. rewrite Rinv_1 in h. exact h. Qed.
Lemma prd_pos k x : prd k x -> 0 < x.
Proof. intros (h & _). pose proof (Ui_pos k). lra. Qed.
Lemma prd_1 k : prd k 1.
Proof. split; [apply Ui_le1|apply pow_u_ge1]. Qed.
Lemma prd_mono a b x : (a <= b)%nat -> prd a x -> prd b x.
Proof.
  intros h (h1 & h2). pose proof (pow_u_mono a b h). split; [|lra].
  pose proof (Rinv_le _ _ (U_pos a) H). lra.
Qed.
Lemma prd_mul a b x y : prd a x -> prd b y -> prd (a + b) (x * y).
Proof.
  intros hx hy. pose proof (prd_pos _ _ hx). pose proof (prd_pos _ _ hy). destruct hx, hy. unfold prd. rewrite pow_add, Rinv_mult.
  pose proof (Ui_pos a). pose proof (Ui_pos b). split; apply Rmult_le_compat; lra.
Qed.
Lemma prd_inv k x : prd k x -> prd k (/ x).
Proof.
  intros h. pose proof (prd_pos _ _ h). destruct h as (h1 & h2). split.
  - apply Rinv_le; auto.
  - rewrite <- (Rinv_inv (U k)). apply Rinv_le; auto. apply Ui_pos.
Qed.
Lemma prd_sqrt k x : prd k x -> prd k (sqrt x).
Proof.
  intros h. pose proof (prd_pos _ _ h). destruct h as (h1 & h2). pose proof (Ui_pos k). pose proof (Ui_le1 k). pose proof (pow_u_ge1 k).
  split.
  - rewrite <- (sqrt_Rsqr (/ U k)) by lra. apply sqrt_le_1_alt. unfold Rsqr. nra.
  - rewrite <- (sqrt_Rsqr (U k)) by lra. apply sqrt_le_1_alt. unfold Rsqr. nra.
Qed.
Lemma prd_dlt d : dlt d -> prd 1 (1 + d).
Proof.
  intros h. pose proof uro_pos. pose proof (dlt_u d h) as h1. apply Rabs_le_inv in h1. unfold prd. rewrite pow_1. split; [|lra].
  unfold dlt in h. apply Rabs_le_inv in h.
  replace (/ (1 + uro)) with (1 - uro / (1 + uro)) by (field; lra). lra.
Qed.
Lemma prd_near k x : prd k x -> near k x.
Proof.
  intros (h1 & h2). unfold near, gam. apply Rabs_le. split; [|lra].
  assert (/ U k >= 2 - U k).
  { pose proof (U_pos k). apply Rle_ge. apply Rmult_le_reg_r with (U k); auto. rewrite Rinv_l by lra.
    pose proof (sqn (U k - 1)). lra. }
  lra.
Qed.
(** nonnegative terms: the error factors combine *)
Lemma prd_sum n (w t : nat -> R) k : (forall i, (i < n)%nat -> 0 <= w i) -> (forall i, (i < n)%nat -> prd k (t i)) ->
  exists t', prd k t' /\ Rsum n (fun i => w i * t i) = Rsum n w * t'.
Proof.
  intros hw ht. destruct (Req_dec (Rsum n w) 0) as [e|e].
  - exists 1. split; [apply prd_1|]. rewrite e, Rmult_0_l. apply Rsum_0. intros i hi.
    assert (w i = 0); [|rewrite H; ring]. pose proof (Rsum_term_le n w i hw hi). pose proof (hw i hi). lra.
  - pose proof (Rsum_nonneg n w hw). exists (Rsum n (fun i => w i * t i) / Rsum n w). split; [|field; auto].
    split.
    + apply Rmult_le_reg_r with (Rsum n w); [lra|]. unfold Rdiv. rewrite Rmult_assoc, Rinv_l, Rmult_1_r by auto.
      rewrite <- Rsum_scal_l. apply Rsum_le. intros i hi. rewrite Rmult_comm. apply Rmult_le_compat_l; auto. apply (ht i hi).
    + apply Rmult_le_reg_r with (Rsum n w); [lra|]. unfold Rdiv. rewrite Rmult_assoc, Rinv_l, Rmult_1_r by auto.
      rewrite <- Rsum_scal_l. apply Rsum_le. intros i hi. rewrite (Rmult_comm (U k)). apply Rmult_le_compat_l; auto. apply (ht i hi).
Qed.
Lemma prd_plus a b x y k : 0 <= a -> 0 <= b -> prd k x -> prd k y -> exists t, prd k t /\ a * x + b * y = (a + b) * t.
Proof.
  intros ha hb hx hy.
  destruct (prd_sum 2 (fun i => match i with O => a | _ => b end) (fun i => match i with O => x | _ => y end) k) as (t & h1 & h2).
  - intros [|i] _; auto.
  - intros [|i] _; auto.
  - exists t. split; auto. cbn [Rsum] in h2. lra.
Qed.
(** a small absolute error is a relative one *)
Lemma prd_absorb a t e k : 0 <= a -> prd k t -> U (S k) <= 2 -> Rabs e <= a * (uro / 2) -> exists t', prd (S k) t' /\ a * t + e = a * t'.
Proof.
  intros ha ht hU he. pose proof uro_pos as hu. destruct (Req_dec a 0) as [->|na].
  - exists 1. split; [apply prd_1|]. rewrite !Rmult_0_l in *. assert (e = 0); [|lra]. apply Rabs_le_inv in he. lra.
  - exists (t + e / a). split; [|field; auto]. assert (hq : Rabs (e / a) <= uro / 2).
    { unfold Rdiv at 1. rewrite Rabs_mult, Rabs_inv, (Rabs_pos_eq a) by auto. apply Rmult_le_reg_r with a; [lra|]. rewrite Rmult_assoc, Rinv_l by auto. lra. }
    apply Rabs_le_inv in hq. destruct ht as (h1 & h2). pose proof (pow_u_ge1 k). pose proof (U_pos (S k)). split.
    + enough (/ U (S k) <= / U k - uro / 2) by lra.
      assert (e1 : / U k = / U (S k) * (1 + uro)) by (cbn [pow]; field; split; [apply Rgt_not_eq, U_pos|lra]).
      rewrite e1. assert (/ 2 <= / U (S k)) by (apply Rinv_le; auto). nra.
    + cbn [pow]. nra.
Qed.

(** ** Dot products with such factors *)
Lemma dot_prd (x y : nat -> FN) m :
  (forall j, (j < m)%nat -> fvalid (x j) /\ fvalid (y j)) ->
  ffin (sumn m (fun i => nmul FN (x i) (y i))) ->
  (forall j, (j < m)%nat -> ffin (x j) /\ ffin (y j)) /\
  exists D e, (forall j, (j < m)%nat -> prd (S m) (D j)) /\
    Rabs e <= INR m * (1 + uro) ^ m * eta /\
    fr (sumn m (fun i => nmul FN (x i) (y i))) = Rsum m (fun j => fr (x j) * fr (y j) * D j) + e.
Proof.
  intros hv. induction m as [|m IH]; intros hf.
  - split; [intros; lia|]. exists (fun _ => 1), 0. split; [intros; lia|].
    split; [simpl; rewrite Rabs_R0; lra|]. simpl. change (0 = 0 + 0). lra.
  - cbn [sumn] in hf. destruct (hv m ltac:(lia)) as [vx vy].
    assert (vs : fvalid (sumn m (fun i => nmul FN (x i) (y i)))).
    { apply sumn_valid. intros j hj. destruct (hv j ltac:(lia)). apply fvalid_mul; auto. }
    destruct (add_std _ _ vs (fvalid_mul _ _ vx vy) hf) as (f1 & f2 & d & hd & e1).
    destruct (mul_std _ _ vx vy f2) as (f3 & f4 & d' & ep & hd' & hep & e2).
    destruct IH as (g1 & D & e & g3 & g5 & g6); auto.
    split. { intros j hj. destruct (Nat.eq_dec j m) as [->|]; auto. apply g1. lia. }
    exists (fun j => if Nat.eqb j m then (1 + d') * (1 + d) else D j * (1 + d)), ((e + ep) * (1 + d)).
    split; [|split].
    + intros j hj. destruct (Nat.eqb_spec j m) as [->|].
      * apply prd_mono with (1 + 1)%nat; [lia|]. apply prd_mul; now apply prd_dlt.
      * replace (S (S m)) with (S m + 1)%nat by lia. apply prd_mul; [|now apply prd_dlt]. apply g3. lia.
    + rewrite Rabs_mult. pose proof (near_abs _ _ (near_dlt _ hd)) as hd1. rewrite pow_1 in hd1.
      pose proof (Rabs_triang e ep). pose proof (pow_u_ge1 m). pose proof eta_pos. pose proof (pos_INR m).
      assert (Rabs (e + ep) <= (INR m + 1) * (1 + uro) ^ m * eta) by nra.
      eapply Rle_trans; [apply Rmult_le_compat; [apply Rabs_pos|apply Rabs_pos|exact H3|exact hd1]|].
      rewrite S_INR. simpl pow. right. ring.
    + cbn [Rsum sumn]. rewrite Nat.eqb_refl.
      rewrite (Rsum_ext m _ (fun j => fr (x j) * fr (y j) * D j * (1 + d))).
      2:{ intros j hj. bd. ring. }
      rewrite Rsum_scal_r, e1, e2, g6. ring.
Qed.

(** ** Multiplication by a sign is exact *)
Lemma fr_f1 : fr (f_of_Z 1) = 1. Proof. unfold fr. cbn. unfold F2R. cbn. lra. Qed.
Lemma fr_fm1 : fr (f_of_Z (-1)) = -1. Proof. unfold fr. cbn. unfold F2R. cbn. lra. Qed.
Definition unitf (s : spec_float) : Prop := s = f_of_Z 1 \/ s = f_of_Z (-1).
Lemma unitf_fr s : unitf s -> fvalid s /\ ffin s /\ (fr s = 1 \/ fr s = -1) /\ fr s * fr s = 1.
Proof. intros [->| ->]; (split; [reflexivity|split; [reflexivity|]]); rewrite ?fr_f1, ?fr_fm1; split; auto; lra. Qed.
Lemma mul_unit x s : fvalid x -> unitf s ->
  (ffin (nmul FN x s) <-> ffin x) /\ (ffin x -> fr (nmul FN x s) = fr x * fr s) /\ fvalid (nmul FN x s).
Proof.
  intros vx hs. destruct (unitf_fr s hs) as (vs & fs & h1 & _). assert (vxs : fvalid (nmul FN x s)) by (apply fvalid_mul; auto).
  assert (hf : ffin x -> ffin (nmul FN x s) /\ fr (nmul FN x s) = fr x * fr s).
  { clear vxs. revert h1 fs. tob. unfold nmul, FN. rewrite mul_equiv, !ffin_B2SF, !fr_B2SF. intros h1 fs fx.
    pose proof (Bmult_correct prec emax Hprec Hemax mode_NE x1 x0) as h.
    assert (e : round radix2 (SpecFloat.fexp prec emax) (round_mode mode_NE) (B2R x1 * B2R x0) = B2R x1 * B2R x0).
    { apply round_generic; [apply valid_rnd_round_mode|]. destruct h1 as [h1|h1]; rewrite h1.
      - rewrite Rmult_1_r. apply generic_format_B2R.
      - replace (B2R x1 * -1) with (- B2R x1) by ring. apply generic_format_opp, generic_format_B2R. }
    rewrite e, Rlt_bool_true in h.
    - destruct h as (g1 & g2 & _). rewrite g1, g2, fx, fs. auto.
    - rewrite Rabs_mult. replace (Rabs (B2R x0)) with 1. { rewrite Rmult_1_r. apply abs_B2R_lt_emax. }
      destruct h1 as [h1|h1]; rewrite h1; [rewrite Rabs_R1|rewrite Rabs_left by lra]; lra. }
  split; [|split]; auto.
  - split; [|apply hf]. intros h. destruct (mul_std x s vx vs h) as (h2 & _). auto.
  - intros h. apply hf. auto.
Qed.
Lemma mul_comm_f x y : nmul FN x y = nmul FN y x.
Proof.
  unfold nmul, FN. destruct x as [sx|sx| |sx mx ex], y as [sy|sy| |sy my ey]; cbn [SFmul]; rewrite ?(xorb_comm sy); auto.
  rewrite Pos.mul_comm, Z.add_comm. reflexivity.
Qed.
Lemma signum_fr x : ffin x -> unitf (nsignum FN x) /\ fr (nsignum FN x) * fr x = Rabs (fr x).
Proof.
  intros h. destruct x as [s|s| |s m e]; try discriminate; destruct s; (split; [unfold unitf, nsignum, FN, f_signum; cbn [f_is_nan f_neg]; auto|]);
    unfold nsignum, FN, f_signum; cbn [f_is_nan f_neg]; rewrite ?fr_f1, ?fr_fm1.
  - change (fr (S754_zero true)) with 0. rewrite Rabs_R0. ring.
  - change (fr (S754_zero false)) with 0. rewrite Rabs_R0. ring.
  - rewrite Rabs_left1; [ring|]. apply F2R_le_0. discriminate.
  - rewrite Rabs_pos_eq; [ring|]. apply F2R_ge_0. discriminate.
Qed.
Lemma two_f : ntwo (N:=FN) = f_of_Z 2. Proof. vm_compute. reflexivity. Qed.
Lemma fr_f2 : fr (f_of_Z 2) = 2. Proof. unfold fr. cbn. unfold F2R. cbn. lra. Qed.
Lemma is_zero_f x : nis_zero FN x = true -> ffin x /\ fr x = 0.
Proof. destruct x as [s|[]| |[] m e]; try discriminate. split; reflexivity. Qed.

(** ** Range of sizes and magnitudes *)
(** 2^-480: columns with a smaller norm are excluded, their squares underflow *)
Definition tiny : R := bpow radix2 (-480).
Definition fits (n : nat) : Prop := INR n * (64 * uro) <= 1.
Lemma uro_bpow : uro = bpow radix2 (-53).
Proof. unfold uro. reflexivity. Qed.
Lemma fits_U n k : fits n -> (k <= 16 * n + 1000)%nat -> U k <= 2.
Proof.
  intros h hk. pose proof uro_pos as hu. unfold fits in h.
  assert (hk' : INR k * uro <= / 2).
  { apply le_INR in hk. rewrite plus_INR, mult_INR in hk. 
    assert (INR 16 = 16) by (simpl; lra). assert (e : INR 1000 = 1000) by (rewrite INR_IZR_INZ; reflexivity). rewrite H, e in hk.
    assert (1000 * uro <= / 8). { unfold uro. assert (/ IZR (2 ^ 53) <= / IZR 8000) by (apply Rinv_le; [apply IZR_lt; reflexivity|apply IZR_le; discriminate]). lra. }
    nra. }
  pose proof (gam_usual k ltac:(lra)) as hg. unfold gam in hg.
  assert (INR k * uro / (1 - INR k * uro) <= 1); [|lra].
  apply Rmult_le_reg_r with (1 - INR k * uro); [lra|]. unfold Rdiv. rewrite Rmult_assoc, Rinv_l by lra. lra.
Qed.
Lemma uro_1024 : uro <= / 1024.
Proof. apply Rinv_le; [lra|]. apply IZR_le. discriminate. Qed.
Lemma tiny_pos : 0 < tiny. Proof. apply bpow_gt_0. Qed.
Lemma tiny_lt1 : tiny <= 1. Proof. apply (bpow_le radix2 (-480) 0). discriminate. Qed.
Lemma eta_tiny : eta <= tiny * tiny * (uro * uro) * / 64.
Proof.
  rewrite uro_bpow. unfold tiny, eta. rewrite <- !bpow_plus. replace (/ 64) with (bpow radix2 (-6)) by (simpl; lra).
  rewrite <- bpow_plus. apply bpow_le. discriminate.
Qed.
Lemma fits_eta n m : fits n -> (m <= n)%nat -> INR m * eta <= tiny * tiny * uro * / 2048.
Proof.
  intros h hm. pose proof uro_pos. pose proof tiny_pos. pose proof eta_tiny. pose proof (pos_INR m). apply le_INR in hm. unfold fits in h.
  assert (INR m * (64 * uro) <= 1) by (pose proof eta_pos; nra).
  apply Rle_trans with (INR m * (tiny * tiny * (uro * uro) * / 64)); [apply Rmult_le_compat_l; auto|].
  assert (0 <= tiny * tiny * uro) by (repeat apply Rmult_le_pos; lra). nra.
Qed.
Lemma fits_eta1 n m : fits n -> (m <= n)%nat -> INR m * eta <= uro * / 2048.
Proof.
  intros h hm. pose proof (fits_eta n m h hm). pose proof tiny_pos. pose proof tiny_lt1. pose proof uro_pos.
  assert (tiny * tiny <= 1) by nra. nra.
Qed.

(** ** Vector norms *)
Definition vn (m : nat) (f : nat -> R) : R := frob m 1 (fun i _ => f i).
Lemma vn_sq m f : vn m f * vn m f = Rsum m (fun i => f i * f i).
Proof. unfold vn. rewrite frob_sq. unfold frob2. apply Rsum_ext. intros. cbn [Rsum]. ring. Qed.
Lemma vn_nonneg m f : 0 <= vn m f. Proof. apply frob_nonneg. Qed.
Lemma vn_ext m f g : (forall i, (i < m)%nat -> f i = g i) -> vn m f = vn m g.
Proof. intros h. unfold vn, frob. f_equal. apply frob2_ext. intros i j hi hj. auto. Qed.
Lemma vn_plus m f g : vn m (fun i => f i + g i) <= vn m f + vn m g.
Proof. apply (frob_triangle m 1 (fun i _ => f i) (fun i _ => g i)). Qed.
Lemma vn_scal m c f : vn m (fun i => c * f i) = Rabs c * vn m f.
Proof. apply (frob_scal m 1 c (fun i _ => f i)). Qed.
Lemma vn_le m f g : (forall i, (i < m)%nat -> Rabs (f i) <= Rabs (g i)) -> vn m f <= vn m g.
Proof.
  intros h. unfold vn, frob. apply sqrt_le_1_alt. unfold frob2. apply Rsum_le. intros i hi. cbn [Rsum].
  pose proof (Rsqr_le_abs_1 _ _ (h i hi)). unfold Rsqr in *. lra.
Qed.
Lemma vn_entry m f i : (i < m)%nat -> Rabs (f i) <= vn m f.
Proof. intros h. apply (frob_entry_le m 1 (fun i _ => f i) i 0); auto. Qed.
Lemma vn_dot m f g : Rabs (Rsum m (fun i => f i * g i)) <= vn m f * vn m g.
Proof.
  apply Rsqr_incr_0_var; [|apply Rmult_le_pos; apply vn_nonneg]. unfold Rsqr.
  replace (vn m f * vn m g * (vn m f * vn m g)) with ((vn m f * vn m f) * (vn m g * vn m g)) by ring. rewrite !vn_sq.
  rewrite <- Rabs_mult, Rabs_pos_eq by apply sqn. apply Rsum_CS.
Qed.
Lemma vn_const m c : vn m (fun _ => c) <= INR m * Rabs c.
Proof.
  apply Rsqr_incr_0_var; [|apply Rmult_le_pos; [apply pos_INR|apply Rabs_pos]]. unfold Rsqr. rewrite vn_sq, Rsum_const.
  replace (INR m * Rabs c * (INR m * Rabs c)) with (INR m * INR m * (Rabs c * Rabs c)) by ring.
  rewrite <- Rabs_mult, (Rabs_pos_eq (c * c)) by apply sqn. apply Rmult_le_compat_r; [apply sqn|].
  destruct m; [simpl; lra|]. pose proof (pos_INR m). rewrite S_INR. nra.
Qed.
Lemma vn_unit m f : Rsum m (fun i => f i * f i) = 1 -> vn m f = 1.
Proof.
  intros h. pose proof (vn_sq m f) as e. rewrite h in e. pose proof (vn_nonneg m f). nra.
Qed.
Lemma vn_bound m f g a b : 0 <= a -> 0 <= b -> (forall i, (i < m)%nat -> Rabs (f i) <= a * Rabs (g i) + b) -> vn m f <= a * vn m g + INR m * b.
Proof.
  intros ha hb h. apply Rle_trans with (vn m (fun i => a * Rabs (g i) + b)).
  - apply vn_le. intros i hi. eapply Rle_trans; [apply h; auto|]. apply Rle_abs.
  - eapply Rle_trans; [apply vn_plus|]. apply Rplus_le_compat.
    + rewrite vn_scal, (Rabs_pos_eq a) by auto. apply Rmult_le_compat_l; auto. apply vn_le. intros i hi. rewrite Rabs_Rabsolu. lra.
    + eapply Rle_trans; [apply vn_const|]. rewrite Rabs_pos_eq by auto. lra.
Qed.

(** ** The reflection axis *)
Definition ax_nsq (c : list FN) : FN := sumn (length c) (fun i => nmul FN (vget c i) (vget c i)).
Definition ax_nrm (c : list FN) : FN := nsqrt FN (ax_nsq c).
Definition ax_sn (c : list FN) : FN := nmul FN (nsignum FN (vget c 0)) (ax_nrm c).
Definition ax_nn (c : list FN) : FN := nmul FN (nadd FN (ax_nsq c) (nmul FN (nabs FN (vget c 0)) (ax_nrm c))) ntwo.
Lemma axis_outcome (c : list FN) : (0 < length c)%nat ->
  reflection_axis_mut c = let col := vupd c 0 (nadd FN (vget c 0) (ax_sn c)) in
    if negb (nis_zero FN (ax_nn c)) then Ret (vmap (fun x => ndiv FN x (nsqrt FN (ax_nn c))) col, Some (nopp FN (ax_sn c)))
    else Ret (col, None).
Proof.
  intros h. unfold reflection_axis_mut, dot1. rewrite Nat.eqb_refl. cbn [bind]. destruct (Nat.ltb_spec 0 (length c)); [|lia]. reflexivity.
Qed.
Definition vvalid (c : list FN) : Prop := forall i, (i < length c)%nat -> fvalid (vget c i).
Lemma ax_valid c : vvalid c -> (0 < length c)%nat -> fvalid (ax_nsq c) /\ fvalid (ax_nrm c) /\ fvalid (ax_sn c) /\ fvalid (ax_nn c).
Proof.
  intros hv hm. assert (v1 : fvalid (ax_nsq c)) by (apply sumn_valid; intros j hj; apply fvalid_mul; apply hv; auto).
  assert (v2 : fvalid (ax_nrm c)) by (apply fvalid_sqrt; auto). split; auto. split; auto. split.
  - apply fvalid_mul; auto. unfold nsignum, FN, f_signum. destruct (f_is_nan _); [reflexivity|]. destruct (f_neg _); reflexivity.
  - apply fvalid_mul; [|rewrite two_f; reflexivity]. apply fvalid_add; auto. apply fvalid_mul; auto. apply fvalid_abs. apply hv. auto.
Qed.

(** *** No overflow *)
Definition huge : R := bpow radix2 510.
Local Notation rnd := (round radix2 (SpecFloat.fexp prec emax) (round_mode mode_NE)).
Lemma rnd_lt x : Rabs x <= bpow radix2 1023 -> Rlt_bool (Rabs (rnd x)) (bpow radix2 emax) = true.
Proof.
  intros h. apply Rlt_bool_true. apply Rle_lt_trans with (bpow radix2 1023); [|apply bpow_lt; reflexivity].
  apply abs_round_le_generic; auto.
  - apply (fexp_correct prec emax Hprec).
  - apply valid_rnd_round_mode.
  - apply generic_format_bpow. unfold SpecFloat.fexp, emin. unfold emax, prec. lia.
Qed.
Lemma add_fin x y : fvalid x -> fvalid y -> ffin x -> ffin y -> Rabs (fr x + fr y) <= bpow radix2 1023 -> ffin (nadd FN x y).
Proof.
  intros vx vy. tob. unfold nadd, FN. rewrite add_equiv, !ffin_B2SF, !fr_B2SF. intros fx fy h.
  pose proof (Bplus_correct prec emax Hprec Hemax mode_NE x1 x0 fx fy) as hc. rewrite rnd_lt in hc by auto. apply hc.
Qed.
Lemma mul_fin x y : fvalid x -> fvalid y -> ffin x -> ffin y -> Rabs (fr x * fr y) <= bpow radix2 1023 -> ffin (nmul FN x y).
Proof.
  intros vx vy. tob. unfold nmul, FN. rewrite mul_equiv, !ffin_B2SF, !fr_B2SF. intros fx fy h.
  pose proof (Bmult_correct prec emax Hprec Hemax mode_NE x1 x0) as hc. rewrite rnd_lt in hc by auto.
  destruct hc as (_ & hc & _). rewrite hc, fx, fy. reflexivity.
Qed.
Lemma div_fin x y : fvalid x -> fvalid y -> ffin x -> fr y <> 0 -> Rabs (fr x / fr y) <= bpow radix2 1023 -> ffin (ndiv FN x y).
Proof.
  intros vx vy. tob. unfold ndiv, FN. rewrite div_equiv, !ffin_B2SF, !fr_B2SF. intros fx fy h.
  pose proof (Bdiv_correct prec emax Hprec Hemax mode_NE x1 x0 fy) as hc. rewrite rnd_lt in hc by auto.
  destruct hc as (_ & hc & _). rewrite hc, fx. reflexivity.
Qed.
Lemma sqrt_fin x : fvalid x -> ffin x -> 0 < fr x -> ffin (nsqrt FN x).
Proof.
  intros vx. tob. unfold nsqrt, FN. rewrite sqrt_equiv, !ffin_B2SF, !fr_B2SF. intros fx h.
  destruct (Bsqrt_correct prec emax Hprec Hemax mode_NE x0) as (_ & hc & _). rewrite hc.
  destruct x0 as [s|s| |s m e b]; try discriminate; auto. destruct s; auto. exfalso. revert h. apply Rle_not_lt. apply F2R_le_0. discriminate.
Qed.
Lemma huge_sq : huge * huge * 8 = bpow radix2 1023.
Proof. unfold huge. rewrite <- bpow_plus. change 8 with (bpow radix2 3). rewrite <- bpow_plus. reflexivity. Qed.

Record axis_ok (m : nat) (c v : list FN) (x : FN) (w : nat -> R) : Prop := {
  ao_len : length v = m;
  ao_cfin : forall i, (i < m)%nat -> ffin (vget c i);
  ao_vfin : forall i, (i < m)%nat -> fvalid (vget v i) /\ ffin (vget v i);
  ao_xval : fvalid x;
  ao_unit : unitf (nsignum FN x);
  ao_w : Rsum m (fun i => w i * w i) = 1;
  ao_mirror : forall i, (i < m)%nat -> fr (nsignum FN x) * (frv c i - 2 * (w i * Rsum m (fun l => w l * frv c l))) =
    if Nat.eqb i 0 then vn m (frv c) else 0;
  ao_norm : Rabs (Rabs (fr x) - vn m (frv c)) <= gam (m + 3) * vn m (frv c);
  ao_axis : vn m (fun i => frv v i - w i) <= gam (2 * m + 15)
}.
Lemma axis_float n (c v : list FN) x : fits n -> (0 < length c <= n)%nat -> vvalid c ->
  reflection_axis_mut c = Ret (v, Some x) -> ffin x -> tiny <= Rabs (fr x) <= huge ->
  exists w, axis_ok (length c) c v x w.
Proof.
  intros hn hm hv e hx ht. set (m := length c) in *. rewrite axis_outcome in e by (unfold m in hm; lia). cbv zeta in e.
  destruct (negb (nis_zero FN (ax_nn c))) eqn:ez; [|discriminate]. injection e as <- <-.
  destruct (ax_valid c hv ltac:(fold m; lia)) as (v1 & v2 & v3 & v4).
  apply (proj1 (ffin_opp _)) in hx. rewrite fr_opp, Rabs_Ropp in ht.
  assert (vs : fvalid (nsignum FN (vget c 0))).
  { unfold nsignum, FN, f_signum. destruct (f_is_nan _); [reflexivity|]. destruct (f_neg _); reflexivity. }
  unfold ax_sn in hx. destruct (mul_std _ _ vs v2 hx) as (_ & fnrm & _). fold (ax_sn c) in hx.
  unfold ax_nrm in fnrm. destruct (sqrt_rel _ v1 fnrm) as (fnsq & hpos & d & hd & enrm). fold (ax_nrm c) in fnrm, enrm.
  destruct (dot_prd (vget c) (vget c) m ltac:(intros j hj; split; apply hv; auto) fnsq) as (fc & D & e & hD & he & ensq).
  change (fr (sumn m (fun i => nmul FN (vget c i) (vget c i)))) with (fr (ax_nsq c)) in ensq.
  set (X := frv c). set (S := Rsum m (fun i => X i * X i)). set (Nn := vn m X).
  assert (eNn : Nn * Nn = S) by apply vn_sq. assert (hNn : 0 <= Nn) by apply vn_nonneg. assert (hS : 0 <= S) by (rewrite <- eNn; apply sqn).
  destruct (prd_sum m (fun i => X i * X i) D (Datatypes.S m) ltac:(intros; apply sqn) hD) as (t0 & ht0 & et0).
  fold S in et0. unfold X, frv in et0. rewrite et0 in ensq.
  assert (f0 : ffin (vget c 0)) by (apply (fc 0%nat); lia).
  destruct (signum_fr _ f0) as (us & es). destruct (unitf_fr _ us) as (_ & fs & hs & hss). set (s := fr (nsignum FN (vget c 0))) in *.
  assert (esn : fr (ax_sn c) = s * fr (ax_nrm c)).
  { unfold ax_sn. rewrite mul_comm_f. destruct (mul_unit _ _ v2 us) as (_ & h & _). rewrite h by auto. unfold s. ring. }
  pose proof uro_pos as hu. pose proof uro_small as hus. pose proof tiny_pos as htp. pose proof (prd_dlt _ hd) as pd. pose proof (prd_pos _ _ pd) as pdp.
  set (nsq := fr (ax_nsq c)) in *. set (nrm := fr (ax_nrm c)) in *.
  assert (hnrm : 0 <= nrm) by (rewrite enrm; apply Rmult_le_pos; [apply sqrt_ge_0|lra]).
  assert (esn' : Rabs (fr (ax_sn c)) = nrm).
  { rewrite esn, Rabs_mult, (Rabs_pos_eq nrm) by auto. destruct hs as [h|h]; rewrite h; [rewrite Rabs_R1|rewrite Rabs_left by lra]; ring. }
  rewrite esn' in ht.
  assert (hsq : nrm * nrm = nsq * ((1 + d) * (1 + d))) by (rewrite enrm; rewrite <- (sqrt_sqrt nsq) at 3 by auto; ring).
  assert (pd2 : 1 + d <= 1 + uro) by (destruct pd as (_ & h); rewrite pow_1 in h; exact h).
  assert (hns : tiny * tiny <= 2 * nsq).
  { assert (tiny * tiny <= nrm * nrm) by nra. assert ((1 + d) * (1 + d) <= 2) by nra. assert (nsq * ((1 + d) * (1 + d)) <= nsq * 2) by (apply Rmult_le_compat_l; auto). lra. }
  assert (hee : Rabs e <= tiny * tiny * uro * / 1024).
  { eapply Rle_trans; [exact he|]. pose proof (fits_eta n m hn ltac:(lia)) as h1. pose proof (fits_U n m hn ltac:(lia)) as h2.
    pose proof (pos_INR m). pose proof eta_pos. pose proof (pow_u_ge1 m). assert (0 <= INR m * eta) by nra. nra. }
  assert (htt : 0 < tiny * tiny) by nra.
  assert (hSlow : tiny * tiny <= 8 * S).
  { assert (t0 <= 2). { destruct ht0 as (_ & h). eapply Rle_trans; [exact h|]. apply (fits_U n); auto. lia. }
    assert (S * t0 <= S * 2) by (apply Rmult_le_compat_l; auto). apply Rabs_le_inv in hee.
    assert (tiny * tiny * uro <= tiny * tiny * / 8) by (apply Rmult_le_compat_l; nra). lra. }
  destruct (prd_absorb S t0 e (Datatypes.S m) hS ht0 ltac:(apply (fits_U n); auto; lia)) as (t1 & ht1 & et1).
  { eapply Rle_trans; [exact hee|]. nra. }
  rewrite et1 in ensq.
  assert (hSpos : 0 < S) by lra. assert (hNnpos : 0 < Nn) by nra.
  set (t2 := sqrt t1 * (1 + d)).
  assert (ht2 : prd (m + 3) t2).
  { unfold t2. apply prd_mono with (Datatypes.S (Datatypes.S m) + 1)%nat; [lia|]. apply prd_mul; auto. apply prd_sqrt. auto. }
  assert (en2 : nrm = Nn * t2).
  { rewrite enrm, ensq. rewrite sqrt_mult_alt by auto. unfold t2. rewrite <- eNn at 1. rewrite sqrt_square by auto. ring. }
  set (a0 := Rabs (X 0%nat)). assert (ha0 : 0 <= a0) by apply Rabs_pos.
  assert (ha0N : a0 <= Nn) by (apply (vn_entry m X); lia).
  (* magnitudes *)
  pose proof (prd_pos _ _ ht2) as pt2. assert (t2b : / 2 <= t2 <= 2).
  { destruct ht2 as (g1 & g2). pose proof (fits_U n (m + 3) hn ltac:(lia)) as g3. split; [|lra].
    eapply Rle_trans; [|exact g1]. apply Rinv_le; [apply U_pos|auto]. }
  assert (hhuge := huge_sq). assert (hh0 : 0 < huge) by apply bpow_gt_0.
  pose proof uro_1024 as hu1.
  assert (pd1 : 1 - / 1024 <= 1 + d) by (pose proof (dlt_u d hd) as h; apply Rabs_le_inv in h; lra).
  assert (hnr2 : nrm * nrm <= huge * huge) by nra.
  assert (hnsq : nsq <= 101 / 100 * (huge * huge)).
  { assert (99 / 100 <= (1 + d) * (1 + d)) by nra. assert (nsq * (99 / 100 ) <= nsq * ((1 + d) * (1 + d))) by (apply Rmult_le_compat_l; auto). nra. }
  assert (ha0n : a0 * nrm <= 2 * (huge * huge)).
  { assert (a0 <= 2 * nrm) by nra. nra. }
  pose proof eta_pos as hep. assert (hh1 : 1 <= huge * huge) by (unfold huge; rewrite <- bpow_plus; apply (bpow_le radix2 0); discriminate).
  assert (het1 : eta <= / 1024) by (pose proof eta_tiny; pose proof tiny_lt1; assert (tiny * tiny <= 1) by nra; assert (uro * uro <= 1) by nra; nra).
  assert (vabs : fvalid (nabs FN (vget c 0))) by (apply fvalid_abs, hv; fold m; lia).
  assert (fabs : ffin (nabs FN (vget c 0))) by (apply ffin_abs; auto).
  assert (eabs : fr (nabs FN (vget c 0)) = a0) by (rewrite fr_abs; reflexivity).
  assert (fprod : ffin (nmul FN (nabs FN (vget c 0)) (ax_nrm c))).
  { apply mul_fin; auto. rewrite eabs. fold nrm. rewrite Rabs_pos_eq by nra. lra. }
  destruct (mul_std _ _ vabs v2 fprod) as (_ & _ & d1 & e1 & hd1 & he1 & eprod). rewrite eabs in eprod. fold nrm in eprod.
  set (prod := nmul FN (nabs FN (vget c 0)) (ax_nrm c)) in *. assert (vprod : fvalid prod) by (apply fvalid_mul; auto).
  pose proof (prd_dlt _ hd1) as pdd1. pose proof (prd_pos _ _ pdd1) as pdd1p. assert (pdd1b : 1 + d1 <= 1 + uro) by (destruct pdd1 as (_ & h); rewrite pow_1 in h; exact h).
  assert (hprod : Rabs (fr prod) <= 202 / 100 * (huge * huge)).
  { rewrite eprod. eapply Rle_trans; [apply Rabs_triang|]. rewrite Rabs_mult, (Rabs_pos_eq (a0 * nrm)), (Rabs_pos_eq (1 + d1)) by nra. nra. }
  assert (fsum : ffin (nadd FN (ax_nsq c) prod)).
  { apply add_fin; auto. fold nsq. eapply Rle_trans; [apply Rabs_triang|]. rewrite (Rabs_pos_eq nsq) by auto. lra. }
  destruct (add_std _ _ v1 vprod fsum) as (_ & _ & d2 & hd2 & esum). fold nsq in esum.
  set (sum := nadd FN (ax_nsq c) prod) in *. assert (vsum : fvalid sum) by (apply fvalid_add; auto).
  pose proof (prd_dlt _ hd2) as pdd2. pose proof (prd_pos _ _ pdd2) as pdd2p. assert (pdd2b : 1 + d2 <= 1 + uro) by (destruct pdd2 as (_ & h); rewrite pow_1 in h; exact h).
  assert (hsum : Rabs (fr sum) <= 305 / 100 * (huge * huge)).
  { rewrite esum, Rabs_mult, (Rabs_pos_eq (1 + d2)) by lra. assert (Rabs (nsq + fr prod) <= 303 / 100 * (huge * huge)).
    { eapply Rle_trans; [apply Rabs_triang|]. rewrite (Rabs_pos_eq nsq) by auto. lra. }
    pose proof (Rabs_pos (nsq + fr prod)). nra. }
  assert (v2' : fvalid (f_of_Z 2)) by reflexivity. assert (f2' : ffin (f_of_Z 2)) by reflexivity.
  assert (enn : ax_nn c = nmul FN sum (f_of_Z 2)) by (unfold ax_nn; rewrite two_f; reflexivity).
  assert (fnn : ffin (ax_nn c)).
  { rewrite enn. apply mul_fin; auto. rewrite fr_f2, Rabs_mult, (Rabs_pos_eq 2) by lra. lra. }
  pose proof fnn as fnn'. rewrite enn in fnn'. destruct (mul_std _ _ vsum v2' fnn') as (_ & _ & d3 & e3 & hd3 & he3 & enn2). rewrite <- enn, fr_f2 in enn2.
  (* the squared length of the axis *)
  set (W := S + a0 * Nn). assert (hW : S <= W) by (unfold W; nra).
  assert (hetaS : eta <= S * (uro / 2)).
  { pose proof eta_tiny. assert (tiny * tiny * (uro * uro) <= tiny * tiny * uro) by (apply Rmult_le_compat_l; nra). nra. }
  destruct (prd_plus S (a0 * Nn) t1 (t2 * (1 + d1)) (m + 4)%nat hS ltac:(nra)) as (t4 & ht4 & et4).
  { apply prd_mono with (Datatypes.S (Datatypes.S m)); [lia|auto]. }
  { replace (m + 4)%nat with (m + 3 + 1)%nat by lia. apply prd_mul; auto. }
  destruct (prd_absorb W t4 e1 (m + 4)%nat ltac:(lra) ht4 ltac:(apply (fits_U n); auto; lia)) as (t4' & ht4' & et4').
  { eapply Rle_trans; [exact he1|]. eapply Rle_trans; [exact hetaS|]. apply Rmult_le_compat_r; lra. }
  assert (esum2 : fr sum = W * (t4' * (1 + d2))).
  { transitivity (W * t4' * (1 + d2)); [|ring]. rewrite <- et4', esum, ensq, eprod, en2. unfold W. rewrite <- et4. ring. }
  destruct (prd_absorb (2 * W) (t4' * (1 + d2) * (1 + d3)) e3 (m + 7)%nat ltac:(lra)) as (t5 & ht5 & et5).
  { replace (m + 7)%nat with (Datatypes.S (m + 4) + 1 + 1)%nat by lia. apply prd_mul; [apply prd_mul; auto|]. now apply prd_dlt. }
  { apply (fits_U n); auto; lia. }
  { eapply Rle_trans; [exact he3|]. eapply Rle_trans; [exact hetaS|]. apply Rmult_le_compat_r; lra. }
  assert (enn3 : fr (ax_nn c) = 2 * W * t5) by (rewrite enn2, esum2, <- et5; ring).
  pose proof (prd_pos _ _ ht5) as pt5.
  assert (hnnpos : 0 < fr (ax_nn c)) by (rewrite enn3; apply Rmult_lt_0_compat; lra).
  pose proof (sqrt_fin _ v4 fnn hnnpos) as fden. destruct (sqrt_rel _ v4 fden) as (_ & _ & d4 & hd4 & eden).
  set (den := nsqrt FN (ax_nn c)) in *. assert (vden : fvalid den) by (apply fvalid_sqrt; auto).
  set (V := sqrt (2 * W)). assert (hV : 0 < V) by (apply sqrt_lt_R0; lra). assert (eV : V * V = 2 * W) by (apply sqrt_sqrt; lra).
  set (t6 := sqrt t5 * (1 + d4)).
  assert (ht6 : prd (m + 9) t6).
  { unfold t6. replace (m + 9)%nat with (Datatypes.S (m + 7) + 1)%nat by lia. apply prd_mul; [apply prd_sqrt; auto|now apply prd_dlt]. }
  assert (eden2 : fr den = V * t6).
  { rewrite eden, enn3, sqrt_mult_alt by lra. unfold V, t6. ring. }
  pose proof (prd_pos _ _ ht6) as pt6.
  (* the first entry of the axis *)
  assert (vc0 : fvalid (vget c 0)) by (apply hv; fold m; lia).
  assert (hX0 : s * X 0%nat = a0) by exact es.
  assert (hX0' : X 0%nat = s * a0) by (rewrite <- hX0, <- Rmult_assoc, hss; ring).
  destruct (prd_plus a0 Nn 1 t2 (m + 3) ha0 hNn ltac:(apply prd_1) ht2) as (t3 & ht3 & et3).
  assert (ev0 : fr (vget c 0) + fr (ax_sn c) = s * ((a0 + Nn) * t3)).
  { rewrite esn. fold nrm. rewrite en2, <- et3. change (fr (vget c 0)) with (X 0%nat). rewrite hX0'. ring. }
  assert (hab : forall y, Rabs (s * y) = Rabs y).
  { intros y. rewrite Rabs_mult. destruct hs as [h|h]; rewrite h; [rewrite Rabs_R1|rewrite Rabs_left by lra]; ring. }
  pose proof (prd_pos _ _ ht3) as pt3.
  assert (hh2 : huge <= huge * huge). { assert (1 <= huge) by (apply (bpow_le radix2 0); discriminate). nra. }
  assert (t3b : t3 <= 2) by (eapply Rle_trans; [apply ht3|]; apply (fits_U n); auto; lia).
  assert (hNh : Nn <= 2 * huge) by nra.
  assert (fv0 : ffin (nadd FN (vget c 0) (ax_sn c))).
  { apply add_fin; auto. rewrite ev0, hab, Rabs_pos_eq by nra. assert ((a0 + Nn) * t3 <= (a0 + Nn) * 2) by (apply Rmult_le_compat_l; lra). lra. }
  destruct (add_std _ _ vc0 v3 fv0) as (_ & _ & d5 & hd5 & ev0'). rewrite ev0 in ev0'.
  set (p0 := nadd FN (vget c 0) (ax_sn c)) in *. assert (vp0 : fvalid p0) by (apply fvalid_add; auto).
  (* the exact axis *)
  set (g := fun i => X i + (if Nat.eqb i 0 then s * Nn else 0)).
  set (w := fun i => g i / V).
  set (col := vupd c 0 p0).
  assert (lcol : length col = m) by (unfold col; rewrite length_vupd; reflexivity).
  assert (hcol : forall i, (i < m)%nat -> exists t, prd (m + 4) t /\ fvalid (vget col i) /\ ffin (vget col i) /\ fr (vget col i) = g i * t).
  { intros i hi. unfold col. rewrite vget_vupd by (fold m; lia). unfold g. destruct (Nat.eqb_spec i 0) as [->|ni].
    - exists (t3 * (1 + d5)). split; [|split; [|split]]; auto.
      + replace (m + 4)%nat with (m + 3 + 1)%nat by lia. apply prd_mul; auto. now apply prd_dlt.
      + rewrite ev0', hX0'. ring.
    - exists 1. split; [apply prd_1|split; [apply hv; auto|split]].
      + apply (fc i hi).
      + change (fr (vget c i)) with (X i). ring. }
  assert (gsq : Rsum m (fun i => g i * g i) = V * V).
  { rewrite eV. unfold W. rewrite (Rsum_ext m _ (fun i => X i * X i + (if Nat.eqb i 0 then 2 * (a0 * Nn) + S else 0))).
    - rewrite Rsum_plus. fold S. rewrite (Rsum_single m 0 (fun i => if Nat.eqb i 0 then 2 * (a0 * Nn) + S else 0)) by (try lia; (intros i hi hi0; destruct (Nat.eqb_spec i 0); [lia|reflexivity])).
      cbn [Nat.eqb]. ring.
    - intros i hi. unfold g. destruct (Nat.eqb_spec i 0) as [->|]; [|ring].
      transitivity (X 0%nat * X 0%nat + 2 * (s * X 0%nat * Nn) + (s * s) * (Nn * Nn)); [ring|]. rewrite hss, hX0, eNn. ring. }
  assert (gX : Rsum m (fun i => g i * X i) = W).
  { unfold W. rewrite (Rsum_ext m _ (fun i => X i * X i + (if Nat.eqb i 0 then a0 * Nn else 0))).
    - rewrite Rsum_plus. fold S. rewrite (Rsum_single m 0 (fun i => if Nat.eqb i 0 then a0 * Nn else 0)) by (try lia; (intros i hi hi0; destruct (Nat.eqb_spec i 0); [lia|reflexivity])).
      cbn [Nat.eqb]. ring.
    - intros i hi. unfold g. destruct (Nat.eqb_spec i 0) as [->|]; [|ring]. rewrite <- hX0. ring. }
  assert (gV : forall i, (i < m)%nat -> Rabs (g i) <= V).
  { intros i hi. replace V with (vn m g); [apply vn_entry; auto|]. pose proof (vn_sq m g) as h. rewrite gsq in h. pose proof (vn_nonneg m g). nra. }
  assert (hmir : forall i, (i < m)%nat -> X i - 2 * (w i * Rsum m (fun l => w l * X l)) = if Nat.eqb i 0 then - s * Nn else 0).
  { intros i hi. rewrite (Rsum_ext m (fun l => w l * X l) (fun l => / V * (g l * X l))) by (intros; unfold w, Rdiv; ring).
    rewrite Rsum_scal_l, gX. replace W with (V * V / 2) by lra. unfold w, g. destruct (Nat.eqb_spec i 0); field; lra. }
  assert (hdiv : forall i, (i < m)%nat -> fvalid (ndiv FN (vget col i) den) /\ ffin (ndiv FN (vget col i) den) /\
    Rabs (fr (ndiv FN (vget col i) den) - w i) <= gam (2 * m + 14) * Rabs (w i) + eta).
  { intros i hi. destruct (hcol i hi) as (t & ht' & vci & fci & eci).
    assert (vd : fvalid (ndiv FN (vget col i) den)) by (apply fvalid_div; auto).
    assert (hq : fr (vget col i) / fr den = w i * (t * / t6)) by (rewrite eci, eden2; unfold w; field; lra).
    assert (hp : prd (2 * m + 13) (t * / t6)).
    { replace (2 * m + 13)%nat with ((m + 4) + (m + 9))%nat by lia. apply prd_mul; auto. apply prd_inv. auto. }
    assert (hw1 : Rabs (w i) <= 1).
    { unfold w, Rdiv. rewrite Rabs_mult, Rabs_inv, (Rabs_pos_eq V) by lra. apply Rmult_le_reg_r with V; auto. rewrite Rmult_assoc, Rinv_l by lra. specialize (gV i hi). lra. }
    assert (fd : ffin (ndiv FN (vget col i) den)).
    { apply div_fin; auto; [rewrite eden2; nra|]. rewrite hq, Rabs_mult, (Rabs_pos_eq (t * / t6)) by (apply Rlt_le, (prd_pos _ _ hp)).
      assert (t * / t6 <= 2) by (eapply Rle_trans; [apply hp|]; apply (fits_U n); auto; lia). pose proof (prd_pos _ _ hp). pose proof (Rabs_pos (w i)).
      assert (Rabs (w i) * (t * / t6) <= 1 * 2) by (apply Rmult_le_compat; lra). lra. }
    split; auto. split; auto.
    destruct (div_std _ _ vci vden fden fd) as (_ & _ & d6 & e6 & hd6 & he6 & ed). rewrite ed, hq.
    replace (w i * (t * / t6) * (1 + d6) + e6 - w i) with (w i * (t * / t6 * (1 + d6) - 1) + e6) by ring.
    eapply Rle_trans; [apply Rabs_triang|]. apply Rplus_le_compat; auto. rewrite Rabs_mult, Rmult_comm. apply Rmult_le_compat_r; [apply Rabs_pos|].
    apply (prd_near (2 * m + 14)). replace (2 * m + 14)%nat with (2 * m + 13 + 1)%nat by lia. apply prd_mul; auto. now apply prd_dlt. }
  assert (wsq : Rsum m (fun i => w i * w i) = 1).
  { rewrite (Rsum_ext m _ (fun i => / (V * V) * (g i * g i))) by (intros; unfold w; field; lra). rewrite Rsum_scal_l, gsq. field. lra. }
  assert (lv : length (vmap (fun x => ndiv FN x den) col) = m) by (rewrite length_vmap; exact lcol).
  assert (gv : forall i, (i < m)%nat -> vget (vmap (fun x => ndiv FN x den) col) i = ndiv FN (vget col i) den).
  { intros i hi. rewrite vget_vmap by (rewrite lcol; auto). reflexivity. }
  assert (ux : unitf (nsignum FN (nopp FN (ax_sn c))) /\ fr (nsignum FN (nopp FN (ax_sn c))) = - s).
  { assert (fo : ffin (nopp FN (ax_sn c))) by (apply ffin_opp; auto). destruct (signum_fr _ fo) as (u1 & u2). split; auto.
    rewrite fr_opp, Rabs_Ropp, esn', esn in u2. fold nrm in u2. assert (0 < nrm) by lra.
    apply Rmult_eq_reg_r with nrm; [|lra]. transitivity (fr (nsignum FN (nopp FN (ax_sn c))) * - (s * nrm) * - s); [|rewrite u2; ring].
    transitivity (fr (nsignum FN (nopp FN (ax_sn c))) * nrm * (s * s)); [rewrite hss; ring|ring]. }
  destruct ux as (ux & esx).
  exists w. constructor; auto.
  - intros i hi. apply (fc i hi).
  - intros i hi. rewrite gv by auto. split; apply (hdiv i hi).
  - apply fvalid_opp. auto.
  - intros i hi. fold X. rewrite hmir by auto. rewrite esx. fold Nn. destruct (Nat.eqb i 0); [|ring].
    transitivity (s * s * Nn); [ring|]. rewrite hss. ring.
  - rewrite fr_opp, Rabs_Ropp, esn'. fold X Nn. rewrite en2. replace (Nn * t2 - Nn) with ((t2 - 1) * Nn) by ring.
    rewrite Rabs_mult, (Rabs_pos_eq Nn) by auto. apply Rmult_le_compat_r; auto. apply (prd_near _ _ ht2).
  - eapply Rle_trans; [apply (vn_bound m _ w (gam (2 * m + 14)) eta)|].
    + apply gam_nonneg.
    + apply Rlt_le, eta_pos.
    + intros i hi. unfold frv. rewrite gv by auto. apply (hdiv i hi).
    + rewrite (vn_unit m w wsq), Rmult_1_r. pose proof (fits_eta1 n m hn ltac:(lia)).
      replace (2 * m + 15)%nat with (Datatypes.S (2 * m + 14)) by lia. unfold gam. cbn [pow]. pose proof (pow_u_ge1 (2 * m + 14)). nra.
Qed.
