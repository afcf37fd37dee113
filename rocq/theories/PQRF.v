(** * One Householder step and the QR decomposition in floating point *)
From Coq Require Import Reals List Arith Lia Lra Bool ZArith Setoid Morphisms.
From Coq.Floats Require Import SpecFloat.
From Flocq Require Import Core BinarySingleNaN.
From Verif Require Import Scalar Arr MBase MDirect Inst Hoare Spec SpecF RLin PTri PHouse PQR PRound PTriF PCholF PNormF PHouseF.
Import ListNotations.
Local Open Scope R_scope.
Local Notation U k := ((1 + uro) ^ k).

(** 2^-508: what may be lost when a column counts as zero *)
Definition zeta : R := bpow radix2 (-508).
Lemma zeta_pos : 0 < zeta. Proof. apply bpow_gt_0. Qed.
Lemma zeta_le : zeta <= uro * uro.
Proof. rewrite uro_bpow. unfold zeta. rewrite <- bpow_plus. apply bpow_le. discriminate. Qed.
Lemma zeta_eta n m : fits n -> (m <= n)%nat -> 64 * ((INR m + 1) * eta) <= zeta * zeta.
Proof.
  intros h hm. pose proof (fits_eta n m h hm) as h1. pose proof eta_tiny as h2. pose proof uro_1024. pose proof uro_pos. pose proof tiny_pos.
  assert (e : tiny * tiny * uro * / 16 <= zeta * zeta).
  { rewrite uro_bpow. unfold tiny, zeta. replace (/ 16) with (bpow radix2 (-4)) by (simpl; lra). rewrite <- !bpow_plus. apply bpow_le. discriminate. }
  assert (0 < tiny * tiny * uro) by (repeat apply Rmult_lt_0_compat; auto).
  assert (tiny * tiny * (uro * uro) <= tiny * tiny * uro * / 1024) by nra. lra.
Qed.
Lemma fin0 x : ffin x -> fr x = 0 -> exists s, x = S754_zero s.
Proof.
  destruct x as [s|s| |s m e]; try discriminate; [eauto|]. intros _ h. unfold fr, SF2R, F2R in h. cbn [Fnum Fexp] in h.
  pose proof (bpow_gt_0 radix2 e). destruct s; cbn [cond_Zopp] in h.
  - assert (IZR (Z.neg m) < 0) by (apply IZR_lt; reflexivity). change (- Z.pos m)%Z with (Z.neg m) in h. nra.
  - assert (0 < IZR (Z.pos m)) by (apply IZR_lt; reflexivity). nra.
Qed.

Definition sgf (x : FN) : R := fr (nsignum FN x).
Record step_ok (m : nat) (c v : list FN) (x : FN) (w : nat -> R) : Prop := {
  so_len : length v = m;
  so_cfin : forall i, (i < m)%nat -> ffin (vget c i);
  so_vfin : forall i, (i < m)%nat -> fvalid (vget v i) /\ ffin (vget v i);
  so_xval : fvalid x;
  so_unit : unitf (nsignum FN x);
  so_w : Rsum m (fun i => w i * w i) = 1 \/ forall i, (i < m)%nat -> w i = 0;
  so_mirror : vn m (fun i => sgf x * (frv c i - 2 * (w i * Rsum m (fun l => w l * frv c l))) - if Nat.eqb i 0 then Rabs (fr x) else 0)
    <= gam (m + 3) * vn m (frv c) + zeta;
  so_axis : vn m (fun i => frv v i - w i) <= gam (2 * m + 15)
}.
Definition diag_ok (x : FN) : Prop := ffin x /\ (fr x = 0 \/ tiny <= Rabs (fr x) <= huge).

Lemma vn_single m a : (0 < m)%nat -> vn m (fun i => if Nat.eqb i 0 then a else 0) = Rabs a.
Proof.
  intros hm. apply Rsqr_inj; [apply vn_nonneg|apply Rabs_pos|]. unfold Rsqr. rewrite vn_sq, <- Rabs_mult, (Rabs_pos_eq (a * a)) by apply sqn.
  rewrite (Rsum_single m 0); auto. intros i hi ne. destruct (Nat.eqb_spec i 0); [lia|ring].
Qed.
Lemma gam_ge k : INR k * uro <= gam k.
Proof.
  pose proof uro_pos. induction k; [rewrite gam_0; simpl; lra|]. rewrite S_INR. unfold gam in *. cbn [pow]. pose proof (pow_u_ge1 k). nra.
Qed.

Lemma step_float n (c v : list FN) o : fits n -> (0 < length c <= n)%nat -> vvalid c ->
  reflection_axis_mut c = Ret (v, o) -> diag_ok (match o with Some x => x | None => n0 FN end) ->
  exists w, step_ok (length c) c v (match o with Some x => x | None => n0 FN end) w /\
    (o = None -> forall i, w i = 0).
Proof.
  intros hn hm hv e (hx & hr). pose proof uro_pos as hu. pose proof uro_1024 as hu1. pose proof zeta_pos as hz. pose proof zeta_le as hzu. pose proof eta_pos as hep.
  destruct o as [x|].
  - destruct hr as [h0|hr].
    + (* a zero norm goes the other way *)
      exfalso. rewrite axis_outcome in e by lia. cbv zeta in e. destruct (negb (nis_zero FN (ax_nn c))) eqn:ez; [|discriminate]. injection e as <- <-.
      destruct (ax_valid c hv ltac:(lia)) as (v1 & v2 & v3 & v4).
      apply (proj1 (ffin_opp _)) in hx. rewrite fr_opp in h0. assert (h0' : fr (ax_sn c) = 0) by lra.
      assert (vs : fvalid (nsignum FN (vget c 0))).
      { unfold nsignum, FN, f_signum. destruct (f_is_nan _); [reflexivity|]. destruct (f_neg _); reflexivity. }
      unfold ax_sn in hx. destruct (mul_std _ _ vs v2 hx) as (_ & fnrm & _).
      pose proof fnrm as fnrm'. unfold ax_nrm in fnrm'. destruct (sqrt_rel _ v1 fnrm') as (fnsq & hpos & d & hd & enrm). fold (ax_nrm c) in enrm.
      destruct (dot_prd (vget c) (vget c) (length c) ltac:(intros j hj; split; apply hv; auto) fnsq) as (fc & _).
      assert (f0 : ffin (vget c 0)) by (apply (fc 0%nat); lia). destruct (signum_fr _ f0) as (us & _).
      assert (hn0 : fr (ax_nrm c) = 0).
      { unfold ax_sn in h0'. rewrite mul_comm_f in h0'. destruct (mul_unit _ _ v2 us) as (_ & h & _). rewrite h in h0' by auto.
        destruct (unitf_fr _ us) as (_ & _ & _ & h2). nra. }
      destruct (fin0 _ fnrm hn0) as (s1 & e1).
      assert (hq0 : fr (ax_nsq c) = 0).
      { rewrite hn0 in enrm. pose proof (prd_pos _ _ (prd_dlt _ hd)). assert (sqrt (fr (ax_nsq c)) = 0) by nra. apply sqrt_eq_0; auto. }
      destruct (fin0 _ fnsq hq0) as (s2 & e2).
      assert (ez' : nis_zero FN (ax_nn c) = true).
      { unfold ax_nn. rewrite e1, e2, two_f. destruct (vget c 0) as [s|s| |s mm ee]; try discriminate; destruct s, s1, s2; reflexivity. }
      rewrite ez' in ez. discriminate.
    + destruct (axis_float n c v x hn hm hv e hx hr) as (w & [a1 a2 a3 a4 a5 a6 a7 a8 a9]).
      exists w. split; [|discriminate]. constructor; auto.
      apply Rle_trans with (vn (length c) (fun i => if Nat.eqb i 0 then vn (length c) (frv c) - Rabs (fr x) else 0)).
      * apply vn_le. intros i hi. unfold sgf. rewrite a7 by auto. right. destruct (Nat.eqb i 0); f_equal; ring.
      * rewrite vn_single by lia. rewrite Rabs_minus_sym. lra.
  - (* the column counts as zero *)
    assert (hm' : (0 < length c)%nat) by lia.
    rewrite axis_outcome in e by lia. cbv zeta in e. destruct (negb (nis_zero FN (ax_nn c))) eqn:ez; [discriminate|]. injection e as <-.
    apply negb_false_iff in ez. apply is_zero_f in ez. destruct ez as (fnn & enn0).
    destruct (ax_valid c hv ltac:(lia)) as (v1 & v2 & v3 & v4).
    assert (vabs : fvalid (nabs FN (vget c 0))) by (apply fvalid_abs, hv; lia).
    set (prod := nmul FN (nabs FN (vget c 0)) (ax_nrm c)). assert (vprod : fvalid prod) by (apply fvalid_mul; auto).
    set (sum := nadd FN (ax_nsq c) prod). assert (vsum : fvalid sum) by (apply fvalid_add; auto).
    assert (enn : ax_nn c = nmul FN sum (f_of_Z 2)) by (unfold ax_nn; rewrite two_f; reflexivity).
    rewrite enn in fnn, enn0.
    assert (v2f : fvalid (f_of_Z 2)) by reflexivity. destruct (mul_std _ _ vsum v2f fnn) as (fsum & _ & d3 & e3 & hd3 & he3 & ee). rewrite enn0, fr_f2 in ee.
    destruct (add_std _ _ v1 vprod fsum) as (fnsq & fprod & d2 & hd2 & esum). fold sum in esum.
    destruct (mul_std _ _ vabs v2 fprod) as (fa & fnrm & d1 & e1 & hd1 & he1 & eprod). fold prod in eprod. rewrite fr_abs in eprod.
    pose proof fnrm as fnrm'. unfold ax_nrm in fnrm'. destruct (sqrt_rel _ v1 fnrm') as (_ & hpos & d & hd & enrm). fold (ax_nrm c) in enrm.
    set (m := length c) in *.
    destruct (dot_prd (vget c) (vget c) m ltac:(intros j hj; split; apply hv; auto) fnsq) as (fc & D & e & hD & he & ensq).
    change (fr (sumn m (fun i => nmul FN (vget c i) (vget c i)))) with (fr (ax_nsq c)) in ensq.
    set (nsq := fr (ax_nsq c)) in *. set (nrm := fr (ax_nrm c)) in *.
    assert (lo : forall d, dlt d -> 1 - / 1024 <= 1 + d <= 1 + / 1024) by (intros d' h; pose proof (dlt_u d' h) as h'; apply Rabs_le_inv in h'; lra).
    pose proof (lo d hd) as l0. pose proof (lo d1 hd1) as l1. pose proof (lo d2 hd2) as l2. pose proof (lo d3 hd3) as l3.
    assert (hnrm : 0 <= nrm) by (rewrite enrm; apply Rmult_le_pos; [apply sqrt_ge_0|lra]).
    apply Rabs_le_inv in he3. apply Rabs_le_inv in he1.
    assert (hsum : fr sum <= eta) by nra.
    assert (hnp : nsq + fr prod <= 2 * eta) by nra.
    assert (hpr : - eta <= fr prod). { rewrite eprod. pose proof (Rabs_pos (fr (vget c 0))). assert (0 <= Rabs (fr (vget c 0)) * nrm) by nra. nra. }
    assert (hnsq : nsq <= 3 * eta) by lra.
    set (X := frv c). set (S := Rsum m (fun i => X i * X i)). set (Nn := vn m X).
    assert (eNn : Nn * Nn = S) by apply vn_sq. assert (hNn : 0 <= Nn) by apply vn_nonneg. assert (hS : 0 <= S) by (rewrite <- eNn; apply sqn).
    destruct (prd_sum m (fun i => X i * X i) D (Datatypes.S m) ltac:(intros; apply sqn) hD) as (t0 & ht0 & et0).
    fold S in et0. unfold X, frv in et0. rewrite et0 in ensq.
    assert (t0b : / 2 <= t0).
    { eapply Rle_trans; [|apply ht0]. apply Rinv_le; [apply U_pos|]. apply (fits_U n); auto. lia. }
    pose proof (zeta_eta n m hn ltac:(lia)) as hze. pose proof (pos_INR m) as hm0.
    assert (he' : Rabs e <= 2 * (INR m * eta)).
    { eapply Rle_trans; [exact he|]. pose proof (fits_U n m hn ltac:(lia)). pose proof (pow_u_ge1 m). assert (0 <= INR m * eta) by nra. nra. }
    apply Rabs_le_inv in he'.
    assert (hSz : 4 * S <= zeta * zeta) by nra.
    assert (hNz : Nn <= zeta / 2) by nra.
    assert (hnrmz : nrm <= zeta / 2).
    { assert (nrm * nrm = nsq * ((1 + d) * (1 + d))) by (rewrite enrm; rewrite <- (sqrt_sqrt nsq) at 3 by auto; ring).
      assert ((1 + d) * (1 + d) <= 2) by nra. assert (nrm * nrm <= 6 * eta) by nra. nra. }
    assert (f0 : ffin (vget c 0)) by (apply (fc 0%nat); lia). assert (vc0 : fvalid (vget c 0)) by (apply hv; fold m; lia).
    destruct (signum_fr _ f0) as (us & es). destruct (unitf_fr _ us) as (_ & _ & hs & hss).
    assert (esn : fr (ax_sn c) = fr (nsignum FN (vget c 0)) * nrm /\ ffin (ax_sn c)).
    { unfold ax_sn. rewrite mul_comm_f. destruct (mul_unit _ _ v2 us) as (g1 & h & _). split; [rewrite h by auto; unfold nrm; ring|]. apply g1. auto. }
    destruct esn as (esn & fsn).
    assert (hsn : Rabs (fr (ax_sn c)) <= zeta / 2).
    { rewrite esn, Rabs_mult, (Rabs_pos_eq nrm) by auto. destruct hs as [h|h]; rewrite h; [rewrite Rabs_R1|rewrite Rabs_left by lra]; lra. }
    assert (hc0 : Rabs (fr (vget c 0)) <= zeta / 2) by (eapply Rle_trans; [apply (vn_entry m X 0); lia|exact hNz]).
    assert (hz1 : zeta <= 1) by nra.
    assert (hc0s : Rabs (fr (vget c 0) + fr (ax_sn c)) <= zeta) by (eapply Rle_trans; [apply Rabs_triang|]; lra).
    assert (fp0 : ffin (nadd FN (vget c 0) (ax_sn c))).
    { apply add_fin; auto. eapply Rle_trans; [exact hc0s|]. eapply Rle_trans; [exact hz1|]. apply (bpow_le radix2 0). discriminate. }
    destruct (add_std _ _ vc0 v3 fp0) as (_ & _ & d5 & hd5 & ep0). pose proof (lo d5 hd5) as l5.
    exists (fun _ => 0). split; [|auto]. constructor.
    + apply length_vupd.
    + intros i hi. apply (fc i hi).
    + intros i hi. rewrite vget_vupd by (fold m; auto). destruct (Nat.eqb i 0); [split; auto; apply fvalid_add; auto|]. split; [apply hv; auto|apply (fc i hi)].
    + reflexivity.
    + left. reflexivity.
    + right. auto.
    + change (sgf (n0 FN)) with (fr (f_of_Z 1)). rewrite fr_f1. change (fr (n0 FN)) with 0. rewrite Rabs_R0.
      eapply Rle_trans; [right; apply (vn_ext m _ X)|].
      * intros i hi. unfold X. destruct (Nat.eqb i 0); ring.
      * fold X. fold Nn. pose proof (gam_nonneg (m + 3)). assert (0 <= gam (m + 3) * Nn) by (apply Rmult_le_pos; auto). lra.
    + apply Rle_trans with (vn m (fun i => 1 * Rabs (X i) + (if Nat.eqb i 0 then 2 * zeta else 0))).
      * apply vn_le. intros i hi. unfold frv. rewrite vget_vupd by (fold m; auto). rewrite Rminus_0_r. pose proof (Rabs_pos (X i)).
        destruct (Nat.eqb i 0).
        -- rewrite ep0, Rabs_mult, (Rabs_pos_eq (1 + d5)) by lra. pose proof (Rabs_pos (fr (vget c 0) + fr (ax_sn c))). rewrite (Rabs_pos_eq (1 * _ + _)) by lra. nra.
        -- rewrite Rplus_0_r, Rmult_1_l, Rabs_Rabsolu. unfold X, frv. lra.
      * eapply Rle_trans; [apply vn_plus|]. rewrite vn_single by auto. rewrite vn_scal, Rabs_R1, (Rabs_pos_eq (2 * zeta)) by lra.
        pose proof (vn_le m (fun i => Rabs (X i)) X ltac:(intros; cbv beta; rewrite Rabs_Rabsolu; apply Rle_refl)) as hvx. fold Nn in hvx.
        pose proof (gam_ge (2 * m + 15)) as hg. rewrite plus_INR in hg. pose proof (pos_INR (2 * m)). assert (INR 15 = 15) by (simpl; lra). assert (zeta <= uro) by nra. assert (0 <= INR (2 * m) * uro) by (apply Rmult_le_pos; lra). rewrite H0 in hg. nra.
Qed.

(** ** Applying a stored reflection to a column *)
Definition afl (m : nat) (v y : nat -> FN) (i : nat) : FN :=
  nadd FN (y i) (nmul FN (nmul FN (nsub FN (sumn m (fun k => nmul FN (v k) (y k))) (n0 FN)) (nopp FN ntwo)) (v i)).
Lemma afl_valid m v y i : (i < m)%nat -> (forall k, (k < m)%nat -> fvalid (v k)) -> (forall k, (k < m)%nat -> fvalid (y k)) -> fvalid (afl m v y i).
Proof.
  intros hi hv hy. unfold afl. apply fvalid_add; auto. apply fvalid_mul; auto. apply fvalid_mul; [|rewrite two_f; reflexivity].
  apply fvalid_sub; [|reflexivity]. apply sumn_valid. intros. apply fvalid_mul; auto.
Qed.
Definition mirr (m : nat) (w y : nat -> R) (i : nat) : R := y i - 2 * (w i * Rsum m (fun l => w l * y l)).
Lemma mirr_le m w y : Rsum m (fun i => w i * w i) = 1 \/ (forall i, (i < m)%nat -> w i = 0) -> vn m (mirr m w y) <= vn m y.
Proof.
  intros h. apply Rsqr_incr_0_var; [|apply vn_nonneg]. unfold Rsqr. rewrite !vn_sq. right. unfold mirr. set (d := Rsum m (fun l => w l * y l)).
  rewrite (Rsum_ext m _ (fun i => y i * y i + ((- (4 * d)) * (w i * y i) + (4 * (d * d)) * (w i * w i)))) by (intros; ring).
  rewrite !Rsum_plus, !Rsum_scal_l. fold d. destruct h as [h|h].
  - rewrite h. ring.
  - rewrite (Rsum_0 m (fun i => w i * w i)) by (intros i hi; rewrite h by auto; ring).
    assert (d = 0); [|rewrite H; ring]. apply Rsum_0. intros i hi. rewrite h by auto. ring.
Qed.
Lemma w_le1 m w : Rsum m (fun i => w i * w i) = 1 \/ (forall i, (i < m)%nat -> w i = 0) -> vn m w <= 1.
Proof.
  intros [h|h].
  - rewrite (vn_unit m w h). lra.
  - apply Rsqr_incr_0_var; [|lra]. unfold Rsqr. rewrite vn_sq, Rsum_0; [lra|]. intros i hi. rewrite h by auto. ring.
Qed.
Lemma gam_double k : 2 * gam k <= gam (2 * k).
Proof. replace (2 * k)%nat with (k + k)%nat by lia. rewrite <- gam_add. pose proof (gam_nonneg k). nra. Qed.
Lemma U_gam k : U k = 1 + gam k. Proof. unfold gam. ring. Qed.

(** Finiteness of one result makes all inputs finite; the error of the results that are finite *)
Lemma apply_some n m (v y : nat -> FN) (w : nat -> R) sg : fits n -> (0 < m <= n)%nat ->
  (forall i, (i < m)%nat -> fvalid (v i) /\ ffin (v i)) -> (forall i, (i < m)%nat -> fvalid (y i)) -> unitf sg ->
  Rsum m (fun i => w i * w i) = 1 \/ (forall i, (i < m)%nat -> w i = 0) ->
  vn m (fun i => fr (v i) - w i) <= gam (2 * m + 15) ->
  (exists i, (i < m)%nat /\ ffin (nmul FN (afl m v y i) sg)) ->
  (forall i, (i < m)%nat -> ffin (y i)) /\
  vn m (fun i => if BinarySingleNaN.is_finite_SF (nmul FN (afl m v y i) sg) then fr (nmul FN (afl m v y i) sg) - fr sg * mirr m w (fun l => fr (y l)) i else 0) <=
    gam (10 * m + 70) * vn m (fun l => fr (y l)) + (INR m + 1) * (40 * eta).
Proof.
  intros hn hm hv hy hsg hw ha hf. pose proof uro_pos as hu. pose proof eta_pos as hep. pose proof (pos_INR m) as hm0.
  assert (va : forall i, (i < m)%nat -> fvalid (afl m v y i)) by (intros; apply afl_valid; auto; intros; apply hv; auto).
  assert (fa : forall i, (i < m)%nat -> ffin (nmul FN (afl m v y i) sg) -> ffin (afl m v y i)) by (intros i hi h; apply (mul_unit _ sg); auto).
  destruct (unitf_fr sg hsg) as (_ & _ & hs & hss).
  set (Y := fun l => fr (y l)). set (S := sumn m (fun k => nmul FN (v k) (y k))).
  assert (vS : fvalid S) by (apply sumn_valid; intros; apply fvalid_mul; [apply hv|apply hy]; auto).
  set (S1 := nsub FN S (n0 FN)). assert (vS1 : fvalid S1) by (apply fvalid_sub; auto; reflexivity).
  set (f := nmul FN S1 (nopp FN ntwo)). assert (v2 : fvalid (nopp FN ntwo)) by (rewrite two_f; reflexivity). assert (vf : fvalid f) by (apply fvalid_mul; auto).
  assert (H : forall i, (i < m)%nat -> ffin (nmul FN (afl m v y i) sg) -> ffin (y i) /\ ffin f /\ exists d e d', dlt d /\ Rabs e <= eta /\ dlt d' /\
     fr (afl m v y i) = (Y i + (fr f * fr (v i) * (1 + d) + e)) * (1 + d')).
  { intros i hi h0. pose proof (fa i hi h0) as h. unfold afl in h |- *. fold S S1 f in h |- *. destruct (hv i hi) as (vv & fv).
    destruct (add_std _ _ (hy i hi) (fvalid_mul _ _ vf vv) h) as (f1 & f2 & d' & hd' & e1).
    destruct (mul_std _ _ vf vv f2) as (f3 & _ & d & e & hd & he & e2). split; auto. split; auto.
    exists d, e, d'. repeat split; auto. rewrite e1, e2. reflexivity. }
  destruct hf as (i0 & hi0 & hf). destruct (H i0 hi0 hf) as (_ & ff & _).
  destruct (mul_std _ _ vS1 v2 ff) as (fS1 & _ & d1 & e1 & hd1 & he1 & ef).
  destruct (sub_std _ _ vS ltac:(exact fvalid_0) fS1) as (fS & _ & d2 & hd2 & eS1).
  destruct (dot_prd v y m ltac:(intros j hj; split; [apply hv|apply hy]; auto) fS) as (fy & D & e & hD & he & eS). split; [intros i hi; apply (fy i hi)|]. fold S in eS. fold S1 in eS1. fold f in ef.
  assert (e2' : fr (nopp FN ntwo) = -2) by (rewrite fr_opp, two_f, fr_f2; ring). rewrite e2', eS1, fr_0, Rminus_0_r, eS in ef.
  set (del := gam (2 * m + 15)) in *. set (Ny := vn m Y). set (dw := Rsum m (fun l => w l * Y l)).
  assert (hNy : 0 <= Ny) by apply vn_nonneg. assert (hw1 : vn m w <= 1) by (apply w_le1; auto).
  assert (hdw : Rabs dw <= Ny).
  { eapply Rle_trans; [apply vn_dot|]. fold Ny. pose proof (vn_nonneg m w). nra. }
  assert (hvn : vn m (fun i => fr (v i)) <= U (2 * m + 15)).
  { rewrite U_gam. eapply Rle_trans; [right; apply (vn_ext m _ (fun i => w i + (fr (v i) - w i))); intros; ring|].
    eapply Rle_trans; [apply vn_plus|]. unfold del in ha. lra. }
  (* the factor *)
  set (D' := fun l => D l * (1 + d2) * (1 + d1)).
  assert (hD' : forall l, (l < m)%nat -> near (m + 3) (D' l)).
  { intros l hl. apply prd_near. unfold D'. replace (m + 3)%nat with (Datatypes.S m + 1 + 1)%nat by lia. apply prd_mul; [apply prd_mul|]; auto using prd_dlt. }
  assert (U2 : forall k, (k <= 16 * m + 1000)%nat -> U k <= 2) by (intros; apply (fits_U n); auto; lia).
  set (ef' := -2 * e * (1 + d2) * (1 + d1) + e1).
  assert (hef : Rabs ef' <= (16 * INR m + 1) * eta).
  { unfold ef'. eapply Rle_trans; [apply Rabs_triang|]. rewrite !Rabs_mult, (Rabs_left (-2)) by lra.
    pose proof (near_abs _ _ (near_dlt _ hd1)) as g1. pose proof (near_abs _ _ (near_dlt _ hd2)) as g2. rewrite pow_1 in g1, g2. pose proof uro_small.
    pose proof (U2 m ltac:(lia)). pose proof (pow_u_ge1 m). assert (0 <= INR m * eta) by nra. assert (Rabs e <= 2 * (INR m * eta)) by nra.
    pose proof (Rabs_pos e). pose proof (Rabs_pos (1 + d1)). pose proof (Rabs_pos (1 + d2)).
    assert (Rabs (1 + d2) * Rabs (1 + d1) <= 2) by nra.
    assert (Rabs e * (Rabs (1 + d2) * Rabs (1 + d1)) <= 2 * (INR m * eta) * 2) by (apply Rmult_le_compat; auto; apply Rmult_le_pos; auto).
    lra. }
  assert (ef2 : fr f = -2 * Rsum m (fun l => fr (v l) * Y l * D' l) + ef').
  { rewrite ef. unfold ef', D'. rewrite (Rsum_ext m (fun l => fr (v l) * Y l * (D l * (1 + d2) * (1 + d1))) (fun l => (fr (v l) * fr (y l) * D l) * ((1 + d2) * (1 + d1)))) by (intros; unfold Y; ring).
    rewrite Rsum_scal_r. ring. }
  assert (hf2 : Rabs (fr f + 2 * dw) <= 2 * (gam (3 * m + 18) * Ny) + (16 * INR m + 1) * eta).
  { rewrite ef2. replace (-2 * Rsum m (fun l => fr (v l) * Y l * D' l) + ef' + 2 * dw) with (-2 * Rsum m (fun l => (fr (v l) * D' l - w l) * Y l) + ef').
    2:{ rewrite (Rsum_ext m (fun l => (fr (v l) * D' l - w l) * Y l) (fun l => fr (v l) * Y l * D' l - w l * Y l)) by (intros; ring). rewrite Rsum_minus. fold dw. ring. }
    eapply Rle_trans; [apply Rabs_triang|]. apply Rplus_le_compat; auto. rewrite Rabs_mult, (Rabs_left (-2)) by lra.
    replace (- -2) with 2 by ring. apply Rmult_le_compat_l; [lra|]. eapply Rle_trans; [apply (vn_dot m (fun l => fr (v l) * D' l - w l))|]. fold Ny. apply Rmult_le_compat_r; auto.
    eapply Rle_trans; [right; apply (vn_ext m _ (fun l => fr (v l) * (D' l - 1) + (fr (v l) - w l))); intros; ring|].
    eapply Rle_trans; [apply vn_plus|].
    assert (vn m (fun i => fr (v i) * (D' i - 1)) <= gam (m + 3) * U (2 * m + 15)).
    { eapply Rle_trans; [apply (vn_bound m _ (fun i => fr (v i)) (gam (m + 3)) 0)|].
      - apply gam_nonneg.
      - lra.
      - intros i hi. rewrite Rabs_mult, Rplus_0_r, Rmult_comm. apply Rmult_le_compat_r; [apply Rabs_pos|]. apply (hD' i hi).
      - rewrite Rmult_0_r, Rplus_0_r. apply Rmult_le_compat_l; auto. apply gam_nonneg. }
    replace (3 * m + 18)%nat with ((m + 3) + (2 * m + 15))%nat by lia. rewrite <- gam_add. rewrite U_gam in H0. unfold del in ha. lra. }
  set (F := Rabs (fr f + 2 * dw)) in *. assert (hF : 0 <= F) by apply Rabs_pos.
  set (T := mirr m w Y). assert (hT : vn m T <= Ny) by (apply mirr_le; auto).
  apply Rle_trans with (vn m (fun i => (((1 + uro) * (F * (1 + uro) + 2 * Ny * uro)) * Rabs (fr (v i)) + ((1 + uro) * (2 * Ny)) * Rabs (fr (v i) - w i)) + (uro * Rabs (T i) + (1 + uro) * eta))).
  { apply vn_le. intros i hi. destruct (BinarySingleNaN.is_finite_SF (nmul FN (afl m v y i) sg)) eqn:efi; [|rewrite Rabs_R0; apply Rabs_pos].
    destruct (H i hi efi) as (_ & _ & d & ei & d' & hd & hei & hd' & ea).
    destruct (mul_unit _ sg (va i hi) hsg) as (_ & g & _). rewrite (g (fa i hi efi)).
    replace (fr (afl m v y i) * fr sg - fr sg * T i) with (fr sg * (fr (afl m v y i) - T i)) by ring.
    cbv beta. rewrite Rabs_mult. replace (Rabs (fr sg)) with 1 by (destruct hs as [h|h]; rewrite h; [rewrite Rabs_R1|rewrite Rabs_left by lra]; lra).
    rewrite Rmult_1_l. eapply Rle_trans; [|apply Rle_abs]. rewrite ea.
    set (z := Y i + (fr f * fr (v i) * (1 + d) + ei)).
    assert (hz : Rabs (z - T i) <= F * (1 + uro) * Rabs (fr (v i)) + 2 * Ny * (Rabs (fr (v i) - w i) + uro * Rabs (fr (v i))) + eta).
    { replace (z - T i) with ((fr f + 2 * dw) * (fr (v i) * (1 + d)) + ((- (2 * dw)) * ((fr (v i) - w i) + fr (v i) * d) + ei)) by (unfold z, T, mirr; fold dw; ring).
      eapply Rle_trans; [apply Rabs_triang|]. rewrite (Rplus_assoc (F * (1 + uro) * Rabs (fr (v i)))). apply Rplus_le_compat.
      - rewrite !Rabs_mult. fold F. rewrite Rmult_assoc. apply Rmult_le_compat_l; auto. rewrite Rmult_comm. apply Rmult_le_compat_r; [apply Rabs_pos|].
        pose proof (near_abs _ _ (near_dlt _ hd)) as g1. rewrite pow_1 in g1. exact g1.
      - eapply Rle_trans; [apply Rabs_triang|]. apply Rplus_le_compat; auto. rewrite Rabs_mult, Rabs_Ropp, Rabs_mult, (Rabs_pos_eq 2) by lra.
        apply Rmult_le_compat; [pose proof (Rabs_pos dw); lra|apply Rabs_pos|lra|].
        eapply Rle_trans; [apply Rabs_triang|]. apply Rplus_le_compat_l. rewrite Rabs_mult, Rmult_comm. apply Rmult_le_compat_r; [apply Rabs_pos|apply dlt_u; auto]. }
    replace (z * (1 + d') - T i) with ((z - T i) * (1 + d') + T i * d') by ring.
    eapply Rle_trans; [apply Rabs_triang|]. rewrite !Rabs_mult.
    pose proof (near_abs _ _ (near_dlt _ hd')) as g1. rewrite pow_1 in g1. pose proof (dlt_u _ hd') as g2.
    pose proof (Rabs_pos (T i)). pose proof (Rabs_pos (z - T i)). 
    assert (Rabs (z - T i) * Rabs (1 + d') <= Rabs (z - T i) * (1 + uro)) by (apply Rmult_le_compat_l; auto).
    assert (Rabs (T i) * Rabs d' <= Rabs (T i) * uro) by (apply Rmult_le_compat_l; auto).
    assert (Rabs (z - T i) * (1 + uro) <= (F * (1 + uro) * Rabs (fr (v i)) + 2 * Ny * (Rabs (fr (v i) - w i) + uro * Rabs (fr (v i))) + eta) * (1 + uro)) by (apply Rmult_le_compat_r; lra).
    lra. }
  eapply Rle_trans; [apply vn_plus|].
  assert (hab : forall g, vn m (fun i => Rabs (g i)) <= vn m g) by (intros g; apply vn_le; intros; cbv beta; rewrite Rabs_Rabsolu; lra).
  set (Nv := vn m (fun i => fr (v i))) in *. assert (hNv : 0 <= Nv) by apply vn_nonneg.
  assert (p1 : vn m (fun i => ((1 + uro) * (F * (1 + uro) + 2 * Ny * uro)) * Rabs (fr (v i)) + ((1 + uro) * (2 * Ny)) * Rabs (fr (v i) - w i)) <=
    (1 + uro) * (F * (1 + uro) + 2 * Ny * uro) * Nv + (1 + uro) * (2 * Ny) * del).
  { eapply Rle_trans; [apply vn_plus|]. rewrite !vn_scal. rewrite !Rabs_pos_eq by (repeat (apply Rmult_le_pos || apply Rplus_le_le_0_compat); lra).
    apply Rplus_le_compat; apply Rmult_le_compat_l; try (repeat (apply Rmult_le_pos || apply Rplus_le_le_0_compat); lra).
    - apply (hab (fun i => fr (v i))).
    - eapply Rle_trans; [apply (hab (fun i => fr (v i) - w i))|exact ha]. }
  assert (p2 : vn m (fun i => uro * Rabs (T i) + (1 + uro) * eta) <= uro * Ny + INR m * ((1 + uro) * eta)).
  { eapply Rle_trans; [apply vn_plus|]. apply Rplus_le_compat.
    - rewrite vn_scal, (Rabs_pos_eq uro) by lra. apply Rmult_le_compat_l; [lra|]. eapply Rle_trans; [apply hab|exact hT].
    - eapply Rle_trans; [apply vn_const|]. rewrite Rabs_pos_eq by nra. lra. }
  assert (p3 : (1 + uro) * (F * (1 + uro) + 2 * Ny * uro) * Nv <= (1 + uro) * (F * (1 + uro) + 2 * Ny * uro) * U (2 * m + 15)).
  { apply Rmult_le_compat_l; auto. repeat (apply Rmult_le_pos || apply Rplus_le_le_0_compat); lra. }
  assert (p4 : F * ((1 + uro) * (1 + uro) * U (2 * m + 15)) <= 2 * (gam (3 * m + 18) * Ny) * U (2 * m + 17) + (16 * INR m + 1) * eta * 2).
  { assert (e5 : (1 + uro) * (1 + uro) * U (2 * m + 15) = U (2 * m + 17)) by (replace (2 * m + 17)%nat with (Datatypes.S (Datatypes.S (2 * m + 15))) by lia; cbn [pow]; ring).
    rewrite e5. eapply Rle_trans; [apply Rmult_le_compat_r; [apply Rlt_le, U_pos|exact hf2]|]. rewrite Rmult_plus_distr_r. apply Rplus_le_compat_l.
    apply Rmult_le_compat_l; [|apply U2; lia]. apply Rmult_le_pos; lra. }
  pose proof (gam_add (3 * m + 18) (2 * m + 17)) as g1. pose proof (gam_double (5 * m + 35)) as g2.
  replace (3 * m + 18 + (2 * m + 17))%nat with (5 * m + 35)%nat in g1 by lia. replace (2 * (5 * m + 35))%nat with (10 * m + 70)%nat in g2 by lia.
  assert (e6 : (1 + uro) * del + (1 + uro) * uro * U (2 * m + 15) = gam (2 * m + 17) - uro).
  { unfold del, gam. replace (2 * m + 17)%nat with (Datatypes.S (Datatypes.S (2 * m + 15))) by lia. cbn [pow]. ring. }
  rewrite (U_gam (2 * m + 17)) in p4. pose proof uro_small as hus.
  assert (p5 : gam (5 * m + 35) * Ny * 2 <= gam (10 * m + 70) * Ny) by (rewrite (Rmult_comm _ 2), <- Rmult_assoc; apply Rmult_le_compat_r; auto).
  assert (p6 : 2 * Ny * ((1 + uro) * del + (1 + uro) * uro * U (2 * m + 15)) = 2 * Ny * (gam (2 * m + 17) - uro)) by (rewrite e6; reflexivity).
  assert (p7 : gam (5 * m + 35) * Ny = (gam (3 * m + 18) + gam (2 * m + 17) + gam (3 * m + 18) * gam (2 * m + 17)) * Ny) by (rewrite g1; reflexivity).
  assert (p8 : INR m * ((1 + uro) * eta) <= INR m * (2 * eta)) by (apply Rmult_le_compat_l; auto; apply Rmult_le_compat_r; lra).
  assert (p9 : 0 <= uro * Ny) by (apply Rmult_le_pos; lra).
  assert (p10 : 0 <= INR m * eta) by (apply Rmult_le_pos; lra). fold Y. fold Ny. lra.
Qed.

Lemma apply_float n m (v y : nat -> FN) (w : nat -> R) sg : fits n -> (0 < m <= n)%nat ->
  (forall i, (i < m)%nat -> fvalid (v i) /\ ffin (v i)) -> (forall i, (i < m)%nat -> fvalid (y i)) -> unitf sg ->
  Rsum m (fun i => w i * w i) = 1 \/ (forall i, (i < m)%nat -> w i = 0) ->
  vn m (fun i => fr (v i) - w i) <= gam (2 * m + 15) ->
  (forall i, (i < m)%nat -> ffin (nmul FN (afl m v y i) sg)) ->
  (forall i, (i < m)%nat -> ffin (y i)) /\
  vn m (fun i => fr (nmul FN (afl m v y i) sg) - fr sg * mirr m w (fun l => fr (y l)) i) <=
    gam (10 * m + 70) * vn m (fun l => fr (y l)) + (INR m + 1) * (40 * eta).
Proof.
  intros hn hm hv hy hsg hw ha hf. destruct (apply_some n m v y w sg hn hm hv hy hsg hw ha) as (g1 & g2).
  { exists 0%nat. split; [lia|]. apply hf. lia. }
  split; auto. eapply Rle_trans; [|exact g2]. right. apply vn_ext. intros i hi. rewrite (hf i hi). reflexivity.
Qed.

(** ** What clear_column computes, for any scalars *)
Section Generic.
Context {N : Num}.
Open Scope res_scope.
Lemma clear_column_outcome (m : mat N) i s m' x : (i + s < nr m)%nat -> (i < nc m)%nat -> clear_column m i s = Ret (m', x) ->
  exists v o, reflection_axis_mut (vmk (nr m - (i + s)) (fun p => get m (i + s + p)%nat i)) = Ret (v, o) /\ length v = (nr m - (i + s))%nat /\
    x = match o with Some x => x | None => n0 N end /\ nr m' = nr m /\ nc m' = nc m /\
    forall p q, (p < nr m)%nat -> (q < nc m)%nat -> get m' p q =
      if Nat.ltb p (i + s) then get m p q else if Nat.ltb q i then get m p q else if Nat.eqb q i then vget v (p - (i + s))
      else match o with
           | Some x => nmul N (refl_entry (vget v) (n0 N) (nr m - (i + s)) (fun a b => get m (i + s + a)%nat b) (p - (i + s)) q) (nsignum N x)
           | None => get m p q
           end.
Proof.
  intros hk hi. unfold clear_column. set (k := (i + s)%nat) in *. intros e.
  destruct (wp_ret (let* ax := col_from m k i in Ret ax) (fun ax => ax = vmk (nr m - k) (fun p => get m (k + p)%nat i))) as (ax & eax & ->).
  { step1. apply post_col_from; try lia. step1. reflexivity. }
  destruct (col_from m k i) as [ax| | | |] eqn:ec; try discriminate. cbn [bind] in eax. injection eax as ->. cbn [bind] in e.
  set (c := vmk (nr m - k) (fun p => get m (k + p)%nat i)) in *. assert (lc : length c = (nr m - k)%nat) by apply length_vmk.
  destruct (wp_ret _ _ (reflection_axis_ok c ltac:(lia))) as ([v o] & er & hv). cbn [fst] in hv. rewrite er in e. cbn [bind] in e.
  exists v, o. split; auto. split; [lia|]. set (m1 := put_col m k i v) in *.
  assert (hm1 : forall p q, (p < nr m)%nat -> (q < nc m)%nat -> get m1 p q = if (Nat.leb k p && Nat.eqb q i)%bool then vget v (p - k) else get m p q).
  { intros p q hp hq. unfold m1. rewrite get_put_col by auto. bd; auto. }
  destruct o as [y|].
  - assert (e' : wp (let* refl_rows := slice m1 k (nr m1) (i + 1) (nc m1) in let* refl_rows0 := reflect_cols (Refl v (n0 N)) refl_rows in
        Ret (put m1 k (i + 1) (mscale refl_rows0 (nsignum N y)), y)) (fun r => snd r = y /\ nr (fst r) = nr m /\ nc (fst r) = nc m /\
        forall p q, (p < nr m)%nat -> (q < nc m)%nat -> get (fst r) p q =
          if Nat.ltb p k then get m p q else if Nat.ltb q i then get m p q else if Nat.eqb q i then vget v (p - k)
          else nmul N (refl_entry (vget v) (n0 N) (nr m - k) (fun a b => get m (k + a)%nat b) (p - k) q) (nsignum N y))).
    { unfold m1 at 2 3. step1. apply post_slice; unfold m1; dims; try lia. fold m1.
      step1. eapply post_mono; [apply reflect_cols_ok; dims; simpl; lia|].
      intros z (y1 & y2 & y3). apply post_ret. cbn [fst snd]. dims. cbn [axis bias] in y3. repeat split; auto.
      intros p q hp hq. rewrite get_put by auto. dims. rewrite y1, y2.
      destruct (Nat.ltb_spec p k).
      { bd; rewrite hm1 by auto; bd; auto. }
      destruct (Nat.ltb_spec q i); [bd; rewrite hm1 by auto; bd; auto|].
      destruct (Nat.eqb_spec q i); [bd; rewrite hm1 by auto; bd; auto|].
      bd. rewrite get_mscale by lia. f_equal. rewrite y3 by lia. unfold refl_entry. rewrite get_mk by lia.
      rewrite hm1 by lia. bd. replace (i + 1 + (q - (i + 1)))%nat with q by lia. f_equal. f_equal. f_equal. f_equal.
      apply sumn_ext. intros a ha. rewrite get_mk by lia. rewrite hm1 by lia. bd. replace (i + 1 + (q - (i + 1)))%nat with q by lia. reflexivity. }
    rewrite e in e'. cbn [wp post fst snd] in e'. destruct e' as (-> & e1 & e2 & e3). repeat split; auto.
  - injection e as <- <-. split; auto. split; [reflexivity|]. split; [reflexivity|]. intros p q hp hq. rewrite hm1 by auto.
    destruct (Nat.ltb_spec p k); [bd; auto|]. destruct (Nat.ltb_spec q i); [bd; auto|]. destruct (Nat.eqb_spec q i); bd; auto.
Qed.
End Generic.

(** ** One step on whole columns *)
Definition omega : R := 2 * zeta.
Lemma omega_pos : 0 < omega. Proof. unfold omega. pose proof zeta_pos. lra. Qed.
Lemma omega_eta n m : fits n -> (m <= n)%nat -> (INR m + 1) * (40 * eta) <= zeta.
Proof. intros h hm. pose proof (zeta_eta n m h hm). pose proof zeta_pos. pose proof zeta_le. pose proof uro_1024. pose proof uro_pos. assert (zeta <= 1) by nra. pose proof (pos_INR m). pose proof eta_pos. assert (0 <= (INR m + 1) * eta) by nra. nra. Qed.
(** [hh k s w] applied to a column *)
Definition happ (n k : nat) (s : R) (w X : nat -> R) (p : nat) : R :=
  if Nat.ltb p k then X p else s * (X p - 2 * (w p * Rsum n (fun l => w l * X l))).
Definition wfull (k : nat) (w : nat -> R) (p : nat) : R := if Nat.ltb p k then 0 else w (p - k)%nat.
Lemma vn_shift n k f : (k <= n)%nat -> (forall p, (p < k)%nat -> f p = 0) -> vn n f = vn (n - k) (fun p => f (k + p)%nat).
Proof.
  intros hk h0. apply Rsqr_inj; try apply vn_nonneg. unfold Rsqr. rewrite !vn_sq.
  rewrite (Rsum_ext n _ (fun l => if Nat.leb k l then f l * f l else 0)).
  - rewrite Rsum_if_ge by auto. reflexivity.
  - intros l hl. destruct (Nat.leb_spec k l); auto. rewrite h0 by lia. ring.
Qed.
Lemma vn_tail n k f : (k <= n)%nat -> vn (n - k) (fun p => f (k + p)%nat) <= vn n f.
Proof.
  intros hk. rewrite <- (vn_ext (n - k) (fun p => (fun q => if Nat.ltb q k then 0 else f q) (k + p)%nat)).
  - rewrite <- (vn_shift n k (fun q => if Nat.ltb q k then 0 else f q)); auto.
    + apply vn_le. intros i hi. destruct (Nat.ltb i k); [rewrite Rabs_R0; apply Rabs_pos|lra].
    + intros p hp. bd. reflexivity.
  - intros i hi. cbv beta. bd. reflexivity.
Qed.
Lemma wfull_sum n k w X : (k <= n)%nat -> Rsum n (fun l => wfull k w l * X l) = Rsum (n - k) (fun l => w l * X (k + l)%nat).
Proof.
  intros hk. apply Rsum_shift; auto; intros p hp; unfold wfull; bd; auto.
Qed.
Lemma happ_mirr n k s w X p : (k <= n)%nat -> happ n k s (wfull k w) X (k + p) = s * mirr (n - k) w (fun l => X (k + l)%nat) p.
Proof.
  intros hk. unfold happ, mirr. bd. rewrite wfull_sum by auto. unfold wfull. bd. replace (k + p - k)%nat with p by lia. reflexivity.
Qed.

Record cstep (n c : nat) (m m' : mat FN) (i : nat) (x : FN) (w : nat -> R) : Prop := {
  cs_nr : nr m' = n;
  cs_nc : nc m' = c;
  cs_valid : mvalid m';
  cs_left : forall p q, (p < n)%nat -> (q < c)%nat -> (p < i \/ q < i)%nat -> get m' p q = get m p q;
  cs_fin : forall p q, (i <= p < n)%nat -> (i <= q < c)%nat -> ffin (get m p q);
  cs_axis : forall p, (i <= p < n)%nat -> ffin (get m' p i);
  cs_xval : fvalid x;
  cs_unit : unitf (nsignum FN x);
  cs_w0 : forall p, (p < i)%nat -> w p = 0;
  cs_w : Rsum n (fun p => w p * w p) = 1 \/ (forall p, (p < n)%nat -> w p = 0);
  cs_waxis : vn (n - i) (fun p => frm m' (i + p)%nat i - w (i + p)%nat) <= gam (2 * (n - i) + 15);
  cs_col : forall q, (i < q < c)%nat ->
    vn n (fun p => frm m' p q - happ n i (sgf x) w (fun l => frm m l q) p) <= gam (10 * n + 70) * vn n (fun l => frm m l q) + omega;
  cs_cleared :
    vn n (fun p => (if Nat.ltb p i then frm m p i else if Nat.eqb p i then Rabs (fr x) else 0) - happ n i (sgf x) w (fun l => frm m l i) p)
      <= gam (10 * n + 70) * vn n (fun l => frm m l i) + omega
}.

Lemma clear_float (m m' : mat FN) i x : fits (nr m) -> (i < nr m)%nat -> (i < nc m)%nat -> mvalid m ->
  clear_column m i 0 = Ret (m', x) -> diag_ok x ->
  (forall p q, (i <= p < nr m)%nat -> (i < q < nc m)%nat -> ffin (get m' p q)) ->
  exists w, cstep (nr m) (nc m) m m' i x w.
Proof.
  intros hn hi hic hv e hx hf. set (n := nr m) in *. set (c := nc m) in *.
  destruct (clear_column_outcome m i 0 m' x ltac:(rewrite Nat.add_0_r; auto) hic e) as (v & o & er & lv & ex & h1 & h2 & h3).
  rewrite Nat.add_0_r in *. fold n c in lv, er, h1, h2, h3. set (cl := vmk (n - i) (fun p => get m (i + p)%nat i)) in *.
  assert (lc : length cl = (n - i)%nat) by apply length_vmk.
  assert (gc : forall p, (p < n - i)%nat -> vget cl p = get m (i + p)%nat i) by (intros p hp; unfold cl; rewrite vget_vmk by auto; reflexivity).
  assert (vc : vvalid cl) by (intros p hp; rewrite lc in hp; rewrite gc by auto; apply hv; fold n c; lia).
  rewrite ex in hx. destruct (step_float n cl v o hn ltac:(lia) vc er hx) as (w & [s1 s2 s3 s4 s5 s6 s7 s8] & so). rewrite lc in *. rewrite <- ex in *.
  set (k := (n - i)%nat) in *. assert (hkn : (i <= n)%nat) by lia.
  assert (hvl : forall p q, (p < n)%nat -> (q < c)%nat -> fvalid (get m' p q)).
  { intros p q hp hq. rewrite h3 by auto. pose proof (hv p q hp hq). destruct (Nat.ltb_spec p i); auto. destruct (Nat.ltb_spec q i); auto.
    destruct (Nat.eqb_spec q i); [apply s3; unfold k; lia|]. destruct o as [y|]; auto. apply fvalid_mul.
    - apply (afl_valid k (vget v) (fun a => get m (i + a)%nat q) (p - i)); [unfold k; lia|intros; apply s3; auto|intros; apply hv; fold n c; unfold k in *; lia].
    - destruct (unitf_fr _ s5) as (g & _). rewrite ex in g. exact g. }
  pose proof (omega_eta n k hn ltac:(unfold k; lia)) as hom. pose proof zeta_pos as hz.
  assert (hK : forall f, gam (10 * k + 70) * vn k (fun l => f (i + l)%nat) <= gam (10 * n + 70) * vn n f).
  { intros f. apply Rmult_le_compat; [apply gam_nonneg|apply vn_nonneg|apply gam_mono; unfold k; lia|apply vn_tail; auto]. }
  (* trailing columns *)
  assert (hcol : forall q, (i < q < c)%nat -> (forall p, (i <= p < n)%nat -> ffin (get m p q)) /\
     vn n (fun p => frm m' p q - happ n i (sgf x) (wfull i w) (fun l => frm m l q) p) <= gam (10 * n + 70) * vn n (fun l => frm m l q) + omega).
  { intros q hq. destruct o as [y|].
    - set (yy := fun a => get m (i + a)%nat q).
      assert (eg : forall p, (p < k)%nat -> get m' (i + p)%nat q = nmul FN (afl k (vget v) yy p) (nsignum FN y)).
      { intros p hp. rewrite h3 by (unfold k in hp; lia). bd. replace (i + p - i)%nat with p by lia. reflexivity. }
      destruct (apply_float n k (vget v) yy w (nsignum FN y)) as (g1 & g2); auto.
      + unfold k; lia.
      + intros p hp. apply hv; fold n c; unfold k in hp; lia.
      + rewrite ex in s5. exact s5.
      + intros p hp. rewrite <- eg by auto. apply hf; unfold k in hp; lia.
      + split; [intros p hp; replace p with (i + (p - i))%nat by lia; apply g1; unfold k; lia|].
        rewrite (vn_shift n i) by (auto; intros p hp; unfold happ, frm; rewrite h3 by lia; bd; ring). fold k.
        eapply Rle_trans; [right; apply (vn_ext k _ (fun p => fr (nmul FN (afl k (vget v) yy p) (nsignum FN y)) - fr (nsignum FN y) * mirr k w (fun l => fr (yy l)) p))|].
        * intros p hp. rewrite happ_mirr by auto. unfold frm. rewrite eg by auto. unfold sgf. rewrite ex. reflexivity.
        * eapply Rle_trans; [exact g2|]. specialize (hK (fun l => frm m l q)). unfold omega. unfold frm in hK |- *. change (vn k (fun l => fr (get m (i + l)%nat q))) with (vn k (fun l => fr (yy l))) in hK. lra.
    - assert (hw : forall p, w p = 0) by auto.
      split. { intros p hp. specialize (hf p q hp hq). rewrite h3 in hf by lia. revert hf. bd. auto. }
      eapply Rle_trans; [right; apply (vn_ext n _ (fun _ => 0))|].
      + intros p hp. unfold frm. rewrite h3 by lia. unfold happ, wfull. rewrite ex. change (sgf (n0 FN)) with (fr (f_of_Z 1)). rewrite fr_f1.
        rewrite (Rsum_0 n) by (intros; rewrite hw; destruct (Nat.ltb _ _); ring). bd; ring.
      + pose proof (vn_const n 0) as g. rewrite Rabs_R0, Rmult_0_r in g. pose proof (gam_nonneg (10 * n + 70)). pose proof (vn_nonneg n (fun l => frm m l q)). pose proof omega_pos.
        assert (0 <= gam (10 * n + 70) * vn n (fun l => frm m l q)) by (apply Rmult_le_pos; auto). lra. }
  exists (wfull i w). constructor; auto.
  - intros p q. rewrite h1, h2. auto.
  - intros p q hp hq ho. rewrite h3 by auto. bd; auto.
  - intros p q hp hq. destruct (Nat.eq_dec q i) as [->|]; [|apply hcol; lia].
    replace p with (i + (p - i))%nat by lia. rewrite <- gc by lia. apply s2. unfold k. lia.
  - intros p hp. rewrite h3 by lia. bd. apply s3. unfold k. lia.
  - intros p hp. unfold wfull. bd. reflexivity.
  - destruct s6 as [h|h]; [left|right].
    + rewrite wfull_sum by auto. fold k. rewrite <- h. apply Rsum_ext. intros p hp. unfold wfull. bd. replace (i + p - i)%nat with p by lia. reflexivity.
    + intros p hp. unfold wfull. bd; auto. apply h. unfold k. lia.
  - fold k. eapply Rle_trans; [|exact s8]. right. apply vn_ext. intros p hp. unfold frm, frv, wfull. rewrite h3 by (unfold k in hp; lia). bd. replace (i + p - i)%nat with p by lia. reflexivity.
  - intros q hq. apply hcol; auto.
  - rewrite (vn_shift n i) by (auto; intros p hp; unfold happ; bd; ring). fold k.
    eapply Rle_trans; [right; apply (vn_ext k _ (fun p => -1 * (sgf x * (frv cl p - 2 * (w p * Rsum k (fun l => w l * frv cl l))) - (if Nat.eqb p 0 then Rabs (fr x) else 0))))|].
    + intros p hp. rewrite happ_mirr by auto. fold k. unfold mirr, frm, frv. rewrite gc by auto.
      rewrite (Rsum_ext k (fun l => w l * fr (vget cl l)) (fun l => w l * fr (get m (i + l)%nat i))) by (intros l hl; rewrite gc by auto; reflexivity).
      bd; ring.
    + rewrite vn_scal, Rabs_left by lra. replace (- (-1)) with 1 by ring. rewrite Rmult_1_l. eapply Rle_trans; [exact s7|].
      specialize (hK (fun l => frm m l i)). unfold omega.
      assert (vn k (frv cl) = vn k (fun l => frm m (i + l)%nat i)) by (apply vn_ext; intros p hp; unfold frv, frm; rewrite gc by auto; reflexivity).
      rewrite H. pose proof (gam_mono (k + 3) (10 * k + 70) ltac:(lia)). pose proof (vn_nonneg k (fun l => frm m (i + l)%nat i)).
      assert (gam (k + 3) * vn k (fun l => frm m (i + l)%nat i) <= gam (10 * k + 70) * vn k (fun l => frm m (i + l)%nat i)) by (apply Rmult_le_compat_r; auto). lra.
Qed.
