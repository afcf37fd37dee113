(** * Rotating the columns of an almost orthogonal binary64 matrix *)
From Coq Require Import Reals List Arith Lia Lra Bool ZArith Setoid Morphisms.
From Coq.Floats Require Import SpecFloat.
From Flocq Require Import Core BinarySingleNaN.
From Verif Require Import Scalar Arr MBase MDirect MDecomp MEigh Inst Hoare Spec SpecF SpecH RLin PTri PHouse PQR PTrid PGivens PEigh PEighR PRound PHouseF PCholG PTrdF PBidF PTrdG PSvdR PBidG PApx PGivF.
Import ListNotations.
Local Open Scope R_scope.

(** q consists of finite numbers and is within d of an orthogonal matrix *)
Definition qnear (n : nat) (q : mat FN) (d : R) : Prop :=
  (forall i j, (i < n)%nat -> (j < n)%nat -> fokx (get q i j)) /\ exists W, orthogonal n W /\ frob n n (msub (frm q) W) <= d.
Lemma qnear_weak n q d d' : d <= d' -> qnear n q d -> qnear n q d'.
Proof. intros h (h1 & W & h2 & h3). split; auto. exists W. split; auto. lra. Qed.

Lemma mul_rot (a c : FN) C : fokx a -> Rabs (fr a) <= 2 -> apx c C 1 6 ->
  (fokx (nmul FN a c) /\ Rabs (fr (nmul FN a c) - fr a * C) <= 8 * uro * Rabs (fr a) + eta) /\
  (fokx (nmul FN c a) /\ Rabs (fr (nmul FN c a) - C * fr a) <= 8 * uro * Rabs (fr a) + eta).
Proof.
  intros ha ba hc. pose proof (apx_abs _ _ _ _ hc) as bc. destruct hc as [c1 c2 c3 c4 c5].
  pose proof uro_pos as hu. pose proof uro_1024 as hu1. pose proof (Rabs_pos (fr a)) as pa. pose proof (Rabs_pos (fr c)) as pc.
  assert (hb : 4 <= bpow radix2 1023) by (change 4 with (bpow radix2 2); apply bpow_le; lia).
  assert (bc2 : Rabs (fr c) <= 2) by lra.
  assert (hp : Rabs (fr a) * Rabs (fr c) <= 4) by (replace 4 with (2 * 2) by ring; apply Rmult_le_compat; auto).
  assert (hx : Rabs (fr a * fr c - fr a * C) <= 6 * uro * Rabs (fr a)).
  { replace (fr a * fr c - fr a * C) with (fr a * (fr c - C)) by ring. rewrite Rabs_mult. assert (Rabs (fr a) * Rabs (fr c - C) <= Rabs (fr a) * (6 * uro * 1)) by (apply Rmult_le_compat_l; auto). lra. }
  assert (hy : uro * (Rabs (fr a) * Rabs (fr c)) <= 2 * uro * Rabs (fr a)) by (replace (2 * uro * Rabs (fr a)) with (uro * (Rabs (fr a) * 2)) by ring; apply Rmult_le_compat_l; [lra|]; apply Rmult_le_compat_l; auto).
  destruct (mul_err a c ha c1 ltac:(lra)) as (k1 & k2). destruct (mul_err c a c1 ha ltac:(lra)) as (k3 & k4).
  split; (split; [assumption|]).
  - replace (fr (nmul FN a c) - fr a * C) with ((fr (nmul FN a c) - fr a * fr c) + (fr a * fr c - fr a * C)) by ring.
    eapply Rle_trans; [apply Rabs_triang|]. lra.
  - replace (fr (nmul FN c a) - C * fr a) with ((fr (nmul FN c a) - fr c * fr a) + (fr a * fr c - fr a * C)) by ring.
    eapply Rle_trans; [apply Rabs_triang|]. rewrite (Rmult_comm (Rabs (fr c))) in k4. lra.
Qed.
Lemma add_rot (x y : FN) X Y A B : fokx x -> fokx y -> Rabs X <= A -> Rabs Y <= B -> A <= 2 -> B <= 2 ->
  Rabs (fr x - X) <= 8 * uro * A + eta -> Rabs (fr y - Y) <= 8 * uro * B + eta ->
  fokx (nadd FN x y) /\ Rabs (fr (nadd FN x y) - (X + Y)) <= 10 * uro * (A + B) + 3 * eta.
Proof.
  intros hx hy hX hY hA hB ex ey. pose proof uro_pos as hu. pose proof uro_1024 as hu1. pose proof eta_u as he. pose proof eta_pos as he0.
  pose proof (Rabs_pos X). pose proof (Rabs_pos Y).
  assert (bx : Rabs (fr x) <= A + 8 * uro * A + eta).
  { replace (fr x) with (X + (fr x - X)) by ring. eapply Rle_trans; [apply Rabs_triang|]. lra. }
  assert (by_ : Rabs (fr y) <= B + 8 * uro * B + eta).
  { replace (fr y) with (Y + (fr y - Y)) by ring. eapply Rle_trans; [apply Rabs_triang|]. lra. }
  assert (hb : 8 <= bpow radix2 1023) by (change 8 with (bpow radix2 3); apply bpow_le; lia).
  assert (sA : 8 * uro * A <= / 2 * A) by nra. assert (sB : 8 * uro * B <= / 2 * B) by nra.
  destruct (add_err x y hx hy ltac:(lra)) as (k1 & k2). split; auto.
  replace (fr (nadd FN x y) - (X + Y)) with ((fr (nadd FN x y) - (fr x + fr y)) + ((fr x - X) + (fr y - Y))) by ring.
  eapply Rle_trans; [apply Rabs_triang|]. pose proof (Rabs_triang (fr x - X) (fr y - Y)).
  assert (uro * (Rabs (fr x) + Rabs (fr y)) <= uro * (3 / 2 * (A + B) + 2 * eta)) by (apply Rmult_le_compat_l; lra).
  assert (uro * (2 * eta) <= eta) by nra. nra.
Qed.

Lemma frob_cols r c E e : 0 <= e -> (forall j, (j < c)%nat -> vn r (fun i => E i j) <= e) -> frob r c E <= sqrt (INR c) * e.
Proof.
  intros he h. apply Rsqr_incr_0_var; [|apply Rmult_le_pos; auto; apply sqrt_pos]. unfold Rsqr.
  replace (sqrt (INR c) * e * (sqrt (INR c) * e)) with ((sqrt (INR c) * sqrt (INR c)) * (e * e)) by ring. rewrite sqrt_sqrt by apply pos_INR.
  rewrite frob_sq, <- (frob2_tr c r). unfold frob2. rewrite <- (Rsum_const c (e * e)). apply Rsum_le. intros j hj.
  change (Rsum r (fun i => mtr E j i * mtr E j i)) with (Rsum r (fun i => E i j * E i j)). rewrite <- (vn_sq r (fun i => E i j)). pose proof (vn_nonneg r (fun i => E i j)). pose proof (h j hj). apply Rmult_le_compat; auto.
Qed.
(** The two columns of a rotated matrix *)
Lemma two_cols n c (E : M) t : (c + 1 < n)%nat -> 0 <= t ->
  (forall i j, (i < n)%nat -> (j < n)%nat -> j <> c -> j <> (c + 1)%nat -> E i j = 0) ->
  vn n (fun i => E i c) <= t -> vn n (fun i => E i (c + 1)%nat) <= t -> frob n n E <= 2 * t.
Proof.
  intros hc ht h0 h1 h2. rewrite frob_vn.
  apply Rle_trans with (vn n (fun q => t * dlta c q + t * dlta (c + 1) q)).
  - apply vn_le. intros q hq. rewrite (Rabs_pos_eq (vn _ _)) by apply vn_nonneg. rewrite Rabs_pos_eq.
    + unfold dlta. destruct (Nat.eqb_spec q c) as [->|]; [destruct (Nat.eqb_spec c (c + 1)); [lia|lra]|]. destruct (Nat.eqb_spec q (c + 1)) as [->|]; [lra|].
      rewrite (vn_ext n _ (fun _ => 0 * 0)) by (intros i hi; rewrite h0 by auto; ring). rewrite (vn_scal n 0 (fun _ => 0)). rewrite Rabs_R0. lra.
    + unfold dlta. destruct (Nat.eqb q c), (Nat.eqb q (c + 1)); lra.
  - eapply Rle_trans; [apply vn_plus|]. rewrite !vn_scal, !vn_dlta, Rabs_pos_eq by (lia || lra). lra.
Qed.

Lemma rot_qnear (g : givens FN) (q q' : mat FN) n c d C S : (c + 1 < n)%nat -> INR n * eta <= uro -> d <= 1 ->
  apx (MBase.rc g) C 1 6 -> apx (MBase.rs g) S 1 6 -> C * C + S * S = 1 -> qnear n q d ->
  (forall i j, (i < n)%nat -> (j < n)%nat -> get q' i j =
      if Nat.eqb j c then nadd FN (nmul FN (get q i c) (MBase.rc g)) (nmul FN (MBase.rs g) (get q i (c + 1)))
      else if Nat.eqb j (c + 1) then nadd FN (nmul FN (nopp FN (MBase.rs g)) (get q i c)) (nmul FN (get q i (c + 1)) (MBase.rc g))
      else get q i j) -> qnear n q' (d + 90 * uro).
Proof.
  intros hc hne hd aC aS hCS (hq & W & hW & hb) hq'. pose proof hW as (w1 & w2).
  pose proof uro_pos as hu. pose proof uro_1024 as hu1. pose proof eta_pos as he0.
  assert (hC1 : Rabs C <= 1) by (destruct aC; auto). assert (hS1 : Rabs S <= 1) by (destruct aS; auto).
  assert (hcol : forall j, (j < n)%nat -> vn n (fun i => frm q i j) <= 2).
  { intros j hj. apply Rle_trans with (vn n (fun i => msub (frm q) W i j + W i j)); [right; apply vn_ext; intros; unfold msub; ring|].
    eapply Rle_trans; [apply vn_plus|]. assert (e1 : vn n (fun i => W i j) = 1).
    { apply vn_unit. specialize (w1 j j hj hj). unfold mmul, mtr, mid in w1. rewrite Nat.eqb_refl in w1. exact w1. }
    rewrite e1. assert (vn n (fun i => msub (frm q) W i j) <= d); [|lra]. eapply Rle_trans; [|exact hb]. apply (PBidG.vn_col_frob n n (msub (frm q) W) j hj). }
  assert (hent : forall i j, (i < n)%nat -> (j < n)%nat -> Rabs (fr (get q i j)) <= 2).
  { intros i j hi hj. eapply Rle_trans; [|apply (hcol j hj)]. apply (vn_entry n (fun i => frm q i j) i hi). }
  assert (aSo := apx_opp _ _ _ _ aS).
  assert (hmul : forall a Z, Rabs a <= 2 -> Rabs Z <= 1 -> Rabs (a * Z) <= Rabs a).
  { intros a Z ha hZ. rewrite Rabs_mult. pose proof (Rabs_pos a). nra. }
  assert (hmul' : forall a Z, Rabs a <= 2 -> Rabs Z <= 1 -> Rabs (Z * a) <= Rabs a) by (intros; rewrite Rmult_comm; auto).
  assert (h0 : forall i, (i < n)%nat -> let a := get q i c in let b := get q i (c + 1) in
    fokx (get q' i c) /\ Rabs (fr (get q' i c) - (fr a * C + S * fr b)) <= 10 * uro * (Rabs (fr a) + Rabs (fr b)) + 3 * eta).
  { intros i hi a b. rewrite hq' by lia. rewrite Nat.eqb_refl.
    destruct (mul_rot a (MBase.rc g) C (hq i c hi ltac:(lia)) (hent i c hi ltac:(lia)) aC) as ((k1 & k2) & _).
    destruct (mul_rot b (MBase.rs g) S (hq i (c + 1)%nat hi ltac:(lia)) (hent i (c + 1)%nat hi ltac:(lia)) aS) as (_ & (k3 & k4)).
    apply add_rot; auto; apply hmul || apply hmul' || idtac; auto; apply hent; lia. }
  assert (h1 : forall i, (i < n)%nat -> let a := get q i c in let b := get q i (c + 1) in
    fokx (get q' i (c + 1)) /\ Rabs (fr (get q' i (c + 1)) - (- S * fr a + fr b * C)) <= 10 * uro * (Rabs (fr a) + Rabs (fr b)) + 3 * eta).
  { intros i hi a b. rewrite hq' by lia. rewrite Nat.eqb_refl. destruct (Nat.eqb_spec (c + 1) c); [lia|].
    destruct (mul_rot a (nopp FN (MBase.rs g)) (- S) (hq i c hi ltac:(lia)) (hent i c hi ltac:(lia)) aSo) as (_ & (k1 & k2)).
    destruct (mul_rot b (MBase.rc g) C (hq i (c + 1)%nat hi ltac:(lia)) (hent i (c + 1)%nat hi ltac:(lia)) aC) as ((k3 & k4) & _).
    apply add_rot; auto; try (apply hent; lia); [apply hmul'|apply hmul]; auto; try (apply hent; lia). rewrite Rabs_Ropp; auto. }
  split.
  { intros i j hi hj. destruct (Nat.eq_dec j c) as [->|n1]; [apply h0; auto|]. destruct (Nat.eq_dec j (c + 1)) as [->|n2]; [apply h1; auto|].
    rewrite hq' by auto. bd. auto. }
  set (G := mtr (gm c (c + 1) C (- S))).
  assert (hg : orthogonal n (gm c (c + 1) C (- S))) by (apply gm_orthogonal; try lia; lra).
  assert (hG : orthogonal n G) by (destruct hg as (g1 & g2); split; unfold G; rewrite mtr_mtr; auto).
  exists (mmul n W G). split; [apply orthogonal_mul; auto|].
  assert (eb : frob n n (mmul n (msub (frm q) W) G) <= d).
  { unfold G. rewrite (PSvdR.frob_ocols_r n n n (gm c (c + 1) C (- S))); [exact hb|]. apply hg. }
  set (E := msub (frm q') (mmul n (frm q) G)).
  assert (eE : forall i j, (i < n)%nat -> (j < n)%nat -> E i j = fr (get q' i j) -
    (if Nat.eqb j c then fr (get q i c) * C + S * fr (get q i (c + 1)) else if Nat.eqb j (c + 1) then - S * fr (get q i c) + fr (get q i (c + 1)) * C else fr (get q i j))).
  { intros i j hi hj. unfold E, msub, G. rewrite gm_apply_r by (auto; lia). unfold frm. bd; ring. }
  assert (hcn : forall f : nat -> R, (forall i, (i < n)%nat -> Rabs (f i) <= 10 * uro * (Rabs (fr (get q i c)) + Rabs (fr (get q i (c + 1)))) + 3 * eta) -> vn n f <= 40 * uro + 3 * uro).
  { intros f hf. eapply Rle_trans; [apply (vn_bound n f (fun i => Rabs (fr (get q i c)) + Rabs (fr (get q i (c + 1)))) (10 * uro) (3 * eta)); try lra|].
    - intros i hi. rewrite (Rabs_pos_eq (_ + _)); [auto|]. pose proof (Rabs_pos (fr (get q i c))). pose proof (Rabs_pos (fr (get q i (c + 1)))). lra.
    - pose proof (vn_plus n (fun i => Rabs (fr (get q i c))) (fun i => Rabs (fr (get q i (c + 1))))) as hp. rewrite !vn_abs in hp.
      pose proof (hcol c ltac:(lia)) as v1. pose proof (hcol (c + 1)%nat ltac:(lia)) as v2. unfold frm in v1, v2.
      set (V := vn n (fun i => _ + _)) in *.
      assert (10 * uro * V <= 10 * uro * 4) by (apply Rmult_le_compat_l; lra). lra. }
  assert (hE : frob n n E <= 2 * (43 * uro)).
  { apply (two_cols n c); auto; try lra.
    - intros i j hi hj n1 n2. rewrite eE by auto. rewrite hq' by auto. bd. ring.
    - eapply Rle_trans; [apply hcn|lra]. intros i hi. rewrite eE by lia. rewrite Nat.eqb_refl. apply h0; auto.
    - eapply Rle_trans; [apply hcn|lra]. intros i hi. rewrite eE by lia. rewrite Nat.eqb_refl. destruct (Nat.eqb_spec (c + 1) c); [lia|]. apply h1; auto. }
  rewrite (frob_ext n n _ (madd E (mmul n (msub (frm q) W) G))).
  - eapply Rle_trans; [apply frob_triangle|]. lra.
  - intros i j hi hj. unfold madd. rewrite (mmul_sub_l n n n (frm q) W G i j hi hj). unfold E, msub. ring.
Qed.
