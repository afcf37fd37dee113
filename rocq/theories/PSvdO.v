(** * Rotating the columns of an almost orthonormal binary64 matrix, any two columns *)
From Coq Require Import Reals List Arith Lia Lra Bool ZArith Setoid Morphisms.
From Coq.Floats Require Import SpecFloat.
From Flocq Require Import Core BinarySingleNaN.
From Verif Require Import Scalar Arr MBase MDirect MDecomp MEigh MSvd Inst Hoare Spec SpecF SpecH RLin PTri PHouse PQR PTrid PGivens PEigh PEighR PRound PHouseF PCholG PTrdF PBidF PTrdG PSvdR PBidG PApx PGivF PRotF PQRF PSvd PSvdV PSvdF PSvdG PSvdT.
Import ListNotations.
Local Open Scope R_scope.
Local Notation U k := ((1 + uro) ^ k).

(** A [hypot] that is NaN unless its arguments are finite numbers of size at most 2^500 and its result
    has a relative error of at most 3 u *)
Definition hyp_strict (h : spec_float -> spec_float -> spec_float) : Prop := forall x y, h x y = S754_nan \/
  (fvalid x /\ ffin x /\ fvalid y /\ ffin y /\ Rabs (fr x) <= bpow radix2 500 /\ Rabs (fr y) <= bpow radix2 500 /\
   fvalid (h x y) /\ ffin (h x y) /\ Rabs (fr (h x y) - sqrt (fr x * fr x + fr y * fr y)) <= 3 * uro * sqrt (fr x * fr x + fr y * fr y)).
(** Such a [hypot] made from a given one *)
Definition small_num (x : spec_float) : bool :=
  valid_binary prec emax x && is_finite_SF x && SFleb (SFabs x) (SpecFloat.binary_round prec emax false 1 500).
Definition ranged (h : spec_float -> spec_float -> spec_float) (x y : spec_float) : spec_float :=
  if small_num x && small_num y then guarded h x y else S754_nan.

Lemma fr_lim : fr (SpecFloat.binary_round prec emax false 1 500) = bpow radix2 500.
Proof.
  assert (e : SpecFloat.binary_round prec emax false 1 500 = S754_finite false 4503599627370496 448) by (vm_compute; reflexivity).
  rewrite e. unfold fr, SF2R. cbn [cond_Zopp]. unfold F2R. cbn [Fnum Fexp]. change 4503599627370496%Z with (Zpower radix2 52). rewrite IZR_Zpower by lia. rewrite <- bpow_plus. reflexivity.
Qed.
Lemma small_num_ok x : small_num x = true -> fokx x /\ Rabs (fr x) <= bpow radix2 500.
Proof.
  unfold small_num. intros h. apply andb_prop in h as (h & h3). apply andb_prop in h as (h1 & h2). split; [split; auto|].
  apply leb_fr in h3; [|split; [apply (fvalid_abs x h1)|destruct x; try discriminate h2; reflexivity]|split; vm_compute; reflexivity].
  rewrite fr_lim in h3. change (SFabs x) with (nabs FN x) in h3. rewrite fr_abs in h3. exact h3.
Qed.
Lemma ranged_strict h : hyp_ulp h -> hyp_strict (ranged h).
Proof.
  intros hu x y. unfold ranged. destruct (small_num x) eqn:ex; [|left; reflexivity]. destruct (small_num y) eqn:ey; cbn [andb]; [|left; reflexivity].
  apply small_num_ok in ex as ((v1 & f1) & b1). apply small_num_ok in ey as ((v2 & f2) & b2).
  destruct (guarded_good h hu) as (hg & _). destruct (hg x y v1 f1 v2 f2 b1 b2) as [e|(e1 & e2 & e3)]; [left; auto|right]. repeat split; auto.
Qed.

Lemma nf_fin x : ffin x -> ~ nf x. Proof. intros h1 h2. exact (nf_ffin x h2 h1). Qed.
Lemma fin_mul x y : ffin (nmul FN x y) -> ffin x /\ ffin y.
Proof.
  intros h. split; [destruct (nf_dec x) as [q|q]|destruct (nf_dec y) as [q|q]]; auto; exfalso; apply (nf_fin _ h); [apply nf_mul_l|apply nf_mul_r]; auto.
Qed.
Lemma fin_add x y : ffin (nadd FN x y) -> ffin x /\ ffin y.
Proof.
  intros h. split; [destruct (nf_dec x) as [q|q]|destruct (nf_dec y) as [q|q]]; auto; exfalso; apply (nf_fin _ h); [apply nf_add_l|apply nf_add_r]; auto.
Qed.
Lemma fin_opp x : ffin (nopp FN x) -> ffin x.
Proof. destruct x; auto. Qed.

Lemma apx_neg s S : apx s S 1 6 -> apx (nmul FN s (nopp FN (n1 FN))) (- S) 1 6.
Proof.
  intros [(h1 & h1') h2 h3 h4 h5]. destruct (mul_unit s (nopp FN (n1 FN)) h1 ltac:(right; reflexivity)) as (g1 & g2 & g3).
  assert (e : fr (nopp FN (n1 FN)) = -1) by exact fr_fm1.
  constructor; auto; [split; [exact g3|apply g1; exact h1']|rewrite Rabs_Ropp; auto|]. rewrite (g2 h1'), e.
  replace (fr s * -1 - - S) with (- (fr s - S)) by ring. rewrite Rabs_Ropp. auto.
Qed.

Section Src.
Variable h : FN -> FN -> FN.
Hypothesis hh : hyp_strict h.

Lemma src_f (c s : FN) : rsrc (N:=FNh h) c s -> ffin c -> ffin s -> exists C S, apx c C 1 6 /\ apx s S 1 6 /\ C * C + S * S = 1.
Proof.
  assert (a6 : 0 <= 6 <= amax_) by (unfold amax_; lra).
  assert (key : forall x y : FN, ffin (ndiv FN x (h x y)) -> (0 < sqrt (fr x * fr x + fr y * fr y) \/ SFltb (n0 FN) (h x y) = true) ->
    let r := sqrt (fr x * fr x + fr y * fr y) in 0 < r /\ fokx x /\ fokx y /\ fokx (h x y) /\ Rabs (fr x) <= r /\ Rabs (fr y) <= r /\ Rabs (fr (h x y) - r) <= 3 * uro * r).
  { intros x y fc hp r. destruct (hh x y) as [e|(v1 & f1 & v2 & f2 & b1 & b2 & v3 & f3 & b3)]; [rewrite e, nan_div_r in fc; discriminate|]. fold r in b3, hp.
    assert (r0 : 0 <= r) by apply sqrt_pos.
    assert (rp : 0 < r).
    { destruct hp as [|hp]; auto. apply ltb_fr in hp; [|split; reflexivity|split; auto]. rewrite fr_0 in hp.
      destruct (Rle_lt_or_eq_dec 0 r r0) as [|e]; auto. rewrite <- e in b3. rewrite Rminus_0_r, Rmult_0_r in b3. apply Rabs_le_inv in b3. lra. }
    assert (le1 : Rabs (fr x) <= r) by (apply Rabs_le_of_sq; [lra|]; unfold r; rewrite hyp_sq; pose proof (Rle_0_sqr (fr y)) as q; unfold Rsqr in q; lra).
    assert (le2 : Rabs (fr y) <= r) by (apply Rabs_le_of_sq; [lra|]; unfold r; rewrite hyp_sq; pose proof (Rle_0_sqr (fr x)) as q; unfold Rsqr in q; lra).
    split; auto. split; [split; auto|]. split; [split; auto|]. split; [split; auto|]. auto. }
  intros H. induction H as [|x y hz|x y hl|c s H IH|c s H IH]; intros fc fs.
  - exists 1, 0. split; [eapply apx_weak; [apply one_ok|lra|lra]|]. split; [eapply apx_weak; [apply zero_ok|lra|lra]|ring].
  - change (nis_zero FN y = false) in hz. change (ffin (ndiv FN x (h x y))) in fc.
    destruct (hh x y) as [e|hq]; [rewrite e, nan_div_r in fc; discriminate|].
    assert (y0 : fr y <> 0) by (apply nonzero_fr; auto; split; tauto).
    destruct (key x y fc (or_introl (hyp_pos _ _ y0))) as (rp & k1 & k2 & k3 & k4 & k5 & k6). set (r := sqrt _) in *.
    exists (fr x / r), (- fr y / r). split; [exact (quot_apx x (h x y) (fr x) r k1 k3 eq_refl rp k4 k6)|].
    split; [exact (quot_apx (nopp FN y) (h x y) (- fr y) r (fokx_opp y k2) k3 (fr_opp y) rp ltac:(rewrite Rabs_Ropp; exact k5) k6)|].
    replace (fr x / r * (fr x / r) + - fr y / r * (- fr y / r)) with ((fr x * fr x + fr y * fr y) / (r * r)) by (field; lra).
    unfold r. rewrite hyp_sq. field. pose proof (hyp_sq (fr x) (fr y)). fold r in H. nra.
  - change (SFltb (n0 FN) (h x y) = true) in hl. change (ffin (ndiv FN x (h x y))) in fc.
    destruct (key x y fc (or_intror hl)) as (rp & k1 & k2 & k3 & k4 & k5 & k6). set (r := sqrt _) in *.
    exists (fr x / r), (fr y / r). split; [exact (quot_apx x (h x y) (fr x) r k1 k3 eq_refl rp k4 k6)|].
    split; [exact (quot_apx y (h x y) (fr y) r k2 k3 eq_refl rp k5 k6)|].
    replace (fr x / r * (fr x / r) + fr y / r * (fr y / r)) with ((fr x * fr x + fr y * fr y) / (r * r)) by (field; lra).
    unfold r. rewrite hyp_sq. field. pose proof (hyp_sq (fr x) (fr y)). fold r in H. nra.
  - destruct (IH fc (fin_opp s fs)) as (C & S & h1 & h2 & h3). exists C, (- S). split; auto. split; [apply apx_opp; auto|lra].
  - destruct (IH fc (proj1 (fin_mul s _ fs))) as (C & S & h1 & h2 & h3). exists C, (- S). split; auto. split; [apply apx_neg; auto|lra].
Qed.
End Src.

(** ** Orthonormal columns up to d *)
Definition ocnear (r n : nat) (q : nat -> nat -> FN) (d : R) : Prop :=
  (forall i j, (i < r)%nat -> (j < n)%nat -> fokx (q i j)) /\ exists W, orthonormal_cols r n W /\ frob r n (msub (fun i j => fr (q i j)) W) <= d.
Lemma ocnear_weak r n q d d' : d <= d' -> ocnear r n q d -> ocnear r n q d'.
Proof. intros h (h1 & W & h2 & h3). split; auto. exists W. split; auto. lra. Qed.
Lemma two_cols_g r n a b (E : M) t : (a < n)%nat -> (b < n)%nat -> a <> b -> 0 <= t ->
  (forall i j, (i < r)%nat -> (j < n)%nat -> j <> a -> j <> b -> E i j = 0) ->
  vn r (fun i => E i a) <= t -> vn r (fun i => E i b) <= t -> frob r n E <= 2 * t.
Proof.
  intros ha hb hab ht h0 h1 h2. rewrite frob_vn.
  apply Rle_trans with (vn n (fun q => t * dlta a q + t * dlta b q)).
  - apply vn_le. intros q hq. rewrite (Rabs_pos_eq (vn _ _)) by apply vn_nonneg. rewrite Rabs_pos_eq.
    + unfold dlta. destruct (Nat.eqb_spec q a) as [->|]; [destruct (Nat.eqb_spec a b); [lia|lra]|]. destruct (Nat.eqb_spec q b) as [->|]; [lra|].
      rewrite (vn_ext r _ (fun _ => 0 * 0)) by (intros i hi; rewrite h0 by auto; ring). rewrite (vn_scal r 0 (fun _ => 0)). rewrite Rabs_R0. lra.
    + unfold dlta. destruct (Nat.eqb q a), (Nat.eqb q b); lra.
  - eapply Rle_trans; [apply vn_plus|]. rewrite !vn_scal, !vn_dlta, Rabs_pos_eq by (lia || lra). lra.
Qed.

Definition frot (r n a b : nat) (c s : FN) (q q' : nat -> nat -> FN) : Prop :=
  forall i j, (i < r)%nat -> (j < n)%nat -> q' i j =
    if Nat.eqb j a then nadd FN (nmul FN (q i a) c) (nmul FN s (q i b))
    else if Nat.eqb j b then nadd FN (nmul FN (nopp FN s) (q i a)) (nmul FN (q i b) c)
    else q i j.

Lemma frot_near (r n a b : nat) (cf sf : FN) q q' d C S : (a < n)%nat -> (b < n)%nat -> a <> b -> INR r * eta <= uro -> d <= 1 ->
  apx cf C 1 6 -> apx sf S 1 6 -> C * C + S * S = 1 -> ocnear r n q d -> frot r n a b cf sf q q' -> ocnear r n q' (d + 90 * uro).
Proof.
  intros ha hb hab hne hd aC aS hCS (hq & W & hW & hbd) hq'.
  pose proof uro_pos as hu. pose proof uro_1024 as hu1. pose proof eta_pos as he0.
  assert (hC1 : Rabs C <= 1) by (destruct aC; auto). assert (hS1 : Rabs S <= 1) by (destruct aS; auto).
  set (Q := fun i j => fr (q i j)) in *.
  assert (hcol : forall j, (j < n)%nat -> vn r (fun i => Q i j) <= 2).
  { intros j hj. apply Rle_trans with (vn r (fun i => msub Q W i j + W i j)); [right; apply vn_ext; intros; unfold msub; ring|].
    eapply Rle_trans; [apply vn_plus|]. assert (e1 : vn r (fun i => W i j) = 1).
    { apply vn_unit. specialize (hW j j hj hj). unfold mmul, mtr, mid in hW. rewrite Nat.eqb_refl in hW. exact hW. }
    rewrite e1. assert (vn r (fun i => msub Q W i j) <= d); [|lra]. eapply Rle_trans; [|exact hbd]. apply (PBidG.vn_col_frob r n (msub Q W) j hj). }
  assert (hent : forall i j, (i < r)%nat -> (j < n)%nat -> Rabs (fr (q i j)) <= 2).
  { intros i j hi hj. eapply Rle_trans; [|apply (hcol j hj)]. apply (vn_entry r (fun i => Q i j) i hi). }
  assert (aSo := apx_opp _ _ _ _ aS).
  assert (hmul : forall x Z, Rabs x <= 2 -> Rabs Z <= 1 -> Rabs (x * Z) <= Rabs x).
  { intros x Z hx hZ. rewrite Rabs_mult. pose proof (Rabs_pos x). nra. }
  assert (hmul' : forall x Z, Rabs x <= 2 -> Rabs Z <= 1 -> Rabs (Z * x) <= Rabs x) by (intros; rewrite Rmult_comm; auto).
  assert (h0 : forall i, (i < r)%nat -> let x := q i a in let y := q i b in
    fokx (q' i a) /\ Rabs (fr (q' i a) - (fr x * C + S * fr y)) <= 10 * uro * (Rabs (fr x) + Rabs (fr y)) + 3 * eta).
  { intros i hi x y. rewrite hq' by lia. rewrite Nat.eqb_refl.
    destruct (mul_rot x cf C (hq i a hi ha) (hent i a hi ha) aC) as ((k1 & k2) & _).
    destruct (mul_rot y sf S (hq i b hi hb) (hent i b hi hb) aS) as (_ & (k3 & k4)).
    apply add_rot; auto; apply hmul || apply hmul' || idtac; auto; apply hent; lia. }
  assert (h1 : forall i, (i < r)%nat -> let x := q i a in let y := q i b in
    fokx (q' i b) /\ Rabs (fr (q' i b) - (- S * fr x + fr y * C)) <= 10 * uro * (Rabs (fr x) + Rabs (fr y)) + 3 * eta).
  { intros i hi x y. rewrite hq' by lia. rewrite Nat.eqb_refl. destruct (Nat.eqb_spec b a); [lia|].
    destruct (mul_rot x (nopp FN sf) (- S) (hq i a hi ha) (hent i a hi ha) aSo) as (_ & (k1 & k2)).
    destruct (mul_rot y cf C (hq i b hi hb) (hent i b hi hb) aC) as ((k3 & k4) & _).
    apply add_rot; auto; try (apply hent; lia); [apply hmul'|apply hmul]; auto; try (apply hent; lia). rewrite Rabs_Ropp; auto. }
  split.
  { intros i j hi hj. destruct (Nat.eq_dec j a) as [->|n1]; [apply h0; auto|]. destruct (Nat.eq_dec j b) as [->|n2]; [apply h1; auto|].
    rewrite hq' by auto. bd. auto. }
  set (G := mtr (gm a b C (- S))).
  assert (hg : orthogonal n (gm a b C (- S))) by (apply gm_orthogonal; try lia; lra).
  assert (hG : orthogonal n G) by (destruct hg as (g1 & g2); split; unfold G; rewrite mtr_mtr; auto).
  exists (mmul n W G). split; [eapply ocols_mul; [exact hW|exact hG|reflexivity]|].
  assert (eb : frob r n (mmul n (msub Q W) G) <= d).
  { unfold G. rewrite (PSvdR.frob_ocols_r r n n (gm a b C (- S))); [exact hbd|]. apply hg. }
  set (Q' := fun i j => fr (q' i j)).
  set (E := msub Q' (mmul n Q G)).
  assert (eE : forall i j, (i < r)%nat -> (j < n)%nat -> E i j = fr (q' i j) -
    (if Nat.eqb j a then fr (q i a) * C + S * fr (q i b) else if Nat.eqb j b then - S * fr (q i a) + fr (q i b) * C else fr (q i j))).
  { intros i j hi hj. unfold E, msub, G. rewrite gm_apply_r by (auto; lia). unfold Q, Q'. bd; ring. }
  assert (hcn : forall f : nat -> R, (forall i, (i < r)%nat -> Rabs (f i) <= 10 * uro * (Rabs (fr (q i a)) + Rabs (fr (q i b))) + 3 * eta) -> vn r f <= 40 * uro + 3 * uro).
  { intros f hf. eapply Rle_trans; [apply (vn_bound r f (fun i => Rabs (fr (q i a)) + Rabs (fr (q i b))) (10 * uro) (3 * eta)); try lra|].
    - intros i hi. rewrite (Rabs_pos_eq (_ + _)); [auto|]. pose proof (Rabs_pos (fr (q i a))). pose proof (Rabs_pos (fr (q i b))). lra.
    - pose proof (vn_plus r (fun i => Rabs (fr (q i a))) (fun i => Rabs (fr (q i b)))) as hp. rewrite !vn_abs in hp.
      pose proof (hcol a ha) as v1. pose proof (hcol b hb) as v2. unfold Q in v1, v2.
      set (V := vn r (fun i => _ + _)) in *.
      assert (10 * uro * V <= 10 * uro * 4) by (apply Rmult_le_compat_l; lra). lra. }
  assert (hE : frob r n E <= 2 * (43 * uro)).
  { apply (two_cols_g r n a b); auto; try lra.
    - intros i j hi hj n1 n2. rewrite eE by auto. rewrite hq' by auto. bd. ring.
    - eapply Rle_trans; [apply hcn|lra]. intros i hi. rewrite eE by lia. rewrite Nat.eqb_refl. apply h0; auto.
    - eapply Rle_trans; [apply hcn|lra]. intros i hi. rewrite eE by lia. rewrite Nat.eqb_refl. destruct (Nat.eqb_spec b a); [lia|]. apply h1; auto. }
  rewrite (frob_ext r n _ (madd E (mmul n (msub Q W) G))).
  - eapply Rle_trans; [apply frob_triangle|]. lra.
  - intros i j hi hj. unfold madd. rewrite (mmul_sub_l r n n Q W G i j hi hj). unfold E, msub. ring.
Qed.

(** rotated entries are finite only if everything was *)
Lemma frot_fin (r n a b : nat) (c s : FN) q q' : (1 <= r)%nat -> (a < n)%nat -> (b < n)%nat -> a <> b -> frot r n a b c s q q' ->
  (forall i j, (i < r)%nat -> (j < n)%nat -> ffin (q' i j)) -> ffin c /\ ffin s /\ (forall i j, (i < r)%nat -> (j < n)%nat -> ffin (q i j)).
Proof.
  intros hr ha hb hab hq hf.
  assert (key : forall i, (i < r)%nat -> (ffin (q i a) /\ ffin c) /\ (ffin s /\ ffin (q i b))).
  { intros i hi. specialize (hf i a hi ha). rewrite hq in hf by auto. rewrite Nat.eqb_refl in hf. apply fin_add in hf as (k1 & k2). apply fin_mul in k1, k2. auto. }
  split; [apply (key 0%nat); lia|]. split; [apply (key 0%nat); lia|]. intros i j hi hj.
  destruct (Nat.eq_dec j a) as [->|n1]; [apply key; auto|]. destruct (Nat.eq_dec j b) as [->|n2]; [apply key; auto|].
  specialize (hf i j hi hj). rewrite hq in hf by auto. destruct (Nat.eqb_spec j a); [lia|]. destruct (Nat.eqb_spec j b); [lia|]. auto.
Qed.

Section Run.
Variable h : FN -> FN -> FN.
Hypothesis hh : hyp_strict h.
Variables r n : nat.
Hypothesis hr : (1 <= r)%nat.
Hypothesis hre : INR r * eta <= uro.
(** a step of R seen through a view of the matrix as a function of two indices *)
Variable view : mat FN -> nat -> nat -> FN.
Variable R_ : givens (FNh h) -> nat -> nat -> mat FN -> mat FN -> Prop.
Variable dim_ok : mat FN -> Prop.
Hypothesis R_dim : forall g a b u u', dim_ok u -> R_ g a b u u' -> dim_ok u'.
Hypothesis R_rot : forall g a b u u', dim_ok u -> gsrc g -> (a < n)%nat -> (b < n)%nat -> a <> b -> R_ g a b u u' ->
  exists c s, rsrc (N:=FNh h) c s /\ frot r n a b c s (view u) (view u').

Lemma rots_dim (u u' : mat FN) k : dim_ok u -> rots (N:=FNh h) R_ n u k u' -> dim_ok u'.
Proof. intros hu H. induction H; eauto. Qed.
Lemma rots_near (u u' : mat FN) k d : dim_ok u -> ocnear r n (view u) d -> 0 <= d -> d + 90 * INR k * uro <= 1 ->
  rots (N:=FNh h) R_ n u k u' -> (forall i j, (i < r)%nat -> (j < n)%nat -> ffin (view u' i j)) -> ocnear r n (view u') (d + 90 * INR k * uro).
Proof.
  intros hu hd d0 hb H. pose proof uro_pos as hu0. induction H as [|k u1 H IH|k u1 u2 g a b H IH hg ha hb' hab hR]; intros hf.
  - eapply ocnear_weak; [|exact hd]. simpl. lra.
  - rewrite S_INR in *. eapply ocnear_weak; [|apply IH; auto]; nra.
  - pose proof (rots_dim u u1 k hu H) as hd1. destruct (R_rot g a b u1 u2 hd1 hg ha hb' hab hR) as (c & s & hs & hrot).
    destruct (frot_fin r n a b c s _ _ hr ha hb' hab hrot hf) as (fc & fs & f1).
    destruct (src_f h hh c s hs fc fs) as (C & S & aC & aS & hCS). rewrite S_INR in *.
    eapply ocnear_weak; [|eapply (frot_near r n a b c s (view u1) (view u2) (d + 90 * INR k * uro) C S); eauto]; [lra|nra|apply IH; auto; nra].
Qed.
End Run.

Lemma gen_h h (b : bidecomp FN) : let b' := BID (N:=FNh h) (uv b) (bi_off b) (bi_diag b) (upper_diag b) in
  generate_u (N:=FNh h) b' = generate_u (N:=FN) b /\ generate_vt (N:=FNh h) b' = generate_vt (N:=FN) b.
Proof. destruct b as [m o d []]; split; reflexivity. Qed.

Lemma scaled_small (a : mat FN) r c : nr a = r -> nc a = c -> (1 <= r)%nat -> (1 <= c)%nat -> (forall i j, (i < r)%nat -> (j < c)%nat -> fokx (get a i j)) ->
  let s := scale_down a (abs_max a) in nr s = r /\ nc s = c /\
  (forall i j, (i < r)%nat -> (j < c)%nat -> fokx (get s i j)) /\ (forall i j, (i < r)%nat -> (j < c)%nat -> Rabs (frm s i j) <= 2).
Proof.
  intros h1 h2 h3 h4 h5 s. destruct (abs_max_rf a r c h1 h2 h3 h4 h5) as (hm & hmax & i0 & j0 & hi0 & hj0 & hat).
  destruct (Rle_lt_or_eq_dec 0 (fr (abs_max a))) as [hp|he].
  - rewrite <- hat. apply Rabs_pos.
  - destruct (scale_rf a r c h1 h2 h3 h4 h5 hp) as (k1 & k2 & k3 & k4 & _). auto.
  - assert (es : s = a).
    { unfold s, scale_down. assert (ez : neq FN (abs_max a) (n0 FN) = true).
      { destruct (abs_max a) as [z|z| |z m e]; try reflexivity; try (destruct hm as (_ & hm); discriminate hm).
        exfalso. unfold fr, SF2R in he. symmetry in he. apply eq_0_F2R in he. destruct z; discriminate. }
      rewrite ez. reflexivity. }
    rewrite es. split; auto. split; auto. split; auto. intros i j hi hj. pose proof (hmax i j hi hj) as q. unfold frm in *. rewrite <- he in q. lra.
Qed.

(** The error: the factors generated by the bidiagonalisation, and the rotations *)
Definition gen_err (n d : nat) : R := gam (d * (10 * n + 70)) + INR d * U (d * (10 * n + 70)) * omega.
Definition svo_err (r c fuel : nat) : R := let d := Nat.min r c in let n := Nat.max r c in
  sqrt (INR d) * gen_err n d + 90 * INR ((fuel + 1) * per d) * uro.

Lemma svd_orth h (r c fuel : nat) (a : mat FN) eps (u : mat FN) (sv : list FN) (vt : mat FN) : hyp_strict h ->
  let d := Nat.min r c in let n := Nat.max r c in
  nr a = r -> nc a = c -> (1 <= r)%nat -> (1 <= c)%nat -> (forall i j, (i < r)%nat -> (j < c)%nat -> fokx (get a i j)) ->
  INR (n * (10 * n + 70)) * uro <= / 100 -> svo_err r c fuel <= 1 ->
  (forall bd bm, bidiagonal (scale_down a (abs_max a)) = Ret bd -> into_b bd = Ret bm -> forall i j, (i < d)%nat -> (j < d)%nat -> fr (get bm i j) = 0 \/ tiny <= fr (get bm i j)) ->
  svd_eps (N:=FNh h) fuel a true true eps = Ret (Some u, sv, Some vt) ->
  (forall i j, (i < r)%nat -> (j < d)%nat -> ffin (get u i j)) -> (forall i j, (i < d)%nat -> (j < c)%nat -> ffin (get vt i j)) ->
  nr u = r /\ nc u = d /\ nr vt = d /\ nc vt = c /\
  ocnear c d (fun i j => get vt j i) (svo_err r c fuel) /\
  exists W, orthonormal_cols r d W /\ forall j, (j < d)%nat ->
    vn r (fun i => fr (get u i j) - W i j) <= svo_err r c fuel \/ forall i, (i < r)%nat -> fr (get u i j) = 0.
Proof.
  intros hh d n h1 h2 h3 h4 h5 hsz hbud hcl hrun fu fv.
  destruct (scaled_small a r c h1 h2 h3 h4 h5) as (s1 & s2 & s3 & s4).
  destruct (svd_trace (N:=FNh h) fuel a eps u sv vt hrun) as (b' & u0 & v0 & u1 & eb & eu & ev & du1 & du2 & dv1 & dv2 & du3 & du4 & dv3 & dv4 & tu & tsg & tv).
  change (@nr (FNh h) a) with (nr a) in *. change (@nc (FNh h) a) with (nc a) in *. rewrite h1, h2 in *. fold d in du2, dv1, du4, dv3, tu, tsg, tv.
  assert (hd : (1 <= d)%nat) by (unfold d; lia).
  set (s := scale_down a (abs_max a)) in *.
  assert (hns : INR n <= 4000000) by (apply (n_small r c); auto).
  assert (hne : INR n * eta <= uro) by (apply (neta_small r c); auto).
  assert (hF : frob r c (frm s) <= 8000000).
  { apply Rle_trans with (frob r c (fun _ _ => 2)); [apply frob_le; intros i j hi hj; rewrite (Rabs_pos_eq 2) by lra; auto|]. eapply Rle_trans; [apply frob_const_rc; lra|]. fold n. lra. }
  assert (hz : 0 <= zfl <= 1 / 8) by (unfold zfl; split; [apply bpow_ge_0|replace (1 / 8) with (bpow radix2 (-3)) by (simpl; lra); apply bpow_le; lia]).
  assert (hcap : 2 * (frob r c (frm s) + zfl) <= cap).
  { apply Rle_trans with (bpow radix2 28); [cbn; lra|unfold cap; apply bpow_le; lia]. }
  destruct (bid_decomp_float s) as (b & ug & bm & vg & eb2 & eu2 & ebm & ev2 & eup & k1 & k2 & b1 & b2 & k3 & k4 & _ & hc); try (rewrite s1, s2); auto.
  rewrite s1, s2 in *. fold d n in k2, b1, b2, k3, hc.
  destruct (hc (hcl b bm eb2 ebm)) as (g1 & _ & g3 & P & Q & g4 & g5 & _ & g7 & g8).
  pose proof (bid_h h s b eb2) as eb3.
  assert (e0 : b' = BID (N:=FNh h) (uv b) (bi_off b) (bi_diag b) (upper_diag b)).
  { assert (q : Ret b' = Ret (BID (N:=FNh h) (uv b) (bi_off b) (bi_diag b) (upper_diag b))) by exact (eq_trans (eq_sym eb) eb3). injection q. auto. }
  subst b'. destruct (gen_h h b) as (q1 & q2).
  assert (eu3 : u0 = ug) by (assert (q : Ret u0 = Ret ug) by exact (eq_trans (eq_sym eu) (eq_trans q1 eu2)); injection q; auto).
  assert (ev3 : v0 = vg) by (assert (q : Ret v0 = Ret vg) by exact (eq_trans (eq_sym ev) (eq_trans q2 ev2)); injection q; auto).
  subst u0 v0.
  assert (ge0 : 0 <= gen_err n d).
  { unfold gen_err. pose proof (gam_nonneg (d * (10 * n + 70))). pose proof (pos_INR d). pose proof (U_gam (d * (10 * n + 70))). assert (0 <= omega) by (unfold omega; assert (0 <= zeta) by (unfold zeta; apply bpow_ge_0); lra).
    assert (0 <= INR d * U (d * (10 * n + 70)) * omega) by (apply Rmult_le_pos; auto; apply Rmult_le_pos; lra). lra. }
  set (d0 := sqrt (INR d) * gen_err n d). assert (hd0 : 0 <= d0) by (apply Rmult_le_pos; auto; apply sqrt_pos).
  set (K := ((fuel + 1) * per d)%nat) in *. unfold svo_err in *. fold d n in hbud |- *. fold d0 K in hbud |- *.
  assert (hrn : forall x, (x <= n)%nat -> INR x * eta <= uro).
  { intros x hx. apply le_INR in hx. pose proof eta_pos. eapply Rle_trans; [|exact hne]. apply Rmult_le_compat_r; lra. }
  (* vt *)
  assert (near_v : ocnear c d (fun i j => get vt j i) (d0 + 90 * INR K * uro)).
  { apply (rots_near h hh c d h4 (hrn c ltac:(unfold n; lia)) (fun m i j => get m j i) (fun g a0 b0 => rowrot (N:=FNh h) g a0 b0) (fun m => nr m = d /\ nc m = c)) with (u := vg) (k := K); auto.
    - intros g x y v v' (e1 & e2) (p1 & p2 & _). split; [exact (eq_trans p1 e1)|exact (eq_trans p2 e2)].
    - intros g x y v v' (e1 & e2) hg hx hy hxy (p1 & p2 & p3). exists (MBase.rc g), (nopp (FNh h) (MBase.rs g)). split; [exact (rs_opp (N:=FNh h) _ _ hg)|].
      intros i j hi hj. specialize (p3 j i ltac:(change (j < nr v)%nat; lia) ltac:(change (i < nc v)%nat; lia)). exact p3.
    - split; [intros i j hi hj; apply g3; auto|]. exists Q. split; auto. unfold d0. apply frob_cols; auto; intros j hj; apply (g8 j hj). }
  (* u *)
  destruct tsg as (t1 & t2 & t3).
  assert (fu1 : forall i j, (i < r)%nat -> (j < d)%nat -> ffin (get u1 i j)).
  { intros i j hi hj. destruct (t3 j hj) as [q|q]; specialize (q i hi); specialize (fu i j hi hj).
    - assert (e : get u i j = get u1 i j) by exact q. rewrite <- e. auto.
    - assert (e : get u i j = nmul FN (get u1 i j) (nopp FN (n0 FN))) by exact q. rewrite e in fu. apply fin_mul in fu. apply fu. }
  assert (near_u : ocnear r d (fun i j => get u1 i j) (d0 + 90 * INR K * uro)).
  { apply (rots_near h hh r d h3 (hrn r ltac:(unfold n; lia)) (fun m i j => get m i j) (fun g a0 b0 => colrot (N:=FNh h) g a0 b0) (fun m => nr m = r /\ nc m = d)) with (u := ug) (k := K); auto.
    - intros g x y v v' (e1 & e2) (p1 & p2 & _). split; [exact (eq_trans p1 e1)|exact (eq_trans p2 e2)].
    - intros g x y v v' (e1 & e2) hg hx hy hxy (p1 & p2 & p3). exists (MBase.rc g), (MBase.rs g). split; [exact hg|].
      intros i j hi hj. specialize (p3 i j ltac:(change (i < nr v)%nat; lia) ltac:(change (j < nc v)%nat; lia)). exact p3.
    - split; [intros i j hi hj; apply g1; auto|]. exists P. split; auto. unfold d0. apply frob_cols; auto; intros j hj; apply (g7 j hj). }
  split; [exact t1|]. split; [exact t2|]. split; [exact dv3|]. split; [exact dv4|]. split; [exact near_v|].
  destruct near_u as (hfx & W & hW & hb). exists W. split; auto. intros j hj. destruct (t3 j hj) as [q|q].
  - left. eapply Rle_trans; [|exact hb]. eapply Rle_trans; [|apply (PBidG.vn_col_frob r d (msub (fun i j => fr (get u1 i j)) W) j hj)]. right. apply vn_ext. intros i hi. unfold msub.
    assert (e : get u i j = get u1 i j) by exact (q i hi). rewrite e. reflexivity.
  - right. intros i hi. assert (e : get u i j = nmul FN (get u1 i j) (nopp FN (n0 FN))) by exact (q i hi). rewrite e.
    pose proof (fu1 i j hi hj) as f. destruct (get u1 i j) as [z|z| |z m x]; try discriminate f; reflexivity.
Qed.
