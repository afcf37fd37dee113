(** * Approximate evaluation in binary64, and [hypot] *)
From Coq Require Import Reals List Arith Lia Lra Bool ZArith.
From Coq.Floats Require Import SpecFloat.
From Flocq Require Import Core BinarySingleNaN Relative Sqrt.
From Verif Require Import Scalar Arr Inst Spec SpecF SpecH RLin PEighR PRound PHouseF PCholG PTrdF.
Import ListNotations.
Local Open Scope R_scope.

(** ** The correctly rounded [hypot] *)
Local Notation rnd := (round radix2 (SpecFloat.fexp prec emax) (round_mode mode_NE)).
Lemma f_sqrt_exact_ok m e : let x := F2R (Float radix2 (Zpos m) e) in sqrt x <= bpow radix2 1000 ->
  fokx (f_sqrt_exact m e) /\ fr (f_sqrt_exact m e) = rnd (sqrt x).
Proof.
  intros x hx. unfold f_sqrt_exact, SFsqrt_core_binary. rewrite Zdigits2_Zdigits. set (e' := Z.min _ _).
  assert (He : (2 * e' <= e)%Z).
  { assert (e' <= Z.div2 e)%Z by apply Z.le_min_r. rewrite (Zdiv2_odd_eqn e). destruct Z.odd; lia. }
  generalize (Fsqrt_core_correct radix2 (Zpos m) e e' eq_refl He). unfold Fsqrt_core.
  set (m' := match (e - 2 * e')%Z with Z0 => _ | _ => _ end).
  assert (em : (Zpos m * Zpower radix2 (e - 2 * e'))%Z = m').
  { unfold m'. destruct (e - 2 * e')%Z as [|p|p] eqn:ee; [simpl; lia| |lia]. rewrite Z.shiftl_mul_pow2 by lia. reflexivity. }
  rewrite em. clearbody m'. destruct Z.sqrtrem as [mz r]. set (lz := if Zeq_bool r 0 then _ else _). clearbody lz. intros Bz.
  assert (hp : 0 < sqrt x) by (apply sqrt_lt_R0, F2R_gt_0; reflexivity).
  rewrite binary_round_aux_equiv.
  pose proof (binary_round_aux_correct' prec emax Hprec Hemax mode_NE (sqrt x) mz e' lz) as hb.
  rewrite Rlt_bool_false in hb by lra.
  destruct hb as (h1 & h2).
  - lra.
  - rewrite Rabs_pos_eq by lra. exact Bz.
  - apply Z.le_trans with (1 := Z.le_min_l _ _). unfold cexp, x. rewrite mag_sqrt_F2R by reflexivity. apply Z.le_refl.
  - rewrite rnd_lt in h2. 2:{ rewrite Rabs_pos_eq by lra. eapply Rle_trans; [exact hx|]. apply bpow_le. lia. }
    destruct h2 as (h2 & h3 & _). split; [split; assumption|exact h2].
Qed.
Lemma rnd_near x : 0 <= x -> Rabs (rnd x - x) <= uro * x + eta.
Proof.
  intros hx. destruct (rnd_ex x) as (d & e & hd & he & ->). apply dlt_u in hd.
  replace (x * (1 + d) + e - x) with (d * x + e) by ring. eapply Rle_trans; [apply Rabs_triang|]. rewrite Rabs_mult, (Rabs_pos_eq x) by auto.
  assert (Rabs d * x <= uro * x) by (apply Rmult_le_compat_r; auto). lra.
Qed.
Lemma f_hypot_round x y : fokx x -> fokx y -> Rabs (fr x) <= bpow radix2 500 -> Rabs (fr y) <= bpow radix2 500 ->
  fokx (f_hypot x y) /\ fr (f_hypot x y) = rnd (sqrt (fr x * fr x + fr y * fr y)).
Proof.
  intros (vx & fx) (vy & fy) hx hy.
  assert (ex : forall z, fokx z -> fr (SFabs z) = rnd (sqrt (fr z * fr z))).
  { intros z (vz & fz). change (SFabs z) with (nabs FN z). rewrite fr_abs. change (fr z * fr z) with (Rsqr (fr z)). rewrite sqrt_Rsqr_abs. symmetry.
    apply round_generic; [apply valid_rnd_round_mode|]. apply generic_format_abs. destruct (fvalid_B2SF z vz) as (b & ->). rewrite fr_B2SF. apply generic_format_B2R. }
  destruct x as [sx|sx| |sx mx e1]; try discriminate fx.
  - unfold f_hypot. assert (e0 : fr (S754_zero sx) = 0) by reflexivity. rewrite e0.
    replace (0 * 0 + fr y * fr y) with (fr y * fr y) by ring.
    destruct y as [sy|sy| |sy my e2]; try discriminate fy; (split; [split; [apply (fvalid_abs _ vy)|reflexivity]|apply ex; split; auto]).
  - destruct y as [sy|sy| |sy my e2]; try discriminate fy.
    + unfold f_hypot. assert (e0 : fr (S754_zero sy) = 0) by reflexivity. rewrite e0.
      replace (fr (S754_finite sx mx e1) * fr (S754_finite sx mx e1) + 0 * 0) with (fr (S754_finite sx mx e1) * fr (S754_finite sx mx e1)) by ring.
      split; [split; [apply (fvalid_abs _ vx)|reflexivity]|apply ex; split; auto].
    + unfold f_hypot. set (e := Z.min e1 e2).
      set (a := Z.shiftl (Zpos mx * Zpos mx) (2 * (e1 - e))). set (b := Z.shiftl (Zpos my * Zpos my) (2 * (e2 - e))).
      assert (sq : forall s m k, (e <= k)%Z -> fr (S754_finite s m k) * fr (S754_finite s m k) = F2R (Float radix2 (Z.shiftl (Zpos m * Zpos m) (2 * (k - e))) (2 * e))).
      { intros s m k hk. rewrite Z.shiftl_mul_pow2 by lia.
        assert (es : fr (S754_finite s m k) * fr (S754_finite s m k) = IZR (Zpos m) * IZR (Zpos m) * bpow radix2 (2 * k)).
        { replace (2 * k)%Z with (k + k)%Z by lia. rewrite bpow_plus. destruct s; unfold fr; cbn; unfold F2R; cbn [Fnum Fexp cond_Zopp]; [change (IZR (Zneg m)) with (- IZR (Zpos m))|]; ring. }
        rewrite es. unfold F2R. cbn [Fnum Fexp]. rewrite !mult_IZR. change (IZR (2 ^ (2 * (k - e)))) with (IZR (Zpower radix2 (2 * (k - e)))). rewrite (IZR_Zpower radix2 (2 * (k - e)) ltac:(lia)).
        replace (2 * k)%Z with (2 * (k - e) + 2 * e)%Z by lia. rewrite bpow_plus. ring. }
      assert (ha : (0 < a)%Z) by (unfold a; rewrite Z.shiftl_mul_pow2 by lia; apply Z.mul_pos_pos; [lia|apply Z.pow_pos_nonneg; lia]).
      assert (hb : (0 < b)%Z) by (unfold b; rewrite Z.shiftl_mul_pow2 by lia; apply Z.mul_pos_pos; [lia|apply Z.pow_pos_nonneg; lia]).
      assert (hs : fr (S754_finite sx mx e1) * fr (S754_finite sx mx e1) + fr (S754_finite sy my e2) * fr (S754_finite sy my e2) = F2R (Float radix2 (a + b) (2 * e))).
      { rewrite (sq sx mx e1), (sq sy my e2) by lia. fold a b. unfold F2R. cbn [Fnum Fexp]. rewrite plus_IZR. ring. }
      rewrite hs. destruct (a + b)%Z as [|p|p] eqn:ep; [lia| |lia]. apply f_sqrt_exact_ok.
      rewrite <- hs. apply Rle_trans with (sqrt (bpow radix2 1000 * bpow radix2 1000)); [|rewrite sqrt_square by apply bpow_ge_0; lra].
      apply sqrt_le_1_alt. set (X := fr (S754_finite sx mx e1)) in *. set (Y := fr (S754_finite sy my e2)) in *.
      assert (q : forall t, Rabs t <= bpow radix2 500 -> t * t <= bpow radix2 1000).
      { intros t ht. rewrite <- (Rabs_sq t). replace (bpow radix2 1000) with (bpow radix2 500 * bpow radix2 500) by (rewrite <- bpow_plus; reflexivity). pose proof (Rabs_pos t). apply Rmult_le_compat; auto. }
      pose proof (q _ hx). pose proof (q _ hy). assert (2 <= bpow radix2 1000) by (apply (bpow_le radix2 1 1000); lia). nra.
Qed.
Lemma f_hypot_ulp : hyp_ulp f_hypot.
Proof.
  split.
  - intros x y vx fx vy fy hx hy r. destruct (f_hypot_round x y (conj vx fx) (conj vy fy) hx hy) as ((h1 & h2) & h3).
    split; auto. split; auto. rewrite h3. fold r. pose proof (rnd_near r (sqrt_pos _)). pose proof (sqrt_pos (fr x * fr x + fr y * fr y)). fold r in H0. pose proof uro_pos. pose proof eta_pos. nra.
  - intros y hy. destruct y; try discriminate; reflexivity.
Qed.

(** ** Comparisons *)
Lemma ltb_fr x y : fokx x -> fokx y -> SFltb x y = true -> fr x < fr y.
Proof.
  intros (vx & fx) (vy & fy) h. destruct (fvalid_B2SF x vx) as (bx & ->). destruct (fvalid_B2SF y vy) as (by_ & ->).
  rewrite !fr_B2SF. apply ffin_B2SF in fx, fy. pose proof (Bltb_correct prec emax bx by_ fx fy) as hc.
  change (SFltb (B2SF bx) (B2SF by_)) with (Bltb bx by_) in h. rewrite h in hc. symmetry in hc. revert hc. case Rlt_bool_spec; auto; discriminate.
Qed.
Lemma ltb_fr_false x y : fokx x -> fokx y -> SFltb x y = false -> fr y <= fr x.
Proof.
  intros (vx & fx) (vy & fy) h. destruct (fvalid_B2SF x vx) as (bx & ->). destruct (fvalid_B2SF y vy) as (by_ & ->).
  rewrite !fr_B2SF. apply ffin_B2SF in fx, fy. pose proof (Bltb_correct prec emax bx by_ fx fy) as hc.
  change (SFltb (B2SF bx) (B2SF by_)) with (Bltb bx by_) in h. rewrite h in hc. symmetry in hc. revert hc. case Rlt_bool_spec; auto; discriminate.
Qed.
Lemma leb_fr x y : fokx x -> fokx y -> SFleb x y = true -> fr x <= fr y.
Proof.
  intros (vx & fx) (vy & fy) h. destruct (fvalid_B2SF x vx) as (bx & ->). destruct (fvalid_B2SF y vy) as (by_ & ->).
  rewrite !fr_B2SF. apply ffin_B2SF in fx, fy. pose proof (Bleb_correct prec emax bx by_ fx fy) as hc.
  change (SFleb (B2SF bx) (B2SF by_)) with (Bleb bx by_) in h. rewrite h in hc. symmetry in hc. revert hc. case Rle_bool_spec; auto; discriminate.
Qed.
Lemma leb_fr_false x y : fokx x -> fokx y -> SFleb x y = false -> fr y < fr x.
Proof.
  intros (vx & fx) (vy & fy) h. destruct (fvalid_B2SF x vx) as (bx & ->). destruct (fvalid_B2SF y vy) as (by_ & ->).
  rewrite !fr_B2SF. apply ffin_B2SF in fx, fy. pose proof (Bleb_correct prec emax bx by_ fx fy) as hc.
  change (SFleb (B2SF bx) (B2SF by_)) with (Bleb bx by_) in h. rewrite h in hc. symmetry in hc. revert hc. case Rle_bool_spec; auto; discriminate.
Qed.

Lemma fr_guard : fr (SpecFloat.binary_round prec emax false 1 (-1000)) = bpow radix2 (-1000).
Proof.
  assert (e : SpecFloat.binary_round prec emax false 1 (-1000) = S754_finite false 4503599627370496 (-1052)) by (vm_compute; reflexivity).
  rewrite e. unfold fr, SF2R. cbn [cond_Zopp]. unfold F2R. cbn [Fnum Fexp]. change 4503599627370496%Z with (Zpower radix2 52). rewrite IZR_Zpower by lia. rewrite <- bpow_plus. reflexivity.
Qed.
Lemma guarded_good h : hyp_ulp h -> hyp_good (guarded h).
Proof.
  intros (h1 & h2). split.
  - intros x y vx fx vy fy hx hy r. destruct (h1 x y vx fx vy fy hx hy) as (g1 & g2 & g3). fold r in g3. unfold guarded.
    destruct (SFltb _ _) eqn:e; [left; reflexivity|right]. split; auto. split; auto.
    apply ltb_fr_false in e; [|split; auto|split; vm_compute; reflexivity]. rewrite fr_guard in e.
    pose proof uro_pos. pose proof uro_1024. assert (hr : 0 <= r) by apply sqrt_pos.
    apply Rabs_le_inv in g3 as g4.
    assert (hb : 2 * eta * 1024 <= uro * bpow radix2 (-1000)).
    { change 1024 with (bpow radix2 10). change 2 with (bpow radix2 1). rewrite uro_bpow. unfold eta. rewrite <- !bpow_plus. apply bpow_le. lia. }
    pose proof (bpow_gt_0 radix2 (-1000)). pose proof eta_pos.
    assert (bpow radix2 (-1000) <= 2 * r) by nra. nra.
  - intros y hy. unfold guarded. rewrite h2 by auto. reflexivity.
Qed.

(** ** Absolute errors of the remaining operations *)
Lemma sub_err x y : fokx x -> fokx y -> Rabs (fr x) + Rabs (fr y) <= bpow radix2 1023 ->
  fokx (nsub FN x y) /\ exists d, Rabs d <= uro /\ fr (nsub FN x y) = (fr x - fr y) * (1 + d).
Proof.
  intros (vx & fx) (vy & fy) h. pose proof (Rabs_triang (fr x) (- fr y)) as ht. rewrite Rabs_Ropp in ht.
  assert (f : ffin (nsub FN x y)) by (apply sub_fin; auto; unfold Rminus; lra). split; [split; auto; apply fvalid_sub; auto|].
  destruct (sub_std x y vx vy f) as (_ & _ & d & hd & ->). exists d. split; auto. apply dlt_u; auto.
Qed.
Lemma div_err x y : fokx x -> fokx y -> fr y <> 0 -> Rabs (fr x / fr y) <= bpow radix2 1023 ->
  fokx (ndiv FN x y) /\ Rabs (fr (ndiv FN x y) - fr x / fr y) <= uro * Rabs (fr x / fr y) + eta.
Proof.
  intros (vx & fx) (vy & fy) h0 h.
  assert (f : ffin (ndiv FN x y)) by (apply div_fin; auto). split; [split; auto; apply fvalid_div; auto|].
  destruct (div_std x y vx vy fy f) as (_ & _ & d & e & hd & he & ->). apply dlt_u in hd.
  replace (fr x / fr y * (1 + d) + e - fr x / fr y) with (d * (fr x / fr y) + e) by ring.
  eapply Rle_trans; [apply Rabs_triang|]. rewrite Rabs_mult. pose proof (Rabs_pos (fr x / fr y)).
  assert (Rabs d * Rabs (fr x / fr y) <= uro * Rabs (fr x / fr y)) by (apply Rmult_le_compat_r; auto). lra.
Qed.
Lemma fokx_opp x : fokx x -> fokx (nopp FN x).
Proof. intros (v & f). split; [apply fvalid_opp; auto|apply ffin_opp; auto]. Qed.
Lemma fokx_abs x : fokx x -> fokx (nabs FN x).
Proof. intros (v & f). split; [apply fvalid_abs; auto|apply ffin_abs; auto]. Qed.

(** ** x is an approximation of X, which is at most P in size, with error at most a u P *)
Definition amax_ : R := 1048576.
Record apx (x : FN) (X P a : R) : Prop := {
  ap_ok : fokx x;
  ap_P : 1 <= P;
  ap_a : 0 <= a <= amax_;
  ap_X : Rabs X <= P;
  ap_e : Rabs (fr x - X) <= a * uro * P }.

Lemma eta_u : eta <= uro * / 1024.
Proof. pose proof uro_bpow. unfold eta. rewrite H. replace (/ 1024) with (bpow radix2 (-10)) by (cbn; lra). rewrite <- bpow_plus. apply bpow_le. lia. Qed.
Lemma uro_am a : 0 <= a <= amax_ -> 0 <= a * uro <= / 1024.
Proof.
  unfold amax_. intros h. pose proof uro_pos. split; [nra|]. assert (uro * 9007199254740992 = 1) by (unfold uro; change (2 ^ 53)%Z with 9007199254740992%Z; lra).
  assert (a * uro <= 1048576 * uro) by (apply Rmult_le_compat_r; lra). lra.
Qed.
Lemma apx_abs x X P a : apx x X P a -> Rabs (fr x) <= P * (1 + a * uro).
Proof.
  intros [h1 h2 h3 h4 h5]. replace (fr x) with (X + (fr x - X)) by ring. eapply Rle_trans; [apply Rabs_triang|]. lra.
Qed.
Lemma apx_weak x X P a P' a' : apx x X P a -> P <= P' -> a <= a' <= amax_ -> apx x X P' a'.
Proof.
  intros [h1 h2 h3 h4 h5] hp ha. constructor; auto; try lra. eapply Rle_trans; [exact h5|]. pose proof uro_pos.
  apply Rmult_le_compat; try lra; try nra.
Qed.
Lemma apx_exact x P : fokx x -> 1 <= P -> Rabs (fr x) <= P -> apx x (fr x) P 0.
Proof. intros h1 h2 h3. constructor; auto; unfold amax_; try lra. unfold Rminus. rewrite Rplus_opp_r, Rabs_R0. lra. Qed.
Lemma apx_opp x X P a : apx x X P a -> apx (nopp FN x) (- X) P a.
Proof.
  intros [h1 h2 h3 h4 h5]. constructor; auto; [apply fokx_opp; auto|rewrite Rabs_Ropp; auto|].
  rewrite fr_opp. replace (- fr x - - X) with (- (fr x - X)) by ring. rewrite Rabs_Ropp. auto.
Qed.
Lemma apx_mul x X P a y Y Q b : apx x X P a -> apx y Y Q b -> a + b + 2 <= amax_ -> P * Q <= bpow radix2 1000 ->
  apx (nmul FN x y) (X * Y) (P * Q) (a + b + 2).
Proof.
  intros hx hy hab hPQ. pose proof (apx_abs _ _ _ _ hx) as bx. pose proof (apx_abs _ _ _ _ hy) as by_.
  destruct hx as [x1 x2 x3 x4 x5], hy as [y1 y2 y3 y4 y5].
  pose proof uro_pos as hu. pose proof uro_1024 as hu1. pose proof eta_u as he. pose proof eta_pos as he0.
  destruct (uro_am a x3) as (a0 & a1). destruct (uro_am b y3) as (b0 & b1).
  assert (hab' : (a * uro) * (b * uro) <= uro * / 4).
  { apply Rle_trans with (amax_ * uro * (amax_ * uro)); [apply Rmult_le_compat; auto; apply Rmult_le_compat_r; lra|]. unfold amax_.
    assert (uro * 9007199254740992 = 1) by (unfold uro; change (2 ^ 53)%Z with 9007199254740992%Z; lra). nra. }
  assert (hPQ1 : 1 <= P * Q) by nra.
  pose proof (Rabs_pos (fr x)) as px. pose proof (Rabs_pos (fr y)) as py.
  assert (hxy : Rabs (fr x) * Rabs (fr y) <= P * Q * ((1 + a * uro) * (1 + b * uro))).
  { replace (P * Q * ((1 + a * uro) * (1 + b * uro))) with ((P * (1 + a * uro)) * (Q * (1 + b * uro))) by ring. apply Rmult_le_compat; auto. }
  assert (hf : (1 + a * uro) * (1 + b * uro) <= 1 + / 4) by nra.
  assert (hxy2 : Rabs (fr x) * Rabs (fr y) <= P * Q * (1 + / 4)) by (eapply Rle_trans; [exact hxy|]; apply Rmult_le_compat_l; lra).
  assert (hb : bpow radix2 1000 * (1 + / 4) <= bpow radix2 1023).
  { apply Rle_trans with (bpow radix2 1000 * bpow radix2 23); [apply Rmult_le_compat_l; [apply bpow_ge_0|simpl; lra]|]. rewrite <- bpow_plus. apply bpow_le. lia. }
  destruct (mul_err x y x1 y1) as (m1 & m2); [nra|].
  constructor; auto.
  - lra.
  - rewrite Rabs_mult. apply Rmult_le_compat; auto using Rabs_pos.
  - replace (fr (nmul FN x y) - X * Y) with ((fr (nmul FN x y) - fr x * fr y) + ((fr x - X) * Y + X * (fr y - Y) + (fr x - X) * (fr y - Y))) by ring.
    eapply Rle_trans; [apply Rabs_triang|]. pose proof (Rabs_triang ((fr x - X) * Y + X * (fr y - Y)) ((fr x - X) * (fr y - Y))) as t1. pose proof (Rabs_triang ((fr x - X) * Y) (X * (fr y - Y))) as t2.
    rewrite (Rabs_mult (fr x - X) (fr y - Y)) in t1. rewrite (Rabs_mult (fr x - X) Y), (Rabs_mult X) in t2.
    assert (e1 : Rabs (fr x - X) * Rabs Y <= (a * uro * P) * Q) by (apply Rmult_le_compat; auto using Rabs_pos).
    assert (e2 : Rabs X * Rabs (fr y - Y) <= P * (b * uro * Q)) by (apply Rmult_le_compat; auto using Rabs_pos).
    assert (e3 : Rabs (fr x - X) * Rabs (fr y - Y) <= (a * uro * P) * (b * uro * Q)) by (apply Rmult_le_compat; auto using Rabs_pos).
    assert (e4 : (a * uro * P) * (b * uro * Q) <= uro * / 4 * (P * Q)).
    { replace ((a * uro * P) * (b * uro * Q)) with ((a * uro) * (b * uro) * (P * Q)) by ring. apply Rmult_le_compat_r; lra. }
    assert (e5 : uro * (Rabs (fr x) * Rabs (fr y)) <= uro * (P * Q * (1 + / 4))) by (apply Rmult_le_compat_l; lra).
    assert (e6 : eta <= uro * / 1024 * (P * Q)) by nra.
    assert (e7 : (a + b + 2) * uro * (P * Q) = (a * uro * P) * Q + P * (b * uro * Q) + 2 * (uro * (P * Q))) by ring.
    rewrite e7. assert (0 < uro * (P * Q)) by nra. lra.
Qed.
Lemma apx_add x X P y Y Q a : apx x X P a -> apx y Y Q a -> a + 2 <= amax_ -> P + Q <= bpow radix2 1000 ->
  apx (nadd FN x y) (X + Y) (P + Q) (a + 2).
Proof.
  intros hx hy ha hPQ. pose proof (apx_abs _ _ _ _ hx) as bx. pose proof (apx_abs _ _ _ _ hy) as by_.
  destruct hx as [x1 x2 x3 x4 x5], hy as [y1 y2 y3 y4 y5]. pose proof uro_pos as hu. destruct (uro_am a x3) as (a0 & a1).
  assert (hs : Rabs (fr x) + Rabs (fr y) <= (P + Q) * (1 + a * uro)) by lra.
  assert (hb : bpow radix2 1000 * 2 <= bpow radix2 1023).
  { change 2 with (bpow radix2 1). rewrite <- bpow_plus. apply bpow_le. lia. }
  destruct (add_err x y x1 y1) as (m1 & m2); [nra|].
  constructor; auto; try lra.
  - eapply Rle_trans; [apply Rabs_triang|]. lra.
  - replace (fr (nadd FN x y) - (X + Y)) with ((fr (nadd FN x y) - (fr x + fr y)) + ((fr x - X) + (fr y - Y))) by ring.
    eapply Rle_trans; [apply Rabs_triang|]. pose proof (Rabs_triang (fr x - X) (fr y - Y)).
    assert (uro * (Rabs (fr x) + Rabs (fr y)) <= uro * ((P + Q) * 2)) by (apply Rmult_le_compat_l; [lra|]; nra). nra.
Qed.
Lemma apx_sub x X P y Y Q a : apx x X P a -> apx y Y Q a -> a + 2 <= amax_ -> P + Q <= bpow radix2 1000 ->
  apx (nsub FN x y) (X - Y) (P + Q) (a + 2).
Proof.
  intros hx hy ha hPQ. pose proof (apx_abs _ _ _ _ hx) as bx. pose proof (apx_abs _ _ _ _ hy) as by_.
  destruct hx as [x1 x2 x3 x4 x5], hy as [y1 y2 y3 y4 y5]. pose proof uro_pos as hu. destruct (uro_am a x3) as (a0 & a1).
  assert (hs : Rabs (fr x) + Rabs (fr y) <= (P + Q) * (1 + a * uro)) by lra.
  assert (hb : bpow radix2 1000 * 2 <= bpow radix2 1023).
  { change 2 with (bpow radix2 1). rewrite <- bpow_plus. apply bpow_le. lia. }
  destruct (sub_err x y x1 y1) as (m1 & d & hd & ed); [nra|].
  assert (m2 : Rabs (fr (nsub FN x y) - (fr x - fr y)) <= uro * (Rabs (fr x) + Rabs (fr y))).
  { rewrite ed. replace ((fr x - fr y) * (1 + d) - (fr x - fr y)) with (d * (fr x - fr y)) by ring. rewrite Rabs_mult.
    pose proof (Rabs_triang (fr x) (- fr y)) as ht. rewrite Rabs_Ropp in ht. apply Rmult_le_compat; auto using Rabs_pos. }
  constructor; auto; try lra.
  - unfold Rminus. eapply Rle_trans; [apply Rabs_triang|]. rewrite Rabs_Ropp. lra.
  - replace (fr (nsub FN x y) - (X - Y)) with ((fr (nsub FN x y) - (fr x - fr y)) + ((fr x - X) + - (fr y - Y))) by ring.
    eapply Rle_trans; [apply Rabs_triang|]. pose proof (Rabs_triang (fr x - X) (- (fr y - Y))) as ht. rewrite Rabs_Ropp in ht.
    assert (uro * (Rabs (fr x) + Rabs (fr y)) <= uro * ((P + Q) * 2)) by (apply Rmult_le_compat_l; [lra|]; nra). nra.
Qed.
