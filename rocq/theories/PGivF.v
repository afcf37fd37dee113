(** * Givens rotations in binary64 *)
From Coq Require Import Reals List Arith Lia Lra Bool ZArith.
From Coq.Floats Require Import SpecFloat.
From Flocq Require Import Core BinarySingleNaN.
From Verif Require Import Scalar Arr MBase MDirect MDecomp MEigh Inst Hoare Spec SpecF SpecH RLin PEighR PRound PHouseF PCholG PTrdF PApx.
Import ListNotations.
Local Open Scope R_scope.

(** the exact rotation that the computed one approximates *)
Definition gc (x y : R) : R := x / sqrt (x * x + y * y).
Definition gs (x y : R) : R := - y / sqrt (x * x + y * y).
Lemma hyp_pos x y : y <> 0 -> 0 < sqrt (x * x + y * y).
Proof. intros h. apply sqrt_lt_R0. pose proof (Rle_0_sqr x) as h1. unfold Rsqr in h1. assert (0 < y * y) by nra. lra. Qed.
Lemma hyp_sq x y : sqrt (x * x + y * y) * sqrt (x * x + y * y) = x * x + y * y.
Proof. apply sqrt_sqrt. pose proof (Rle_0_sqr x) as h1. pose proof (Rle_0_sqr y) as h2. unfold Rsqr in *. lra. Qed.
Lemma gcs x y : y <> 0 -> gc x y * gc x y + gs x y * gs x y = 1 /\ gs x y * x + gc x y * y = 0 /\ gc x y * x - gs x y * y = sqrt (x * x + y * y).
Proof.
  intros h. pose proof (hyp_pos x y h) as hp. pose proof (hyp_sq x y) as hs. unfold gc, gs. set (r := sqrt (x * x + y * y)) in *.
  split; [|split].
  - replace (x / r * (x / r) + - y / r * (- y / r)) with ((x * x + y * y) / (r * r)) by (field; lra). rewrite hs. field. rewrite <- hs. nra.
  - field. lra.
  - replace (x / r * x - - y / r * y) with ((x * x + y * y) / r) by (field; lra). rewrite <- hs. field. lra.
Qed.
Lemma gcs_le x y : y <> 0 -> Rabs (gc x y) <= 1 /\ Rabs (gs x y) <= 1.
Proof.
  intros h. destruct (gcs x y h) as (h1 & _). pose proof (Rle_0_sqr (gc x y)) as p1. pose proof (Rle_0_sqr (gs x y)) as p2. unfold Rsqr in *.
  split; apply Rabs_le_of_sq; lra.
Qed.

Lemma quot_apx x r X R_ : fokx x -> fokx r -> fr x = X -> 0 < R_ -> Rabs X <= R_ -> Rabs (fr r - R_) <= 3 * uro * R_ ->
  apx (ndiv FN x r) (X / R_) 1 6.
Proof.
  intros hx hr eX hR hX he. pose proof uro_pos as hu. pose proof uro_1024 as hu1. pose proof eta_u as heta. pose proof eta_pos as he0.
  apply Rabs_le_inv in he as he'. assert (hr0 : 0 < fr r) by nra.
  assert (q1 : Rabs (X / R_) <= 1).
  { unfold Rdiv. rewrite Rabs_mult, (Rabs_pos_eq (/ R_)) by (left; apply Rinv_0_lt_compat; auto). apply Rmult_le_reg_r with R_; auto. rewrite Rmult_assoc, Rinv_l by lra. lra. }
  assert (q2 : Rabs (X / fr r - X / R_) <= 4 * uro).
  { replace (X / fr r - X / R_) with (X / R_ * ((R_ - fr r) / fr r)) by (field; lra). rewrite Rabs_mult.
    assert (Rabs ((R_ - fr r) / fr r) <= 4 * uro).
    { unfold Rdiv. rewrite Rabs_mult, (Rabs_pos_eq (/ fr r)) by (left; apply Rinv_0_lt_compat; auto). rewrite Rabs_minus_sym. apply Rmult_le_reg_r with (fr r); auto. rewrite Rmult_assoc, Rinv_l by lra. nra. }
    pose proof (Rabs_pos ((R_ - fr r) / fr r)). pose proof (Rabs_pos (X / R_)). nra. }
  assert (q3 : Rabs (X / fr r) <= 1 + 4 * uro).
  { replace (X / fr r) with ((X / fr r - X / R_) + X / R_) by ring. eapply Rle_trans; [apply Rabs_triang|]. lra. }
  rewrite <- eX in q3, q2 |- *. destruct (div_err x r hx hr) as (d1 & d2).
  - lra.
  - assert (2 <= bpow radix2 1023) by (apply (bpow_le radix2 1 1023); lia). lra.
  - constructor; auto; unfold amax_; try lra; [rewrite eX; auto|].
    replace (fr (ndiv FN x r) - fr x / R_) with ((fr (ndiv FN x r) - fr x / fr r) + (fr x / fr r - fr x / R_)) by ring.
    eapply Rle_trans; [apply Rabs_triang|]. nra.
Qed.

Lemma nan_div_r x : ndiv FN x S754_nan = S754_nan. Proof. destruct x; reflexivity. Qed.
Lemma nan_mul_r x : nmul FN x S754_nan = S754_nan. Proof. destruct x; reflexivity. Qed.
Lemma nan_add_r x : nadd FN x S754_nan = S754_nan. Proof. destruct x; reflexivity. Qed.
Lemma nan_sub_r x : nsub FN x S754_nan = S754_nan. Proof. destruct x; reflexivity. Qed.
Lemma nan_mul_l x : nmul FN S754_nan x = S754_nan. Proof. reflexivity. Qed.
Lemma nan_add_l x : nadd FN S754_nan x = S754_nan. Proof. reflexivity. Qed.
Lemma nan_sub_l x : nsub FN S754_nan x = S754_nan. Proof. reflexivity. Qed.
Lemma nan_div_l x : ndiv FN S754_nan x = S754_nan. Proof. reflexivity. Qed.

Lemma nonzero_fr y : fokx y -> nis_zero FN y = false -> fr y <> 0.
Proof.
  intros (v & f) h. destruct y as [s|s| |s m e]; try discriminate. intros e0. unfold fr, SF2R in e0. apply eq_0_F2R in e0. destruct s; discriminate.
Qed.
Lemma zero_fr y : nis_zero FN y = true -> fr y = 0.
Proof. intros h. apply is_zero_f in h. apply h. Qed.

Section Rot.
Variable h : spec_float -> spec_float -> spec_float.
Hypothesis hh : hyp_good h.
Local Notation N := (FNh h).

Lemma cancel_y_f (x y : FN) : fokx x -> fokx y -> Rabs (fr x) <= cap -> Rabs (fr y) <= cap ->
  match @cancel_y N x y with
  | None => fr y = 0
  | Some (rot, norm) => fr y <> 0 /\
      (rot = Rot (N:=N) S754_nan S754_nan \/
       (apx (rc rot) (gc (fr x) (fr y)) 1 6 /\ apx (rs rot) (gs (fr x) (fr y)) 1 6 /\ fokx norm /\
        Rabs (fr norm - sqrt (fr x * fr x + fr y * fr y)) <= 3 * uro * sqrt (fr x * fr x + fr y * fr y)))
  end.
Proof.
  intros hx hy bx by_. unfold cancel_y. change (nis_zero N y) with (nis_zero FN y). destruct (nis_zero FN y) eqn:ez; cbn [negb].
  - apply zero_fr; auto.
  - pose proof (nonzero_fr y hy ez) as y0. split; auto. change (nhypot N x y) with (h x y).
    destruct hh as (h1 & _). destruct (h1 x y (proj1 hx) (proj2 hx) (proj1 hy) (proj2 hy) bx by_) as [e|(r1 & r2 & r3)].
    + left. rewrite e. f_equal; apply nan_div_r.
    + right. cbn [rc rs]. set (r := sqrt (fr x * fr x + fr y * fr y)) in *.
      assert (hp : 0 < r) by (apply hyp_pos; auto).
      assert (le1 : Rabs (fr x) <= r) by (apply Rabs_le_of_sq; [lra|]; unfold r; rewrite hyp_sq; pose proof (Rle_0_sqr (fr y)) as q; unfold Rsqr in q; lra).
      assert (le2 : Rabs (fr y) <= r) by (apply Rabs_le_of_sq; [lra|]; unfold r; rewrite hyp_sq; pose proof (Rle_0_sqr (fr x)) as q; unfold Rsqr in q; lra).
      split; [|split; [|split; [split; auto|exact r3]]].
      * apply quot_apx; auto. split; auto.
      * apply quot_apx; auto. { apply fokx_opp; auto. } { split; auto. } { apply fr_opp. } rewrite Rabs_Ropp. auto.
Qed.
Lemma cancel_y_nan (y : FN) : ffin y -> nis_zero FN y = false -> @cancel_y N S754_nan y = Some (Rot (N:=N) S754_nan S754_nan, S754_nan).
Proof.
  intros hf hz. unfold cancel_y. change (nis_zero N y) with (nis_zero FN y). rewrite hz. cbn [negb]. change (nhypot N S754_nan y) with (h S754_nan y).
  destruct hh as (_ & h2). rewrite h2 by auto. f_equal. f_equal. f_equal. apply nan_div_r.
Qed.
End Rot.

(** ** The entries computed in one step of a sweep *)
Definition mbig : R := bpow radix2 60.
Lemma mbig_v : mbig = 1152921504606846976. Proof. unfold mbig. cbn. lra. Qed.
Lemma big1000 : 1152921504606846976 * 1152921504606846976 * 1152921504606846976 <= bpow radix2 1000.
Proof.
  replace (1152921504606846976 * 1152921504606846976 * 1152921504606846976) with (bpow radix2 180) by (cbn; lra). apply bpow_le. lia.
Qed.
Lemma two_ok : apx (ntwo (N:=FN)) 2 2 0.
Proof.
  rewrite two_f. assert (q : apx (f_of_Z 2) (fr (f_of_Z 2)) 2 0) by (apply apx_exact; [split; vm_compute; reflexivity|lra|rewrite fr_f2, Rabs_pos_eq; lra]).
  rewrite fr_f2 in q. exact q.
Qed.
Lemma half_f : nhalf (N:=FN) = S754_finite false 4503599627370496 (-53). Proof. vm_compute. reflexivity. Qed.
Lemma fr_half : fr (nhalf (N:=FN)) = / 2.
Proof. rewrite half_f. unfold fr, SF2R. cbn [cond_Zopp]. unfold F2R. cbn. lra. Qed.
Lemma half_ok : apx (nhalf (N:=FN)) (/ 2) 1 0.
Proof.
  rewrite <- fr_half. apply apx_exact; [split; vm_compute; reflexivity|lra|rewrite fr_half, Rabs_pos_eq; lra].
Qed.
Definition ent_ok (m : R) (x : FN) : Prop := fokx x /\ Rabs (fr x) <= m.
Lemma ent_apx m x : 1 <= m -> ent_ok m x -> apx x (fr x) m 0.
Proof. intros h1 (h2 & h3). apply apx_exact; auto. Qed.

Section Step.
Variables (m : R) (c s mii mjj mij : FN) (C S : R).
Hypotheses (m1 : 1 <= m) (m2 : m <= mbig) (hc : apx c C 1 6) (hs : apx s S 1 6) (h1 : ent_ok m mii) (h2 : ent_ok m mjj) (h3 : ent_ok m mij).
Local Open Scope num_scope.
Let cc := nmul FN c c.
Let ss := nmul FN s s.
Let cs := nmul FN c s.
Let bb := nmul FN (nmul FN cs mij) ntwo.

Lemma step_pre : apx cc (C * C) 1 14 /\ apx ss (S * S) 1 14 /\ apx cs (C * S) 1 14.
Proof.
  pose proof big1000 as hb.
  split; [|split]; (eapply apx_weak; [apply apx_mul; [eassumption|eassumption|unfold amax_; lra|lra]|lra|unfold amax_; lra]).
Qed.
Lemma step_b : apx bb (2 * (C * S) * fr mij)%R (2 * m)%R 18.
Proof.
  pose proof big1000 as hb. rewrite mbig_v in m2. destruct step_pre as (_ & _ & p3). unfold bb.
  assert (q : apx (nmul FN cs mij) ((C * S) * fr mij) (1 * m) (14 + 0 + 2)) by (apply apx_mul; [auto|apply ent_apx; auto|unfold amax_; lra|lra]).
  replace (2 * (C * S) * fr mij)%R with (((C * S) * fr mij) * 2)%R by ring.
  eapply apx_weak; [eapply apx_mul; [exact q|exact two_ok|unfold amax_; lra|lra]|lra|unfold amax_; lra].
Qed.
Lemma step_dii : apx (nsub FN (nadd FN (nmul FN cc mii) (nmul FN ss mjj)) bb) (C * C * fr mii + S * S * fr mjj - 2 * (C * S) * fr mij)%R (4 * m)%R 20.
Proof.
  pose proof big1000 as hb. pose proof step_b as hB. rewrite mbig_v in m2. destruct step_pre as (p1 & p2 & p3).
  assert (q1 : apx (nmul FN cc mii) (C * C * fr mii) (1 * m) (14 + 0 + 2)) by (apply apx_mul; [auto|apply ent_apx; auto|unfold amax_; lra|lra]).
  assert (q2 : apx (nmul FN ss mjj) (S * S * fr mjj) (1 * m) (14 + 0 + 2)) by (apply apx_mul; [auto|apply ent_apx; auto|unfold amax_; lra|lra]).
  assert (q3 : apx (nadd FN (nmul FN cc mii) (nmul FN ss mjj)) (C * C * fr mii + S * S * fr mjj) (1 * m + 1 * m) (14 + 0 + 2 + 2)) by (apply apx_add; [auto|auto|unfold amax_; lra|lra]).
  eapply apx_weak; [apply apx_sub; [exact q3|eapply apx_weak; [exact hB|apply Rle_refl|unfold amax_; lra]|unfold amax_; lra|lra]|lra|unfold amax_; lra].
Qed.
Lemma step_djj : apx (nadd FN (nadd FN (nmul FN ss mii) (nmul FN cc mjj)) bb) (S * S * fr mii + C * C * fr mjj + 2 * (C * S) * fr mij)%R (4 * m)%R 20.
Proof.
  pose proof big1000 as hb. pose proof step_b as hB. rewrite mbig_v in m2. destruct step_pre as (p1 & p2 & p3).
  assert (q1 : apx (nmul FN ss mii) (S * S * fr mii) (1 * m) (14 + 0 + 2)) by (apply apx_mul; [auto|apply ent_apx; auto|unfold amax_; lra|lra]).
  assert (q2 : apx (nmul FN cc mjj) (C * C * fr mjj) (1 * m) (14 + 0 + 2)) by (apply apx_mul; [auto|apply ent_apx; auto|unfold amax_; lra|lra]).
  assert (q3 : apx (nadd FN (nmul FN ss mii) (nmul FN cc mjj)) (S * S * fr mii + C * C * fr mjj) (1 * m + 1 * m) (14 + 0 + 2 + 2)) by (apply apx_add; [auto|auto|unfold amax_; lra|lra]).
  eapply apx_weak; [apply apx_add; [exact q3|eapply apx_weak; [exact hB|apply Rle_refl|unfold amax_; lra]|unfold amax_; lra|lra]|lra|unfold amax_; lra].
Qed.
Lemma step_oii : apx (nadd FN (nmul FN cs (nsub FN mii mjj)) (nmul FN mij (nsub FN cc ss))) (C * S * (fr mii - fr mjj) + fr mij * (C * C - S * S))%R (4 * m)%R 20.
Proof.
  pose proof big1000 as hb. rewrite mbig_v in m2. destruct step_pre as (p1 & p2 & p3).
  assert (q1 : apx (nsub FN mii mjj) (fr mii - fr mjj) (m + m) (0 + 2)) by (apply apx_sub; [apply ent_apx; auto|apply ent_apx; auto|unfold amax_; lra|lra]).
  assert (q2 : apx (nsub FN cc ss) (C * C - S * S) (1 + 1) (14 + 2)) by (apply apx_sub; [auto|auto|unfold amax_; lra|lra]).
  assert (q3 : apx (nmul FN cs (nsub FN mii mjj)) (C * S * (fr mii - fr mjj)) (1 * (m + m)) (14 + (0 + 2) + 2)) by (apply apx_mul; [auto|auto|unfold amax_; lra|lra]).
  assert (q4 : apx (nmul FN mij (nsub FN cc ss)) (fr mij * (C * C - S * S)) (m * (1 + 1)) (0 + (14 + 2) + 2)) by (apply apx_mul; [apply ent_apx; auto|auto|unfold amax_; lra|lra]).
  eapply apx_weak; [apply apx_add; [exact q3|eapply apx_weak; [exact q4|apply Rle_refl|unfold amax_; lra]|unfold amax_; lra|lra]|lra|unfold amax_; lra].
Qed.
Lemma step_y (o : FN) : ent_ok m o -> apx (nmul FN (nopp FN s) o) (- S * fr o)%R m 8 /\ apx (nmul FN o c) (C * fr o)%R m 8.
Proof.
  intros ho. pose proof big1000 as hb. rewrite mbig_v in m2. split.
  - eapply apx_weak; [apply apx_mul; [apply apx_opp; exact hs|apply (ent_apx m); auto|unfold amax_; lra|lra]|lra|unfold amax_; lra].
  - replace (C * fr o)%R with (fr o * C)%R by ring. eapply apx_weak; [apply apx_mul; [apply (ent_apx m); auto|exact hc|unfold amax_; lra|lra]|lra|unfold amax_; lra].
Qed.
End Step.

(** ** The shift is finite and not large, or NaN *)
Lemma sqrt_ok x : fokx x -> 0 <= fr x -> fokx (nsqrt FN x) /\ exists d, Rabs d <= uro /\ fr (nsqrt FN x) = sqrt (fr x) * (1 + d).
Proof.
  intros (v & f) h. assert (ff : ffin (nsqrt FN x)).
  { destruct h as [h|h]; [apply sqrt_fin; auto|]. destruct x as [s|s| |s mm e]; try discriminate; [reflexivity|].
    exfalso. symmetry in h. unfold fr, SF2R in h. apply eq_0_F2R in h. destruct s; discriminate. }
  split; [split; auto; apply fvalid_sqrt; auto|]. destruct (sqrt_rel x v ff) as (_ & _ & d & hd & e). exists d. split; auto. apply dlt_u; auto.
Qed.
Lemma zero_sf x : ffin x -> fr x = 0 -> exists s, x = S754_zero s.
Proof.
  intros f h. destruct x as [s|s| |s mm e]; try discriminate; [eauto|]. exfalso. unfold fr, SF2R in h. apply eq_0_F2R in h. destruct s; discriminate.
Qed.
Lemma shift_f m (tmm tnn tmn : FN) : 1 <= m -> m <= mbig -> ent_ok m tmm -> ent_ok m tnn -> ent_ok m tmn ->
  @wilkinson_shift FN tmm tnn tmn = S754_nan \/ ent_ok (16 * m) (@wilkinson_shift FN tmm tnn tmn).
Proof.
  intros m1 m2 hm hn ht. unfold wilkinson_shift. destruct (nis_zero FN tmn); cbn [negb]; [right; destruct hn; split; auto; lra|].
  rewrite mbig_v in m2. pose proof big1000 as hb. pose proof uro_pos as hu. pose proof uro_1024 as hu1. pose proof eta_u as heta. pose proof eta_pos as he0.
  assert (hb2 : bpow radix2 1000 <= bpow radix2 1023) by (apply bpow_le; lia).
  set (t := nmul FN tmn tmn). set (d := nmul FN (nsub FN tmm tnn) nhalf).
  assert (qt : apx t (fr tmn * fr tmn) (m * m) (0 + 0 + 2)) by (apply apx_mul; [apply ent_apx; auto|apply ent_apx; auto|unfold amax_; lra|nra]).
  assert (qd : apx d ((fr tmm - fr tnn) * / 2) ((m + m) * 1) (0 + 2 + 0 + 2)).
  { apply apx_mul; [apply apx_sub; [apply ent_apx; auto|apply ent_apx; auto|unfold amax_; lra|lra]|apply half_ok|unfold amax_; lra|lra]. }
  pose proof (ap_ok _ _ _ _ qt) as ot. pose proof (ap_ok _ _ _ _ qd) as od.
  assert (mm : m * m <= 1152921504606846976 * 1152921504606846976) by (apply Rmult_le_compat; lra).
  assert (qq : apx (nmul FN d d) ((fr tmm - fr tnn) * / 2 * ((fr tmm - fr tnn) * / 2)) (4 * (m * m)) 20).
  { eapply apx_weak; [apply apx_mul; [exact qd|exact qd|unfold amax_; lra|nra]|right; ring|unfold amax_; lra]. }
  assert (qs : apx (nadd FN (nmul FN d d) t) ((fr tmm - fr tnn) * / 2 * ((fr tmm - fr tnn) * / 2) + fr tmn * fr tmn) (4 * (m * m) + m * m) (20 + 2)).
  { apply apx_add; [exact qq|eapply apx_weak; [exact qt|apply Rle_refl|unfold amax_; lra]|unfold amax_; lra|nra]. }
  set (q := nadd FN (nmul FN d d) t) in *. pose proof (ap_ok _ _ _ _ qs) as oq. pose proof (ap_ok _ _ _ _ qq) as odd.
  assert (t0 : 0 <= fr t) by (apply mul_sq_nonneg; [apply ht|apply ot]).
  assert (dd0 : 0 <= fr (nmul FN d d)) by (apply mul_sq_nonneg; [apply od|apply odd]).
  assert (hq : fr t / 2 <= fr q).
  { destruct (add_std _ _ (proj1 odd) (proj1 ot) (proj2 oq)) as (_ & _ & dl & hd & e). fold q in e. apply dlt_u, Rabs_le_inv in hd. rewrite e. nra. }
  assert (q0 : 0 <= fr q) by lra.
  destruct (sqrt_ok q oq q0) as (osq & ds & hds & esq). set (sq := nsqrt FN q) in *. apply Rabs_le_inv in hds.
  destruct (signum_fr d (proj2 od)) as (us & esg). set (sg := nsignum FN d) in *.
  assert (osg : fokx (nmul FN sg sq) /\ fr (nmul FN sg sq) = fr sg * fr sq).
  { rewrite mul_comm_f. destruct (mul_unit sq sg (proj1 osq) us) as (w1 & w2 & w3). split; [split; auto; apply w1; apply osq|]. rewrite w2 by apply osq. ring. }
  destruct osg as (osg & eg). destruct (unitf_fr sg us) as (_ & _ & usg & usg2).
  pose proof (sqrt_pos (fr q)) as sp. assert (sq0 : 0 <= fr sq) by (rewrite esq; apply Rmult_le_pos; lra).
  assert (bq : fr q <= 6 * (m * m)).
  { pose proof (apx_abs _ _ _ _ qs) as ba. pose proof (Rle_abs (fr q)). assert ((20 + 2) * uro <= / 40) by nra. nra. }
  assert (bsq : fr sq <= 4 * m).
  { rewrite esq. assert (sqrt (fr q) <= 3 * m). { rewrite <- (sqrt_square (3 * m)) by lra. apply sqrt_le_1_alt. nra. } nra. }
  assert (bd : Rabs (fr d) <= 3 * m). { pose proof (apx_abs _ _ _ _ qd) as ba. nra. }
  assert (asg : Rabs (fr (nmul FN sg sq)) = fr sq).
  { rewrite eg, Rabs_mult, (Rabs_pos_eq (fr sq)) by auto. destruct usg as [->| ->]; [rewrite Rabs_R1|rewrite Rabs_left by lra]; ring. }
  destruct (add_err d (nmul FN sg sq) od osg) as (oden & _). { rewrite asg. lra. }
  set (den := nadd FN d (nmul FN sg sq)) in *.
  assert (eden : Rabs (fr d) + fr sq <= 2 * Rabs (fr den)).
  { destruct (add_std d (nmul FN sg sq) (proj1 od) (proj1 osg) (proj2 oden)) as (_ & _ & dl & hd & e). fold den in e. apply dlt_u in hd as hd'. apply Rabs_le_inv in hd'. rewrite e, eg, Rabs_mult, (Rabs_pos_eq (1 + dl)) by lra.
    assert (ea : Rabs (fr d + fr sg * fr sq) = Rabs (fr d) + fr sq).
    { replace (fr d + fr sg * fr sq) with (fr sg * (fr sg * fr d + fr sq)) by (transitivity (fr sg * fr sg * fr d + fr sg * fr sq); [ring|rewrite usg2; ring]).
      rewrite esg, Rabs_mult, (Rabs_pos_eq (Rabs (fr d) + fr sq)) by (pose proof (Rabs_pos (fr d)); lra). destruct usg as [->| ->]; [rewrite Rabs_R1|rewrite Rabs_left by lra]; ring. }
    rewrite ea. pose proof (Rabs_pos (fr d)). nra. }
  assert (bt : fr t <= 2 * (m * m)). { pose proof (apx_abs _ _ _ _ qt) as ba. pose proof (Rle_abs (fr t)). nra. }
  assert (done : fokx (ndiv FN t den) -> Rabs (fr (ndiv FN t den)) <= 14 * m -> ent_ok (16 * m) (nsub FN tnn (ndiv FN t den))).
  { intros o1 b1. destruct hn as (hn1 & hn2). destruct (sub_err tnn (ndiv FN t den) hn1 o1) as (o2 & dl & hd & e2); [lra|]. split; auto. rewrite e2, Rabs_mult. apply Rabs_le_inv in hd. rewrite (Rabs_pos_eq (1 + dl)) by lra.
    pose proof (Rabs_triang (fr tnn) (- fr (ndiv FN t den))) as tr. rewrite Rabs_Ropp in tr. unfold Rminus. pose proof (Rabs_pos (fr tnn + - fr (ndiv FN t den))). nra. }
  destruct t0 as [t0|t0].
  - right. assert (st : 0 < sqrt (fr t)) by (apply sqrt_lt_R0; auto). pose proof (sqrt_sqrt (fr t) ltac:(lra)) as st2.
    assert (lsq : sqrt (fr t) <= 2 * fr sq).
    { rewrite esq. assert (sqrt (fr t) <= sqrt (2 * fr q)) by (apply sqrt_le_1_alt; lra). rewrite sqrt_mult in H by lra.
      assert (sqrt 2 <= 3 / 2). { rewrite <- (sqrt_square (3 / 2)) by lra. apply sqrt_le_1_alt. lra. } nra. }
    assert (lden : sqrt (fr t) <= 4 * Rabs (fr den)) by (pose proof (Rabs_pos (fr d)); lra).
    assert (den0 : fr den <> 0). { intros e0. rewrite e0, Rabs_R0 in lden. lra. }
    assert (bst : sqrt (fr t) <= 3 / 2 * m). { rewrite <- (sqrt_square (3 / 2 * m)) by lra. apply sqrt_le_1_alt. nra. }
    assert (bqt : Rabs (fr t / fr den) <= 6 * m).
    { unfold Rdiv. rewrite Rabs_mult, Rabs_inv, (Rabs_pos_eq (fr t)) by lra. apply Rmult_le_reg_r with (Rabs (fr den)); [apply Rabs_pos_lt; auto|].
      rewrite Rmult_assoc, Rinv_l by (apply Rabs_no_R0; auto). rewrite <- st2. nra. }
    destruct (div_err t den ot oden den0) as (o1 & e1); [lra|]. apply done; auto.
    replace (fr (ndiv FN t den)) with ((fr (ndiv FN t den) - fr t / fr den) + fr t / fr den) by ring. eapply Rle_trans; [apply Rabs_triang|]. nra.
  - destruct (Req_dec (fr den) 0) as [e0|n0].
    + left. destruct (zero_sf t (proj2 ot) (eq_sym t0)) as (s1 & ->). destruct (zero_sf den (proj2 oden) e0) as (s2 & ->). apply nan_sub_r.
    + right. destruct (div_err t den ot oden n0) as (o1 & e1).
      * rewrite <- t0. unfold Rdiv. rewrite Rmult_0_l, Rabs_R0. lra.
      * apply done; auto. rewrite <- t0 in e1. unfold Rdiv in e1. rewrite Rmult_0_l, Rabs_R0, Rminus_0_r in e1. lra.
Qed.

(** ** The two by two eigenvalues *)
Lemma sqrt_close a b k t : 0 <= a -> 0 <= b -> 0 <= k <= / 2 -> 0 <= t -> Rabs (a - b) <= k * b + t -> Rabs (sqrt a - sqrt b) <= k * sqrt b + sqrt t.
Proof.
  intros ha hb hk ht h. apply Rabs_le_inv in h. pose proof (sqrt_pos a) as pa. pose proof (sqrt_pos b) as pb. pose proof (sqrt_pos t) as pt.
  pose proof (sqrt_sqrt a ha) as sa. pose proof (sqrt_sqrt b hb) as sb. pose proof (sqrt_sqrt t ht) as st.
  apply Rabs_le. split.
  - (* sqrt b (1 - k) <= sqrt a + sqrt t *)
    assert (sqrt b * (1 - k) <= sqrt a + sqrt t); [|lra].
    apply Rsqr_incr_0_var; [|lra]. unfold Rsqr. assert (0 <= sqrt a * sqrt t) by (apply Rmult_le_pos; auto).
    replace (sqrt b * (1 - k) * (sqrt b * (1 - k))) with (sqrt b * sqrt b * ((1 - k) * (1 - k))) by ring. rewrite sb.
    replace ((sqrt a + sqrt t) * (sqrt a + sqrt t)) with (sqrt a * sqrt a + 2 * (sqrt a * sqrt t) + sqrt t * sqrt t) by ring. rewrite sa, st. nra.
  - assert (sqrt a <= sqrt b * (1 + k) + sqrt t); [|lra].
    apply Rsqr_incr_0_var; [|nra]. unfold Rsqr. assert (0 <= sqrt b * sqrt t) by (apply Rmult_le_pos; auto). rewrite sa.
    replace ((sqrt b * (1 + k) + sqrt t) * (sqrt b * (1 + k) + sqrt t)) with (sqrt b * sqrt b * ((1 + k) * (1 + k)) + 2 * (1 + k) * (sqrt b * sqrt t) + sqrt t * sqrt t) by ring. rewrite sb, st.
    assert (0 <= 2 * (1 + k) * (sqrt b * sqrt t)) by (apply Rmult_le_pos; lra). nra.
Qed.

Lemma eig2_f m (d0 d1 o : FN) : 1 <= m -> m <= mbig -> ent_ok m d0 -> ent_ok m d1 -> ent_ok m o ->
  exists l1 l2, @compute_2x2_eigvals FN d0 o o d1 = Some (l1, l2) /\
    apx l1 (ev1 (fr d0) (fr d1) (fr o)) (4 * m) 15 /\ apx l2 (ev2 (fr d0) (fr d1) (fr o)) (4 * m) 15.
Proof.
  intros m1 m2 h0 h1 ho. rewrite mbig_v in m2. pose proof big1000 as hb. pose proof uro_pos as hu. pose proof uro_1024 as hu1. pose proof eta_u as heta. pose proof eta_pos as he0.
  assert (hb2 : bpow radix2 1000 <= bpow radix2 1023) by (apply bpow_le; lia).
  assert (mm : m * m <= 1152921504606846976 * 1152921504606846976) by (apply Rmult_le_compat; lra).
  unfold compute_2x2_eigvals, ev1, ev2. set (V := (fr d0 - fr d1) / 2). set (D := fr o * fr o + V * V).
  set (v0 := nsub FN d0 d1). set (val := nmul FN v0 nhalf). set (oo := nmul FN o o). set (vv := nmul FN val val). set (ds := nadd FN oo vv).
  destruct h0 as (k0 & b0). destruct h1 as (k1 & b1). destruct ho as (ko & bo).
  assert (bV : Rabs V <= m).
  { unfold V, Rdiv. rewrite Rabs_mult, (Rabs_pos_eq (/ 2)) by lra. pose proof (Rabs_triang (fr d0) (- fr d1)) as tr. rewrite Rabs_Ropp in tr. unfold Rminus. lra. }
  destruct (sub_err d0 d1 k0 k1) as (okv0 & a1 & ha1 & ev0); [lra|]. fold v0 in okv0, ev0.
  assert (bv0 : Rabs (fr v0) <= 3 * m).
  { rewrite ev0, Rabs_mult. replace (fr d0 - fr d1) with (2 * V) by (unfold V; field). rewrite Rabs_mult, (Rabs_pos_eq 2) by lra.
    assert (Rabs (1 + a1) <= 1 + uro). { eapply Rle_trans; [apply Rabs_triang|]. rewrite Rabs_R1. lra. } pose proof (Rabs_pos (1 + a1)). pose proof (Rabs_pos V). nra. }
  assert (hh : fokx (nhalf (N:=FN))) by (split; vm_compute; reflexivity).
  destruct (mul_err v0 (nhalf (N:=FN)) okv0 hh) as (okval & _). { rewrite fr_half, (Rabs_pos_eq (/ 2)) by lra. lra. } fold val in okval.
  destruct (mul_std v0 (nhalf (N:=FN)) (proj1 okv0) (proj1 hh) (proj2 okval)) as (_ & _ & a2 & e2 & ha2 & he2 & eval). fold val in eval. apply dlt_u in ha2. rewrite fr_half in eval.
  set (th := (1 + a1) * (1 + a2) - 1).
  assert (hth : Rabs th <= 3 * uro).
  { unfold th. replace ((1 + a1) * (1 + a2) - 1) with (a1 + a2 + a1 * a2) by ring. eapply Rle_trans; [apply Rabs_triang|]. pose proof (Rabs_triang a1 a2). rewrite Rabs_mult. pose proof (Rabs_pos a1). pose proof (Rabs_pos a2).
    assert (Rabs a1 * Rabs a2 <= uro * 1) by (apply Rmult_le_compat; lra). lra. }
  assert (ev : fr val = V * (1 + th) + e2) by (rewrite eval, ev0; unfold th, V; field).
  assert (V2 : 0 <= V * V) by (pose proof (Rle_0_sqr V) as g; exact g).
  assert (eta1 : eta <= / 1024) by lra.
  assert (dv : Rabs (fr val * fr val - V * V) <= 7 * uro * (V * V) + 4 * m * eta).
  { rewrite ev. replace ((V * (1 + th) + e2) * (V * (1 + th) + e2) - V * V) with (V * V * (2 * th + th * th) + (2 * (V * (1 + th)) + e2) * e2) by ring.
    eapply Rle_trans; [apply Rabs_triang|]. rewrite (Rabs_mult (V * V)), (Rabs_mult (2 * (V * (1 + th)) + e2)). rewrite (Rabs_pos_eq (V * V)) by auto.
    assert (Rabs (2 * th + th * th) <= 7 * uro).
    { eapply Rle_trans; [apply Rabs_triang|]. rewrite !Rabs_mult, (Rabs_pos_eq 2) by lra. pose proof (Rabs_pos th). assert (Rabs th * Rabs th <= 3 * uro * / 4) by (apply Rmult_le_compat; lra). lra. }
    assert (Rabs (2 * (V * (1 + th)) + e2) <= 4 * m).
    { eapply Rle_trans; [apply Rabs_triang|]. rewrite !Rabs_mult, (Rabs_pos_eq 2) by lra.
      assert (Rabs (1 + th) <= 1 + 3 * uro). { eapply Rle_trans; [apply Rabs_triang|]. rewrite Rabs_R1. lra. } pose proof (Rabs_pos (1 + th)). pose proof (Rabs_pos V).
      assert (Rabs V * Rabs (1 + th) <= m * (1 + 3 * uro)) by (apply Rmult_le_compat; auto). nra. }
    apply Rplus_le_compat; [rewrite Rmult_comm; apply Rmult_le_compat_r; auto|]. apply Rmult_le_compat; auto using Rabs_pos. }
  assert (bval : Rabs (fr val) <= 2 * m).
  { rewrite ev. eapply Rle_trans; [apply Rabs_triang|]. rewrite Rabs_mult. assert (Rabs (1 + th) <= 1 + 3 * uro). { eapply Rle_trans; [apply Rabs_triang|]. rewrite Rabs_R1. lra. } pose proof (Rabs_pos (1 + th)). pose proof (Rabs_pos V).
    assert (Rabs V * Rabs (1 + th) <= m * (1 + 3 * uro)) by (apply Rmult_le_compat; auto). nra. }
  assert (bvv : Rabs (fr val) * Rabs (fr val) <= 2 * m * (2 * m)) by (apply Rmult_le_compat; auto using Rabs_pos).
  assert (boo : Rabs (fr o) * Rabs (fr o) <= m * m) by (apply Rmult_le_compat; auto using Rabs_pos).
  destruct (mul_err val val okval okval) as (okvv & evv); [lra|]. destruct (mul_err o o ko ko) as (okoo & eoo); [lra|]. fold vv in okvv, evv. fold oo in okoo, eoo.
  rewrite <- Rabs_mult in evv, eoo. assert (O2 : 0 <= fr o * fr o) by (pose proof (Rle_0_sqr (fr o)) as g; exact g). assert (Vv2 : 0 <= fr val * fr val) by (pose proof (Rle_0_sqr (fr val)) as g; exact g).
  rewrite (Rabs_pos_eq (fr o * fr o)) in eoo by auto. rewrite (Rabs_pos_eq (fr val * fr val)) in evv by auto.
  assert (n1 : 0 <= fr vv) by (apply mul_sq_nonneg; [apply okval|apply okvv]). assert (n2 : 0 <= fr oo) by (apply mul_sq_nonneg; [apply ko|apply okoo]).
  apply Rabs_le_inv in dv. apply Rabs_le_inv in evv, eoo. assert (me : 0 <= m * eta) by nra. assert (ume : uro * (m * eta) <= m * eta * / 1024) by nra.
  assert (uvv : uro * (V * V) * uro <= uro * (V * V) * / 1024) by (apply Rmult_le_compat_l; [apply Rmult_le_pos; lra|lra]).
  assert (eme : eta <= m * eta) by nra.
  assert (evv' : Rabs (fr vv - V * V) <= 9 * uro * (V * V) + 6 * (m * eta)) by (assert (p1 : uro * (fr val * fr val) <= uro * (V * V + 7 * uro * (V * V) + 4 * m * eta)) by (apply Rmult_le_compat_l; lra); apply Rabs_le; lra).
  apply Rabs_le_inv in evv'.
  assert (uo0 : 0 <= uro * (fr o * fr o)) by (apply Rmult_le_pos; lra). assert (uv0 : 0 <= uro * (V * V)) by (apply Rmult_le_pos; lra).
  assert (D0 : 0 <= D) by (unfold D; lra).
  assert (eS : Rabs (fr oo + fr vv - D) <= 9 * uro * D + 7 * (m * eta)) by (apply Rabs_le; unfold D; lra).
  assert (bD : D <= 2 * (m * m)).
  { unfold D. rewrite <- (Rabs_sq (fr o)), <- (Rabs_sq V). assert (Rabs V * Rabs V <= m * m) by (apply Rmult_le_compat; auto using Rabs_pos). lra. }
  apply Rabs_le_inv in eS.
  assert (uD : uro * D <= 1 * (2 * (m * m))) by (apply Rmult_le_compat; lra). assert (ub : m * eta <= m * 1) by (apply Rmult_le_compat_l; lra). assert (mmm : m * 1 <= m * m) by (apply Rmult_le_compat_l; lra).
  destruct (add_err oo vv okoo okvv) as (okds & eds). { rewrite !Rabs_pos_eq by auto. lra. } fold ds in okds, eds. rewrite (Rabs_pos_eq (fr oo)), (Rabs_pos_eq (fr vv)) in eds by auto.
  assert (eds' : Rabs (fr ds - D) <= 11 * uro * D + 8 * (m * eta)).
  { apply Rabs_le_inv in eds. assert (uro * D * uro <= uro * D * / 1024) by (apply Rmult_le_compat_l; [apply Rmult_le_pos; lra|lra]). assert (uro * (fr oo + fr vv) <= uro * (D + 9 * uro * D + 7 * (m * eta))) by (apply Rmult_le_compat_l; lra). apply Rabs_le. lra. }
  assert (ds0 : 0 <= fr ds).
  { destruct (add_std oo vv (proj1 okoo) (proj1 okvv) (proj2 okds)) as (_ & _ & dl & hd & e). fold ds in e. apply dlt_pos in hd. rewrite e. apply Rmult_le_pos; lra. }
  change (nadd FN oo vv) with ds. 
  assert (hle : nle FN (n0 FN) ds = true).
  { destruct (nle FN (n0 FN) ds) eqn:el; auto. apply leb_fr_false in el; [|split; reflexivity|exact okds]. rewrite fr_0 in el. lra. }
  rewrite hle. destruct (sqrt_ok ds okds ds0) as (oksq & dl & hdl & esq). set (sq := nsqrt FN ds) in *.
  assert (hc : Rabs (sqrt (fr ds) - sqrt D) <= 11 * uro * sqrt D + sqrt (8 * (m * eta))) by (apply sqrt_close; auto; lra).
  assert (hsD : sqrt D <= 2 * m). { rewrite <- (sqrt_square (2 * m)) by lra. apply sqrt_le_1_alt. lra. }
  assert (hst : sqrt (8 * (m * eta)) <= uro * m).
  { rewrite <- (sqrt_square (uro * m)) by (apply Rmult_le_pos; lra). apply sqrt_le_1_alt. assert (8 * eta <= uro * uro).
    { rewrite uro_bpow. unfold eta. change 8 with (bpow radix2 3). rewrite <- !bpow_plus. apply bpow_le. lia. } assert (m * (8 * eta) <= m * m * (uro * uro)) by (apply Rmult_le_compat; lra). lra. }
  pose proof (sqrt_pos D) as sD0. pose proof (sqrt_pos (fr ds)) as sd0.
  assert (asq : apx sq (sqrt D) (2 * m) 13).
  { constructor; auto; try lra; [unfold amax_; lra|rewrite Rabs_pos_eq; auto|]. rewrite esq.
    replace (sqrt (fr ds) * (1 + dl) - sqrt D) with ((sqrt (fr ds) - sqrt D) + dl * sqrt (fr ds)) by ring. eapply Rle_trans; [apply Rabs_triang|]. rewrite Rabs_mult, (Rabs_pos_eq (sqrt (fr ds))) by auto.
    assert (uro * sqrt D <= uro * (2 * m)) by (apply Rmult_le_compat_l; lra). assert (um0 : 0 <= uro * m) by (apply Rmult_le_pos; lra). assert (um1 : uro * m <= / 1024 * m) by (apply Rmult_le_compat_r; lra).
    assert (sqrt (fr ds) <= 3 * m). { apply Rabs_le_inv in hc. lra. }
    assert (Rabs dl * sqrt (fr ds) <= uro * (3 * m)) by (apply Rmult_le_compat; auto using Rabs_pos). lra. }
  set (ht := nmul FN (nadd FN d0 d1) nhalf).
  assert (aht : apx ht ((fr d0 + fr d1) / 2) (2 * m) 13).
  { replace ((fr d0 + fr d1) / 2) with ((fr d0 + fr d1) * / 2) by reflexivity.
    eapply apx_weak; [apply apx_mul; [apply apx_add; [apply (ent_apx m); auto; split; auto|apply (ent_apx m); auto; split; auto|unfold amax_; lra|lra]|apply half_ok|unfold amax_; lra|lra]|lra|unfold amax_; lra]. }
  exists (nadd FN ht sq), (nsub FN ht sq). split; [reflexivity|]. fold V D. split.
  - eapply apx_weak; [apply apx_add; [exact aht|exact asq|unfold amax_; lra|lra]|lra|unfold amax_; lra].
  - eapply apx_weak; [apply apx_sub; [exact aht|exact asq|unfold amax_; lra|lra]|lra|unfold amax_; lra].
Qed.
