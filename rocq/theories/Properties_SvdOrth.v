(** * Property C68: the singular vectors computed in binary64 are orthonormal up to rounding

    [FNh h] is the binary64 instance of the model with the libm function [hypot] replaced by [h]
    (SpecH.v); [FN] is the case of a correctly rounded one.  C24_binary64_refuted shows that U S Vt can be
    far from A; nevertheless Vt always has orthonormal rows, and so has U columns, except for those
    that the sign normalisation sets to zero (C27). *)
From Coq Require Import Reals List Arith Lia Lra Bool ZArith QArith.
From Coq.Floats Require Import SpecFloat.
From Flocq Require Import Core BinarySingleNaN.
From Verif Require Import Scalar Arr MBase MDirect MDecomp MEigh MSvd Inst Hoare Spec SpecF SpecH Ex RLin PEighR PSvd PSvdR PRound PTriF PHouseF PQRF PQRG PTrdF PBidG PApx PRotF PSvdV PSvdF PSvdG PSvdT PSvdO
  Properties_Rounding Properties_QRFloat Properties_TridFloat Properties_Svd Properties_BidFloat Properties_EigFloat Properties_SvdFloat.
Import ListNotations.
Local Open Scope R_scope.

(** The factors generated by the bidiagonalisation (C60), and at most 2 d^2 + d rotations of either
    matrix per iteration *)
Definition so_eps (r c fuel : nat) : R := let d := Nat.min r c in
  sqrt (INR d) * eps_qr (Nat.max r c) d + 90 * ((INR fuel + 1) * (2 * INR d * INR d + INR d)) * uro.
(** A non-empty matrix of finite numbers; dimensions and number of iterations are such that the error
    bound makes sense *)
Definition so_input (r c fuel : nat) (a : mat FN) : Prop :=
  nr a = r /\ nc a = c /\ (1 <= r)%nat /\ (1 <= c)%nat /\
  (forall i j, (i < r)%nat -> (j < c)%nat -> fvalid (get a i j) /\ ffin (get a i j)) /\
  bid_size (Nat.max r c) /\ so_eps r c fuel <= 1.
Definition mfin (m : mat FN) : Prop := forall i j, (i < nr m)%nat -> (j < nc m)%nat -> ffin (get m i j).
(** X has orthonormal columns up to b, except that some columns may be zero *)
Definition orthonormal_or_zero (r d : nat) (X : M) (b : R) : Prop := exists W, orthonormal_cols r d W /\
  forall j, (j < d)%nat -> colnorm r (msub X W) j <= b \/ forall i, (i < r)%nat -> X i j = 0.
Definition orthonormal_near (r d : nat) (X : M) (b : R) : Prop := exists W, orthonormal_cols r d W /\ frob r d (msub X W) <= b.

Lemma so_eps_eq r c fuel : so_eps r c fuel = svo_err r c fuel.
Proof.
  unfold so_eps, svo_err. rewrite eps_qr_eq. unfold qr_eps, qr_abs, qr_gam, gen_err. rewrite <- U_gam. f_equal. f_equal. f_equal.
  rewrite mult_INR. unfold per. rewrite !plus_INR, !mult_INR. simpl (INR 2). simpl (INR 1). ring.
Qed.

(** C68.  For every [hypot] that returns NaN outside of the range in which it is accurate: if svd with
    both vectors returns finite matrices u and vt, vt^T is within so_eps of a matrix with orthonormal
    columns, and so is every column of u that is not zero.  Nothing is assumed about the values. *)
Theorem C68_svd_vectors_orthonormal (h : spec_float -> spec_float -> spec_float) (r c fuel : nat) (a : mat FN) (u : mat FN) (s : list FN) (vt : mat FN) :
  hyp_strict h -> so_input r c fuel a -> sv_clean r c a ->
  svd (N:=FNh h) fuel a true true = Ret (Some u, s, Some vt) -> mfin u -> mfin vt ->
  nr u = r /\ nc u = Nat.min r c /\ nr vt = Nat.min r c /\ nc vt = c /\
  orthonormal_near c (Nat.min r c) (mtr (frm vt)) (so_eps r c fuel) /\
  orthonormal_or_zero r (Nat.min r c) (frm u) (so_eps r c fuel).
Proof.
  intros hh (h1 & h2 & h3 & h4 & h5 & h6 & h7) hcl hrun fu fv. rewrite so_eps_eq in *.
  pose proof (PSvd.svd_class (N:=FNh h) fuel a true true (nmul (FNh h) (nepsilon (FNh h)) (nofQ (FNh h) 5%Z 1%positive))) as hc.
  unfold svd in hrun. rewrite hrun in hc. cbn [fst snd] in hc. destruct hc as (_ & _ & _ & (_ & u1 & u2) & (_ & v1 & v2)).
  change (@nr (FNh h) a) with (nr a) in *. change (@nc (FNh h) a) with (nc a) in *. rewrite h1, h2 in *. cbn [fst snd] in *.
  destruct (svd_orth h r c fuel a _ u s vt hh h1 h2 h3 h4 h5 h6 h7 hcl hrun) as (k1 & k2 & k3 & k4 & (_ & k5) & W & k6 & k7).
  - intros i j hi hj. refine (fu i j _ _); [apply (Nat.lt_le_trans _ _ _ hi (Nat.eq_le_incl _ _ (eq_sym u1)))|apply (Nat.lt_le_trans _ _ _ hj (Nat.eq_le_incl _ _ (eq_sym u2)))].
  - intros i j hi hj. refine (fv i j _ _); [apply (Nat.lt_le_trans _ _ _ hi (Nat.eq_le_incl _ _ (eq_sym v1)))|apply (Nat.lt_le_trans _ _ _ hj (Nat.eq_le_incl _ _ (eq_sym v2)))].
  - do 4 (split; [assumption|]). split; [exact k5|]. exists W. split; [exact k6|]. intros j hj. destruct (k7 j hj) as [q|q]; [left|right; exact q].
    rewrite colnorm_vn. exact q.
Qed.
Print Assumptions C68_svd_vectors_orthonormal.

(** The same for a [hypot] accurate to one ulp, when no call of it is out of range in this run:
    [ranged h] is NaN for arguments above 2^500 and results below 2^-1000. *)
Theorem C68_accurate_hypot (h : spec_float -> spec_float -> spec_float) (r c fuel : nat) (a : mat FN) (u : mat FN) (s : list FN) (vt : mat FN) :
  hyp_ulp h -> so_input r c fuel a -> sv_clean r c a ->
  svd (N:=FNh h) fuel a true true = Ret (Some u, s, Some vt) -> svd (N:=FNh (ranged h)) fuel a true true = Ret (Some u, s, Some vt) -> mfin u -> mfin vt ->
  orthonormal_near c (Nat.min r c) (mtr (frm vt)) (so_eps r c fuel) /\
  orthonormal_or_zero r (Nat.min r c) (frm u) (so_eps r c fuel).
Proof.
  intros hu hi hcl _ hrun fu fv. destruct (C68_svd_vectors_orthonormal (ranged h) r c fuel a u s vt (ranged_strict h hu) hi hcl hrun fu fv) as (_ & _ & _ & _ & k1 & k2). auto.
Qed.
Print Assumptions C68_accurate_hypot.
Theorem C68_binary64 (r c fuel : nat) (a : mat FN) (u : mat FN) (s : list FN) (vt : mat FN) :
  so_input r c fuel a -> sv_clean r c a ->
  svd fuel a true true = Ret (Some u, s, Some vt) -> svd (N:=FNh (ranged f_hypot)) fuel a true true = Ret (Some u, s, Some vt) -> mfin u -> mfin vt ->
  orthonormal_near c (Nat.min r c) (mtr (frm vt)) (so_eps r c fuel) /\
  orthonormal_or_zero r (Nat.min r c) (frm u) (so_eps r c fuel).
Proof. exact (C68_accurate_hypot f_hypot r c fuel a u s vt f_hypot_ulp). Qed.
Print Assumptions C68_binary64.

(** What that means for the inner products: those of the rows of vt are within 2 b + b^2 of 0 and 1;
    those of the columns of u as well, except that the columns set to zero have inner product 0 with
    every column. *)
Theorem C68_inner_products (r d : nat) (X : M) (b : R) : 0 <= b ->
  (orthonormal_near r d X b -> forall i j, (i < d)%nat -> (j < d)%nat -> Rabs (mmul r (mtr X) X i j - mid i j) <= 2 * b + b * b) /\
  (orthonormal_or_zero r d X b -> forall i j, (i < d)%nat -> (j < d)%nat ->
    Rabs (mmul r (mtr X) X i j - mid i j) <= 2 * b + b * b \/ mmul r (mtr X) X i j = 0 /\ ((forall k, (k < r)%nat -> X k i = 0) \/ (forall k, (k < r)%nat -> X k j = 0))).
Proof.
  intros hb. split.
  - intros (W & hW & hw). apply (ortho_float r d W X b hb hW). intros j hj. eapply Rle_trans; [|exact hw]. apply (PBidG.vn_col_frob r d (msub X W) j hj).
  - intros (W & hW & hw) i j hi hj. destruct (hw i hi) as [q1|q1].
    2:{ right. split; [|left; auto]. unfold mmul, mtr. apply Rsum_0. intros k hk. rewrite q1 by auto. ring. }
    destruct (hw j hj) as [q2|q2].
    2:{ right. split; [|right; auto]. unfold mmul, mtr. apply Rsum_0. intros k hk. rewrite q2 by auto. ring. }
    left. set (Y := fun k l => if Nat.eqb l i || Nat.eqb l j then X k l else W k l).
    assert (hY : forall l, (l < d)%nat -> vn r (fun k => Y k l - W k l) <= b).
    { intros l hl. unfold Y. destruct (Nat.eqb_spec l i) as [->|]; [pose proof q1 as q3; rewrite colnorm_vn in q3; exact q3|].
      destruct (Nat.eqb_spec l j) as [->|]; [pose proof q2 as q3; rewrite colnorm_vn in q3; exact q3|]. cbn [orb].
      rewrite (vn_ext r _ (fun _ => 0 * 0)) by (intros; ring). rewrite (vn_scal r 0 (fun _ => 0)). rewrite Rabs_R0. lra. }
    pose proof (ortho_float r d W Y b hb hW hY i j hi hj) as q. unfold mmul, mtr, Y in q. rewrite !Nat.eqb_refl, orb_true_r in q. cbn [orb] in q. exact q.
Qed.
Print Assumptions C68_inner_products.

(** The condition on the size holds for dimensions up to 10000 and 20000 iterations; for dimensions up
    to 100 and 500 iterations the bound is below 3 10^-7. *)
Theorem C68_constants (r c fuel : nat) : let n := Nat.max r c in
  (INR n <= 10000 -> INR fuel <= 20000 -> bid_size n /\ so_eps r c fuel <= 1) /\
  (INR n <= 100 -> INR fuel <= 500 -> so_eps r c fuel <= 3 / 10000000).
Proof.
  intros n. pose proof (pos_INR n) as h0. pose proof (pos_INR fuel) as h0'. pose proof uro_pos as hu. pose proof (pos_INR (Nat.min r c)) as h0d.
  assert (hdn : INR (Nat.min r c) <= INR n) by (apply le_INR; unfold n; lia). unfold so_eps. fold n. set (d := Nat.min r c) in *.
  assert (hv : uro * 9007199254740992 = 1) by (unfold uro; change (2 ^ 53)%Z with 9007199254740992%Z; lra).
  assert (hb : bpow radix2 (-506) <= uro * uro) by (rewrite uro_bpow, <- bpow_plus; apply bpow_le; lia).
  assert (gen : forall p s, 0 <= p -> INR n <= p -> 0 <= s -> p <= s * s -> 2 * (p * (10 * p + 70)) * uro <= 1 / 2 -> sqrt (INR d) * eps_qr n d <= s * (2 * (p * (10 * p + 70)) * uro + p * (uro * uro))).
  { intros p s hp hnp hs hps hsm.
    assert (hk : INR (d * (10 * n + 70)) <= p * (10 * p + 70)).
    { rewrite mult_INR, plus_INR, mult_INR. assert (e2 : INR 10 = 10) by (simpl; lra). assert (e20 : INR 70 = 70) by (simpl; lra). rewrite e2, e20. apply Rmult_le_compat; lra. }
    pose proof (pos_INR (d * (10 * n + 70))) as hk0.
    assert (hku : INR (d * (10 * n + 70)) * uro <= (p * (10 * p + 70)) * uro) by (apply Rmult_le_compat_r; lra).
    destruct (C54_constants n d) as (c1 & c2); [lra|].
    assert (hsq : sqrt (INR d) <= s). { rewrite <- (sqrt_square s) by auto. apply sqrt_le_1_alt. lra. }
    assert (INR d * bpow radix2 (-506) <= p * (uro * uro)) by (apply Rmult_le_compat; auto; [apply bpow_ge_0|lra]).
    unfold eps_qr. apply Rmult_le_compat; [apply sqrt_pos|lra|auto|]. lra. }
  assert (hp : forall p q, INR n <= p -> INR fuel <= q -> 90 * ((INR fuel + 1) * (2 * INR d * INR d + INR d)) * uro <= 90 * ((q + 1) * (2 * p * p + p)) * uro).
  { intros p q hp hq. apply Rmult_le_compat_r; [lra|]. apply Rmult_le_compat_l; [lra|]. apply Rmult_le_compat; try lra; nra. }
  assert (huu : uro * uro <= uro) by (pose proof uro_small; nra).
  split.
  - intros h1 h2. split; [apply (C60_constants r c); fold n; lra|]. specialize (gen 10000 100 ltac:(lra) h1 ltac:(lra) ltac:(lra) ltac:(lra)). specialize (hp _ _ h1 h2). lra.
  - intros h1 h2. specialize (gen 100 10 ltac:(lra) h1 ltac:(lra) ltac:(lra) ltac:(lra)). specialize (hp _ _ h1 h2). lra.
Qed.
Print Assumptions C68_constants.

(** ** Examples: the matrix for which U S Vt is wrong (C24_binary64_refuted), and a wide one *)
Definition mfinb (m : mat FN) : bool := forallb (fun i => forallb (fun j => is_finite_SF (get m i j)) (seq 0 (nc m))) (seq 0 (nr m)).
Lemma mfinb_ok m : mfinb m = true -> mfin m.
Proof.
  intros h i j hi hj. unfold mfinb in h. rewrite forallb_forall in h. specialize (h i ltac:(apply in_seq; lia)). rewrite forallb_forall in h. apply (h j). apply in_seq. lia.
Qed.
Definition so_checkb (fuel : nat) (a : mat FN) (f : mat FN -> list FN -> mat FN -> bool) : bool :=
  match svd fuel a true true with Ret (Some u, s, Some vt) => f u s vt | _ => false end.
Lemma so_checkb_ok fuel a f : so_checkb fuel a f = true -> exists u s vt, svd fuel a true true = Ret (Some u, s, Some vt) /\ f u s vt = true.
Proof. unfold so_checkb. destruct (svd fuel a true true) as [[[[u|] s] [vt|]]| | | |]; try discriminate. intros h. exists u, s, vt. auto. Qed.
Definition doti (n : nat) (x y : nat -> FN) : Q := fold_right (fun l s => (fq (x l) * fq (y l) + s)%Q) 0%Q (seq 0 n).
Lemma sv_so r c a : sv_input r c 50 a -> INR (Nat.max r c) <= 100 -> so_input r c 50 a.
Proof.
  intros (h1 & h2 & h3 & h4 & h5 & h6 & h7) hn. repeat (split; [assumption|]).
  eapply Rle_trans; [apply (proj2 (C68_constants r c 50)); auto; rewrite INR_IZR_INZ; apply IZR_le; lia|]. lra.
Qed.
Example C68_example : so_input 3 3 50 c24_a /\ sv_clean 3 3 c24_a /\ exists u s vt,
  svd 50 c24_a true true = Ret (Some u, s, Some vt) /\ svd (N:=FNh (ranged f_hypot)) 50 c24_a true true = Ret (Some u, s, Some vt) /\ mfin u /\ mfin vt /\
  (* a proper rotation, not exactly orthogonal *)
  (1 # 50 <= fq (get vt 1%nat 0%nat) <= 1 # 20)%Q /\ ~ (doti 3 (fun l => get vt 0%nat l) (fun l => get vt 0%nat l) == 1)%Q /\
  Rabs (mmul 3 (mtr (mtr (frm vt))) (mtr (frm vt)) 0%nat 0%nat - 1) <= / 1000000.
Proof.
  destruct c24_sv as (hi & hc). assert (hi' : so_input 3 3 50 c24_a) by (apply sv_so; auto; simpl; lra). split; auto. split; auto.
  assert (same : svd (N:=FNh (ranged f_hypot)) 50 c24_a true true = svd 50 c24_a true true) by (vm_compute; reflexivity).
  destruct (so_checkb_ok 50 c24_a (fun u s vt => mfinb u && mfinb vt && Qle_bool (1 # 50) (fq (get vt 1%nat 0%nat)) && Qle_bool (fq (get vt 1%nat 0%nat)) (1 # 20) && negb (Qeq_bool (doti 3 (fun l => get vt 0%nat l) (fun l => get vt 0%nat l)) 1))) as (u & s & vt & e & hf); [vm_compute; reflexivity|].
  apply andb_prop in hf as (hf & f5). apply andb_prop in hf as (hf & f4). apply andb_prop in hf as (hf & f3). apply andb_prop in hf as (f1 & f2).
  exists u, s, vt. pose proof (eq_trans same e) as e2. split; [exact e|]. split; [exact e2|]. apply mfinb_ok in f1, f2. split; auto. split; auto.
  split; [split; apply Qle_bool_iff; auto|]. split; [apply Qeq_bool_neq; apply negb_true_iff; exact f5|].
  destruct (C68_binary64 3 3 50 c24_a u s vt hi' hc e e2 f1 f2) as (k1 & _).
  assert (he : 0 <= so_eps 3 3 50) by (destruct k1 as (W & _ & hw); eapply Rle_trans; [apply frob_nonneg|exact hw]).
  pose proof (proj1 (C68_inner_products 3 3 (mtr (frm vt)) (so_eps 3 3 50) he) k1 0%nat 0%nat ltac:(lia) ltac:(lia)) as q. change (mid 0%nat 0%nat) with 1 in q.
  eapply Rle_trans; [exact q|]. assert (so_eps 3 3 50 <= 3 / 10000000) by (apply (proj2 (C68_constants 3 3 50)); rewrite INR_IZR_INZ; apply IZR_le; lia). clear - he H. nra.
Qed.
Example C68_example_wide : so_input 3 4 50 bid_wide_a /\ sv_clean 3 4 bid_wide_a /\ exists u s vt,
  svd 50 bid_wide_a true true = Ret (Some u, s, Some vt) /\ svd (N:=FNh (ranged f_hypot)) 50 bid_wide_a true true = Ret (Some u, s, Some vt) /\ mfin u /\ mfin vt.
Proof.
  destruct wide_sv as (hi & hc). assert (hi' : so_input 3 4 50 bid_wide_a) by (apply sv_so; auto; simpl; lra). split; auto. split; auto.
  assert (same : svd (N:=FNh (ranged f_hypot)) 50 bid_wide_a true true = svd 50 bid_wide_a true true) by (vm_compute; reflexivity).
  destruct (so_checkb_ok 50 bid_wide_a (fun u s vt => mfinb u && mfinb vt)) as (u & s & vt & e & hf); [vm_compute; reflexivity|].
  apply andb_prop in hf as (f1 & f2). exists u, s, vt. split; [exact e|]. split; [exact (eq_trans same e)|]. split; apply mfinb_ok; auto.
Qed.
