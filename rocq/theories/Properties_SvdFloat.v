(** * Property C64: the singular values computed in binary64 without vectors are backward stable

    The positive counterpart of C24_binary64_refuted and C25_binary64_refuted: with both flags off,
    the code takes another branch for 2x2 blocks, and the values it returns are right.  [FNh h] is the
    binary64 instance of the model with the libm function [hypot] replaced by [h] (SpecH.v). *)
From Coq Require Import Reals List Arith Lia Lra Bool ZArith QArith Qreals.
From Coq.Floats Require Import SpecFloat.
From Flocq Require Import Core BinarySingleNaN.
From Verif Require Import Scalar Arr MBase MDirect MDecomp MEigh MSvd Inst Hoare Spec SpecF SpecH Ex RLin PEighR PSvd PSvdR PBid PRound PTriF PHouseF PQRF PQRG PTrdF PApx PEigF PEigG PSvdV PSvdF PSvdS PSvdG
  Properties_Rounding Properties_QRFloat Properties_TridFloat Properties_Svd Properties_BidFloat Properties_EigFloat.
Import ListNotations.
Local Open Scope R_scope.

(** The relative error: the bidiagonalisation (C60), and about 600 (d + 3)^2 roundings per iteration *)
Definition sv_eps (r c fuel : nat) : R := 3 * rel_bid r c + 8000 * (INR fuel + 1) * (INR (Nat.min r c) + 3) ^ 2 * uro.
(** A non-empty matrix of finite numbers; dimensions and number of iterations are such that the error
    bound makes sense *)
Definition sv_input (r c fuel : nat) (a : mat FN) : Prop :=
  nr a = r /\ nc a = c /\ (1 <= r)%nat /\ (1 <= c)%nat /\
  (forall i j, (i < r)%nat -> (j < c)%nat -> fvalid (get a i j) /\ ffin (get a i j)) /\
  bid_size (Nat.max r c) /\ 600 * (INR fuel + 1) * (INR (Nat.min r c) + 3) ^ 2 * uro <= / 2.
(** The bidiagonal form of the scaled matrix has no entry in the underflow range *)
Definition sv_clean (r c : nat) (a : mat FN) : Prop :=
  forall bd b, bidiagonal (scale_down a (abs_max a)) = Ret bd -> into_b bd = Ret b -> bid_clean (Nat.min r c) b.
(** [P diag(vals) Q^T] is within b of A for P, Q with orthonormal columns: the vals are exactly the
    singular values of a matrix within b of A *)
Definition svals_near (r c : nat) (A : M) (vals : nat -> R) (b : R) : Prop := let d := Nat.min r c in
  exists P Q, orthonormal_cols r d P /\ orthonormal_cols c d Q /\ frob r c (msub A (mmul d P (mmul d (mdiag vals) (mtr Q)))) <= b.
(** [hypot] of NaN or infinity is NaN or infinity *)
Definition hyp_inf (h : spec_float -> spec_float -> spec_float) : Prop :=
  forall x y, is_finite_SF x = false \/ is_finite_SF y = false -> is_finite_SF (h x y) = false.

(** C64.  For every [hypot] that is accurate to one ulp: if svd without vectors returns finite values
    and no [hypot] result is below 2^-1000 -- expressed by running it with [guarded h], which returns
    NaN instead of such a result, and asking for finite values -- then the unguarded svd returns the
    same values, one for each row or column, none negative, and they are exactly the singular values
    of a matrix whose distance to A is at most sv_eps r c fuel times the norm of A (plus d 2^-1075). *)
Theorem C64_svd_values_backward_stable (h : spec_float -> spec_float -> spec_float) (r c fuel : nat) (a : mat FN) (vals : list FN) x y :
  hyp_ulp h -> hyp_inf h -> sv_input r c fuel a -> sv_clean r c a ->
  svd (N:=FNh (guarded h)) fuel a false false = Ret (x, vals, y) -> vfin vals ->
  svd (N:=FNh h) fuel a false false = Ret (None, vals, None) /\ length vals = Nat.min r c /\
  (forall k, (k < Nat.min r c)%nat -> 0 <= frv vals k) /\
  svals_near r c (frm a) (frv vals) (sv_eps r c fuel * frob r c (frm a) + INR (Nat.min r c) * eta).
Proof.
  intros hu hi (h1 & h2 & h3 & h4 & h5 & h6 & h7) hcl hrun hfin. set (d := Nat.min r c) in *. set (n := Nat.max r c) in *.
  assert (hd : (1 <= d)%nat) by (unfold d; lia).
  assert (hs : nr (scale_down a (abs_max a)) = r /\ nc (scale_down a (abs_max a)) = c) by (unfold scale_down; destruct (neq FN _ _); auto).
  destruct hs as (s1 & s2).
  assert (eb : exists b, bidiagonal (scale_down a (abs_max a)) = Ret b).
  { pose proof (bidiagonal_class (scale_down a (abs_max a))) as hc. destruct (bidiagonal (scale_down a (abs_max a))) as [b|l| | |]; try contradiction; [exists b; auto|].
    exfalso. destruct hc as (_ & hc). rewrite s1, s2 in hc. unfold d in hd. lia. }
  destruct eb as (b & eb).
  assert (hln : forall g, svd (N:=FNh g) fuel a false false = match vrun g fuel seps d (dgv b) (ofv b) with Some r0 => Ret (None, outv d (abs_max a) (fst r0), None) | None => OutOfFuel end).
  { intros g. pose proof (svd_link g fuel a seps b) as q. rewrite h1, h2 in q. fold d in q. exact (q hd eb). }
  rewrite hln in hrun. destruct (vrun (guarded h) fuel seps d (dgv b) (ofv b)) as [x0|] eqn:ev; [|discriminate]. injection hrun as <- <- <-.
  set (vals := outv d (abs_max a) (fst x0)) in *.
  assert (hl : length vals = d) by apply (length_vmk (N:=FN)).
  assert (hk : forall k, (k < d)%nat -> vget (N:=FN) vals k = fx (nmul FN (fst x0 k) (abs_max a))) by (intros k hk; unfold vals, outv; rewrite vget_vmk by auto; reflexivity).
  assert (hf : forall k, (k < d)%nat -> ffin (vget (N:=FN) vals k)) by (intros k hk'; apply hfin; apply nth_In; exact (eq_ind_r (fun z => (k < z)%nat) hk' hl)).
  assert (hnb : ~ bad d (fst x0)).
  { intros (k & hk' & hb). specialize (hf k hk'). rewrite hk in hf by auto. apply fx_abs in hf. apply (nf_mul_l _ (abs_max a)) in hb. unfold nf in hb. unfold ffin in hf. congruence. }
  split; [|split; [exact hl|split]].
  - rewrite hln. destruct (vrun_sim (guarded h) h d fuel (dgv b) (ofv b) (guarded_either h) (guarded_nf h hi) hd) as [q|q].
    + exfalso. apply hnb. apply q. exact ev.
    + rewrite <- q, ev. reflexivity.
  - intros k hk'. unfold frv. rewrite hk by auto. rewrite (proj1 (fx_abs _)). apply Rabs_pos.
  - destruct (proj2 (C60_constants r c) h6) as (_ & hr).
    exact (svd_f (guarded h) (guarded_good h hu) (guarded_nf h hi) (guarded_low h) r c fuel hd h6 hr h7 a b x0 h1 h2 h5 hcl eb ev hnb hf).
Qed.
Print Assumptions C64_svd_values_backward_stable.

(** The same for the instance [FN] with the correctly rounded [hypot]. *)
Theorem C64_binary64 (r c fuel : nat) (a : mat FN) (vals : list FN) x y :
  sv_input r c fuel a -> sv_clean r c a ->
  svd (N:=FNh (guarded f_hypot)) fuel a false false = Ret (x, vals, y) -> vfin vals ->
  svd fuel a false false = Ret (None, vals, None) /\
  svals_near r c (frm a) (frv vals) (sv_eps r c fuel * frob r c (frm a) + INR (Nat.min r c) * eta).
Proof.
  intros h1 h2 h3 h4. destruct (C64_svd_values_backward_stable f_hypot r c fuel a vals x y f_hypot_ulp f_hypot_nf h1 h2 h3 h4) as (e & _ & _ & hs). split; auto.
Qed.
Print Assumptions C64_binary64.

(** What that means for the individual values: every computed value has unit vectors u and v with
    ||A v - s u|| <= b and ||A^T u - s v|| <= b. *)
Theorem C64_pairs (r c : nat) (A : M) (vals : nat -> R) (b : R) : svals_near r c A vals b ->
  forall k, (k < Nat.min r c)%nat -> exists u v : nat -> R,
    Rsum r (fun i => u i * u i) = 1 /\ Rsum c (fun j => v j * v j) = 1 /\
    sqrt (Rsum r (fun i => (Rsum c (fun j => A i j * v j) - vals k * u i) ^ 2)) <= b /\
    sqrt (Rsum c (fun j => (Rsum r (fun i => A i j * u i) - vals k * v j) ^ 2)) <= b.
Proof.
  intros (P & Q & hP & hQ & hb) k hk. set (d := Nat.min r c) in *. set (D := mdiag vals) in *. set (B := mmul d P (mmul d D (mtr Q))) in *. set (E := msub A B) in *.
  assert (uP : Rsum r (fun i => P i k * P i k) = 1) by (specialize (hP k k hk hk); unfold mmul, mtr, mid in hP; rewrite Nat.eqb_refl in hP; exact hP).
  assert (uQ : Rsum c (fun i => Q i k * Q i k) = 1) by (specialize (hQ k k hk hk); unfold mmul, mtr, mid in hQ; rewrite Nat.eqb_refl in hQ; exact hQ).
  exists (fun i => P i k), (fun j => Q j k). split; auto. split; auto.
  assert (eD : forall X n i, mmul n X D i k = if Nat.ltb k n then X i k * vals k else 0).
  { intros X n i. unfold mmul, D, mdiag. destruct (Nat.ltb_spec k n) as [hl|hl].
    - rewrite (Rsum_single n k); auto; [rewrite Nat.eqb_refl; ring|intros l hl' hne; destruct (Nat.eqb_spec l k); [congruence|ring]].
    - apply Rsum_0. intros l hl'. destruct (Nat.eqb_spec l k); [lia|ring]. }
  assert (e1 : mmul c B Q =[r, d]= mmul d P D).
  { unfold B. rewrite (mmul_assoc r d c d P). rewrite (mmul_assoc d d c d D). unfold orthonormal_cols in hQ. rewrite hQ, mmul_1_r. reflexivity. }
  assert (eT : mtr D =[d, d]= D) by (intros p q hp hq; unfold D, mtr, mdiag; rewrite (Nat.eqb_sym q p); destruct (Nat.eqb_spec p q) as [->|]; reflexivity).
  assert (e2 : mmul r (mtr B) P =[c, d]= mmul d Q D).
  { unfold B. rewrite (mtr_mmul r d c P). rewrite (mtr_mmul d d c D). rewrite (mmul_assoc c d r d). rewrite (mmul_assoc c d d d). unfold orthonormal_cols in hP. rewrite hP, mmul_1_r, eT, (mtr_mtr c d Q). reflexivity. }
  destruct (Nat.ltb_spec k d) as [_|]; [|lia].
  split.
  - rewrite (Rsum_ext r _ (fun i => Rsum c (fun j => E i j * Q j k) * Rsum c (fun j => E i j * Q j k))).
    + rewrite <- (vn_sq r (fun i => Rsum c (fun j => E i j * Q j k))), sqrt_square by apply vn_nonneg.
      eapply Rle_trans; [apply vn_mv|]. rewrite (vn_unit c (fun j => Q j k)) by exact uQ. rewrite Rmult_1_r. exact hb.
    + intros i hi. assert (e : Rsum c (fun j => A i j * Q j k) - vals k * P i k = Rsum c (fun j => E i j * Q j k)).
      { rewrite (Rsum_ext c (fun j => E i j * Q j k) (fun j => A i j * Q j k - B i j * Q j k)) by (intros j hj; unfold E, msub; ring). rewrite Rsum_minus.
        pose proof (e1 i k hi hk) as q. rewrite eD in q. destruct (Nat.ltb_spec k d); [|lia]. unfold mmul at 1 in q. rewrite q. ring. }
      rewrite e. ring.
  - rewrite (Rsum_ext c _ (fun j => Rsum r (fun i => mtr E j i * P i k) * Rsum r (fun i => mtr E j i * P i k))).
    + rewrite <- (vn_sq c (fun j => Rsum r (fun i => mtr E j i * P i k))), sqrt_square by apply vn_nonneg.
      eapply Rle_trans; [apply vn_mv|]. rewrite (vn_unit r (fun j => P j k)) by exact uP. rewrite Rmult_1_r, (frob_tr c r). exact hb.
    + intros j hj. assert (e : Rsum r (fun i => A i j * P i k) - vals k * Q j k = Rsum r (fun i => mtr E j i * P i k)).
      { rewrite (Rsum_ext r (fun i => mtr E j i * P i k) (fun i => A i j * P i k - mtr B j i * P i k)) by (intros i hi; unfold E, mtr, msub; ring). rewrite Rsum_minus.
        pose proof (e2 j k hj hk) as q. rewrite eD in q. destruct (Nat.ltb_spec k d); [|lia]. unfold mmul at 1 in q. rewrite q. ring. }
      rewrite e. ring.
Qed.
Print Assumptions C64_pairs.

(** The size conditions hold for matrices up to 10000 x 10000 and 50000 iterations; up to 100 x 100 and
    500 iterations the constant sv_eps is below 10^-5. *)
Theorem C64_constants (r c fuel : nat) : let n := Nat.max r c in
  (INR n <= 10000 -> INR fuel <= 50000 -> bid_size n /\ 600 * (INR fuel + 1) * (INR (Nat.min r c) + 3) ^ 2 * uro <= / 2) /\
  (INR n <= 100 -> INR fuel <= 500 -> sv_eps r c fuel <= / 100000).
Proof.
  intros n. pose proof (pos_INR n) as h0. pose proof (pos_INR fuel) as h0'. pose proof uro_pos as hu. pose proof (pos_INR (Nat.min r c)) as h0d.
  assert (hdn : INR (Nat.min r c) <= INR n) by (apply le_INR; unfold n; lia). set (d := Nat.min r c) in *.
  assert (hv : uro * 9007199254740992 = 1) by (unfold uro; change (2 ^ 53)%Z with 9007199254740992%Z; lra).
  assert (hp : forall p q, INR n <= p -> INR fuel <= q -> (INR fuel + 1) * (INR d + 3) ^ 2 * uro <= (q + 1) * (p + 3) ^ 2 * uro).
  { intros p q hp hq. apply Rmult_le_compat_r; [lra|]. apply Rmult_le_compat; try lra; [apply pow2_ge_0|apply pow_incr; lra]. }
  destruct (C60_constants r c) as (g1 & g2). fold n d in g1, g2.
  split.
  - intros h1 h2. split; [apply g1; lra|]. specialize (hp _ _ h1 h2). lra.
  - intros h1 h2. specialize (hp _ _ h1 h2). unfold sv_eps. fold d. destruct (g2 (g1 ltac:(lra))) as ((_ & g3) & _).
    assert (hk : INR (10 * n + 70) <= 1070). { rewrite plus_INR, mult_INR. assert (e2 : INR 10 = 10) by (simpl; lra). assert (e20 : INR 70 = 70) by (simpl; lra). rewrite e2, e20. lra. }
    pose proof (pos_INR (10 * n + 70)).
    assert (8 * INR d * (INR (10 * n + 70) * uro) <= 8 * 100 * (1070 * uro)) by (apply Rmult_le_compat; [lra|apply Rmult_le_pos; lra|lra|apply Rmult_le_compat_r; lra]).
    lra.
Qed.
Print Assumptions C64_constants.

(** ** Examples: the matrix on which svd with vectors is wrong (C24_binary64_refuted), and a wide one *)
Definition sv_checkb (h : spec_float -> spec_float -> spec_float) (fuel : nat) (a : mat FN) (f : list FN -> bool) : bool :=
  match svd (N:=FNh h) fuel a false false with Ret (x, v, y) => f v | _ => false end.
Lemma sv_checkb_ok h fuel a f : sv_checkb h fuel a f = true -> exists x (v : list FN) y, svd (N:=FNh h) fuel a false false = Ret (x, v, y) /\ f v = true.
Proof. unfold sv_checkb. destruct (svd (N:=FNh h) fuel a false false) as [[[x v] y]| | | |]; try discriminate. intros e. exists x, v, y. split; [reflexivity|exact e]. Qed.
Lemma sv_clean_ok r c a : bid_checkb (scale_down a (abs_max a)) (bid_cleanb (Nat.min r c)) = true -> sv_clean r c a.
Proof.
  intros hc bd b e1 e2. destruct (bid_checkb_ok _ _ hc) as (bd' & u & b' & vt & g1 & _ & g2 & _ & g3).
  rewrite e1 in g1. injection g1 as <-. rewrite e2 in g2. injection g2 as <-. apply bid_cleanb_ok. exact g3.
Qed.
Lemma c24_sv : sv_input 3 3 50 c24_a /\ sv_clean 3 3 c24_a.
Proof.
  split; [|apply sv_clean_ok; vm_compute; reflexivity].
  repeat (split; [reflexivity || lia|]). split. { intros i j hi hj. assert (hm : mokb c24_a = true) by (vm_compute; reflexivity). split; apply (mokb_ok _ hm i j); auto. }
  apply (C64_constants 3 3 50); simpl; lra.
Qed.
Lemma wide_sv : sv_input 3 4 50 bid_wide_a /\ sv_clean 3 4 bid_wide_a.
Proof.
  split; [|apply sv_clean_ok; vm_compute; reflexivity].
  repeat (split; [reflexivity || lia|]). split. { intros i j hi hj. assert (hm : mokb bid_wide_a = true) by (vm_compute; reflexivity). split; apply (mokb_ok _ hm i j); auto. }
  apply (C64_constants 3 4 50); simpl; lra.
Qed.
Definition sumsq (v : list FN) : Q := (fq (vget v 0) * fq (vget v 0) + fq (vget v 1) * fq (vget v 1) + fq (vget v 2) * fq (vget v 2))%Q.
Example C64_example : sv_input 3 3 50 c24_a /\ sv_clean 3 3 c24_a /\ exists x vals y,
  svd (N:=FNh (guarded f_hypot)) 50 c24_a false false = Ret (x, vals, y) /\ vfin vals /\
  svd 50 c24_a false false = Ret (None, vals, None) /\
  svals_near 3 3 (frm c24_a) (frv vals) (sv_eps 3 3 50 * frob 3 3 (frm c24_a) + INR 3 * eta).
Proof.
  destruct c24_sv as (hi & hc). split; auto. split; auto.
  destruct (sv_checkb_ok (guarded f_hypot) 50 c24_a vfinb) as (x & v & y & e & hv); [vm_compute; reflexivity|].
  exists x, v, y. split; auto. apply vfinb_ok in hv. split; auto. apply (C64_binary64 3 3 50 c24_a v x y hi hc e hv).
Qed.
(** sum of squares 86 up to 10^-12, but not exactly *)
Example C64_example_wide : sv_input 3 4 50 bid_wide_a /\ sv_clean 3 4 bid_wide_a /\ exists x vals y,
  svd (N:=FNh (guarded f_hypot)) 50 bid_wide_a false false = Ret (x, vals, y) /\ vfin vals /\
  (sumsq vals <= 86 + (1 # 1000000000000))%Q /\ (86 - (1 # 1000000000000) <= sumsq vals)%Q /\ ~ (sumsq vals == 86)%Q /\
  svals_near 3 4 (frm bid_wide_a) (frv vals) (sv_eps 3 4 50 * frob 3 4 (frm bid_wide_a) + INR 3 * eta).
Proof.
  destruct wide_sv as (hi & hc). split; auto. split; auto.
  destruct (sv_checkb_ok (guarded f_hypot) 50 bid_wide_a (fun v => vfinb v && Qle_bool (sumsq v) (86 + (1 # 1000000000000)) && Qle_bool (86 - (1 # 1000000000000)) (sumsq v) && negb (Qeq_bool (sumsq v) 86))) as (x & v & y & e & hv); [vm_compute; reflexivity|].
  apply andb_prop in hv as (hv & g3). apply andb_prop in hv as (hv & g2). apply andb_prop in hv as (hv & g1). exists x, v, y. split; auto. apply vfinb_ok in hv. split; auto.
  split; [apply Qle_bool_iff; exact g1|]. split; [apply Qle_bool_iff; exact g2|]. split; [apply Qeq_bool_neq; apply negb_true_iff; exact g3|].
  apply (C64_binary64 3 4 50 bid_wide_a v x y hi hc e hv).
Qed.
