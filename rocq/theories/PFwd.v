(** * From backward to forward error: perturbation bounds for linear systems and least squares *)
From Coq Require Import Reals List Arith Lia Lra Psatz.
From Verif Require Import Spec RLin PHouseF PTrdF.
Local Open Scope R_scope.

(** The error is the inverse applied to the residual *)
Lemma fwd_err n (A G : M) (x xs b r : nat -> R) : mmul n G A =[n, n]= mid ->
  (forall i, (i < n)%nat -> Rsum n (fun j => A i j * xs j) = b i) ->
  (forall i, (i < n)%nat -> Rsum n (fun j => A i j * x j) = b i + r i) ->
  forall i, (i < n)%nat -> x i - xs i = Rsum n (fun j => G i j * r j).
Proof.
  intros hg h1 h2 i hi.
  rewrite (Rsum_ext n _ (fun j => Rsum n (fun l => G i j * A j l * (x l - xs l)))).
  - rewrite Rsum_swap. rewrite (Rsum_ext n _ (fun l => mid i l * (x l - xs l))).
    + unfold mid. rewrite (Rsum_single n i); auto; [rewrite Nat.eqb_refl; ring|]. intros l hl hn. destruct (Nat.eqb_spec i l); [congruence|ring].
    + intros l hl. rewrite Rsum_scal_r. f_equal. exact (hg i l hi hl).
  - intros j hj. rewrite (Rsum_ext n (fun l => G i j * A j l * (x l - xs l)) (fun l => G i j * (A j l * x l - A j l * xs l))) by (intros; ring).
    rewrite Rsum_scal_l, Rsum_minus, h1, h2 by auto. f_equal. ring.
Qed.
Lemma fwd_comp n (A G : M) (x xs b r e : nat -> R) : mmul n G A =[n, n]= mid ->
  (forall i, (i < n)%nat -> Rsum n (fun j => A i j * xs j) = b i) ->
  (forall i, (i < n)%nat -> Rsum n (fun j => A i j * x j) = b i + r i) ->
  (forall i, (i < n)%nat -> Rabs (r i) <= e i) ->
  forall i, (i < n)%nat -> Rabs (x i - xs i) <= Rsum n (fun j => Rabs (G i j) * e j).
Proof.
  intros hg h1 h2 he i hi. rewrite (fwd_err n A G x xs b r hg h1 h2 i hi). eapply Rle_trans; [apply Rsum_abs|].
  apply Rsum_le. intros j hj. rewrite Rabs_mult. apply Rmult_le_compat_l; [apply Rabs_pos|auto].
Qed.
(** Normwise, in terms of the computed and of the exact solution *)
Lemma fwd_norm n (A G : M) (x xs b r : nat -> R) e d : mmul n G A =[n, n]= mid ->
  (forall i, (i < n)%nat -> Rsum n (fun j => A i j * xs j) = b i) ->
  (forall i, (i < n)%nat -> Rsum n (fun j => A i j * x j) = b i + r i) ->
  vn n r <= e * vn n x + d -> vn n (fun i => x i - xs i) <= frob n n G * (e * vn n x + d).
Proof.
  intros hg h1 h2 he. rewrite (vn_ext n _ _ (fwd_err n A G x xs b r hg h1 h2)).
  eapply Rle_trans; [apply vn_mv|]. apply Rmult_le_compat_l; auto. apply frob_nonneg.
Qed.
Lemma fwd_rel n x xs g e d : 0 <= g -> 0 <= e -> vn n (fun i => x i - xs i) <= g * (e * vn n x + d) ->
  (1 - g * e) * vn n (fun i => x i - xs i) <= g * (e * vn n xs + d).
Proof.
  intros hg he h. assert (t : vn n x <= vn n (fun i => x i - xs i) + vn n xs).
  { rewrite (vn_ext n x (fun i => (x i - xs i) + xs i)) by (intros; ring). apply vn_plus. }
  pose proof (Rmult_le_compat_l (g * e) _ _ (Rmult_le_pos _ _ hg he) t). lra.
Qed.

(** The minimiser of |A x - b| satisfies the normal equations *)
Lemma min_normal n c (A : M) b x : (forall y, resid2 n c A b x <= resid2 n c A b y) ->
  forall j, (j < c)%nat -> Rsum n (fun i => A i j * (b i - Rsum c (fun l => A i l * x l))) = 0.
Proof.
  intros hmin. set (r := fun i => b i - Rsum c (fun l => A i l * x l)). set (g := fun j => Rsum n (fun i => A i j * r i)).
  apply (Rsum_sq_0 c g). set (q := Rsum c (fun j => g j * g j)). set (w := Rsum n (fun i => Rsum c (fun l => A i l * g l) * Rsum c (fun l => A i l * g l))).
  assert (hq : 0 <= q) by (apply Rsum_nonneg; intros; nra). assert (hw : 0 <= w) by (apply Rsum_nonneg; intros; nra).
  assert (hrg : Rsum n (fun i => r i * Rsum c (fun l => A i l * g l)) = q).
  { unfold q. rewrite (Rsum_ext n _ (fun i => Rsum c (fun l => A i l * r i * g l))) by (intros; rewrite <- Rsum_scal_l; apply Rsum_ext; intros; ring).
    rewrite Rsum_swap. apply Rsum_ext. intros j hj. rewrite Rsum_scal_r. reflexivity. }
  assert (hx : forall t, 2 * t * q <= t * t * w).
  { intros t. specialize (hmin (fun l => x l + t * g l)). unfold resid2, vnorm2 in hmin.
    rewrite (Rsum_ext n (fun i => (Rsum c (fun j => A i j * (x j + t * g j)) - b i) * (Rsum c (fun j => A i j * (x j + t * g j)) - b i))
      (fun i => (Rsum c (fun j => A i j * x j) - b i) * (Rsum c (fun j => A i j * x j) - b i) + (t * t * (Rsum c (fun l => A i l * g l) * Rsum c (fun l => A i l * g l)) - 2 * t * (r i * Rsum c (fun l => A i l * g l))))) in hmin.
    - rewrite Rsum_plus, Rsum_minus, !Rsum_scal_l, hrg in hmin. fold w in hmin. lra.
    - intros i hi. rewrite (Rsum_ext c (fun j => A i j * (x j + t * g j)) (fun j => A i j * x j + t * (A i j * g j))) by (intros; ring).
      rewrite Rsum_plus, Rsum_scal_l. unfold r. ring. }
  destruct (Req_dec q 0) as [|hq0]; auto. exfalso. assert (hp : 0 < q) by lra.
  specialize (hx (q / (w + 1))). assert (hw1 : 0 < w + 1) by lra. set (t := q / (w + 1)) in *. assert (ht : t * (w + 1) = q) by (unfold t; field; lra).
  assert (h0 : 0 < t) by (unfold t; apply Rdiv_lt_0_compat; auto). assert (2 * q <= t * w) by (apply Rmult_le_reg_l with t; auto; lra). lra.
Qed.

(** Wedin's bound: P is the pseudo-inverse of A (P A = I, A P symmetric), xs minimises |A y - b| and x minimises |At y - bt| *)
Lemma fwd_lsq n c (A At P : M) (b bt x xs : nat -> R) e d :
  mmul n P A =[c, c]= mid -> symmetric n (mmul c A P) ->
  (forall y, resid2 n c A b xs <= resid2 n c A b y) ->
  (forall y, resid2 n c At bt x <= resid2 n c At bt y) ->
  frob n c (msub At A) <= e -> vn n (fun i => bt i - b i) <= d ->
  let g := frob c n P in
  vn c (fun i => x i - xs i) <= g * (e * vn c x + d) + g * g * e * sqrt (resid2 n c At bt x).
Proof.
  intros hP hs m1 m2 hE hd g. pose proof (min_normal n c A b xs m1) as n1. pose proof (min_normal n c At bt x m2) as n2.
  set (rt := fun i => bt i - Rsum c (fun l => At i l * x l)) in n2. set (rs := fun i => b i - Rsum c (fun l => A i l * xs l)) in n1.
  set (D := msub At A). set (f := fun i => (bt i - b i) - Rsum c (fun l => D i l * x l)).
  (* P v = P P^T A^T v *)
  assert (pp : forall (v : nat -> R) i, (i < c)%nat -> Rsum n (fun k => P i k * v k) = Rsum n (fun k => P i k * Rsum c (fun l => P l k * Rsum n (fun h => A h l * v h)))).
  { intros v i hi.
    assert (e1 : forall h, (h < n)%nat -> P i h = Rsum n (fun k => P i k * mmul c A P k h)).
    { intros h hh. transitivity (mmul c (mmul n P A) P i h).
      - unfold mmul at 1. rewrite (Rsum_ext c _ (fun k => mid i k * P k h)) by (intros; f_equal; apply hP; auto).
        unfold mid. rewrite (Rsum_single c i); auto; [rewrite Nat.eqb_refl; ring|]. intros l hl hn. destruct (Nat.eqb_spec i l); [congruence|ring].
      - apply (mmul_assoc c n c n P A P); auto. }
    rewrite (Rsum_ext n (fun k => P i k * v k) (fun h => Rsum n (fun k => P i k * mmul c A P h k * v h))).
    2: { intros h hh. rewrite e1 by auto. rewrite <- Rsum_scal_r. apply Rsum_ext. intros k hk. rewrite (hs k h hk hh). reflexivity. }
    rewrite Rsum_swap. apply Rsum_ext. intros k hk. unfold mmul.
    rewrite (Rsum_ext n _ (fun h => P i k * Rsum c (fun l => P l k * (A h l * v h)))).
    - rewrite Rsum_scal_l, Rsum_swap. f_equal. apply Rsum_ext. intros l hl. rewrite Rsum_scal_l. reflexivity.
    - intros h hh. rewrite Rmult_assoc. f_equal. rewrite <- Rsum_scal_r. apply Rsum_ext. intros; ring. }
  assert (er : forall i, (i < n)%nat -> Rsum c (fun l => A i l * (x l - xs l)) = f i - rt i + rs i).
  { intros i hi. unfold f, rt, rs, D, msub. rewrite (Rsum_ext c (fun l => A i l * (x l - xs l)) (fun l => A i l * x l - A i l * xs l)) by (intros; ring).
    rewrite (Rsum_ext c (fun l => (At i l - A i l) * x l) (fun l => At i l * x l - A i l * x l)) by (intros; ring). rewrite !Rsum_minus. ring. }
  assert (ex : forall i, (i < c)%nat -> x i - xs i = Rsum n (fun k => P i k * f k) + Rsum n (fun k => P i k * Rsum c (fun l => P l k * Rsum n (fun h => D h l * rt h)))).
  { intros i hi. transitivity (Rsum n (fun k => P i k * (f k - rt k + rs k))).
    - rewrite <- (Rsum_ext n (fun k => P i k * Rsum c (fun l => A k l * (x l - xs l)))) by (intros; f_equal; apply er; auto).
      rewrite (Rsum_ext n _ (fun k => Rsum c (fun l => P i k * A k l * (x l - xs l)))) by (intros; rewrite <- Rsum_scal_l; apply Rsum_ext; intros; ring).
      rewrite Rsum_swap. rewrite (Rsum_ext c _ (fun l => mid i l * (x l - xs l))).
      + unfold mid. rewrite (Rsum_single c i); auto; [rewrite Nat.eqb_refl; ring|]. intros l hl hn. destruct (Nat.eqb_spec i l); [congruence|ring].
      + intros l hl. rewrite Rsum_scal_r. f_equal. exact (hP i l hi hl).
    - rewrite (Rsum_ext n _ (fun k => P i k * f k - P i k * rt k + P i k * rs k)) by (intros; ring). rewrite Rsum_plus, Rsum_minus.
      rewrite (pp rs i hi), (pp rt i hi).
      rewrite (Rsum_ext n (fun k => P i k * Rsum c (fun l => P l k * Rsum n (fun h => A h l * rs h))) (fun k => 0)).
      2: { intros k hk. rewrite (Rsum_ext c _ (fun l => 0)); [rewrite Rsum_0; auto; ring|]. intros l hl. rewrite n1 by auto. ring. }
      rewrite (Rsum_0 n (fun _ => 0)) by auto.
      replace (Rsum n (fun k => P i k * Rsum c (fun l => P l k * Rsum n (fun h => D h l * rt h)))) with (- Rsum n (fun k => P i k * Rsum c (fun l => P l k * Rsum n (fun h => A h l * rt h)))); [ring|].
      rewrite <- Rsum_opp. apply Rsum_ext. intros k hk. rewrite Ropp_mult_distr_r. f_equal. rewrite <- Rsum_opp. apply Rsum_ext. intros l hl.
      rewrite Ropp_mult_distr_r. f_equal. unfold D, msub.
      rewrite (Rsum_ext n (fun h => (At h l - A h l) * rt h) (fun h => At h l * rt h - A h l * rt h)) by (intros; ring). rewrite Rsum_minus, n2 by auto. ring. }
  assert (g0 : 0 <= g) by apply frob_nonneg. assert (e0 : 0 <= e) by (eapply Rle_trans; [apply frob_nonneg|exact hE]).
  rewrite (vn_ext c _ _ ex). eapply Rle_trans; [apply vn_plus|]. apply Rplus_le_compat.
  - eapply Rle_trans; [apply vn_mv|]. apply Rmult_le_compat_l; auto. unfold f.
    rewrite (vn_ext n _ (fun i => (bt i - b i) + -1 * Rsum c (fun l => D i l * x l))) by (intros; ring). eapply Rle_trans; [apply vn_plus|].
    rewrite vn_scal. replace (Rabs (-1)) with 1 by (rewrite Rabs_left; lra). pose proof (vn_mv n c D x) as hm.
    pose proof (Rmult_le_compat_r (vn c x) _ _ (vn_nonneg c x) hE). fold D in H. lra.
  - eapply Rle_trans; [apply vn_mv|]. fold g. rewrite !Rmult_assoc. apply Rmult_le_compat_l; auto.
    pose proof (vn_mv n c (mtr P) (fun l => Rsum n (fun h => D h l * rt h))) as h1.
    pose proof (vn_mv c n (mtr D) rt) as h2. unfold mtr in h1 at 1, h2 at 1.
    assert (ft : forall r' c' X, frob r' c' (mtr X) = frob c' r' X) by (intros; unfold frob, frob2, mtr; f_equal; apply Rsum_swap).
    rewrite ft in h1, h2. fold g in h1. eapply Rle_trans; [exact h1|]. apply Rmult_le_compat_l; auto. eapply Rle_trans; [exact h2|].
    replace (sqrt (resid2 n c At bt x)) with (vn n rt).
    + apply Rmult_le_compat_r; [apply vn_nonneg|exact hE].
    + unfold vn, frob, frob2, resid2, vnorm2. f_equal. apply Rsum_ext. intros i hi. cbn [Rsum]. unfold rt. ring.
Qed.
