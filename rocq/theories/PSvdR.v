(** * svd.rs in exact arithmetic *)
From Coq Require Import Reals List Arith Lia Lra Bool Setoid Morphisms.
From Verif Require Import Scalar Arr MBase MDirect MDecomp MEigh MSvd Inst Hoare Spec RLin PTri PHouse PQR PTrid PBid PGivens PEigh PEighR PSvd.
Import ListNotations.
Local Open Scope R_scope.

(** Upper bidiagonal matrix plus one extra entry x at (a, b) *)
Definition ubid (d o : nat -> R) (x : R) (a b : nat) : M := fun p q =>
  if Nat.eqb p a && Nat.eqb q b then x
  else if Nat.eqb p q then d p else if Nat.eqb q (p + 1) then o p else 0.
Definition bidm (d o : nat -> R) : M := fun p q =>
  if Nat.eqb p q then d p else if Nat.eqb q (p + 1) then o p else 0.

Lemma ubid_0 d o a b n : b <> a -> b <> (a + 1)%nat -> ubid d o 0 a b =[n, n]= bidm d o.
Proof. intros h h' p q hp hq. unfold ubid, bidm. bd; auto; lia. Qed.
Lemma ubid_far d o x a b n : (n <= b)%nat -> ubid d o x a b =[n, n]= bidm d o.
Proof. intros h p q hp hq. unfold ubid, bidm. bd; auto; lia. Qed.
Lemma bidm_ext n d o d' o' : (forall j, (j < n)%nat -> d j = d' j) -> (forall j, (j + 1 < n)%nat -> o j = o' j) ->
  bidm d o =[n, n]= bidm d' o'.
Proof. intros h1 h2 p q hp hq. unfold bidm. bd; subst; auto; apply h2; lia. Qed.

(** Sweep: column rotation then row rotation in the plane (k, k+1); the bulge moves from
    (k-1, k+1) to (k, k+2). *)
Definition sbid (d o : nat -> R) (y : R) (k : nat) : M := fun p q =>
  if Nat.eqb (p + 1) k && Nat.eqb q (k + 1) then y
  else if Nat.eqb p q then d p else if Nat.eqb q (p + 1) then o p else 0.
Lemma sbid_0 d o k n : sbid d o 0 k =[n, n]= bidm d o.
Proof. intros p q hp hq. unfold sbid, bidm. bd; auto; lia. Qed.

Lemma svd_chase n k c1 s1 c2 s2 (d o d' o' : nat -> R) y y' : (k + 1 < n)%nat ->
  (forall h, k = S h -> s1 * o h + c1 * y = 0 /\ o' h = c1 * o h - s1 * y) ->
  d' k = c2 * (c1 * d k - s1 * o k) - s2 * (- s1 * d (k + 1)%nat) ->
  s2 * (c1 * d k - s1 * o k) + c2 * (- s1 * d (k + 1)%nat) = 0 ->
  o' k = c2 * (s1 * d k + c1 * o k) - s2 * (c1 * d (k + 1)%nat) ->
  d' (k + 1)%nat = s2 * (s1 * d k + c1 * o k) + c2 * (c1 * d (k + 1)%nat) ->
  ((k + 2 < n)%nat -> o' (k + 1)%nat = c2 * o (k + 1)%nat /\ y' = - s2 * o (k + 1)%nat) ->
  (forall j, (j < n)%nat -> j <> k -> j <> (k + 1)%nat -> d' j = d j) ->
  (forall j, (j + 1 < n)%nat -> j <> k -> j <> (k + 1)%nat -> (j + 1)%nat <> k -> o' j = o j) ->
  mmul n (gm k (k + 1) c2 s2) (mmul n (sbid d o y k) (mtr (gm k (k + 1) c1 s1))) =[n, n]= sbid d' o' y' (k + 1).
Proof.
  intros hk h1 h2 h3 h4 h5 h6 h7 h8 p q hp hq.
  rewrite gm_apply by (auto; lia).
  rewrite !gm_apply_r by (auto; lia).
  destruct (Nat.eqb_spec p k) as [ep|np]; [|destruct (Nat.eqb_spec p (k + 1)) as [ep|np']];
  (destruct (Nat.eqb_spec q k) as [eq|nq]; [|destruct (Nat.eqb_spec q (k + 1)) as [eq|nq']]);
  subst; unfold sbid.
  - bd. rewrite h2. ring.
  - bd. rewrite h4. ring.
  - destruct (Nat.eq_dec q (k + 2)) as [e'|e']; [destruct h6 as (e1 & e2); [lia|]|]; bd; try lra.
  - bd. lra.
  - bd. rewrite h5. ring.
  - destruct (Nat.eq_dec q (k + 2)) as [e'|e']; [destruct h6 as (e1 & e2); [lia|]|]; bd; try lra.
  - destruct (Nat.eq_dec k (S p)) as [e|e]; [destruct (h1 p e) as (e1 & e2)|]; bd; try lra.
  - destruct (Nat.eq_dec k (S p)) as [e|e]; [destruct (h1 p e) as (e1 & e2)|]; bd; try lra.
  - bd; try reflexivity; symmetry; first [apply h7; lia | apply h8; lia].
Qed.

(** Row i is x e_{k+1}: rotate rows i and k+1 *)
Lemma hor_chase n i k c s (d o d' o' : nat -> R) x x' : (i <= k)%nat -> (k + 1 < n)%nat ->
  d i = 0 -> o i = 0 ->
  c * x - s * d (k + 1)%nat = 0 ->
  d' (k + 1)%nat = s * x + c * d (k + 1)%nat ->
  ((k + 2 < n)%nat -> o' (k + 1)%nat = c * o (k + 1)%nat /\ x' = - s * o (k + 1)%nat) ->
  (forall j, (j < n)%nat -> j <> (k + 1)%nat -> d' j = d j) ->
  (forall j, (j + 1 < n)%nat -> j <> (k + 1)%nat -> o' j = o j) ->
  mmul n (gm i (k + 1) c s) (ubid d o x i (k + 1)) =[n, n]= ubid d' o' x' i (k + 2).
Proof.
  intros hik hk hd ho h1 h2 h3 h4 h5 p q hp hq. rewrite gm_apply by (auto; lia).
  destruct (Nat.eqb_spec p i) as [ep|np]; [|destruct (Nat.eqb_spec p (k + 1)) as [ep|np']]; subst; unfold ubid.
  - destruct (Nat.eq_dec q (k + 2)) as [e'|e']; [destruct h3 as (e1 & e2); [lia|]|]; bd; subst; try lia;
    rewrite ?h4, ?h5, ?hd, ?ho by lia; try lra.
  - destruct (Nat.eq_dec q (k + 2)) as [e'|e']; [destruct h3 as (e1 & e2); [lia|]|]; bd; subst; try lia;
    rewrite ?h4, ?h5, ?hd, ?ho by lia; try lra.
  - bd; try reflexivity; symmetry; first [apply h4; lia | apply h5; lia].
Qed.

(** Column i+1 is z e_k: rotate columns k and i+1.  zb d o z k i: the entry z sits at (k - 1, i + 1). *)
Definition zbid (d o : nat -> R) (z : R) (k i : nat) : M := fun p q =>
  if Nat.eqb (p + 1) k && Nat.eqb q (i + 1) then z
  else if Nat.eqb p q then d p else if Nat.eqb q (p + 1) then o p else 0.

Lemma ver_chase n i k c s (d o d' o' : nat -> R) z z' : (k <= i)%nat -> (i + 1 < n)%nat ->
  d (i + 1)%nat = 0 -> o i = 0 ->
  s * d k + c * z = 0 ->
  d' k = c * d k - s * z ->
  (forall h, k = S h -> o' h = c * o h /\ z' = s * o h) ->
  (forall j, (j < n)%nat -> j <> k -> d' j = d j) ->
  (forall j, (j + 1 < n)%nat -> (j + 1)%nat <> k -> o' j = o j) ->
  mmul n (zbid d o z (S k) i) (mtr (gm k (i + 1) c s)) =[n, n]= zbid d' o' z' k i.
Proof.
  intros hki hi hd ho h1 h2 h3 h4 h5 p q hp hq. rewrite gm_apply_r by (auto; lia).
  destruct (Nat.eqb_spec q k) as [eq|nq]; [|destruct (Nat.eqb_spec q (i + 1)) as [eq|nq']]; subst; unfold zbid.
  - destruct (Nat.eq_dec k (S p)) as [e|e]; [destruct (h3 p e) as (e1 & e2)|]; bd; subst; try lia;
    rewrite ?h4, ?h5, ?hd, ?ho by lia; try lra;
    assert (p = i) by lia; subst; rewrite ?ho; lra.
  - destruct (Nat.eq_dec k (S p)) as [e|e]; [destruct (h3 p e) as (e1 & e2)|]; bd; subst; try lia;
    rewrite ?h4, ?h5, ?hd, ?ho by lia; try lra;
    first [assert (p = i) by lia; subst p | assert (k = i) by lia; subst k]; rewrite ?ho; lra.
  - bd; try reflexivity; symmetry; first [apply h4; lia | apply h5; lia].
Qed.
Lemma zbid_0 d o k i n : (k <= i + 1)%nat -> zbid d o 0 k i =[n, n]= bidm d (fun j => if Nat.eqb (j + 1) k && Nat.eqb j i then 0 else o j).
Proof. intros hk p q hp hq. unfold zbid, bidm. bd; auto; lia. Qed.

(** ** The factorisation invariant *)
Record FI (n : nat) (B0 : M) (C K : R) (T L Rt : M) : Prop := {
  fi_L : orthogonal n L;
  fi_R : orthogonal n Rt;
  fi_err : frob n n (msub B0 (mmul n L (mmul n T (mtr Rt)))) <= C;
  fi_nrm : frob n n T <= K
}.

Lemma orthogonal_mtr_mul n G L : orthogonal n G -> orthogonal n L -> orthogonal n (mmul n L (mtr G)).
Proof. intros h1 h2. apply orthogonal_mul; auto. apply orthogonal_mtr. auto. Qed.

Lemma fi_ext n B0 C K T T' L Rt : T =[n, n]= T' -> FI n B0 C K T L Rt -> FI n B0 C K T' L Rt.
Proof. intros h [h1 h2 h3 h4]. constructor; auto; rewrite <- h; auto. Qed.

Lemma fi_left n B0 C K T T' L Rt G : orthogonal n G -> mmul n G T =[n, n]= T' ->
  FI n B0 C K T L Rt -> FI n B0 C K T' (mmul n L (mtr G)) Rt.
Proof.
  intros hG hT [h1 h2 h3 h4]. constructor; auto.
  - apply orthogonal_mtr_mul; auto.
  - destruct hG as [g1 g2].
    assert (e : mmul n (mmul n L (mtr G)) (mmul n T' (mtr Rt)) =[n, n]= mmul n L (mmul n T (mtr Rt))).
    { rewrite <- hT, (mmul_assoc n n n n L), (mmul_assoc n n n n G).
      rewrite <- (mmul_assoc n n n n (mtr G) G), g1, mmul_1_l. reflexivity. }
    rewrite e. exact h3.
  - rewrite <- hT. unfold frob. rewrite frob2_orth_l; [exact h4|apply hG].
Qed.

Lemma fi_right n B0 C K T T' L Rt G : orthogonal n G -> mmul n T (mtr G) =[n, n]= T' ->
  FI n B0 C K T L Rt -> FI n B0 C K T' L (mmul n Rt (mtr G)).
Proof.
  intros hG hT [h1 h2 h3 h4]. constructor; auto.
  - apply orthogonal_mtr_mul; auto.
  - destruct hG as [g1 g2].
    assert (e : mmul n L (mmul n T' (mtr (mmul n Rt (mtr G)))) =[n, n]= mmul n L (mmul n T (mtr Rt))).
    { rewrite <- hT, (mtr_mmul n n n Rt), mtr_mtr, (mmul_assoc n n n n T).
      rewrite <- (mmul_assoc n n n n (mtr G) G), g1, mmul_1_l. reflexivity. }
    rewrite e. exact h3.
  - rewrite <- hT. unfold frob. rewrite frob2_orth_r; [exact h4|]. rewrite mtr_mtr. apply hG.
Qed.

Lemma fi_both n B0 C K T T' L Rt G H : orthogonal n G -> orthogonal n H -> mmul n G (mmul n T (mtr H)) =[n, n]= T' ->
  FI n B0 C K T L Rt -> FI n B0 C K T' (mmul n L (mtr G)) (mmul n Rt (mtr H)).
Proof.
  intros hG hH hT h. eapply fi_left; [exact hG|exact hT|]. eapply fi_right; [exact hH| |exact h]. reflexivity.
Qed.

Lemma frob_two_sided n L Rt X : orthogonal n L -> orthogonal n Rt -> frob n n (mmul n L (mmul n X (mtr Rt))) = frob n n X.
Proof.
  intros [l1 l2] [r1 r2]. unfold frob. f_equal. rewrite frob2_orth_l by auto. apply frob2_orth_r. rewrite mtr_mtr. auto.
Qed.

Lemma fi_move n B0 C K T T' L Rt e : FI n B0 C K T L Rt -> frob n n (msub T T') <= e -> frob n n T' <= K ->
  FI n B0 (C + e) K T' L Rt.
Proof.
  intros [h1 h2 h3 h4] he hk. constructor; auto.
  apply Rle_trans with (frob n n (msub B0 (mmul n L (mmul n T (mtr Rt)))) + frob n n (msub T T')); [|lra].
  rewrite <- (frob_two_sided n L Rt (msub T T')) by auto.
  eapply Rle_trans; [|apply frob_triangle]. right. apply frob_ext.
  assert (e1 : mmul n L (mmul n (msub T T') (mtr Rt)) =[n, n]=
    msub (mmul n L (mmul n T (mtr Rt))) (mmul n L (mmul n T' (mtr Rt)))).
  { rewrite (mmul_sub_l n n n T T'), (mmul_sub_r n n n L). reflexivity. }
  intros p q hp hq. unfold madd. rewrite e1 by auto. unfold msub. ring.
Qed.
Lemma fi_weak n B0 C C' K T L Rt : C <= C' -> FI n B0 C K T L Rt -> FI n B0 C' K T L Rt.
Proof. intros h [h1 h2 h3 h4]. constructor; auto. lra. Qed.

(** Zeroing one entry *)
Lemma frob_one n X a b e : (a < n)%nat -> (b < n)%nat ->
  (forall p q, (p < n)%nat -> (q < n)%nat -> ~ (p = a /\ q = b) -> X p q = 0) -> Rabs (X a b) <= e -> frob n n X <= e.
Proof.
  intros ha hb h he. unfold frob, frob2. rewrite (Rsum_single n a); auto.
  - rewrite (Rsum_single n b); auto.
    + change (X a b * X a b) with (Rsqr (X a b)). rewrite sqrt_Rsqr_abs. auto.
    + intros q hq hne. rewrite h by tauto. ring.
  - intros p hp hne. apply Rsum_0. intros q hq. rewrite h by tauto. ring.
Qed.
Lemma frob_le_entries n X Y : (forall p q, (p < n)%nat -> (q < n)%nat -> Rabs (X p q) <= Rabs (Y p q)) -> frob n n X <= frob n n Y.
Proof.
  intros h. unfold frob. apply sqrt_le_1_alt. unfold frob2. apply Rsum_le. intros p hp. apply Rsum_le. intros q hq.
  rewrite <- (Rabs_sq (X p q)), <- (Rabs_sq (Y p q)). pose proof (h p q hp hq). pose proof (Rabs_pos (X p q)). nra.
Qed.

Lemma ubid_00 d o a b n : b <> a -> (b = (a + 1)%nat -> o a = 0) -> ubid d o 0 a b =[n, n]= bidm d o.
Proof. intros h h' p q hp hq. unfold ubid, bidm. bd; auto; subst; try lia. symmetry. auto. Qed.

Lemma vent_vupd (v : list RN) i x j : (i < length v)%nat -> vent (vupd v i x) j = if Nat.eqb j i then x else vent v j.
Proof.
  intros hi. unfold vent. destruct (le_lt_dec (length v) j).
  - bd. unfold vget. rewrite !nth_overflow; auto. rewrite length_vupd. auto.
  - rewrite vget_vupd by lia. reflexivity.
Qed.
Lemma vent_over (v : list RN) j : (length v <= j)%nat -> vent v j = 0.
Proof. intros h. unfold vent, vget. rewrite nth_overflow; auto. Qed.

(** ** Accumulated singular vectors *)
Lemma colrot_real (g : givens RN) a b u u' : a <> b -> (a < nc u)%nat -> (b < nc u)%nat -> colrot g a b u u' ->
  ent u' =[nr u, nc u]= mmul (nc u) (ent u) (mtr (gm a b (rc g) (- rs g))).
Proof.
  intros ne ha hb (h1 & h2 & h3) i j hi hj. rewrite gm_apply_r by auto. unfold ent at 1. rewrite h3 by auto.
  unfold ent. rn. bd; auto; ring.
Qed.
Lemma rowrot_real (g : givens RN) a b v v' : a <> b -> (a < nr v)%nat -> (b < nr v)%nat -> rowrot g a b v v' ->
  mtr (ent v') =[nc v, nr v]= mmul (nr v) (mtr (ent v)) (mtr (gm a b (rc g) (rs g))).
Proof.
  intros ne ha hb (h1 & h2 & h3) i j hi hj. rewrite gm_apply_r by auto. unfold mtr at 1, ent at 1. rewrite h3 by auto.
  unfold mtr, ent. rn. bd; auto; ring.
Qed.

(** ** The closed form 2x2 triangular SVD *)
Lemma uptrig_real (a b d : R) : 0 < a -> b <> 0 -> 0 < d ->
  exists (v1 v2 : R) (gu gv : givens RN), 0 < v1 /\ 0 < v2 /\
    (forall fu fv, compute_2x2_uptrig_svd (N:=RN) a b d fu fv =
        (v1, v2, if fu then Some gu else None, if fv then Some gv else None)) /\
    rc gu * rc gu + rs gu * rs gu = 1 /\ rc gv * rc gv + rs gv * rs gv = 1 /\
    a * rc gv + b * rs gv = v1 * rc gu /\ d * rs gv = v1 * rs gu /\
    b * rc gv - a * rs gv = - (v2 * rs gu) /\ d * rc gv = v2 * rc gu.
Proof.
  intros ha hb hd. unfold compute_2x2_uptrig_svd. rewrite ntwo_R.
  change (nhypot RN) with (fun x y => sqrt (x * x + y * y)). cbv beta.
  change (nmul RN) with Rmult. change (nadd RN) with Rplus. change (nsub RN) with Rminus. change (ndiv RN) with Rdiv.
  set (h1 := sqrt ((a + d) * (a + d) + b * b)). set (h2 := sqrt ((a - d) * (a - d) + b * b)).
  assert (b2 : 0 < b * b) by (pose proof (Rsqr_pos_lt b hb); auto).
  assert (e1 : h1 * h1 = (a + d) * (a + d) + b * b) by (apply sqrt_sqrt; pose proof (sqn (a + d)); lra).
  assert (e2 : h2 * h2 = (a - d) * (a - d) + b * b) by (apply sqrt_sqrt; pose proof (sqn (a - d)); lra).
  assert (p1 : 0 < h1) by (apply sqrt_lt_R0; pose proof (sqn (a + d)); lra). assert (p2 : 0 < h2) by (apply sqrt_lt_R0; pose proof (sqn (a - d)); lra).
  clearbody h1 h2. set (den := h1 + h2). assert (pd : 0 < den) by (unfold den; lra).
  assert (ev1 : a * d * 2 / den = (h1 - h2) / 2).
  { apply (Rmult_eq_reg_r (2 * den)); [|lra]. field_simplify; [|lra]. unfold den. nra. }
  set (v1 := a * d * 2 / den) in *. set (v2 := den / 2).
  assert (q1 : 0 < v1). { unfold v1. apply Rdiv_lt_0_compat; auto. nra. }
  assert (q2 : 0 < v2). { unfold v2. lra. }
  assert (f1 : v1 * v2 = a * d). { unfold v1, v2. field. lra. }
  assert (f2 : v1 * v1 + v2 * v2 = a * a + b * b + d * d). { rewrite ev1. unfold v2, den. nra. }
  clearbody v1 v2. clear ev1.
  assert (f3 : v1 * v1 * (v1 * v1) - v1 * v1 * (a * a + b * b + d * d) + a * d * (a * d) = 0).
  { rewrite <- f2, <- f1. ring. }
  pose proof (givens_new_real (a * b) (v1 * v1 - a * a)) as hg.
  destruct (@givens_new RN (a * b) (v1 * v1 - a * a)) as [gv nv]. destruct hg as (g1 & g2 & g3 & g4 & g5).
  assert (hnv : 0 < nv).
  { destruct g1 as [|g1]; auto. exfalso. rewrite <- g1 in g4. rewrite Rmult_0_r in g4. symmetry in g4.
    apply Rmult_integral in g4. destruct g4; [lra|auto]. }
  pose proof (givens_new_real ((a * rc gv + b * rs gv) / (v1 * nv)) (d * rs gv / (v1 * nv))) as hu.
  destruct (@givens_new RN ((a * rc gv + b * rs gv) / (v1 * nv)) (d * rs gv / (v1 * nv))) as [gu nu].
  destruct hu as (u1 & u2 & u3 & u4 & u5).
  set (cv := rc gv : R) in *. set (s := rs gv : R) in *. set (cu := rc gu : R) in *. set (t := rs gu : R) in *.
  assert (w1 : (a * cv + b * s) * (a * cv + b * s) + (d * s) * (d * s) = v1 * v1).
  { apply (Rmult_eq_reg_r (nv * nv)); [|nra].
    transitivity ((a * (cv * nv) + b * (s * nv)) * (a * (cv * nv) + b * (s * nv)) + (d * (s * nv)) * (d * (s * nv))); [ring|].
    rewrite g2. rewrite g4, g5.
    apply Rminus_diag_uniq.
    transitivity (- (v1 * v1 - a * a) * (v1 * v1 * (v1 * v1) - v1 * v1 * (a * a + b * b + d * d) + a * d * (a * d))); [ring|].
    rewrite f3. ring. }
  assert (hvn : 0 < v1 * nv) by (apply Rmult_lt_0_compat; auto).
  assert (w2 : nu * nv = 1).
  { assert (h : (nu * nv) * (nu * nv) = 1).
    { transitivity (nu * nu * (nv * nv)); [ring|]. rewrite u2.
      transitivity (((a * cv + b * s) * (a * cv + b * s) + d * s * (d * s)) / (v1 * v1)); [field; lra|].
      rewrite w1. field. lra. }
    assert (0 <= nu * nv) by (apply Rmult_le_pos; lra). nra. }
  assert (k1 : a * cv + b * s = v1 * cu).
  { transitivity (v1 * (cu * nu) * nv); [rewrite u4; field; lra|]. transitivity (v1 * cu * (nu * nv)); [ring|]. rewrite w2. ring. }
  assert (k2 : d * s = v1 * t).
  { transitivity (v1 * (t * nu) * nv); [rewrite u5; field; lra|]. transitivity (v1 * t * (nu * nv)); [ring|]. rewrite w2. ring. }
  assert (r1 : v1 * nv * nu = v1). { transitivity (v1 * (nu * nv)); [ring|]. rewrite w2. ring. }
  assert (r2 : v2 * nv * nu = v2). { transitivity (v2 * (nu * nv)); [ring|]. rewrite w2. ring. }
  exists v1, v2, gu, gv. fold cv s cu t. split; auto. split; auto. split.
  { intros fu fv. destruct (fv || fu) eqn:ef; [rewrite r1, r2; reflexivity|]. 
    apply orb_false_iff in ef. destruct ef as (-> & ->). reflexivity. }
  split; auto. split; auto. split; auto. split; auto. split.
  - apply (Rmult_eq_reg_r (v1 * v1 * nv)); [|apply Rgt_not_eq; apply Rmult_lt_0_compat; [nra|auto]].
    transitivity (v1 * v1 * (b * (cv * nv) - a * (s * nv))); [ring|].
    transitivity (- (v1 * v2) * (v1 * t) * nv); [|ring]. rewrite <- k2, f1.
    transitivity (- (a * d) * d * (s * nv)); [|ring]. rewrite g4, g5. apply Rminus_diag_uniq.
    transitivity (- a * (v1 * v1 * (v1 * v1) - v1 * v1 * (a * a + b * b + d * d) + a * d * (a * d))); [ring|].
    rewrite f3. ring.
  - apply (Rmult_eq_reg_r (v1 * v1 * nv)); [|apply Rgt_not_eq; apply Rmult_lt_0_compat; [nra|auto]].
    transitivity (v1 * v1 * d * (cv * nv)); [ring|]. transitivity (v1 * v2 * (v1 * cu) * nv); [|ring].
    rewrite f1, <- k1. transitivity (a * d * (a * (cv * nv) + b * (s * nv))); [|ring]. rewrite g4, g5. ring.
Qed.

(** diagonalising the 2x2 block k, k+1 *)
Lemma two_chase n k cu su cv sv (d o d' o' : nat -> R) : (k + 1 < n)%nat ->
  (forall h, k = S h -> o h = 0) -> ((k + 2 < n)%nat -> o (k + 1)%nat = 0) ->
  d k * cv + o k * sv = d' k * cu -> d (k + 1)%nat * sv = d' k * su ->
  o k * cv - d k * sv = - (d' (k + 1)%nat * su) -> d (k + 1)%nat * cv = d' (k + 1)%nat * cu ->
  cu * cu + su * su = 1 -> o' k = 0 ->
  (forall j, (j < n)%nat -> j <> k -> j <> (k + 1)%nat -> d' j = d j) ->
  (forall j, (j + 1 < n)%nat -> j <> k -> o' j = o j) ->
  mmul n (gm k (k + 1) cu (- su)) (mmul n (bidm d o) (mtr (gm k (k + 1) cv (- sv)))) =[n, n]= bidm d' o'.
Proof.
  intros hk h1 h2 e1 e2 e3 e4 hu ho hd' ho' p q hp hq.
  rewrite gm_apply by (auto; lia).
  rewrite !gm_apply_r by (auto; lia).
  destruct (Nat.eqb_spec p k) as [ep|np]; [|destruct (Nat.eqb_spec p (k + 1)) as [ep|np']];
  (destruct (Nat.eqb_spec q k) as [eq|nq]; [|destruct (Nat.eqb_spec q (k + 1)) as [eq|nq']]);
  subst; unfold bidm.
  - bd. transitivity (cu * (d k * cv + o k * sv) + su * (d (k + 1)%nat * sv)); [ring|]. rewrite e1, e2.
    transitivity (d' k * (cu * cu + su * su)); [ring|]. rewrite hu. ring.
  - bd. rewrite ho. transitivity (cu * (o k * cv - d k * sv) + su * (d (k + 1)%nat * cv)); [ring|]. rewrite e3, e4. ring.
  - bd; try lra. rewrite h2 by lia. lra.
  - bd. transitivity (- su * (d k * cv + o k * sv) + cu * (d (k + 1)%nat * sv)); [ring|]. rewrite e1, e2. ring.
  - bd. transitivity (- su * (o k * cv - d k * sv) + cu * (d (k + 1)%nat * cv)); [ring|]. rewrite e3, e4.
    transitivity (d' (k + 1)%nat * (cu * cu + su * su)); [ring|]. rewrite hu. ring.
  - bd; try lra. replace q with (k + 2)%nat by lia. rewrite ho', h2 by lia. lra.
  - bd; try lra. rewrite ho', (h1 p) by lia. lra.
  - bd; try lra. rewrite (h1 p) by lia. lra.
  - bd; try reflexivity; symmetry; first [apply hd'; lia | apply ho'; lia].
Qed.

Section Vecs.
Context (r c n : nat) (U0 V0 : M).

Definition uvec (u : option (mat RN)) (X : M) : Prop :=
  exists U, u = Some U /\ nr U = r /\ nc U = n /\ ent U =[r, n]= mmul n U0 X.
Definition vvec (v : option (mat RN)) (X : M) : Prop :=
  exists V, v = Some V /\ nr V = n /\ nc V = c /\ mtr (ent V) =[c, n]= mmul n V0 X.

Lemma uvec_ush u X : uvec u X -> ush r n u. Proof. intros (U & -> & h1 & h2 & _). simpl. auto. Qed.
Lemma vvec_ush u X : vvec u X -> ush n c u. Proof. intros (U & -> & h1 & h2 & _). simpl. auto. Qed.

Lemma uvec_colrot (g : givens RN) a b u u' X (s : R) : a <> b -> (a < n)%nat -> (b < n)%nat -> uvec u X -> s = - rs g ->
  orel (colrot g a b) u u' -> uvec u' (mmul n X (mtr (gm a b (rc g) s))).
Proof.
  intros ne ha hb (U & -> & h1 & h2 & h3) -> h. destruct u' as [U'|]; [|contradiction]. simpl in h.
  exists U'. pose proof h as (k1 & k2 & _). do 2 (split; [auto; congruence|]). split; [congruence|].
  pose proof (colrot_real g a b U U' ne ltac:(lia) ltac:(lia) h) as e. rewrite h1, h2 in e.
  rewrite e, h3, (mmul_assoc r n n n U0). reflexivity.
Qed.
Lemma vvec_rowrot (g : givens RN) a b u u' X (s : R) : a <> b -> (a < n)%nat -> (b < n)%nat -> vvec u X -> s = rs g ->
  orel (rowrot g a b) u u' -> vvec u' (mmul n X (mtr (gm a b (rc g) s))).
Proof.
  intros ne ha hb (U & -> & h1 & h2 & h3) -> h. destruct u' as [U'|]; [|contradiction]. simpl in h.
  exists U'. pose proof h as (k1 & k2 & _). do 2 (split; [auto; congruence|]). split; [congruence|].
  pose proof (rowrot_real g a b U U' ne ltac:(lia) ltac:(lia) h) as e. rewrite h1, h2 in e.
  rewrite e, h3, (mmul_assoc c n n n V0). reflexivity.
Qed.

Lemma inv_rs (g : givens RN) : rs g = - rs (inverse g).
Proof. unfold inverse. cbn [rs]. symmetry. apply (Ropp_involutive (rs g)). Qed.

Lemma uvec_stride (g : givens RN) u X a b : (a < b)%nat -> (b < n)%nat -> uvec u X ->
  wp (rot_u_stride (inverse g) u a b (b - a)) (fun u' => uvec u' (mmul n X (mtr (gm a b (rc g) (rs g))))).
Proof.
  intros h1 h2 hu. eapply post_mono; [eapply rot_u_stride_ok; eauto using ush_cols, uvec_ush|].
  intros u' h. change (rc g) with (rc (inverse g)). eapply uvec_colrot; eauto; try lia. apply inv_rs.
Qed.
Lemma vvec_stride (g : givens RN) u X a b : (a < b)%nat -> (b < n)%nat -> vvec u X ->
  wp (rot_vt_stride g u a b (b - a)) (fun u' => vvec u' (mmul n X (mtr (gm a b (rc g) (rs g))))).
Proof.
  intros h1 h2 hu. eapply post_mono; [eapply rot_vt_stride_ok; eauto using ush_rows, vvec_ush|].
  intros u' h. eapply vvec_rowrot; eauto; lia.
Qed.
Lemma uvec_rot (g : givens RN) u X k (s : R) : (k + 1 < n)%nat -> s = - rs g -> uvec u X ->
  wp (rot_u g u k) (fun u' => uvec u' (mmul n X (mtr (gm k (k + 1) (rc g) s)))).
Proof.
  intros h1 hs hu. eapply post_mono; [eapply rot_u_ok; eauto using ush_cols, uvec_ush|].
  intros u' h. eapply uvec_colrot; eauto; try lia.
Qed.
Lemma vvec_rot (g : givens RN) u X k (s : R) : (k + 1 < n)%nat -> s = rs g -> vvec u X ->
  wp (rot_vt g u k) (fun u' => vvec u' (mmul n X (mtr (gm k (k + 1) (rc g) s)))).
Proof.
  intros h1 hs hu. eapply post_mono; [eapply rot_vt_ok; eauto using ush_rows, vvec_ush|].
  intros u' h. eapply vvec_rowrot; eauto; lia.
Qed.

Context (up : bool) (B0 : M) (K : R).

(** state, accumulated error C, current matrix T *)
Definition VI (st : svd_state RN) (C : R) (T : M) : Prop :=
  length (sd st) = n /\ length (so st) = (n - 1)%nat /\
  exists L Rt, uvec (su st) (if up then L else Rt) /\ vvec (sv st) (if up then Rt else L) /\ FI n B0 C K T L Rt.

Lemma VI_ext st C T T' : T =[n, n]= T' -> VI st C T -> VI st C T'.
Proof. intros h (h1 & h2 & L & Rt & h3 & h4 & h5). split; auto. split; auto. exists L, Rt. split; auto. split; auto. eapply fi_ext; eauto. Qed.

Notation DD st := (vent (sd st)).
Notation OO st := (vent (so st)).

Definition hor_inv (i e : nat) (st0 : svd_state RN) (C : R) (k : nat) (s : R * R * svd_state RN) : Prop :=
  let st := snd s in
  VI st C (ubid (DD st) (OO st) (if Nat.ltb k e then fst (fst s) else 0) i (k + 1)) /\
  ((k < e)%nat -> snd (fst s) = DD st (k + 1)%nat) /\
  (forall j, (j <= i \/ k < j)%nat -> DD st j = DD st0 j) /\
  OO st i = 0 /\
  (forall j, (j < i \/ k < j)%nat -> OO st j = OO st0 j) /\
  (forall j, OO st0 j = 0 -> OO st j = 0) /\
  (forall j, 0 <= DD st j) /\
  ((forall j, (i < j <= e)%nat -> 0 < DD st0 j) ->
     (forall j, (i < j <= e)%nat -> 0 < DD st j) /\ (forall j, (i < j)%nat -> OO st0 j <> 0 -> OO st j <> 0)) /\
  (forall j, (i < j)%nat -> DD st j * OO st j = DD st0 j * OO st0 j).

Definition hor_post (i e : nat) (st0 : svd_state RN) (C : R) (st : svd_state RN) : Prop :=
  VI st C (bidm (DD st) (OO st)) /\
  (forall j, (j <= i \/ e < j)%nat -> DD st j = DD st0 j) /\
  OO st i = 0 /\
  (forall j, (j < i \/ e < j)%nat -> OO st j = OO st0 j) /\
  (forall j, OO st0 j = 0 -> OO st j = 0) /\
  (forall j, 0 <= DD st j) /\
  ((forall j, (i < j <= e)%nat -> 0 < DD st0 j) ->
     (forall j, (i < j <= e)%nat -> 0 < DD st j) /\ (forall j, (i < j)%nat -> OO st0 j <> 0 -> OO st j <> 0)) /\
  (forall j, (i < j)%nat -> DD st j * OO st j = DD st0 j * OO st0 j).

Lemma hor_inv_post i e st0 C k s : (i <= k <= e)%nat -> (if Nat.ltb k e then fst (fst s) else 0) = 0 ->
  hor_inv i e st0 C k s -> hor_post i e st0 C (snd s).
Proof.
  intros hk hx (h1 & h2 & h3 & h4 & h5 & h6 & h7 & h8 & h9). rewrite hx in h1.
  split; [eapply VI_ext; [|exact h1]; apply ubid_00; [lia|auto]|].
  split; [intros j hj; apply h3; lia|]. split; auto. split; [intros j hj; apply h5; lia|]. auto.
Qed.

Lemma cancel_horizontal_real i e st C : (i < e)%nat -> (e < n)%nat ->
  VI st C (bidm (DD st) (OO st)) -> DD st i = 0 -> OO st e = 0 -> (forall j, 0 <= DD st j) ->
  wp (cancel_horizontal (N:=RN) up i e st) (hor_post i e st C).
Proof.
  intros hie hen hv hd0 hoe hnn. pose proof hv as (l1 & l2 & _).
  unfold cancel_horizontal. step1. apply post_idx1; [lia|]. step1. apply post_idx1; [lia|].
  step1. apply post_set1; [lia|]. step1.
  eapply post_mono with (Q := fun s => hor_post i e st C (snd s)).
  2: { intros [v s] h. apply post_ret. exact h. }
  assert (o0 : forall j, vent (vupd (so st) i (n0 RN)) j = if Nat.eqb j i then 0 else OO st j).
  { intros j. rewrite vent_vupd by lia. reflexivity. }
  eapply post_for_brk with (I := hor_inv i e st C).
  - unfold hor_inv. cbn [fst snd sd so su sv]. split; [|split; [|split; [|split; [|split; [|split; [|split; [|split]]]]]]].
    + destruct hv as (_ & _ & L & Rt & u1 & v1 & f1). split; [auto|]. split; [cbn [so]; dims; auto|].
      exists L, Rt. split; auto. split; auto. eapply fi_ext; [|exact f1].
      intros p q hp hq. unfold bidm, ubid. bd; subst; auto; try lia; rewrite ?o0; bd; auto; lia.
    + intros _. reflexivity.
    + auto.
    + rewrite o0. bd. auto.
    + intros j hj. rewrite o0. bd; auto; lia.
    + intros j hj. rewrite o0. bd; auto.
    + auto.
    + intros hp. split; auto. intros j hj hne. rewrite o0. bd; auto; lia.
    + intros j hj. rewrite o0. bd; auto; lia.
  - intros k [[v0 v1] st1] hk hinv. 
    pose proof hinv as (h1 & h2 & h3 & h4 & h5 & h6 & h7 & h8 & h9). cbn [fst snd] in *.
    pose proof (cancel_x_real v0 v1) as hc. destruct (@cancel_x RN v0 v1) as [[rot norm]|].
    2: { apply post_ret. cbn [fst snd]. change st1 with (snd (v0, v1, st1)). apply (hor_inv_post i e st C k); auto; [lia|].
         cbn [fst snd]. subst v0. destruct (Nat.ltb k e); auto. }
    destruct hc as (hx & hn & _ & hcs & hc1 & hc2). set (cc := rc rot) in *. set (ss := rs rot) in *.
    destruct (Nat.ltb_spec k e) as [hke|]; [|lia].
    rewrite (h2 hke) in *. clear h2.
    pose proof h1 as (m1 & m2 & L & Rt & u1 & w1 & f1).
    assert (hcr : cc * norm = DD st1 (k + 1)%nat).
    { rewrite <- hc2. transitivity (ss * (cc * v0) + cc * cc * DD st1 (k + 1)%nat); [ring|].
      replace (cc * v0) with (ss * DD st1 (k + 1)%nat) by lra.
      transitivity ((cc * cc + ss * ss) * DD st1 (k + 1)%nat); [ring|]. rewrite hcs. ring. }
    step1. apply post_atm1; [lia|]. step1. replace (k - i + 1)%nat with ((k + 1) - i)%nat by lia.
    set (G := gm i (k + 1) cc ss).
    assert (hG : orthogonal n G) by (apply gm_orthogonal; auto; lia).
    set (L' := mmul n L (mtr G)).
    eapply post_mono with (Q := fun u' => uvec u' (if up then L' else Rt)).
    { destruct up; [apply uvec_stride; auto; lia|apply post_ret; auto]. }
    intros u2 hu2. step1.
    eapply post_mono with (Q := fun u' => vvec u' (if up then Rt else L')).
    { destruct up; [apply post_ret; auto|apply vvec_stride; auto; lia]. }
    intros v2 hv2.
    assert (hd2 : forall j, vent (vupd (sd st1) (k + 1) norm) j = if Nat.eqb j (k + 1) then norm else DD st1 j).
    { intros j. apply vent_vupd. lia. }
    assert (hdi : DD st1 i = 0) by (rewrite h3 by lia; auto).
    destruct (Nat.eqb_spec (k + 1) e) as [hlast|hmid]; cbn [negb].
    + apply post_ret. cbn [fst snd]. unfold hor_inv. cbn [fst snd sd so su sv].
      destruct (Nat.ltb_spec (S k) e); [lia|].
      assert (hoz : OO st1 e = 0) by (rewrite h5 by lia; auto).
      split; [|split; [|split; [|split; [|split; [|split; [|split; [|split]]]]]]].
      * split; [cbn [sd]; dims; auto|]. split; [auto|]. exists L', Rt. cbn [su sv]. split; auto. split; auto.
        eapply (fi_left n B0 C K _ _ L Rt G); eauto. replace (S k + 1)%nat with (k + 2)%nat by lia.
        apply hor_chase; auto; try lia.
        -- rewrite hd2. bd. auto.
        -- intros _. rewrite hlast, hoz. split; ring.
        -- intros j hj hne. rewrite hd2. bd. auto.
      * lia.
      * intros j hj. rewrite hd2. bd. apply h3. lia.
      * auto.
      * intros j hj. apply h5. lia.
      * auto.
      * intros j. rewrite hd2. bd; auto. lra.
      * intros hp. destruct (h8 hp) as (k1 & k2). split; auto. intros j hj. rewrite hd2. bd; auto. 
      * intros j hj. rewrite hd2. bd; auto. subst j. rewrite <- (h9 (k + 1)%nat) by lia. rewrite hlast, hoz. ring.
    + step1. apply post_at1; [lia|]. step1. apply post_at1; [dims; lia|]. step1. apply post_atm1; [lia|].
      apply post_ret. cbn [fst snd]. unfold hor_inv. cbn [fst snd sd so su sv].
      destruct (Nat.ltb_spec (S k) e); [|lia]. fold cc ss.
      change (vget (so st1) (k + 1)) with (OO st1 (k + 1)). change (nmul RN) with Rmult. change (nopp RN) with Ropp.
      change (@vget RN ?v (k + 2)) with (vent v (k + 2)).
      assert (ho2 : forall j, vent (vupd (so st1) (k + 1) (OO st1 (k + 1)%nat * cc)) j = if Nat.eqb j (k + 1) then OO st1 (k + 1)%nat * cc else OO st1 j).
      { intros j. apply vent_vupd. lia. }
      split; [|split; [|split; [|split; [|split; [|split; [|split; [|split]]]]]]].
      * split; [cbn [sd]; dims; auto|]. split; [cbn [so]; dims; auto|]. exists L', Rt. cbn [su sv]. split; auto. split; auto.
        eapply (fi_left n B0 C K _ _ L Rt G); eauto. replace (S k + 1)%nat with (k + 2)%nat by lia.
        apply hor_chase; auto; try lia.
        -- rewrite hd2. bd. auto.
        -- intros _. rewrite ho2. bd. split; ring.
        -- intros j hj hne. rewrite hd2. bd. auto.
        -- intros j hj hne. rewrite ho2. bd. auto.
      * intros _. f_equal. lia.
      * intros j hj. rewrite hd2. bd. apply h3. lia.
      * rewrite ho2. bd. auto.
      * intros j hj. rewrite ho2. bd. apply h5. lia.
      * intros j hj. rewrite ho2. bd; auto. subst j. rewrite (h6 _ hj). ring.
      * intros j. rewrite hd2. bd; auto. lra.
      * intros hp. destruct (h8 hp) as (k1 & k2). split; [intros j hj; rewrite hd2; bd; auto|].
        intros j hj hne. rewrite ho2. bd; auto. subst j. apply Rmult_integral_contrapositive_currified; auto.
        intros hz. rewrite hz in hcr. assert (0 < DD st1 (k + 1)%nat) by (apply k1; lia). lra.
      * intros j hj. rewrite hd2, ho2. bd; auto. subst j. rewrite <- (h9 (k + 1)%nat) by lia. rewrite <- hcr. ring.
  - intros s hs. replace (i + (e - i))%nat with e in hs by lia. apply (hor_inv_post i e st C e); auto; [lia|].
    destruct (Nat.ltb_spec e e); [lia|auto].
Qed.

Definition ver_inv (i : nat) (st0 : svd_state RN) (C : R) (k : nat) (s : R * R * svd_state RN) : Prop :=
  let st := snd s in
  (k <= i + 1)%nat /\
  VI st C (zbid (DD st) (OO st) (if Nat.ltb 0 k then snd (fst s) else 0) k i) /\
  ((0 < k)%nat -> fst (fst s) = DD st (k - 1)%nat) /\
  (forall j, (i < j)%nat -> DD st j = DD st0 j) /\
  OO st i = 0 /\
  (forall j, (i < j)%nat -> OO st j = OO st0 j) /\
  (forall j, OO st0 j = 0 -> OO st j = 0) /\
  (forall j, 0 <= DD st j).

Definition ver_post (i : nat) (st0 : svd_state RN) (C : R) (st : svd_state RN) : Prop :=
  VI st C (bidm (DD st) (OO st)) /\
  (forall j, (i < j)%nat -> DD st j = DD st0 j) /\
  OO st i = 0 /\
  (forall j, (i < j)%nat -> OO st j = OO st0 j) /\
  (forall j, OO st0 j = 0 -> OO st j = 0) /\
  (forall j, 0 <= DD st j).

Lemma ver_inv_post i st0 C k s : (if Nat.ltb 0 k then snd (fst s) else 0) = 0 ->
  ver_inv i st0 C k s -> ver_post i st0 C (snd s).
Proof.
  intros hx (h0 & h1 & h2 & h3 & h4 & h5 & h6 & h7). rewrite hx in h1.
  split; [|auto 10]. eapply VI_ext; [|exact h1]. rewrite zbid_0 by auto. apply bidm_ext; auto.
  intros j hj. bd; subst; auto.
Qed.

Lemma cancel_vertical_real i st C : (i + 1 < n)%nat ->
  VI st C (bidm (DD st) (OO st)) -> DD st (i + 1)%nat = 0 -> (forall j, 0 <= DD st j) ->
  wp (cancel_vertical (N:=RN) up i st) (ver_post i st C).
Proof.
  intros hin hv hd0 hnn. pose proof hv as (l1 & l2 & _).
  unfold cancel_vertical. step1. apply post_idx1; [lia|]. step1. apply post_idx1; [lia|].
  step1. apply post_set1; [lia|]. step1.
  eapply post_mono with (Q := fun s => ver_post i st C (snd s)).
  2: { intros [v s] h. apply post_ret. exact h. }
  assert (o0 : forall j, vent (vupd (so st) i (n0 RN)) j = if Nat.eqb j i then 0 else OO st j).
  { intros j. rewrite vent_vupd by lia. reflexivity. }
  eapply post_for_rev_brk with (I := ver_inv i st C).
  - unfold ver_inv. cbn [fst snd sd so su sv]. split; [lia|]. split; [|split; [|split; [|split; [|split; [|split]]]]].
    + destruct hv as (_ & _ & L & Rt & u1 & v1 & f1). split; [auto|]. split; [cbn [so]; dims; auto|].
      exists L, Rt. split; auto. split; auto. eapply fi_ext; [|exact f1].
      destruct (Nat.ltb_spec 0 (i + 1)); [|lia].
      intros p q hp hq. unfold bidm, zbid. bd; subst; auto; try lia; rewrite ?o0; bd; auto; try lia.
      replace p with i by lia. reflexivity.
    + intros _. rewrite Nat.add_sub. reflexivity.
    + auto.
    + rewrite o0. bd. auto.
    + intros j hj. rewrite o0. bd; auto; lia.
    + intros j hj. rewrite o0. bd; auto.
    + auto.
  - intros k [[v0 v1] st1] hk hinv.
    pose proof hinv as (h0 & h1 & h2 & h3 & h4 & h5 & h6 & h7). cbn [fst snd] in *.
    pose proof (cancel_y_real v0 v1) as hc. destruct (@cancel_y RN v0 v1) as [[rot norm]|].
    2: { apply post_ret. cbn [fst snd]. change st1 with (snd (v0, v1, st1)). apply (ver_inv_post i st C (S k)); auto. }
    destruct hc as (hx & hn & _ & hcs & hc1 & hc2). set (cc := rc rot) in *. set (ss := rs rot) in *.
    destruct (Nat.ltb_spec 0 (S k)) as [_|]; [|lia].
    specialize (h2 ltac:(lia)). replace (S k - 1)%nat with k in h2 by lia. rewrite h2 in *. clear h2.
    pose proof h1 as (m1 & m2 & L & Rt & u1 & w1 & f1).
    step1. apply post_atm1; [lia|]. step1. replace (i - k + 1)%nat with ((i + 1) - k)%nat by lia.
    set (G := gm k (i + 1) cc ss).
    assert (hG : orthogonal n G) by (apply gm_orthogonal; auto; lia).
    set (Rt' := mmul n Rt (mtr G)).
    eapply post_mono with (Q := fun u' => vvec u' (if up then Rt' else L)).
    { destruct up; [apply vvec_stride; auto; lia|apply post_ret; auto]. }
    intros v2 hv2. step1.
    eapply post_mono with (Q := fun u' => uvec u' (if up then L else Rt')).
    { destruct up; [apply post_ret; auto|apply uvec_stride; auto; lia]. }
    intros u2 hu2.
    assert (hd2 : forall j, vent (vupd (sd st1) k norm) j = if Nat.eqb j k then norm else DD st1 j).
    { intros j. apply vent_vupd. lia. }
    assert (hdi : DD st1 (i + 1)%nat = 0) by (rewrite h3 by lia; auto).
    destruct (Nat.ltb_spec 0 k) as [hpos|hz].
    + step1. apply post_usub; [lia|]. step1. apply post_at1; [dims; lia|]. step1. apply post_at1; [lia|].
      step1. apply post_atm1; [lia|]. apply post_ret. cbn [fst snd]. unfold ver_inv. cbn [fst snd sd so su sv].
      destruct (Nat.ltb_spec 0 k); [|lia]. fold cc ss. change (nmul RN) with Rmult.
      change (vget (so st1) (k - 1)) with (OO st1 (k - 1)).
      change (@vget RN (vupd (sd st1) k norm) (k - 1)) with (vent (vupd (sd st1) k norm) (k - 1)).
      assert (ho2 : forall j, vent (vupd (so st1) (k - 1) (OO st1 (k - 1)%nat * cc)) j = if Nat.eqb j (k - 1) then OO st1 (k - 1)%nat * cc else OO st1 j).
      { intros j. apply vent_vupd. lia. }
      split; [lia|]. split; [|split; [|split; [|split; [|split; [|split]]]]].
      * split; [cbn [sd]; dims; auto|]. split; [cbn [so]; dims; auto|]. exists L, Rt'. cbn [su sv]. split; auto. split; auto.
        eapply (fi_right n B0 C K _ _ L Rt G); eauto.
        apply ver_chase; auto; try lia.
        -- rewrite hd2. bd. lra.
        -- intros h hh. rewrite ho2. bd. subst k. replace (S h - 1)%nat with h by lia. split; ring.
        -- intros j hj hne. rewrite hd2. bd. auto.
        -- intros j hj hne. rewrite ho2. bd. auto.
      * auto.
      * intros j hj. rewrite hd2. bd. apply h3. lia.
      * rewrite ho2. bd. auto.
      * intros j hj. rewrite ho2. bd. apply h5. lia.
      * intros j hj. rewrite ho2. bd; auto. subst j. rewrite (h6 _ hj). ring.
      * intros j. rewrite hd2. bd; auto. lra.
    + apply post_ret. cbn [fst snd]. unfold ver_inv. cbn [fst snd sd so su sv].
      destruct (Nat.ltb_spec 0 k); [lia|]. assert (k = 0)%nat by lia. subst k.
      split; [lia|]. split; [|split; [|split; [|split; [|split; [|split]]]]]; auto.
      * split; [cbn [sd]; dims; auto|]. split; [cbn [so]; dims; auto|]. exists L, Rt'. cbn [su sv]. split; auto. split; auto.
        eapply (fi_right n B0 C K _ _ L Rt G); eauto.
        apply ver_chase; auto; try lia.
        -- rewrite hd2. bd. lra.
        -- intros j hj hne. rewrite hd2. bd. auto.
      * lia.
      * intros j hj. rewrite hd2. bd. apply h3. lia.
      * intros j. rewrite hd2. bd; auto. lra.
  - intros s hs. apply (ver_inv_post i st C 0); auto.
Qed.


Context (eps : R) (heps : 0 <= eps) (hK : K <> 0 -> 1 <= K).

Definition SIv (st : svd_state RN) (dead : nat -> bool) : Prop :=
  VI st (dcount n dead * (2 * eps * K)) (bidm (DD st) (OO st)) /\
  (forall j, (j < n - 1)%nat -> dead j = true -> OO st j = 0) /\
  (forall j, 0 <= DD st j).

Lemma VI_K st C T p q : VI st C T -> (p < n)%nat -> (q < n)%nat -> Rabs (T p q) <= K.
Proof. intros (_ & _ & L & Rt & _ & _ & f) hp hq. eapply Rle_trans; [apply (frob_entry_le n n); eauto|]. apply f. Qed.
Lemma VI_K0 st C T : VI st C T -> 0 <= K.
Proof. intros (_ & _ & L & Rt & _ & _ & f). eapply Rle_trans; [apply (frob_nonneg n n T)|]. apply f. Qed.

Lemma mark_mono dead m j : dead j = true -> mark dead m j = true.
Proof. intros h. unfold mark. bd; auto. Qed.

Lemma VI_weak st C C' T : C <= C' -> VI st C T -> VI st C' T.
Proof.
  intros h (h1 & h2 & L & Rt & h3 & h4 & h5). split; auto. split; auto. exists L, Rt. split; auto. split; auto. eapply fi_weak; eauto.
Qed.
Lemma VI_move st C T d o T' e : VI st C T -> length d = n -> length o = (n - 1)%nat ->
  frob n n (msub T T') <= e -> frob n n T' <= K -> VI (SS d o (su st) (sv st)) (C + e) T'.
Proof.
  intros (h1 & h2 & L & Rt & h3 & h4 & h5) hd ho he hk. split; auto. split; auto. exists L, Rt. split; auto. split; auto. eapply fi_move; eauto.
Qed.

Lemma siv_drop st dead m : SIv st dead -> (m < n - 1)%nat ->
  Rabs (OO st m) <= eps * (Rabs (DD st (S m)) + Rabs (DD st m)) ->
  SIv (SS (sd st) (vupd (so st) m 0) (su st) (sv st)) (mark dead m).
Proof.
  intros (hv & hd & hn) hm hle. pose proof hv as (l1 & l2 & _).
  assert (o2 : forall j, vent (vupd (so st) m 0) j = if Nat.eqb j m then 0 else OO st j).
  { intros j. apply vent_vupd. lia. }
  split; [|split]; cbn [sd so].
  2: { intros j hj. unfold mark. rewrite o2. bd; auto. }
  2: auto.
  pose proof (VI_K0 _ _ _ hv) as hk0.
  assert (hf : frob n n (bidm (DD st) (vent (vupd (so st) m 0))) <= K).
  { apply Rle_trans with (frob n n (bidm (DD st) (OO st))).
    - apply frob_le_entries. intros p q hp hq. unfold bidm. bd; try lra. rewrite o2. bd; subst; try lra.
      rewrite Rabs_R0. apply Rabs_pos.
    - destruct hv as (_ & _ & L & Rt & _ & _ & f). apply f. }
  destruct (dead m) eqn:edm.
  - rewrite dcount_mark_dead by auto. 
    rewrite <- (Rplus_0_r (dcount n dead * _)). eapply VI_move; [exact hv|auto|rewrite length_vupd; auto| |auto].
    apply (frob_one n _ m (m + 1)); try lia.
    + intros p q hp hq hne. unfold msub, bidm. bd; try lra. rewrite o2. bd; subst; try lra; lia.
    + unfold msub, bidm. bd. rewrite o2. bd. rewrite (hd m) by auto. rewrite Rminus_0_r, Rabs_R0. lra.
  - rewrite dcount_mark by auto. replace ((dcount n dead + 1) * (2 * eps * K)) with (dcount n dead * (2 * eps * K) + 2 * eps * K) by ring.
    eapply VI_move; [exact hv|auto|rewrite length_vupd; auto| |auto].
    apply (frob_one n _ m (m + 1)); try lia.
    + intros p q hp hq hne. unfold msub, bidm. bd; try lra. rewrite o2. bd; subst; try lra; lia.
    + unfold msub, bidm. bd. rewrite o2. bd. rewrite Rminus_0_r.
      pose proof (VI_K _ _ _ m m hv ltac:(lia) ltac:(lia)) as k1.
      pose proof (VI_K _ _ _ (S m) (S m) hv ltac:(lia) ltac:(lia)) as k2.
      unfold bidm in k1, k2. rewrite Nat.eqb_refl in k1, k2. nra.
Qed.

Lemma siv_zero_diag st dead j m : SIv st dead -> (j < n)%nat -> Rabs (DD st j) <= eps -> (m < n - 1)%nat -> OO st m <> 0 ->
  let st' := SS (vupd (sd st) j 0) (so st) (su st) (sv st) in
  VI st' (dcount n (mark dead m) * (2 * eps * K)) (bidm (DD st') (OO st')).
Proof.
  cbv zeta. cbn [sd so]. intros (hv & hd & hn) hj hle hm hne. pose proof hv as (l1 & l2 & _).
  assert (d2 : forall q, vent (vupd (sd st) j 0) q = if Nat.eqb q j then 0 else DD st q).
  { intros q. apply vent_vupd. lia. }
  pose proof (VI_K0 _ _ _ hv) as hk0.
  assert (edm : dead m = false).
  { destruct (dead m) eqn:e; auto. exfalso. apply hne. auto. }
  assert (k1 : 1 <= K).
  { apply hK. pose proof (VI_K _ _ _ m (m + 1) hv ltac:(lia) ltac:(lia)) as h. unfold bidm in h.
    destruct (Nat.eqb_spec m (m + 1)); [lia|]. rewrite Nat.eqb_refl in h. apply Rabs_pos_lt in hne. lra. }
  rewrite dcount_mark by auto. replace ((dcount n dead + 1) * (2 * eps * K)) with (dcount n dead * (2 * eps * K) + 2 * eps * K) by ring.
  apply VI_move with (T := bidm (DD st) (OO st)); auto.
  - rewrite length_vupd. auto.
  - apply (frob_one n _ j j); auto; cbn [sd so].
    + intros p q hp hq hpq. unfold msub, bidm. bd; try lra. rewrite d2. bd; subst; try lra; tauto.
    + unfold msub, bidm. bd. rewrite d2. bd. rewrite Rminus_0_r. nra.
  - apply Rle_trans with (frob n n (bidm (DD st) (OO st))).
    + apply frob_le_entries. intros p q hp hq. unfold bidm. bd; try lra. rewrite d2. bd; subst; try lra.
      rewrite Rabs_R0. apply Rabs_pos.
    + destruct hv as (_ & _ & L & Rt & _ & _ & f). apply f.
Qed.

(** d[m] = 0: clear its row to the right up to e, then its column upwards *)
Definition clr_post (m e : nat) (st0 : svd_state RN) (C : R) (st : svd_state RN) : Prop :=
  VI st C (bidm (DD st) (OO st)) /\ OO st m = 0 /\
  (forall j, OO st0 j = 0 -> OO st j = 0) /\ (forall j, 0 <= DD st j) /\
  ((forall j, (m < j <= e)%nat -> 0 < DD st0 j) ->
     (forall j, (m < j <= e)%nat -> 0 < DD st j) /\ (forall j, (m < j)%nat -> OO st0 j <> 0 -> OO st j <> 0)) /\
  (forall j, (m < j)%nat -> DD st j * OO st j = DD st0 j * OO st0 j).

Lemma clear_real (A : Type) (f : svd_state RN -> res A) (Q : A -> Prop) m e st C : (m < e)%nat -> (e < n)%nat ->
  VI st C (bidm (DD st) (OO st)) -> DD st m = 0 -> OO st e = 0 -> (forall j, 0 <= DD st j) ->
  (forall st', clr_post m e st C st' -> wp (f st') Q) ->
  wp (bind (cancel_horizontal (N:=RN) up m e st) (fun st =>
      bind (if negb (Nat.eqb m 0) then bind (usub m 1) (fun m1 => cancel_vertical up m1 st) else Ret st) f)) Q.
Proof.
  intros h1 h2 h3 h4 h5 h6 hf. step1. eapply post_mono; [apply cancel_horizontal_real; eauto|].
  intros st1 (g1 & g2 & g3 & g4 & g5 & g6 & g7 & g8). step1.
  eapply post_mono; [|exact hf].
  destruct (Nat.eqb_spec m 0); cbn [negb].
  - apply post_ret. split; auto.
  - step1. apply post_usub; [lia|].
    eapply post_mono; [apply cancel_vertical_real; [lia|exact g1| |auto]|].
    + replace (m - 1 + 1)%nat with m by lia. rewrite g2 by lia. auto.
    + intros st2 (k1 & k2 & k3 & k4 & k5 & k6). split; auto. split; [rewrite k4 by lia; auto|].
      split; [intros j hj; apply k5, g5, hj|]. split; auto.
      split; [|intros j hj; rewrite k2, k4 by lia; auto].
      intros hp. destruct (g7 hp) as (p1 & p2). split.
      * intros j hj. rewrite k2 by lia. auto.
      * intros j hj hne. rewrite k4 by lia. auto.
Qed.

Definition delim_end_post (e : nat) (dead : nat -> bool) (k : nat) (st : svd_state RN) : Prop :=
  exists dead', SIv st dead' /\ (forall j, dead j = true -> dead' j = true) /\
    (forall j, (k <= j < n - 1)%nat -> dead' j = true) /\ (k <= e)%nat /\
    ((0 < k)%nat -> 0 < DD st k /\ 0 < DD st (k - 1)%nat /\ OO st (k - 1)%nat <> 0).

Lemma OO_end st dead e : SIv st dead -> (forall j, (e <= j < n - 1)%nat -> dead j = true) -> (e < n)%nat -> OO st e = 0.
Proof.
  intros (hv & hd & _) h he. destruct (le_lt_dec (n - 1) e).
  - apply vent_over. destruct hv as (_ & -> & _). auto.
  - apply hd; auto.
Qed.

Lemma delim_end_real e : forall st dead, SIv st dead -> (e < n)%nat -> (forall j, (e <= j < n - 1)%nat -> dead j = true) ->
  wp (svd_delim_end (N:=RN) up eps e st) (fun x => delim_end_post e dead (fst x) (snd x)).
Proof.
  induction e as [|m IH]; intros st dead hs he hdd; cbn [svd_delim_end].
  - apply post_ret. exists dead. cbn [fst snd]. split; auto. split; auto. split; auto. split; auto. lia.
  - pose proof hs as (hv & hd & hn). pose proof hv as (l1 & l2 & _).
    assert (next : forall st' dead', SIv st' dead' -> (forall j, dead j = true -> dead' j = true) -> dead' m = true ->
       wp (svd_delim_end (N:=RN) up eps m st') (fun x => delim_end_post (S m) dead (fst x) (snd x))).
    { intros st' dead' hs' hm hdm. eapply post_mono; [apply (IH st' dead'); auto; [lia|]|].
      - intros j hj. destruct (Nat.eq_dec j m); [subst; auto|]. apply hm, hdd. lia.
      - intros [k st2] (dd & q1 & q2 & q3 & q4 & q5). exists dd. cbn [fst snd] in *. split; auto. }
    step1. apply post_at1; [lia|]. step1. apply post_at1; [lia|]. step1. apply post_at1; [lia|].
    fold (OO st m) (DD st m) (DD st (S m)).
    change (nis_zero RN) with (fun x => Reqb x 0). change (nle RN) with Rleb. cbv beta.
    change (nabs RN) with Rabs. change (nmul RN) with Rmult. change (nadd RN) with Rplus.
    destruct (Reqb (OO st m) 0 || Rleb (Rabs (OO st m)) (eps * (Rabs (DD st (S m)) + Rabs (DD st m)))) eqn:eb.
    { step1. apply post_atm1; [lia|]. apply (next _ (mark dead m)).
      - apply siv_drop; auto; [lia|]. apply orb_true_iff in eb. destruct eb as [eb|eb].
        + destruct (Reqb_spec (OO st m) 0) as [e0|]; [|discriminate]. rewrite e0, Rabs_R0.
          pose proof (Rabs_pos (DD st (S m))). pose proof (Rabs_pos (DD st m)). nra.
        + destruct (Rleb_spec (Rabs (OO st m)) (eps * (Rabs (DD st (S m)) + Rabs (DD st m)))); [auto|discriminate].
      - intros. apply mark_mono. auto.
      - unfold mark. bd. auto. }
    apply orb_false_iff in eb. destruct eb as (eb1 & eb2).
    destruct (Reqb_spec (OO st m) 0) as [|hne]; [discriminate|].
    destruct (Rleb_spec (Rabs (OO st m)) (eps * (Rabs (DD st (S m)) + Rabs (DD st m)))) as [|hbig]; [discriminate|]. clear eb1 eb2.
    pose proof (OO_end _ _ (S m) hs hdd he) as hoe.
    destruct (Rleb_spec (Rabs (DD st m)) eps) as [hsm|hsm].
    { step1. apply post_atm1; [lia|]. 
      pose proof (siv_zero_diag st dead m m hs ltac:(lia) hsm ltac:(lia) hne) as hz. cbv zeta in hz.
      assert (d2 : forall q, vent (vupd (sd st) m 0) q = if Nat.eqb q m then 0 else DD st q) by (intros q; apply vent_vupd; lia).
      rewrite Nat.add_1_r. eapply clear_real; [lia|lia|exact hz| | | |].
      - cbn [sd]. rewrite d2. bd. auto.
      - exact hoe.
      - cbn [sd]. intros j. rewrite d2. bd; auto. lra.
      - intros st2 (k1 & k2 & k3 & k4 & _). apply (next st2 (mark dead m)).
        + split; auto. split; auto. intros j hj. unfold mark. bd; subst; auto.
        + intros. apply mark_mono. auto.
        + unfold mark. bd. auto. }
    destruct (Rleb_spec (Rabs (DD st (S m))) eps) as [hsm'|hsm'].
    { step1. apply post_atm1; [lia|].
      pose proof (siv_zero_diag st dead (S m) m hs ltac:(lia) hsm' ltac:(lia) hne) as hz. cbv zeta in hz.
      assert (d2 : forall q, vent (vupd (sd st) (S m) 0) q = if Nat.eqb q (S m) then 0 else DD st q) by (intros q; apply vent_vupd; lia).
      step1. eapply post_mono; [apply cancel_vertical_real; [lia|exact hz| |]|].
      - cbn [sd]. rewrite d2. bd. auto.
      - cbn [sd]. intros j. rewrite d2. bd; auto. lra.
      - intros st2 (k1 & k2 & k3 & k4 & k5 & k6). apply (next st2 (mark dead m)).
        + split; auto. split; auto. intros j hj. unfold mark. bd; subst; auto.
        + intros. apply mark_mono. auto.
        + unfold mark. bd. auto. }
    apply post_ret. exists dead. cbn [fst snd]. split; auto. split; auto. split; auto. split; auto.
    intros _. rewrite Nat.sub_succ, Nat.sub_0_r.
    rewrite Rabs_right in hsm by (apply Rle_ge; auto). rewrite Rabs_right in hsm' by (apply Rle_ge; auto).
    split; [lra|]. split; [lra|auto].
Qed.

Definition block (s k : nat) (st : svd_state RN) : Prop :=
  (forall j, (s <= j <= k)%nat -> 0 < DD st j) /\ (forall j, (s <= j < k)%nat -> OO st j <> 0).
Definition act (dead : nat -> bool) (s k : nat) (st : svd_state RN) : Prop :=
  SIv st dead /\ (forall j, (k <= j < n - 1)%nat -> dead j = true) /\ (s < k \/ (s = 0 /\ k = 0))%nat /\ (k < n)%nat /\
  ((s < k)%nat -> block s k st /\ ((0 < s)%nat -> OO st (s - 1)%nat = 0)).

Lemma delim_start_real k s : forall st dead, SIv st dead -> (s < k)%nat -> (k < n)%nat ->
  (forall j, (k <= j < n - 1)%nat -> dead j = true) -> block s k st ->
  wp (svd_delim_start (N:=RN) up eps k s st) (fun x => ((fst x <= s)%nat /\
     (forall j, (fst x <= j)%nat -> DD (snd x) j * OO (snd x) j = DD st j * OO st j)) /\ exists dead', act dead' (fst x) k (snd x) /\
     (forall j, dead j = true -> dead' j = true)).
Proof.
  induction s as [|m IH]; intros st dead hs hsk hk hdd hb; cbn [svd_delim_start].
  - apply post_ret. cbn [fst snd]. split; auto. exists dead. split; auto. split; auto. split; auto. split; [lia|]. split; auto.
    intros _. split; auto. lia.
  - pose proof hs as (hv & hd & hn). pose proof hv as (l1 & l2 & _). destruct hb as (hb1 & hb2).
    step1. apply post_at1; [lia|]. step1. apply post_at1; [lia|]. step1. apply post_at1; [lia|].
    fold (OO st m) (DD st m) (DD st (S m)). change (nle RN) with Rleb.
    change (nabs RN) with Rabs. change (nmul RN) with Rmult. change (nadd RN) with Rplus.
    pose proof (OO_end _ _ k hs hdd hk) as hoe.
    destruct (Rleb_spec (Rabs (OO st m)) (eps * (Rabs (DD st (S m)) + Rabs (DD st m)))) as [hle|hbig].
    { step1. apply post_atm1; [lia|]. apply post_ret. cbn [fst snd].
      assert (o2 : forall j, vent (vupd (so st) m 0) j = if Nat.eqb j m then 0 else OO st j) by (intros j; apply vent_vupd; lia).
      split; [split; auto; intros j hj; cbn [sd so]; change (n0 RN) with 0; rewrite o2; bd; auto; lia|]. exists (mark dead m).
      split; [|intros; apply mark_mono; auto]. split; [apply siv_drop; auto; lia|].
      split; [intros; apply mark_mono; auto|]. split; [lia|]. split; auto. intros _. cbn [sd so]. split.
      - split; auto. cbn [so]. intros j hj. change (n0 RN) with 0. rewrite o2. bd. apply hb2. lia.
      - intros _. change (n0 RN) with 0. rewrite o2. bd. auto. }
    assert (hne : OO st m <> 0).
    { intros h0. rewrite h0, Rabs_R0 in hbig. apply hbig. 
      pose proof (Rabs_pos (DD st (S m))). pose proof (Rabs_pos (DD st m)). nra. }
    destruct (Rleb_spec (Rabs (DD st m)) eps) as [hsm|hsm].
    { step1. apply post_atm1; [lia|]. 
      pose proof (siv_zero_diag st dead m m hs ltac:(lia) hsm ltac:(lia) hne) as hz. cbv zeta in hz.
      assert (d2 : forall q, vent (vupd (sd st) m 0) q = if Nat.eqb q m then 0 else DD st q) by (intros q; apply vent_vupd; lia).
      eapply clear_real; [| |exact hz| | | |]; [lia|lia|..].
      - cbn [sd]. rewrite d2. bd. auto.
      - exact hoe.
      - cbn [sd]. intros j. rewrite d2. bd; auto. lra.
      - intros st2 (k1 & k2 & k3 & k4 & k5 & k7). cbn [sd so] in k5, k7.
        destruct k5 as (k5 & k6). { intros j hj. rewrite d2. bd. apply hb1. lia. }
        apply post_ret. cbn [fst snd]. split; [split; auto; intros j hj; rewrite k7 by lia; rewrite d2; bd; auto; lia|]. exists (mark dead m).
        split; [|intros; apply mark_mono; auto].
        split; [split; auto; split; auto; intros j hj; unfold mark; bd; subst; auto|].
        split; [intros; apply mark_mono; auto|]. split; [lia|]. split; auto. intros _. split.
        + split; [intros; apply k5; lia|]. intros j hj. apply k6; [lia|]. apply hb2. lia.
        + intros _. rewrite Nat.sub_succ, Nat.sub_0_r. auto. }
    rewrite Rabs_right in hsm by (apply Rle_ge; auto).
    eapply post_mono; [apply (IH st dead); auto; [lia|]|].
    + split.
      * intros j hj. destruct (Nat.eq_dec j m); [subst; lra|]. apply hb1. lia.
      * intros j hj. destruct (Nat.eq_dec j m); [subst; auto|]. apply hb2. lia.
    + intros [s' st'] ((q1 & q3) & q2). cbn [fst snd] in *. split; [split; [lia|auto]|auto].
Qed.

Lemma delimit_real e st dead : SIv st dead -> (e < n)%nat -> (forall j, (e <= j < n - 1)%nat -> dead j = true) ->
  wp (svd_delimit (N:=RN) up e eps st) (fun x => exists dead', act dead' (fst (fst x)) (snd (fst x)) (snd x)).
Proof.
  intros hs he hdd. unfold svd_delimit. step1. eapply post_mono; [apply (delim_end_real e st dead); auto|].
  intros [k st1] (dead1 & q1 & q2 & q3 & q4 & q5). cbn [fst snd] in *. destruct (Nat.eqb_spec k 0).
  - apply post_ret. cbn [fst snd]. exists dead1. subst k. split; auto. split; auto. split; [lia|]. split; [lia|]. lia.
  - step1. apply post_usub; [lia|]. step1. destruct q5 as (p1 & p2 & p3); [lia|].
    eapply post_mono; [apply (delim_start_real k (k - 1) st1 dead1); auto; [lia|lia|]|].
    + split; intros j hj.
      * assert (j = k \/ j = k - 1)%nat as [-> | ->] by lia; auto.
      * replace j with (k - 1)%nat by lia. auto.
    + intros [s st2] (g1 & dead2 & g2 & g3). apply post_ret. cbn [fst snd] in *. eauto.
Qed.

(** *** The sweep *)
Section Sweep.
Context (start e : nat) (hse : (start + 1 < e)%nat) (hen : (e < n)%nat).
Context (st0 : svd_state RN) (C : R).
Context (hlo : (0 < start)%nat -> OO st0 (start - 1)%nat = 0) (hhi : OO st0 e = 0).

(** a property of the accumulated right factor, and the first Givens input *)
Context (Prt : nat -> M -> Prop) (x0 y0 : R).
Hypothesis (hprt : forall k Rt c1 s1, (start <= k < e)%nat -> Prt k Rt -> c1 * c1 + s1 * s1 = 1 ->
  (k = start -> s1 * x0 + c1 * y0 = 0) -> Prt (S k) (mmul n Rt (mtr (gm k (k + 1) c1 s1)))).
Definition VIP (k : nat) (st : svd_state RN) (C : R) (T : M) : Prop :=
  length (sd st) = n /\ length (so st) = (n - 1)%nat /\
  exists L Rt, uvec (su st) (if up then L else Rt) /\ vvec (sv st) (if up then Rt else L) /\ FI n B0 C K T L Rt /\ Prt k Rt.
Lemma VIP_VI k st D T : VIP k st D T -> VI st D T.
Proof. intros (h1 & h2 & L & Rt & h3 & h4 & h5 & _). split; auto. split; auto. exists L, Rt. auto. Qed.
Lemma VIP_ext k st D T T' : T =[n, n]= T' -> VIP k st D T -> VIP k st D T'.
Proof.
  intros h (h1 & h2 & L & Rt & h3 & h4 & h5 & h6). split; auto. split; auto. exists L, Rt. split; auto. split; auto. split; auto.
  eapply fi_ext; eauto.
Qed.

Definition sw_frame (st : svd_state RN) : Prop :=
  (forall j, (start <= j <= e)%nat -> 0 < DD st j) /\
  (forall j, (j < start \/ e < j)%nat -> DD st j = DD st0 j) /\
  (forall j, (j < start \/ e <= j)%nat -> OO st j = OO st0 j).
Definition ssw_inv (k : nat) (s : R * R * svd_state RN) : Prop :=
  VIP k (snd s) C (sbid (DD (snd s)) (OO (snd s)) (if Nat.ltb start k && Nat.ltb k e then snd (fst s) else 0) k) /\
  ((start < k < e)%nat -> fst (fst s) = OO (snd s) (k - 1)%nat) /\
  sw_frame (snd s) /\ (k = start -> fst s = (x0, y0)).
Definition ssw_end (st : svd_state RN) : Prop :=
  (exists k, (start <= k <= e)%nat /\ (k = start -> y0 = 0) /\ VIP k st C (bidm (DD st) (OO st))) /\ sw_frame st.

Lemma ssweep_step_real k s : (start <= k)%nat -> (k < e)%nat -> ssw_inv k s ->
  wp (svd_sweep_step (N:=RN) up start e k s)
     (fun x => if fst x then ssw_inv (S k) (snd x) else ssw_end (snd (snd x))).
Proof.
  destruct s as [[x y] st]. intros hs hk (hv & hx & hf & hst). cbn [fst snd] in *.
  pose proof hv as (l1 & l2 & L & Rt & u1 & w1 & f1 & hP). pose proof hf as (fr1 & fr2 & fr3).
  unfold svd_sweep_step. step1. apply post_usub; [lia|]. step1.
  eapply post_mono with (Q := fun m12 : T RN => m12 = OO st (k + 1)%nat).
  { destruct (Nat.eqb_spec k (e - 1)).
    - apply post_ret. rewrite (fr3 (k + 1)%nat) by lia. replace (k + 1)%nat with e by lia. rewrite hhi. reflexivity.
    - apply post_at1; [lia|]. reflexivity. }
  intros m12 ->. step1. apply post_at1; [lia|]. step1. apply post_at1; [lia|]. step1. apply post_at1; [lia|].
  fold (DD st k) (OO st k) (DD st (k + 1)).
  pose proof (cancel_y_real x y) as hc. destruct (@cancel_y RN x y) as [[rot1 norm1]|].
  2: { apply post_ret. cbn [fst snd]. split; auto. exists k. split; [lia|]. split; [intros e1; specialize (hst e1); congruence|].
       eapply VIP_ext; [|exact hv]. subst y.
       rewrite <- (sbid_0 _ _ k n). destruct (_ && _); reflexivity. }
  destruct hc as (hy & hn1 & _ & hcs1 & hc1 & hc2).
  set (c1 := rc rot1) in *. set (s1 := rs rot1) in *.
  set (sm0 := Mat 2 3 _).
  step1. apply post_slice; try (simpl; lia). step1. apply post_unwrap.
  eapply post_mono; [apply rotate_rows_ok; dims; auto|]. intros s01 (g1 & g2 & g3). dims.
  step1. eapply post_mono with (Q := fun o' => length o' = (n - 1)%nat /\
    forall j, vent o' j = if Nat.ltb start k && Nat.eqb j (k - 1) then norm1 else OO st j).
  { destruct (Nat.ltb_spec start k); cbn [andb]; [|apply post_ret; auto]. step1. apply post_usub; [lia|].
    apply post_atm1; [lia|]. dims. split; auto. intros j. apply vent_vupd. lia. }
  intros o1 (ho1 & eo1). set (sm := put sm0 0 0 s01).
  assert (d1 : nr sm = 2%nat) by reflexivity. assert (d2 : nc sm = 3%nat) by reflexivity.
  set (m00 := c1 * DD st k - s1 * OO st k). set (m01 := s1 * DD st k + c1 * OO st k).
  set (m10 := - s1 * DD st (k + 1)%nat). set (m11 := c1 * DD st (k + 1)%nat).
  assert (e00 : get sm 0 0 = m00 /\ get sm 0 1 = m01 /\ get sm 0 2 = 0 /\ get sm 1 0 = m10 /\ get sm 1 1 = m11 /\ get sm 1 2 = OO st (k + 1)%nat).
  { destruct (g3 0%nat ltac:(lia)) as (a1 & a2). destruct (g3 1%nat ltac:(lia)) as (b1 & b2).
    rewrite !get_mk in a1, a2, b1, b2 by lia. cbn [Nat.add] in a1, a2, b1, b2.
    change (get sm0 0 0) with (DD st k) in *. change (get sm0 0 1) with (OO st k) in *.
    change (get sm0 1 0) with 0 in *. change (get sm0 1 1) with (DD st (k + 1)) in *.
    unfold inverse in a1, a2, b1, b2. cbn [rc rs] in a1, a2, b1, b2. fold c1 s1 in a1, a2, b1, b2. rn.
    unfold sm. rewrite !get_put by (simpl; lia). rewrite g1, g2. cbn [Nat.leb Nat.ltb Nat.add andb Nat.sub].
    rewrite a1, a2, b1, b2. unfold m00, m01, m10, m11.
    repeat split; solve [ring | reflexivity]. }
  destruct e00 as (e00 & e01 & e02 & e10 & e11 & e12). clearbody sm. clear g1 g2 g3 sm0 s01.
  step1. apply post_at2; [lia|lia|]. step1. apply post_at2; [lia|lia|]. rewrite e00, e10.
  pose proof (fr1 k ltac:(lia)) as pk. pose proof (fr1 (k + 1)%nat ltac:(lia)) as pk1.
  assert (hs1 : s1 <> 0).
  { intros z. rewrite z in *. assert (c1 * c1 = 1) by lra. assert (c1 * y = 0) by lra.
    apply Rmult_integral in H0. destruct H0 as [h0|h0]; [rewrite h0 in *; lra|auto]. }
  assert (hm10 : m10 <> 0).
  { unfold m10. apply Rmult_integral_contrapositive_currified; lra. }
  pose proof (cancel_y_real m00 m10) as hcc. destruct (@cancel_y RN m00 m10) as [[rot2 norm2]|]; [|contradiction].
  destruct hcc as (_ & hn2 & _ & hcs2 & hd1 & hd2).
  set (c2 := rc rot2) in *. set (s2 := rs rot2) in *.
  step1. step1. apply post_slice; try lia. step1. apply post_unwrap.
  eapply post_mono; [apply rotate_cols_ok; dims; auto|]. intros s12 (k1 & k2 & k3). apply post_ret. dims.
  step1. apply post_atm2; [dims; lia|dims; lia|]. set (sm2 := upd (put sm 0 1 s12) 0 0 norm2).
  assert (d3 : nr sm2 = 2%nat) by (unfold sm2; dims; auto). assert (d4 : nc sm2 = 3%nat) by (unfold sm2; dims; auto).
  assert (t00 : get sm2 0 0 = norm2 /\ get sm2 0 1 = c2 * m01 - s2 * m11 /\ get sm2 0 2 = - s2 * OO st (k + 1)%nat /\
     get sm2 1 1 = s2 * m01 + c2 * m11 /\ get sm2 1 2 = c2 * OO st (k + 1)%nat).
  { destruct (k3 0%nat ltac:(lia)) as (a1 & a2). destruct (k3 1%nat ltac:(lia)) as (b1 & b2).
    rewrite !get_mk in a1, a2, b1, b2 by lia. cbn [Nat.add] in a1, a2, b1, b2.
    rewrite e01, e11 in a1, a2. rewrite e02, e12 in b1, b2. fold c2 s2 in a1, a2, b1, b2. rn.
    unfold sm2. rewrite !get_upd by (dims; lia). rewrite !get_put by lia. rewrite k1, k2.
    cbn [Nat.leb Nat.ltb Nat.add andb Nat.sub Nat.eqb].
    split; [auto|]. split; [rewrite a1; ring|]. split; [rewrite b1; ring|]. split; [rewrite a2; ring|rewrite b2; ring]. }
  destruct t00 as (t00 & t01 & t02 & t11 & t12). clearbody sm2.
  set (G1 := gm k (k + 1) c1 s1). set (G2 := gm k (k + 1) c2 s2).
  assert (hG1 : orthogonal n G1) by (apply gm_orthogonal; auto; lia).
  assert (hG2 : orthogonal n G2) by (apply gm_orthogonal; auto; lia).
  set (L' := mmul n L (mtr G2)). set (Rt' := mmul n Rt (mtr G1)).
  step1. eapply post_mono with (Q := fun v' => vvec v' (if up then Rt' else L')).
  { destruct up; apply vvec_rot; auto; lia. }
  intros v2 hv2. step1.
  eapply post_mono with (Q := fun v' => uvec v' (if up then L' else Rt')).
  { destruct up; cbn [negb].
    - change (rc rot2) with (rc (inverse rot2)) in c2. apply uvec_rot; auto; try lia. apply inv_rs.
    - change (rc rot1) with (rc (inverse rot1)) in c1. apply uvec_rot; auto; try lia. apply inv_rs. }
  intros u2 hu2.
  do 5 (step1; apply post_at2; [lia|lia|]). rewrite t00, t11, t01, t12, t02.
  step1. apply post_atm1; [lia|]. step1. apply post_atm1; [dims; lia|]. step1. apply post_atm1; [lia|]. step1.
  set (dd := vupd (vupd (sd st) k norm2) (k + 1) _).
  set (ov := c2 * m01 - s2 * m11) in *.
  assert (ld : length dd = n) by (unfold dd; dims; auto).
  assert (ed : forall j, vent dd j = if Nat.eqb j (k + 1) then s2 * m01 + c2 * m11 else if Nat.eqb j k then norm2 else DD st j).
  { intros j. unfold dd. rewrite !vent_vupd by (dims; lia). reflexivity. }
  eapply post_mono with (Q := fun o' => length o' = (n - 1)%nat /\
    forall j, vent o' j = if Nat.eqb j (k + 1) && Nat.ltb (k + 1) e then c2 * OO st (k + 1)%nat else if Nat.eqb j k then ov
       else if Nat.ltb start k && Nat.eqb j (k - 1) then norm1 else OO st j).
  { destruct (Nat.eqb_spec k (e - 1)); cbn [negb].
    - apply post_ret. dims. split; auto. intros j. rewrite vent_vupd by lia. rewrite eo1. bd; auto; lia.
    - apply post_atm1; [dims; lia|]. dims. split; auto. intros j. rewrite !vent_vupd by (dims; lia). rewrite eo1. bd; auto; lia. }
  intros oo (lo & eo). apply post_ret. cbn [fst snd].
  assert (hdet : norm2 * (s2 * m01 + c2 * m11) = DD st k * DD st (k + 1)%nat).
  { transitivity ((c2 * c2 + s2 * s2) * (m00 * m11 - m01 * m10)).
    - rewrite <- hd1. transitivity ((c2 * m00 - s2 * m10) * (s2 * m01 + c2 * m11) - (s2 * m00 + c2 * m10) * (c2 * m01 - s2 * m11)); [|ring].
      rewrite hd2. ring.
    - rewrite hcs2. unfold m00, m01, m10, m11.
      transitivity ((c1 * c1 + s1 * s1) * (DD st k * DD st (k + 1)%nat)); [ring|]. rewrite hcs1. ring. }
  assert (hpos : 0 < s2 * m01 + c2 * m11).
  { assert (0 < DD st k * DD st (k + 1)%nat) by (apply Rmult_lt_0_compat; auto).
    apply (Rmult_lt_reg_l norm2); auto. rewrite Rmult_0_r, hdet. auto. }
  unfold ssw_inv. cbn [fst snd]. split; [|split; [|split; [|lia]]].
  - split; [auto|]. split; [auto|]. exists L', Rt'. cbn [su sv]. split; auto. split; auto.
    split; [|apply hprt; auto; intros e1; specialize (hst e1); injection hst as <- <-; lra].
    eapply (fi_both n B0 C K _ _ L Rt G2 G1); eauto. replace (S k) with (k + 1)%nat by lia. cbn [sd so].
    apply svd_chase; try lia.
    + intros h hh. rewrite eo. destruct (Nat.eqb_spec h (k + 1)); [lia|]. cbn [andb]. destruct (Nat.eqb_spec h k); [lia|].
      destruct (Nat.ltb_spec start k) as [lt|ge]; cbn [andb].
      * destruct (Nat.eqb_spec h (k - 1)); [|lia]. destruct (Nat.ltb_spec k e); [|lia].
        rewrite hx in hc1, hc2 by auto. replace (k - 1)%nat with h in hc1, hc2 by lia. split; lra.
      * assert (OO st h = 0) as ->. { rewrite fr3 by lia. replace h with (start - 1)%nat by lia. apply hlo. lia. }
        split; ring.
    + rewrite ed. bd. fold m00 m10. lra.
    + fold m00 m10. lra.
    + rewrite eo. bd. reflexivity.
    + rewrite ed. bd. reflexivity.
    + intros hkn. rewrite eo. destruct (Nat.ltb_spec (k + 1) e).
      * destruct (Nat.ltb_spec start (k + 1)); [|lia]. cbn [andb]. bd. auto.
      * bd. rewrite (fr3 (k + 1)%nat) by lia. replace (k + 1)%nat with e by lia. rewrite hhi. split; ring.
    + intros j hj h1 h2. rewrite ed. bd; auto.
    + intros j hj h1 h2 h3. rewrite eo. bd; auto.
  - intros hlt. cbn [so]. replace (S k - 1)%nat with k by lia. rewrite eo. bd. auto.
  - split; [|split]; cbn [sd so].
    + intros j hj. rewrite ed. bd; auto.
    + intros j hj. rewrite ed. bd; apply fr2; lia.
    + intros j hj. rewrite eo. bd; apply fr3; lia.
Qed.
End Sweep.

Lemma big_sweep start e st C (Prt : nat -> M -> Prop) : (start + 1 < e)%nat -> (e < n)%nat ->
  VIP Prt start st C (bidm (DD st) (OO st)) -> (forall j, (start <= j <= e)%nat -> 0 < DD st j) ->
  ((0 < start)%nat -> OO st (start - 1)%nat = 0) -> OO st e = 0 ->
  let x0 := DD st start * DD st start - wilkinson_shift (N:=RN)
    (DD st (e - 1) * DD st (e - 1) + OO st (e - 2) * OO st (e - 2)) (DD st e * DD st e + OO st (e - 1) * OO st (e - 1)) (DD st (e - 1) * OO st (e - 1)) in
  let y0 := DD st start * OO st start in
  (forall k Rt c1 s1, (start <= k < e)%nat -> Prt k Rt -> c1 * c1 + s1 * s1 = 1 ->
    (k = start -> s1 * x0 + c1 * y0 = 0) -> Prt (S k) (mmul n Rt (mtr (gm k (k + 1) c1 s1)))) ->
  wp (svd_big (N:=RN) up start e st) (ssw_end start e st C Prt y0).
Proof.
  intros h1 hen hv hb1 hlo hoe x0 y0 hprt. pose proof hv as (l1 & l2 & _).
  unfold svd_big. step1. apply post_usub; [lia|]. do 3 (step1; apply post_at1; [lia|]).
  step1. apply post_usub; [lia|]. do 3 (step1; apply post_at1; [lia|]). step1.
  replace (e - 1 - 1)%nat with (e - 2)%nat by lia.
  match goal with |- context [for_brk _ _ _ (?a, ?b, st)] => change a with x0; change b with y0 end.
  eapply post_mono with (Q := fun s => ssw_end start e st C Prt y0 (snd s)).
  { eapply post_for_brk with (I := ssw_inv start e st C Prt x0 y0).
    - unfold ssw_inv. cbn [fst snd]. destruct (Nat.ltb_spec start start); [lia|]. cbn [andb].
      split; [|split; [lia|split; [|auto]]].
      + eapply VIP_ext; [|exact hv]. symmetry. apply sbid_0.
      + split; [|split]; auto.
    - intros k s hk hi. eapply post_mono; [eapply (ssweep_step_real start e h1 hen st C); eauto; lia|]. 
      intros [go s']. cbn [fst snd]. destruct go; auto.
    - intros s (hi & _ & hf & _). replace (start + (e - start))%nat with e in hi by lia. 
      destruct (Nat.ltb_spec e e); [lia|]. rewrite andb_false_r in hi. split; auto. exists e. split; [lia|]. split; [lia|].
      eapply VIP_ext; [|exact hi]. apply sbid_0. }
  intros [xy st']. cbn [snd]. intros h. apply post_ret. exact h.
Qed.

Lemma big_real start e st dead : (start + 1 < e)%nat -> act dead start e st ->
  wp (svd_big (N:=RN) up start e st) (fun st' => SIv st' dead).
Proof.
  intros h1 (hs & hdd & _ & hen & ha). destruct ha as ((hb1 & hb2) & hlo); [lia|].
  pose proof hs as (hv & hd & hn).
  pose proof (OO_end _ _ e hs hdd hen) as hoe.
  set (C := dcount n dead * (2 * eps * K)) in *.
  eapply post_mono; [apply (big_sweep start e st C (fun _ _ => True)); auto|].
  { destruct hv as (l1 & l2 & L & Rt & u1 & w1 & f1). split; auto. split; auto. exists L, Rt. auto. }
  intros st' ((k & _ & _ & hv') & f1 & f2 & f3). apply VIP_VI in hv'. split; auto. split.
  - intros j hj hde. destruct (le_lt_dec start j); [destruct (le_lt_dec e j)|].
    + rewrite f3 by lia. auto.
    + exfalso. apply (hb2 j); [lia|]. auto.
    + rewrite f3 by lia. auto.
  - intros j. destruct (le_lt_dec start j); [destruct (le_lt_dec j e)|].
    + apply Rlt_le. apply f1. lia.
    + rewrite f2 by lia. auto.
    + rewrite f2 by lia. auto.
Qed.

Lemma two_real start st dead : act dead start (S start) st ->
  wp (svd_two (N:=RN) up true true start st) (fun st' => SIv st' (mark dead start)).
Proof.
  intros (hs & hdd & _ & hen & ha). destruct ha as ((hb1 & hb2) & hlo); [lia|].
  pose proof hs as (hv & hd & hn). pose proof hv as (l1 & l2 & L & Rt & u1 & w1 & f1).
  pose proof (OO_end _ _ (S start) hs hdd hen) as hoe.
  unfold svd_two. do 3 (step1; apply post_at1; [lia|]).
  fold (DD st start) (OO st start) (DD st (start + 1)).
  destruct (uptrig_real (DD st start) (OO st start) (DD st (start + 1))) as
    (v1 & v2 & gu & gv & p1 & p2 & hc & c1 & c2 & q1 & q2 & q3 & q4); [apply hb1; lia|apply hb2; lia|apply hb1; lia|].
  rewrite hc. clear hc. replace (true && up || true && negb up) with true by (destruct up; reflexivity).
  step1. apply post_atm1; [lia|]. step1. apply post_atm1; [dims; lia|]. step1. apply post_atm1; [lia|].
  set (dd := vupd (vupd (sd st) start v1) (start + 1) v2). set (oo := vupd (so st) start (n0 RN)).
  assert (ld : length dd = n) by (unfold dd; dims; auto). assert (lo : length oo = (n - 1)%nat) by (unfold oo; dims; auto).
  assert (ed : forall j, vent dd j = if Nat.eqb j (start + 1) then v2 else if Nat.eqb j start then v1 else DD st j).
  { intros j. unfold dd. rewrite !vent_vupd by (dims; lia). reflexivity. }
  assert (eo : forall j, vent oo j = if Nat.eqb j start then 0 else OO st j).
  { intros j. unfold oo. rewrite !vent_vupd by (dims; lia). reflexivity. }
  clearbody dd oo.
  set (G2 := gm start (start + 1) (rc gu) (- rs gu)). set (G1 := gm start (start + 1) (rc gv) (- rs gv)).
  assert (hG1 : orthogonal n G1) by (apply gm_orthogonal; try lia; lra).
  assert (hG2 : orthogonal n G2) by (apply gm_orthogonal; try lia; lra).
  set (L' := mmul n L (mtr G2)). set (Rt' := mmul n Rt (mtr G1)).
  destruct (if up then (Some gu, Some gv) else (Some gv, Some gu)) as [ru rv] eqn:er.
  step1. eapply post_mono with (Q := fun u' => uvec u' (if up then L' else Rt')).
  { destruct up; injection er as <- <-; pose proof u1 as (U & eU & _); rewrite eU; cbn [unwrap_opt bind]; rewrite <- eU;
      apply uvec_rot; auto; lia. }
  intros u2 hu2. step1. eapply post_mono with (Q := fun v' => vvec v' (if up then Rt' else L')).
  { destruct up; injection er as <- <-; pose proof w1 as (U & eU & _); rewrite eU; cbn [unwrap_opt bind]; rewrite <- eU.
    - change (rc gv) with (rc (inverse gv)) in G1. apply vvec_rot; auto; lia.
    - change (rc gu) with (rc (inverse gu)) in G2. apply vvec_rot; auto; lia. }
  intros v3 hv3. apply post_ret. split; [|split]; cbn [sd so].
  - assert (dd0 : dead start = false).
    { destruct (dead start) eqn:e0; auto. exfalso. apply (hb2 start); [lia|]. apply hd; [lia|auto]. }
    rewrite dcount_mark by (auto; lia).
    apply VI_weak with (C := dcount n dead * (2 * eps * K)).
    { assert (0 <= 2 * eps * K) by (apply Rmult_le_pos; [lra|apply (VI_K0 _ _ _ hv)]). lra. }
    split; [auto|]. split; [auto|]. exists L', Rt'. cbn [su sv]. split; auto. split; auto.
    eapply (fi_both n B0 _ K _ _ L Rt G2 G1); eauto. apply two_chase; try lia; auto.
    + intros h hh. replace h with (start - 1)%nat by lia. apply hlo. lia.
    + intros _. rewrite Nat.add_1_r. auto.
    + rewrite ed. bd. auto.
    + rewrite ed. bd. auto.
    + rewrite ed. bd. auto.
    + rewrite ed. bd. auto.
    + rewrite eo. bd. auto.
    + intros j hj h1 h2. rewrite ed. bd. auto.
    + intros j hj h1. rewrite eo. bd. auto.
  - intros j hj. unfold mark. rewrite eo. bd; auto.
  - intros j. rewrite ed. bd; auto; lra.
Qed.

Lemma loop_real fuel : forall start e st dead, act dead start e st ->
  post (svd_loop (N:=RN) fuel up true true eps start e st)
    (fun st' => exists dead', SIv st' dead' /\ forall j, (j < n - 1)%nat -> dead' j = true) noE True.
Proof.
  induction fuel as [|fuel IH]; intros start e st dead ha; cbn [svd_loop];
  (destruct (Nat.eqb_spec e start) as [ee|ne];
   [apply post_ret; destruct ha as (h1 & h2 & h3 & _); exists dead; split; auto; intros; apply h2; lia|]).
  - simpl. auto.
  - pose proof ha as (h1 & h2 & h3 & h4 & h5). assert (hlt : (start < e)%nat) by lia.
    step1. apply post_usub; [lia|]. step1.
    eapply post_mono with (Q := fun x => (snd x < n)%nat /\ exists dead', SIv (fst x) dead' /\ forall j, (snd x <= j < n - 1)%nat -> dead' j = true).
    { destruct (Nat.ltb_spec 2 (S (e - start))).
      - step1. eapply wp_conseq; [apply big_real; eauto; lia|]. intros st1 hs1. apply post_ret. cbn [fst snd]. split; auto. exists dead. split; auto.
      - destruct (Nat.eqb_spec (S (e - start)) 2); [|lia]. assert (e = S start) by lia. subst e.
        step1. eapply wp_conseq; [apply two_real; eauto|]. intros st1 hs1. step1. apply post_usub; [lia|].
        apply post_ret. cbn [fst snd]. split; [lia|]. exists (mark dead start). split; auto.
        intros j hj. unfold mark. bd; auto. apply h2. lia. }
    intros [st1 e1] (g1 & dead1 & g2 & g3). cbn [fst snd] in *. step1. eapply wp_conseq; [apply (delimit_real e1 st1 dead1); auto|].
    intros [[s2 e2] st2] (dead2 & hh). cbn [fst snd] in hh. eapply IH; eauto.
Qed.

End Vecs.

Lemma fix_signs_real dim (d : list RN) u : (dim <= length d)%nat -> (forall j, (j < dim)%nat -> 0 <= vent d j) ->
  wp (svd_fix_signs (N:=RN) dim d u) (fun x => x = (d, u)).
Proof.
  intros hl hp. unfold svd_fix_signs. eapply post_for' with (I := fun _ s => s = (d, u)); auto.
  intros i s hi ->. step1. apply post_idx1; [lia|]. change (nis_neg RN) with (fun x => Rltb x 0). cbv beta.
  specialize (hp i ltac:(lia)). unfold vent in hp. destruct (Rltb_spec (vget d i) 0); [lra|]. apply post_ret. auto.
Qed.

(** ** The whole routine *)
Lemma frob2_ocols r d c U X : orthonormal_cols r d U -> frob2 r c (mmul d U X) = frob2 d c X.
Proof.
  unfold orthonormal_cols. intros h. rewrite !frob2_trace. apply Rsum_ext. intros j hj.
  assert (e : mmul r (mtr (mmul d U X)) (mmul d U X) =[c, c]= mmul d (mtr X) X).
  { rewrite (mtr_mmul r d c U X), (mmul_assoc c d r c), <- (mmul_assoc d r d c (mtr U)), h, mmul_1_l. reflexivity. }
  apply e; auto.
Qed.
Lemma frob_ocols r d c U X : orthonormal_cols r d U -> frob r c (mmul d U X) = frob d c X.
Proof. intros h. unfold frob. rewrite (frob2_ocols r d c U X) by auto. reflexivity. Qed.
Lemma frob_tr r c A : frob r c (mtr A) = frob c r A.
Proof. unfold frob. rewrite frob2_tr. reflexivity. Qed.
Lemma frob_ocols_r r d c V X : orthonormal_cols c d V -> frob r c (mmul d X (mtr V)) = frob r d X.
Proof.
  intros h. rewrite <- (frob_tr c r (mmul d X (mtr V))). 
  transitivity (frob c r (mmul d V (mtr X))).
  - apply frob_ext. rewrite (mtr_mmul r d c X (mtr V)), (mtr_mtr c d V). reflexivity.
  - rewrite (frob_ocols c d r V) by auto. apply frob_tr.
Qed.
Lemma ocols_mul r d U0 X U : orthonormal_cols r d U0 -> orthogonal d X -> U =[r, d]= mmul d U0 X -> orthonormal_cols r d U.
Proof.
  unfold orthonormal_cols. intros h [h1 h2] e. rewrite e, (mtr_mmul r d d U0 X), (mmul_assoc d d r d), <- (mmul_assoc d r d d (mtr U0)), h, mmul_1_l.
  exact h1.
Qed.
Lemma product_err r c n U0 V0 Bm A1 A2 D U Vt : orthonormal_cols r n U0 -> orthonormal_cols c n V0 ->
  U =[r, n]= mmul n U0 A1 -> mtr Vt =[c, n]= mmul n V0 A2 ->
  frob r c (msub (mmul n U0 (mmul n Bm (mtr V0))) (mmul n U (mmul n D Vt))) = frob n n (msub Bm (mmul n A1 (mmul n D (mtr A2)))).
Proof.
  intros hU hV e1 e2.
  assert (e2' : Vt =[n, c]= mmul n (mtr A2) (mtr V0)).
  { rewrite <- (mtr_mtr n c Vt), e2, (mtr_mmul c n n V0 A2). reflexivity. }
  rewrite <- (frob_ocols_r n n c V0) by auto. rewrite <- (frob_ocols r n c U0) by auto. apply frob_ext.
  rewrite (mmul_sub_l n n c Bm), (mmul_sub_r r n c U0).
  assert (e3 : mmul n U (mmul n D Vt) =[r, c]= mmul n U0 (mmul n (mmul n A1 (mmul n D (mtr A2))) (mtr V0))).
  { rewrite e1, e2', (mmul_assoc r n n c U0), (mmul_assoc n n n c A1), (mmul_assoc n n n c D). reflexivity. }
  rewrite e3. reflexivity.
Qed.

Definition svd_spec (r c : nat) (A : M) (U : M) (s : nat -> R) (Vt : M) (bound : R) : Prop :=
  let d := Nat.min r c in
  orthonormal_cols r d U /\ orthonormal_cols c d (mtr Vt) /\ (forall j, (j < d)%nat -> 0 <= s j) /\
  frob r c (msub A (mmul d U (mmul d (mdiag s) Vt))) <= bound.

Lemma svd_start_real (a : mat RN) (eps : R) : (1 <= nr a)%nat -> (1 <= nc a)%nat ->
  let m := scale_down a (abs_max a) in let r := nr a in let c := nc a in let n := Nat.min r c in
  exists b u0 vt0 U0 V0 B0, bidiagonal m = Ret b /\ generate_u b = Ret u0 /\ generate_vt b = Ret vt0 /\
    let up := upper_diag b in let K := frob n n B0 in
    let st := SS (fst (bi_into_diagonals b)) (snd (bi_into_diagonals b)) (Some u0) (Some vt0) in
    orthonormal_cols r n U0 /\ orthonormal_cols c n V0 /\
    ent m =[r, c]= mmul n U0 (mmul n (if up then B0 else mtr B0) (mtr V0)) /\
    frob r c (ent m) = K /\ (K <> 0 -> 1 <= K) /\
    SIv r c n U0 V0 up B0 K eps st (fun _ => false).
Proof.
  intros hr hc m.
  destruct (scale_down_real a) as (ha & hsc & hle & hun); try lia. fold m in hsc, hle, hun.
  assert (d1 : nr m = nr a) by apply nr_scale_down. assert (d2 : nc m = nc a) by apply nc_scale_down.
  destruct (bidiagonal_spec m ltac:(lia) ltac:(lia)) as
    (b & u0 & bm & vt0 & eb & eu & ebm & evt & r1 & r2 & r3 & r4 & r5 & r6 & hU & hV & hA & hup & hz & hnn).
  rewrite d1, d2 in *. set (r := nr a) in *. set (c := nc a) in *. set (n := Nat.min r c) in *. cbv zeta.
  destruct (bidiag_diagonals m b eb) as (bm' & ebm' & _ & _ & hdg). rewrite ebm in ebm'. injection ebm' as <-.
  destruct (bi_into_diagonals b) as [dg off] eqn:ebd. rewrite d1, d2 in hdg. fold r c n in hdg. destruct hdg as (l1 & l2 & l3 & l4).
  set (up := upper_diag b) in *. set (U0 := ent u0) in *. set (V0 := mtr (ent vt0)) in *.
  set (B0 := bidm (vent dg) (vent off)).
  assert (hB : ent bm =[n, n]= if up then B0 else mtr B0).
  { intros i j hi hj. rewrite <- hup in hz. destruct up; unfold B0, mtr, bidm.
    - destruct (Nat.eqb_spec i j); [subst; unfold vent; rewrite l3 by auto; reflexivity|].
      destruct (Nat.eqb_spec j (i + 1)); [subst; unfold vent; rewrite l4 by auto; reflexivity|]. apply hz; auto.
    - destruct (Nat.eqb_spec j i); [subst; unfold vent; rewrite l3 by auto; reflexivity|].
      destruct (Nat.eqb_spec i (j + 1)); [subst; unfold vent; rewrite l4 by auto; reflexivity|]. apply hz; auto. }
  assert (hA' : ent m =[r, c]= mmul n U0 (mmul n (if up then B0 else mtr B0) (mtr V0))).
  { rewrite <- hA. rewrite hB. unfold V0. rewrite (mtr_mtr n c (ent vt0)). reflexivity. }
  set (K := frob n n B0).
  assert (eK : frob r c (ent m) = K).
  { transitivity (frob r c (mmul n U0 (mmul n (if up then B0 else mtr B0) (mtr V0)))); [apply frob_ext; auto|].
    rewrite frob_ocols by auto. rewrite frob_ocols_r by auto. destruct up; [reflexivity|apply frob_tr]. }
  exists b, u0, vt0, U0, V0, B0. rewrite ebd. fold K up. cbn [fst snd].
  assert (hK : K <> 0 -> 1 <= K) by (rewrite <- eK; auto).
  do 7 (split; [auto|]). split; [exact hK|].
  split; [|split]; cbn [sd so].
  - unfold dcount. rewrite Rsum_0 by auto. rewrite Rmult_0_l.
    split; [auto|]. split; [auto|]. exists mid, mid. cbn [su sv]. 
    assert (hid : orthogonal n mid) by (split; rewrite mtr_mid, mmul_1_l; reflexivity).
    split; [|split].
    + exists u0. split; auto. split; auto. split; auto. destruct up; rewrite mmul_1_r; reflexivity.
    + exists vt0. split; auto. split; auto. split; auto. destruct up; rewrite mmul_1_r; reflexivity.
    + constructor; auto; [|apply Rle_refl]. right. apply frob_zero. intros i j hi hj. unfold msub.
      assert (e : mmul n mid (mmul n (bidm (vent dg) (vent off)) (mtr mid)) =[n, n]= B0) by (rewrite mmul_1_l, mtr_mid, mmul_1_r; reflexivity).
      rewrite e by auto. ring.
  - discriminate.
  - intros j. destruct (le_lt_dec n j); [rewrite vent_over by lia; lra|]. unfold vent. rewrite l3 by auto. apply hnn; auto.
Qed.

Lemma svd_real fuel (a : mat RN) (eps : R) : 0 <= eps -> (1 <= nr a)%nat -> (1 <= nc a)%nat ->
  post (svd_eps fuel a true true eps) (fun x => exists U s Vt, x = (Some U, s, Some Vt) /\
    svd_spec (nr a) (nc a) (ent a) (ent U) (vent s) (ent Vt)
      (INR (Nat.min (nr a) (nc a) - 1) * (2 * eps * frob (nr a) (nc a) (ent a)))) noE True.
Proof.
  intros he hr hc. unfold svd_eps.
  destruct (Nat.eqb_spec (nr a) 0) as [|nz1]; [lia|]. destruct (Nat.eqb_spec (nc a) 0) as [|nz2]; [lia|]. cbn [orb].
  destruct (scale_down_real a) as (ha & hsc & _); try lia.
  destruct (svd_start_real a eps hr hc) as (b & u0 & vt0 & U0 & V0 & B0 & eb & eu & evt & hU & hV & hA' & eK & hK & hs).
  set (am := abs_max a) in *. set (m := scale_down a am) in *.
  set (r := nr a) in *. set (c := nc a) in *. set (n := Nat.min r c) in *.
  rewrite eb. cbn [bind]. rewrite eu, evt. cbn [bind].
  destruct (bi_into_diagonals b) as [dg off]. cbn [fst snd] in hs.
  set (up := upper_diag b) in *. set (K := frob n n B0) in *.
  step1. apply post_usub; [lia|]. step1.
  set (st := SS dg off (Some u0) (Some vt0)) in *.
  eapply wp_conseq; [apply (delimit_real r c n U0 V0 up B0 K eps he hK (n - 1) st (fun _ => false) hs); lia|].
  intros [[s e] st1] (dead & hact). cbn [fst snd] in hact. step1.
  eapply post_conseq; [apply (loop_real r c n U0 V0 up B0 K eps he hK fuel s e st1 dead hact)| |auto|auto].
  intros st2 (dead2 & (hv & hd & hp) & hall). destruct hv as (k1 & k2 & L & Rt & hu & hvv & hf).
  set (sv := vmap (fun x => nmul RN x am) (sd st2)).
  assert (hsv : forall j, (j < n)%nat -> vent sv j = vent (sd st2) j * am).
  { intros j hj. unfold vent, sv, vmap. rewrite vget_vmk by lia. reflexivity. }
  assert (lsv : length sv = n) by (unfold sv, vmap; rewrite length_vmk; auto).
  step1. eapply wp_conseq; [apply fix_signs_real; [lia|]|].
  { intros j hj. rewrite hsv by auto. apply Rmult_le_pos; auto. }
  intros x ->. apply post_ret.
  destruct hu as (U & -> & u1 & u2 & u3). destruct hvv as (Vt & -> & v1 & v2 & v3).
  exists U, sv, Vt. split; auto. unfold svd_spec. fold n.
  assert (oL := fi_L _ _ _ _ _ _ _ hf). assert (oR := fi_R _ _ _ _ _ _ _ hf).
  split; [eapply (ocols_mul r n U0); [exact hU| |exact u3]; destruct up; auto|].
  split; [eapply (ocols_mul c n V0); [exact hV| |exact v3]; destruct up; auto|].
  split; [intros j hj; rewrite hsv by auto; apply Rmult_le_pos; auto|].
  set (D := mdiag (vent (sd st2))).
  assert (hT : bidm (vent (sd st2)) (vent (so st2)) =[n, n]= D).
  { intros i j hi hj. unfold bidm, D, mdiag. destruct (Nat.eqb_spec i j); auto.
    destruct (Nat.eqb_spec j (i + 1)); auto. apply hd; [lia|]. apply hall. lia. }
  assert (e1 : frob r c (msub (ent a) (mmul n (ent U) (mmul n (mdiag (vent sv)) (ent Vt)))) =
               am * frob r c (msub (ent m) (mmul n (ent U) (mmul n D (ent Vt))))).
  { transitivity (frob r c (mscal am (msub (ent m) (mmul n (ent U) (mmul n D (ent Vt))))));
      [|rewrite frob_scal, Rabs_right by lra; reflexivity]. apply frob_ext.
    assert (eD : mdiag (vent sv) =[n, n]= mscal am D).
    { intros i j hi hj. unfold mdiag, mscal, D, mdiag. bd; try ring. rewrite hsv by auto. ring. }
    assert (eP : mmul n (ent U) (mmul n (mdiag (vent sv)) (ent Vt)) =[r, c]= mscal am (mmul n (ent U) (mmul n D (ent Vt)))).
    { rewrite eD, (mmul_scal_l n n c am D), (mmul_scal_r r n c am (ent U)). reflexivity. }
    intros i j hi hj. unfold msub at 1. rewrite eP by auto. unfold mscal, msub. rewrite hsc by auto. ring. }
  assert (e3 : frob r c (ent a) = am * frob r c (ent m)).
  { transitivity (frob r c (mscal am (ent m))); [|rewrite frob_scal, Rabs_right by lra; reflexivity]. apply frob_ext. intros i j hi hj. unfold mscal. apply hsc; lia. }
  rewrite e1, e3.
  assert (e4 : frob r c (msub (ent m) (mmul n (ent U) (mmul n D (ent Vt)))) = frob n n (msub B0 (mmul n L (mmul n D (mtr Rt))))).
  { rewrite hA'. rewrite (product_err r c n U0 V0 _ _ _ D (ent U) (ent Vt) hU hV u3 v3). destruct up; [reflexivity|].
    rewrite <- (frob_tr n n (msub B0 _)). apply frob_ext.
    assert (eQ : mtr (mmul n L (mmul n D (mtr Rt))) =[n, n]= mmul n Rt (mmul n D (mtr L))).
    { rewrite (mtr_mmul n n n L), (mtr_mmul n n n D), (mtr_mtr n n Rt).
      assert (eS : mtr D =[n, n]= D). { intros i j hi hj. unfold mtr, D, mdiag. bd; subst; auto; lia. }
      rewrite eS. apply mmul_assoc. }
    intros i j hi hj. unfold msub. rewrite <- eQ by auto. unfold mtr, msub. reflexivity. }
  rewrite e4. pose proof (fi_err _ _ _ _ _ _ _ hf) as hfe. rewrite hT in hfe.
  replace (INR (n - 1) * (2 * eps * (am * frob r c (ent m)))) with (am * (INR (n - 1) * (2 * eps * frob r c (ent m)))) by ring.
  apply Rmult_le_compat_l; auto. rewrite eK. eapply Rle_trans; [exact hfe|].
  apply Rmult_le_compat_r; [|apply dcount_le]. apply Rmult_le_pos; [lra|]. apply frob_nonneg.
Qed.

(** ** The flags: without any vector the same singular values are returned *)
Lemma VI_shape r c n U0 V0 up B0 K st C T : VI r c n U0 V0 up B0 K st C T -> ss_shape r c n st /\ flags true true st.
Proof.
  intros (h1 & h2 & L & Rt & h3 & h4 & _). pose proof (uvec_ush _ _ _ _ _ h3). pose proof (vvec_ush _ _ _ _ _ h4).
  split; [split; [auto|]; split; [auto|]; split; auto|].
  destruct h3 as (U & e1 & _), h4 as (V & e2 & _). split; [rewrite e1|rewrite e2]; reflexivity.
Qed.

Ltac same := eapply sim_bind; [apply sim_eq; reflexivity|intros ? ? <-].

Lemma two_sim_real r c n U0 V0 up B0 K eps dead start st : act r c n U0 V0 up B0 K eps dead start (S start) st ->
  sim (mrel r c n false false) (svd_two (N:=RN) up true true start st) (svd_two up false false start (msk false false st)).
Proof.
  intros ((hv & _) & _ & _ & hen & ha). destruct ha as ((hb1 & hb2) & _); [lia|].
  destruct (VI_shape _ _ _ _ _ _ _ _ _ _ _ hv) as ((l1 & l2 & h1 & h2) & f1 & f2).
  destruct st as [d o u v]. cbn [sd so su sv] in *.
  destruct u as [u|]; [|discriminate]. destruct v as [v|]; [|discriminate].
  unfold svd_two. cbn [sd so su sv msk].
  eapply sim_bind; [apply sim_post with (P := fun x : T RN => x = vent d start); apply post_at1; [lia|reflexivity]|intros d0 ? (<- & ->)].
  eapply sim_bind; [apply sim_post with (P := fun x : T RN => x = vent o start); apply post_at1; [lia|reflexivity]|intros o0 ? (<- & ->)].
  eapply sim_bind; [apply sim_post with (P := fun x : T RN => x = vent d (start + 1)); apply post_at1; [lia|reflexivity]|intros d1 ? (<- & ->)].
  destruct (uptrig_real (vent d start) (vent o start) (vent d (start + 1))) as
    (v1 & v2 & gu & gv & p1 & p2 & hc & _); [apply hb1; lia|apply hb2; lia|apply hb1; lia|].
  rewrite !hc. same. same. same.
  replace (true && up || true && negb up) with true by (destruct up; reflexivity). cbn [andb orb].
  replace (if up then (None, None) else (None, None)) with (@None (givens RN), @None (givens RN)) by (destruct up; reflexivity).
  destruct (if up then (Some gu, Some gv) else (Some gv, Some gu)) as [ru rv] eqn:er.
  assert (exists g1 g2, ru = Some g1 /\ rv = Some g2) as (g1 & g2 & -> & ->) by (destruct up; injection er as <- <-; eauto).
  cbn [unwrap_opt]. cbn [bind omsk].
  eapply sim_wp_none with (P := fun st' => vsh r c n st' /\ sd st' = a0 /\ so st' = a1).
  - step1. eapply post_mono; [apply (rot_u_sh g1 (Some u) r n start); auto; lia|]. intros u2 (k1 & _).
    step1. eapply post_mono; [apply (rot_vt_sh (inverse g2) (Some v) n c start); auto; lia|]. intros w2 (k2 & _).
    apply post_ret. split; [split; auto|]. auto.
  - intros [d' o' u' v'] (k1 & k2 & k3). cbn [sd so] in k2, k3. subst d' o'. split; auto.
Qed.

Lemma loop_sim_real r c n U0 V0 up B0 K (eps : R) : 0 <= eps -> (K <> 0 -> 1 <= K) -> forall fuel start e st dead,
  act r c n U0 V0 up B0 K eps dead start e st ->
  sim (mrel r c n false false) (svd_loop (N:=RN) fuel up true true eps start e st)
    (svd_loop (N:=RN) fuel up false false eps start e (msk false false st)).
Proof.
  intros he hK. induction fuel as [|fuel IH]; intros start e st dead ha; cbn [svd_loop];
  pose proof ha as ((hv & _) & h2 & h3 & h4 & _); destruct (VI_shape _ _ _ _ _ _ _ _ _ _ _ hv) as (hsh & hfl).
  - destruct (Nat.eqb e start); cbn [sim]; auto. split; auto. apply ss_vsh; auto.
  - destruct (Nat.eqb_spec e start); [cbn [sim]; split; auto; apply ss_vsh; auto|].
    eapply sim_bind; [apply sim_post with (P := fun v => v = (e - start)%nat); apply post_usub; [lia|auto]|intros ? ? (<- & ->)].
    eapply sim_bind with (R := fun x y => snd x = snd y /\ (snd x < n)%nat /\ fst y = msk false false (fst x) /\
       exists dead', SIv r c n U0 V0 up B0 K eps (fst x) dead' /\ forall j, (snd x <= j < n - 1)%nat -> dead' j = true).
    { destruct (Nat.ltb_spec 2 (S (e - start))).
      - eapply sim_bind; [apply sim_and_wp; [apply (svd_big_sim r c n false false); [apply ss_vsh; auto|lia..]|
           apply (big_real r c n U0 V0 up B0 K eps start e st dead); auto; lia]|].
        intros st1 ? ((_ & ->) & g). cbn [sim fst snd]. split; auto. split; auto. split; auto. exists dead. split; auto.
      - destruct (Nat.eqb_spec (S (e - start)) 2); [|lia]. assert (e = S start) by lia. subst e.
        eapply sim_bind; [apply sim_and_wp; [eapply two_sim_real; eauto|eapply two_real; eauto]|].
        intros st1 ? ((_ & ->) & g).
        eapply sim_bind; [apply sim_post with (P := fun v => v = start); apply post_usub; [lia|lia]|intros ? ? (<- & ->)].
        cbn [sim fst snd]. split; auto. split; [lia|]. split; auto. exists (mark dead start). split; auto.
        intros j hj. unfold mark. bd; auto. apply h2. lia. }
    intros [st1 e1] [st1' e1']. cbn [fst snd]. intros (<- & g1 & -> & dead1 & g2 & g3).
    assert (hv1 : vsh r c n st1). { destruct g2 as (g2 & _). apply ss_vsh. eapply VI_shape; eauto. }
    eapply sim_bind; [apply sim_and_wp; [apply (svd_delimit_sim r c n false false); [exact hv1|lia]|
        apply (delimit_real r c n U0 V0 up B0 K eps he hK e1 st1 dead1); auto]|].
    intros [[s' e'] st2] [[s'' e''] st2']. cbn [fst snd]. intros ((k1 & k2 & k3 & ->) & (dead2 & k4)).
    injection k1 as <- <-. eapply IH; eauto.
Qed.

Lemma svd_flags_real fuel (a : mat RN) fu fv (eps : R) : 0 <= eps ->
  sim (fun x y => y = (omsk fu (fst (fst x)), snd (fst x), omsk fv (snd x)))
    (svd_eps fuel a true true eps) (svd_eps fuel a fu fv eps).
Proof.
  intros he. destruct (fu || fv) eqn:ef; [apply svd_flags; auto|].
  apply orb_false_iff in ef. destruct ef as (-> & ->).
  unfold svd_eps. destruct (Nat.eqb_spec (nr a) 0) as [|nz1]; [simpl; auto|].
  destruct (Nat.eqb_spec (nc a) 0) as [|nz2]; [simpl; auto|]. cbn [orb].
  destruct (svd_start_real a eps ltac:(lia) ltac:(lia)) as (b & u0 & vt0 & U0 & V0 & B0 & eb & eu & evt & hU & hV & hA' & eK & hK & hs).
  set (am := abs_max a) in *. set (m := scale_down a am) in *.
  set (r := nr a) in *. set (c := nc a) in *. set (n := Nat.min r c) in *.
  rewrite eb. cbn [bind]. rewrite eu, evt. cbn [bind].
  destruct (bi_into_diagonals b) as [dg off]. cbn [fst snd] in hs.
  set (up := upper_diag b) in *. set (K := frob n n B0) in *.
  eapply sim_bind; [apply sim_post with (P := fun v => v = (n - 1)%nat); apply post_usub; [lia|auto]|intros ? ? (<- & ->)].
  change (SS dg off None None) with (msk false false (SS dg off (Some u0) (Some vt0))).
  set (st := SS dg off (Some u0) (Some vt0)) in *.
  assert (hv1 : vsh r c n st). { destruct hs as (g2 & _). apply ss_vsh. eapply VI_shape; eauto. }
  eapply sim_bind; [apply sim_and_wp; [apply (svd_delimit_sim r c n false false); [exact hv1|lia]|
      apply (delimit_real r c n U0 V0 up B0 K eps he hK (n - 1) st (fun _ => false) hs); lia]|].
  intros [[s e] st1] [[s' e'] st1']. cbn [fst snd]. intros ((k1 & k2 & k3 & ->) & (dead & hact)). injection k1 as <- <-.
  pose proof (loop_sim_real r c n U0 V0 up B0 K eps he hK fuel s e st1 dead hact) as hl.
  pose proof (loop_real r c n U0 V0 up B0 K eps he hK fuel s e st1 dead hact) as hl2.
  destruct (svd_loop (N:=RN) fuel up true true eps s e st1) as [st2| | | |] eqn:el; simpl in hl2; try tauto.
  2: { destruct (svd_loop fuel up false false _ _ _ _); simpl in *; tauto. }
  destruct (svd_loop fuel up false false _ _ _ _) as [st3| | | |]; simpl in hl; try tauto.
  destruct hl as (hv & ->). destruct hl2 as (dead2 & (hv2 & _) & _).
  destruct (VI_shape _ _ _ _ _ _ _ _ _ _ _ hv2) as ((p1 & p2 & p3 & p4) & _).
  cbn [bind]. cbn [sd so su sv msk].
  eapply sim_bind; [apply (svd_fix_signs_sim r n false); auto; unfold vmap; rewrite length_vmk; auto|].
  intros [dg2 u1] [dg' u1']. cbn [fst snd]. intros (<- & ->). cbn [sim fst snd]. auto.
Qed.

(** ** What the sign normalisation does: column i of U is multiplied by minus zero *)
Lemma fix_signs_effect r (d : list RN) (u : mat RN) : nr u = r -> nc u = length d ->
  wp (svd_fix_signs (N:=RN) (length d) d (Some u)) (fun x => length (fst x) = length d /\
    (forall j, (j < length d)%nat -> vent (fst x) j = Rabs (vent d j)) /\
    exists u', snd x = Some u' /\ nr u' = r /\ nc u' = length d /\
      forall i j, (i < r)%nat -> (j < length d)%nat -> ent u' i j = if Rltb (vent d j) 0 then 0 else ent u i j).
Proof.
  intros h1 h2. unfold svd_fix_signs.
  eapply post_for' with (I := fun k x => length (fst x) = length d /\
    (forall j, (j < length d)%nat -> vent (fst x) j = if Nat.ltb j k then Rabs (vent d j) else vent d j) /\
    exists u', snd x = Some u' /\ nr u' = r /\ nc u' = length d /\
      forall i j, (i < r)%nat -> (j < length d)%nat -> ent u' i j = if Nat.ltb j k && Rltb (vent d j) 0 then 0 else ent u i j).
  - cbn [fst snd]. split; auto. split; auto. exists u. auto.
  - intros k [d1 u1] hk. cbn [fst snd]. intros (l1 & e1 & u' & -> & k1 & k2 & k3). step1. apply post_idx1; [lia|].
    change (nis_neg RN) with (fun x => Rltb x 0). cbv beta. change (vget d1 k) with (vent d1 k).
    rewrite e1 by lia. destruct (Nat.ltb_spec k k); [lia|].
    destruct (Rltb_spec (vent d k) 0) as [hn|hn].
    + step1. apply post_set1; [lia|]. step1. step1. apply post_column; [lia|]. apply post_ret. apply post_ret. cbn [fst snd]. dims.
      split; auto. split.
      * intros j hj. rewrite vent_vupd by lia. rewrite e1 by auto. bd; auto; try lia. subst. rewrite Rabs_left by auto. reflexivity.
      * eexists. split; [reflexivity|]. dims. split; auto. split; auto. intros i j hi hj. unfold ent, put_col.
        rewrite get_mk by (dims; lia). dims. specialize (k3 i j hi hj). unfold ent in k3.
        destruct (Nat.eq_dec j k) as [e|e].
        -- subst j. bd. unfold vmap. rewrite vget_vmk by (dims; lia).
           destruct (Rltb_spec (vent d k) 0); [|lra]. rn. cbn [andb]. ring.
        -- rewrite k3. bd; auto; try lia.
    + apply post_ret. cbn [fst snd]. split; auto. split.
      * intros j hj. rewrite e1 by auto. bd; auto; try lia. assert (j = k) by lia. subst. rewrite Rabs_right; lra.
      * exists u'. split; auto. split; auto. split; auto. intros i j hi hj. rewrite k3 by auto.
        bd; auto; try lia. assert (j = k) by lia. subst. cbn [andb]. destruct (Rltb_spec (vent d k) 0); [lra|auto].
  - intros [d1 u1]. cbn [fst snd]. intros (l1 & e1 & u' & e2 & k1 & k2 & k3). split; auto. split.
    + intros j hj. rewrite e1 by auto. bd. auto.
    + exists u'. split; auto. split; auto. split; auto. intros i j hi hj. rewrite k3 by auto. bd. auto.
Qed.

(** Hence no matrix with a zeroed column has orthonormal columns *)
Lemma fix_signs_breaks r (d : list RN) (u : mat RN) j : nr u = r -> nc u = length d -> (j < length d)%nat -> vent d j < 0 ->
  exists d' u', svd_fix_signs (N:=RN) (length d) d (Some u) = Ret (d', Some u') /\ vent d' j = - vent d j /\
    (forall i, (i < r)%nat -> ent u' i j = 0) /\ ~ orthonormal_cols r (length d) (ent u').
Proof.
  intros h1 h2 hj hn. destruct (wp_ret _ _ (fix_signs_effect r d u h1 h2)) as ([d' o] & e & l & hd & u' & eo & k1 & k2 & k3).
  cbn [fst snd] in *. subst o. exists d', u'. split; auto. split; [rewrite hd by auto; apply Rabs_left; auto|].
  assert (hz : forall i, (i < r)%nat -> ent u' i j = 0).
  { intros i hi. rewrite k3 by auto. destruct (Rltb_spec (vent d j) 0); [auto|lra]. }
  split; auto. intros ho. specialize (ho j j hj hj). unfold mmul, mtr in ho.
  rewrite Rsum_0 in ho. - unfold mid in ho. rewrite Nat.eqb_refl in ho. lra.
  - intros k hk. rewrite hz by auto. ring.
Qed.
