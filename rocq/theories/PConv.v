(** * Convergence of the QR iteration of eigh.rs in exact arithmetic *)
From Coq Require Import Reals List Arith Lia Lra Bool Setoid Morphisms.
From Verif Require Import Scalar Arr MBase MDirect MDecomp MEigh Inst Hoare Spec RLin PTri PHouse PQR PTrid PGivens PEigh PEighR.
Import ListNotations.
Local Open Scope R_scope.

(** ** The shift *)
Lemma wilkinson_real (a2 a1 b : R) : b <> 0 -> let w := wilkinson_shift (N:=RN) a2 a1 b in
  (a1 - w) * (a2 - w) = b * b /\ Rabs (a1 - w) <= Rabs b /\ Rabs (a1 - w) <= Rabs (a2 - w).
Proof.
  intros hb. unfold wilkinson_shift. change (nis_zero RN b) with (Reqb b 0). destruct (Reqb_spec b 0); [contradiction|]. cbn [negb].
  rewrite nhalf_R. rn. set (d := (a2 - a1) * (/ 2)).
  change (nsignum RN d) with (if Rltb d 0 then -1 else 1). change (nsqrt RN) with sqrt.
  set (r := sqrt (d * d + b * b)).
  assert (hr : r * r = d * d + b * b) by (apply sqrt_sqrt; nra).
  assert (hr0 : 0 < r) by (apply sqrt_lt_R0; nra).
  assert (hrd : Rabs d < r). { rewrite <- (Rabs_pos_eq r) by lra. apply Rsqr_lt_abs_0. unfold Rsqr. nra. }
  set (D := d + _).
  assert (hD : D * D = 2 * d * D + b * b) by (unfold D; destruct (Rltb d 0); nra).
  assert (hDb : Rabs b <= Rabs D).
  { apply Rsqr_le_abs_0. unfold Rsqr. rewrite hD. enough (0 <= d * D) by lra. unfold D. destruct (Rltb_spec d 0); nra. }
  assert (hD0 : D <> 0). { intros h. rewrite h, Rabs_R0 in hDb. apply Rabs_pos_lt in hb. lra. }
  replace (a1 - (a1 - b * b / D)) with (b * b / D) by ring.
  replace (a2 - (a1 - b * b / D)) with (2 * d + b * b / D) by (unfold d; field; auto).
  assert (e1 : 2 * d + b * b / D = D). { apply (Rmult_eq_reg_r D); auto. replace ((2 * d + b * b / D) * D) with (2 * d * D + b * b) by (field; auto). lra. }
  assert (h1 : Rabs (b * b / D) <= Rabs b).
  { unfold Rdiv. rewrite !Rabs_mult, Rabs_inv. apply (Rmult_le_reg_r (Rabs D)); [apply Rabs_pos_lt; auto|].
    rewrite !Rmult_assoc, Rinv_l by (apply Rabs_no_R0; auto). pose proof (Rabs_pos b). nra. }
  rewrite e1. split; [field; auto|]. split; auto. eapply Rle_trans; eauto.
Qed.

(** ** Tridiagonal products *)
Lemma tri_col n f d o j : (j < n)%nat -> Rsum n (fun k => f k * tridiag d o k j) =
  (if (0 <? j)%nat then f (j - 1)%nat * o (j - 1)%nat else 0) + f j * d j + (if (j + 1 <? n)%nat then f (j + 1)%nat * o j else 0).
Proof.
  intros hj.
  rewrite (Rsum_ext n _ (fun k => (if Nat.eqb k j then 1 else 0) * (f k * d k) +
     ((if Nat.eqb (k + 1) j then 1 else 0) * (f k * o k) + (if Nat.eqb k (j + 1) then 1 else 0) * (f k * o j)))).
  2:{ intros k hk. unfold tridiag. bd; subst; try ring; try lia. }
  rewrite !Rsum_plus, (Rsum_delta n j (fun k => f k * d k)) by auto.
  assert (e1 : Rsum n (fun k => (if Nat.eqb (k + 1) j then 1 else 0) * (f k * o k)) = if (0 <? j)%nat then f (j - 1)%nat * o (j - 1)%nat else 0).
  { destruct (Nat.ltb_spec 0 j).
    - rewrite <- (Rsum_delta n (j - 1) (fun k => f k * o k)) by lia. apply Rsum_ext. intros k hk. bd; auto; lia.
    - apply Rsum_0. intros k hk. bd; try lia. ring. }
  assert (e2 : Rsum n (fun k => (if Nat.eqb k (j + 1) then 1 else 0) * (f k * o j)) = if (j + 1 <? n)%nat then f (j + 1)%nat * o j else 0).
  { destruct (Nat.ltb_spec (j + 1) n).
    - rewrite (Rsum_delta n (j + 1) (fun k => f k * o j)) by lia. auto.
    - apply Rsum_0. intros k hk. bd; try lia. ring. }
  rewrite e1, e2. ring.
Qed.
Lemma tridiag_sym d o p q : tridiag d o p q = tridiag d o q p.
Proof. unfold tridiag. bd; subst; auto; lia. Qed.
Lemma tri_row n f d o j : (j < n)%nat -> Rsum n (fun k => tridiag d o j k * f k) =
  (if (0 <? j)%nat then f (j - 1)%nat * o (j - 1)%nat else 0) + f j * d j + (if (j + 1 <? n)%nat then f (j + 1)%nat * o j else 0).
Proof. intros hj. rewrite <- tri_col by auto. apply Rsum_ext. intros. rewrite tridiag_sym. ring. Qed.
Lemma shift_col n f d o om j : (j < n)%nat -> Rsum n (fun k => f k * msub (tridiag d o) (mscal om mid) k j) =
  Rsum n (fun k => f k * tridiag d o k j) - om * f j.
Proof.
  intros hj. unfold msub, mscal, mid.
  rewrite (Rsum_ext n _ (fun k => f k * tridiag d o k j - (if Nat.eqb k j then 1 else 0) * (om * f k))) by (intros; bd; ring).
  rewrite Rsum_minus, (Rsum_delta n j (fun k => om * f k)) by auto. reflexivity.
Qed.

(** ** One step with the Wilkinson shift *)
Section Step.
Context (n s e : nat) (d o d' o' : nat -> R) (G : M) (om : R).
Let T := tridiag d o.
Let T' := tridiag d' o'.
Let S0 := msub T (mscal om mid).
Context (hse : (s + 2 <= e)%nat) (hen : (e < n)%nat).
Context (hs : (0 < s)%nat -> o (s - 1)%nat = 0).
Context (he : o e = 0) (he' : o' e = 0).
Context (hnz : forall j, (s <= j < e)%nat -> o j <> 0).
Context (hG : orthogonal n G) (hl : local n s e G) (hT : mmul n G (mmul n T (mtr G)) =[n, n]= T').
Context (hcol : forall p, (p < n)%nat -> p <> s -> mmul n G S0 p s = 0).
Context (hsh : (d e - om) * (d (e - 1)%nat - om) = o (e - 1)%nat * o (e - 1)%nat).
Context (hsh' : Rabs (d e - om) <= Rabs (o (e - 1)%nat)).
Let R0 := mmul n G S0.

Lemma st_comm : mmul n G T =[n, n]= mmul n T' G.
Proof. rewrite <- hT. destruct hG as (h1 & _). rewrite !mmul_assoc, h1, mmul_1_r. reflexivity. Qed.
Lemma st_R : R0 =[n, n]= msub (mmul n T' G) (mscal om G).
Proof. unfold R0, S0. rewrite mmul_sub_r, mmul_scal_r, mmul_1_r, st_comm. reflexivity. Qed.
Lemma st_RT : mmul n R0 T =[n, n]= mmul n T' R0.
Proof.
  rewrite st_R, mmul_sub_l, mmul_scal_l, mmul_assoc, st_comm, mmul_sub_r, mmul_scal_r. reflexivity.
Qed.
Lemma st_up j : (s <= j <= e)%nat -> forall p, (p < n)%nat -> (j < p)%nat -> R0 p j = 0.
Proof.
  assert (H : forall t, (s + t <= e)%nat -> forall j, (s <= j <= s + t)%nat -> forall p, (p < n)%nat -> (j < p)%nat -> R0 p j = 0).
  { induction t as [|t IH]; intros ht j' hj' p hp hjp.
    - assert (j' = s) by lia. subst j'. apply hcol; auto; lia.
    - destruct (Nat.eq_dec j' (s + S t)) as [->|]; [|apply IH; auto; lia].
      set (j1 := (s + t)%nat) in *. replace (s + S t)%nat with (j1 + 1)%nat in * by lia.
      pose proof (st_RT p j1 hp ltac:(lia)) as h. unfold mmul in h. unfold T, T' in h. rewrite tri_col, tri_row in h by lia.
      assert (z1 : R0 p j1 = 0) by (apply IH; lia).
      assert (z2 : (0 < p)%nat -> R0 (p - 1)%nat j1 = 0) by (intros; apply IH; lia).
      assert (z3 : (p + 1 < n)%nat -> R0 (p + 1)%nat j1 = 0) by (intros; apply IH; lia).
      assert (z4 : (if (0 <? j1)%nat then R0 p (j1 - 1)%nat * o (j1 - 1)%nat else 0) = 0).
      { destruct (Nat.ltb_spec 0 j1); auto. destruct (Nat.eq_dec j1 s) as [e0|]; [rewrite e0, hs by lia; ring|]. rewrite IH by lia. ring. }
      rewrite z4, z1 in h. revert h. bd; intros h; rewrite ?z2, ?z3 in h by lia; apply (Rmult_eq_reg_r (o j1)); try (apply hnz; lia); lra. }
  intros hj. apply (H (e - s)%nat); lia.
Qed.
Lemma st_row j : (j < n)%nat -> j <> e -> R0 e j = 0.
Proof.
  intros hj hne. destruct (le_lt_dec s j) as [h1|h1]; [destruct (le_lt_dec j e) as [h2|h2]|]; [apply st_up; lia| |];
  (unfold R0, mmul; apply Rsum_0; intros k hk; destruct (le_lt_dec s k) as [k1|k1]; [destruct (le_lt_dec k e) as [k2|k2]|];
   [|rewrite (hl e k) by lia; unfold mid; bd; try lia; ring|rewrite (hl e k) by lia; unfold mid; bd; try lia; ring];
   enough (S0 k j = 0) as -> by ring; unfold S0, T, msub, mscal, mid, tridiag; bd; try lia; try ring).
  - replace k with e by lia. rewrite he. ring.
  - replace j with (s - 1)%nat by lia. rewrite hs by lia. ring.
Qed.
Let rho := R0 e e.
Lemma st_eq1 : rho = o (e - 1)%nat * G e (e - 1)%nat + (d e - om) * G e e.
Proof.
  unfold rho, R0, mmul. unfold S0, T. rewrite shift_col, tri_col by auto. bd; rewrite ?he; ring.
Qed.
Lemma st_eq2 : 0 = o (e - 2)%nat * G e (e - 2)%nat + (d (e - 1)%nat - om) * G e (e - 1)%nat + o (e - 1)%nat * G e e.
Proof.
  rewrite <- (st_row (e - 1)%nat) by lia. unfold R0, mmul. unfold S0, T. rewrite shift_col, tri_col by lia.
  replace (e - 1 - 1)%nat with (e - 2)%nat by lia. replace (e - 1 + 1)%nat with e by lia. bd. ring.
Qed.
Lemma row_unit p : (p < n)%nat -> Rsum n (fun k => G p k * G p k) = 1.
Proof. intros hp. destruct hG as (_ & h). specialize (h p p hp hp). unfold mmul, mtr, mid in h. rewrite Nat.eqb_refl in h. exact h. Qed.
Lemma entry_le1 p q : (p < n)%nat -> (q < n)%nat -> G p q * G p q <= 1.
Proof. intros hp hq. rewrite <- (row_unit p hp). apply (Rsum_term_le n (fun k => G p k * G p k)); auto. intros. nra. Qed.
Lemma st_unit : G e (e - 2)%nat * G e (e - 2)%nat + G e (e - 1)%nat * G e (e - 1)%nat + G e e * G e e <= 1.
Proof.
  rewrite <- (row_unit e hen).
  assert (e1 : Rsum n (fun k => (if Nat.eqb k (e - 2) then 1 else 0) * (G e k * G e k) + ((if Nat.eqb k (e - 1) then 1 else 0) * (G e k * G e k) +
     (if Nat.eqb k e then 1 else 0) * (G e k * G e k))) = G e (e - 2)%nat * G e (e - 2)%nat + G e (e - 1)%nat * G e (e - 1)%nat + G e e * G e e).
  { rewrite !Rsum_plus, !(Rsum_delta n _ (fun k => G e k * G e k)) by lia. ring. }
  rewrite <- e1. apply Rsum_le. intros k hk. bd; subst; try lia; nra.
Qed.
Lemma st_rho : rho * rho * (rho * rho) <= o (e - 1)%nat * o (e - 1)%nat * (o (e - 2)%nat * o (e - 2)%nat) / 2.
Proof.
  pose proof st_eq1 as h1. pose proof st_eq2 as h2. pose proof st_unit as hu.
  set (b1 := o (e - 1)%nat) in *. set (b2 := o (e - 2)%nat) in *. set (x := G e (e - 2)%nat) in *. set (y := G e (e - 1)%nat) in *. set (z := G e e) in *.
  set (dl := d e - om) in *. set (dm := d (e - 1)%nat - om) in *. set (r := rho) in *.
  assert (hb : b1 <> 0) by (apply hnz; lia).
  assert (hd2 : dl * dl <= b1 * b1). { apply Rsqr_le_abs_1 in hsh'. exact hsh'. }
  assert (e1 : dl * b2 * x = - (r * b1)). { rewrite h1. replace (dl * b2 * x) with (dl * (b2 * x)) by ring. replace (b2 * x) with (- (dm * y + b1 * z)) by lra.
    replace (dl * - (dm * y + b1 * z)) with (- (dl * dm * y) - dl * b1 * z) by ring. rewrite hsh. ring. }
  assert (r1 : r * r <= b2 * b2 * (x * x)).
  { apply (Rmult_le_reg_r (b1 * b1)); [nra|]. replace (r * r * (b1 * b1)) with ((r * b1) * (r * b1)) by ring.
    replace (r * b1) with (- (dl * b2 * x)) by lra. replace (- (dl * b2 * x) * - (dl * b2 * x)) with (b2 * b2 * (x * x) * (dl * dl)) by ring.
    apply Rmult_le_compat_l; auto. nra. }
  assert (r2 : r * r <= 2 * (b1 * b1) * (1 - x * x)).
  { assert (cs : r * r <= (b1 * b1 + dl * dl) * (y * y + z * z)). { rewrite h1. pose proof (Rle_0_sqr (b1 * z - dl * y)). unfold Rsqr in *. nra. }
    eapply Rle_trans; [exact cs|]. apply Rle_trans with (2 * (b1 * b1) * (y * y + z * z)); [apply Rmult_le_compat_r; nra|].
    apply Rmult_le_compat_l; nra. }
  assert (hx : 0 <= x * x <= 1) by nra. set (t := x * x) in *.
  apply Rle_trans with (b2 * b2 * t * (2 * (b1 * b1) * (1 - t))).
  - apply Rmult_le_compat; auto; try apply Rle_0_sqr.
  - replace (b2 * b2 * t * (2 * (b1 * b1) * (1 - t))) with (b1 * b1 * (b2 * b2) * (2 * (t * (1 - t)))) by ring.
    unfold Rdiv. apply Rmult_le_compat_l; [|clearbody t; pose proof (Rle_0_sqr (2 * t - 1)) as hq; unfold Rsqr in hq; lra].
    apply Rmult_le_pos; apply Rle_0_sqr.
Qed.
Lemma st_T' p : (p < n)%nat -> msub T' (mscal om mid) e p = rho * G p e.
Proof.
  intros hp. assert (h : msub T' (mscal om mid) =[n, n]= mmul n R0 (mtr G)).
  { rewrite st_R, mmul_sub_l, mmul_scal_l, mmul_assoc. destruct hG as (_ & h2). rewrite h2, mmul_1_r. reflexivity. }
  rewrite h by auto. unfold mmul. rewrite (Rsum_single n e); auto. intros k hk ne. rewrite st_row by auto. ring.
Qed.
Lemma st_b1 : o' (e - 1)%nat * o' (e - 1)%nat <= rho * rho.
Proof.
  pose proof (st_T' (e - 1)%nat ltac:(lia)) as h. unfold msub, mscal, mid, T', tridiag in h. revert h. bd. intros h.
  replace (o' (e - 1)%nat) with (rho * G (e - 1)%nat e) by lra. pose proof (entry_le1 (e - 1)%nat e ltac:(lia) hen).
  replace (rho * G (e - 1)%nat e * (rho * G (e - 1)%nat e)) with (rho * rho * (G (e - 1)%nat e * G (e - 1)%nat e)) by ring. nra.
Qed.
Lemma st_b2 : o' (e - 1)%nat * o' (e - 2)%nat = rho * o (e - 1)%nat * G (e - 2)%nat (e - 1)%nat.
Proof.
  (* entry (e, e-2) of (T' - om) (T' - d_e) *)
  set (F := msub T' (mscal (d e) mid)).
  assert (e1 : Rsum n (fun k => msub T' (mscal om mid) e k * F k (e - 2)%nat) = o' (e - 1)%nat * o' (e - 2)%nat).
  { unfold F. rewrite (shift_col n (fun k => msub T' (mscal om mid) e k) d' o' (d e)) by lia. rewrite tri_col by lia.
    replace (e - 2 + 1)%nat with (e - 1)%nat by lia. unfold T', msub, mscal, mid, tridiag. bd; try lia; ring. }
  assert (e2 : Rsum n (fun k => msub T' (mscal om mid) e k * F k (e - 2)%nat) = rho * mmul n (mtr G) F e (e - 2)%nat).
  { unfold mmul, mtr. rewrite <- Rsum_scal_l. apply Rsum_ext. intros k hk. rewrite st_T' by auto. ring. }
  assert (e3 : mmul n (mtr G) F =[n, n]= mmul n (msub T (mscal (d e) mid)) (mtr G)).
  { unfold F. rewrite mmul_sub_r, mmul_sub_l, mmul_scal_r, mmul_scal_l, mmul_1_r, mmul_1_l.
    assert (e4 : mmul n (mtr G) T' =[n, n]= mmul n T (mtr G)); [|rewrite e4; reflexivity].
    rewrite <- hT, <- mmul_assoc. destruct hG as (h1 & _). rewrite h1, mmul_1_l. reflexivity. }
  rewrite <- e1, e2, e3 by lia. unfold mmul, mtr. rewrite (Rsum_single n (e - 1)%nat) by (try lia; intros k hk ne; unfold T, msub, mscal, mid, tridiag; bd; subst; try lia; rewrite ?he; ring).
  unfold T, msub, mscal, mid, tridiag. bd; try lia. ring.
Qed.
Lemma st_conv : let k' := o' (e - 1)%nat * o' (e - 1)%nat * (o' (e - 1)%nat * o' (e - 1)%nat) in
  k' <= o (e - 1)%nat * o (e - 1)%nat * (o (e - 2)%nat * o (e - 2)%nat) / 2 /\
  k' * (o' (e - 2)%nat * o' (e - 2)%nat) <= o (e - 1)%nat * o (e - 1)%nat * (o (e - 1)%nat * o (e - 1)%nat) * (o (e - 2)%nat * o (e - 2)%nat) / 2.
Proof.
  cbv zeta. pose proof st_b1 as h1. pose proof st_b2 as h2. pose proof st_rho as h3.
  pose proof (entry_le1 (e - 2)%nat (e - 1)%nat ltac:(lia) ltac:(lia)) as h4.
  set (a := o' (e - 1)%nat) in *. set (b := o' (e - 2)%nat) in *. set (r := rho) in *. set (g := G (e - 2)%nat (e - 1)%nat) in *.
  set (b1 := o (e - 1)%nat) in *. set (b2 := o (e - 2)%nat) in *.
  assert (h5 : a * a * (a * a) <= r * r * (r * r)) by (apply Rmult_le_compat; nra). split; [lra|].
  replace (a * a * (a * a) * (b * b)) with (a * a * ((a * b) * (a * b))) by ring. rewrite h2.
  replace (r * b1 * g * (r * b1 * g)) with (r * r * (b1 * b1) * (g * g)) by ring.
  apply Rle_trans with (r * r * (r * r * (b1 * b1))).
  - assert (p2 : 0 <= r * r * (b1 * b1)) by (apply Rmult_le_pos; apply Rle_0_sqr).
    apply Rmult_le_compat; auto; try apply Rle_0_sqr.
    + apply Rmult_le_pos; auto. apply Rle_0_sqr.
    + rewrite <- (Rmult_1_r (r * r * (b1 * b1))) at 2. apply Rmult_le_compat_l; auto.
  - replace (r * r * (r * r * (b1 * b1))) with (r * r * (r * r) * (b1 * b1)) by ring.
    replace (b1 * b1 * (b1 * b1) * (b2 * b2) / 2) with (b1 * b1 * (b2 * b2) / 2 * (b1 * b1)) by field.
    apply Rmult_le_compat_r; nra.
Qed.
End Step.

(** ** The loop *)
Lemma col_low n A eps d o dead W sg Q s e : 0 <= eps -> EI n A eps d o dead W sg Q -> (e < n)%nat ->
  (forall x : M, s * frob n 1 x <= frob n 1 (mmul n A x)) ->
  s - INR (n - 1) * (2 * eps * frob n n A) <= frob n 1 (fun i _ => tridiag d o i e).
Proof.
  intros he hei hen hs. pose proof hei as [g1 g2 _ _ _ _ g7 _ _]. pose proof g2 as (w1 & w2).
  set (T := tridiag d o) in *. set (E := msub A (mmul n W (mmul n T (mtr W)))) in *.
  assert (hE : frob n n E <= INR (n - 1) * (2 * eps * frob n n A)).
  { eapply Rle_trans; [exact g7|]. apply Rmult_le_compat_r; [|apply dcount_le]. pose proof (frob_nonneg n n A). nra. }
  assert (e1 : mmul n A W =[n, n]= madd (mmul n E W) (mmul n W T)).
  { assert (e2 : mmul n E W =[n, n]= msub (mmul n A W) (mmul n W T)).
    { unfold E. rewrite mmul_sub_l, !mmul_assoc, w1, mmul_1_r. reflexivity. }
    intros i j hi hj. unfold madd. rewrite e2 by auto. unfold msub. ring. }
  specialize (hs (fun i _ => W i e)).
  assert (hW1 : frob n 1 (fun i _ => W i e) = 1).
  { rewrite <- sqrt_1. unfold frob. f_equal. unfold frob2. cbn [Rsum]. specialize (w1 e e hen hen). unfold mmul, mtr, mid in w1.
    rewrite Nat.eqb_refl in w1. rewrite <- w1. apply Rsum_ext. intros. ring. }
  rewrite hW1, Rmult_1_r in hs.
  assert (e3 : frob n 1 (mmul n A (fun i _ => W i e)) = frob n 1 (madd (fun i _ => mmul n E W i e) (mmul n W (fun i _ => T i e)))).
  { apply frob_ext. intros i j hi hj. specialize (e1 i e hi hen). exact e1. }
  rewrite e3 in hs. pose proof (frob_triangle n 1 (fun i _ => mmul n E W i e) (mmul n W (fun i _ => T i e))) as ht.
  assert (e4 : frob n 1 (mmul n W (fun i _ => T i e)) = frob n 1 (fun i _ => T i e)).
  { unfold frob. rewrite frob2_orth_l by auto. reflexivity. }
  assert (e5 : frob n 1 (fun i _ => mmul n E W i e) <= frob n n E).
  { eapply Rle_trans; [apply (frob_col_le n n (mmul n E W)); auto|]. unfold frob. rewrite frob2_orth_r by auto. lra. }
  lra.
Qed.

Definition kk (o : nat -> R) (e : nat) : R :=
  o (e - 1)%nat * o (e - 1)%nat * (o (e - 1)%nat * o (e - 1)%nat) * (o (e - 2)%nat * o (e - 2)%nat).

Lemma kk_mono o o' e : (1 <= e)%nat -> (forall j, (j < e)%nat -> Rabs (o' j) <= Rabs (o j)) -> kk o' e <= kk o e.
Proof.
  intros h1 h. assert (hs : forall j, (j < e)%nat -> 0 <= o' j * o' j <= o j * o j).
  { intros j hj. split; [apply Rle_0_sqr|]. apply Rsqr_le_abs_1. apply h. auto. }
  unfold kk. pose proof (hs (e - 1)%nat ltac:(lia)). pose proof (hs (e - 2)%nat ltac:(lia)).
  apply Rmult_le_compat; try lra; [apply Rmult_le_pos; lra|]. apply Rmult_le_compat; lra.
Qed.

Section Loop.
Context (n : nat) (A : M) (eps c sg0 : R) (Nn : nat).
Let Mm := frob n n A.
Let B := 4 * (c * c * (eps * eps) / (1 + eps * eps)) ^ 4 / (Mm * Mm).
Context (he : 0 < eps) (hc : 0 < c) (hM : 0 < Mm) (hun : frob n n A <> 0 -> 1 <= frob n n A).
Context (hlow : forall x : M, sg0 * frob n 1 x <= frob n 1 (mmul n A x)).
Context (hcs : c <= sg0 - INR (n - 1) * (2 * eps * frob n n A)).
Context (hN : Mm ^ 6 < B * 2 ^ Nn).

Lemma big_conv s e es es' e' : (s + 1 < e)%nat -> LI n A eps s e es -> eig_big (N:=RN) s e eps es = Ret (es', e') ->
  (e' = e \/ e' = e - 1)%nat /\ (e' = e -> B <= kk (vent (es_off es)) e /\ kk (vent (es_off es')) e <= kk (vent (es_off es)) e / 2).
Proof.
  intros hse (Q & dead & W & sg & hsh & hq & hen & _ & ha & hei & hd & hd0 & hf & hal & hnz) hr.
  assert (hz : (0 < s)%nat -> gh e (es_off es) (s - 1) = 0).
  { intros hs. apply (ei_dead _ _ _ _ _ _ _ _ _ hei); [lia|]. apply hd0; lia. }
  assert (hsw := post_inv _ _ _ _ _ (sweep_real n s e eps es Q ltac:(lia) ltac:(lia) hsh hq
    ltac:(intros hs; specialize (hz hs); revert hz; unfold gh; bd; auto) ltac:(apply hnz; lia)) hr).
  cbn [fst snd] in hsw. destruct hsw as ((G & Q1 & sh & hq1 & hG & hl & hQ1 & hT & ho & _ & hcol) & hdd).
  split; [destruct hdd as [(-> & _)|(-> & _)]; auto|]. intros ->.
  destruct hdd as [(_ & habv)|(hcontra & _)]; [|lia].
  set (om := wilkinson_shift (N:=RN) _ _ _) in hcol.
  set (o := gh e (es_off es)) in *. set (o' := gh e (es_off es')) in *. set (d := vent (es_diag es)) in *. set (d' := vent (es_diag es')) in *.
  assert (hT' : mmul n G (mmul n (tridiag d o) (mtr G)) =[n, n]= tridiag d' o') by (rewrite hT; apply bulged_0).
  assert (oe : forall j, (j < e)%nat -> vent (es_off es) j = o j) by (intros; unfold o, gh; bd; auto).
  assert (oe' : forall j, (j < e)%nat -> vent (es_off es') j = o' j) by (intros; unfold o', gh; bd; auto).
  assert (hnz' : forall j, (s <= j < e)%nat -> o j <> 0) by (intros; rewrite <- oe by lia; apply hnz; lia).
  destruct (wilkinson_real (d (e - 1)%nat) (d e) (o (e - 1)%nat) ltac:(apply hnz'; lia)) as (w1 & w2 & _).
  rewrite <- oe in w1, w2 by lia. fold om in w1, w2. rewrite oe in w1, w2 by lia.
  destruct (st_conv n s e d o d' o' G om ltac:(lia) ltac:(lia) hz ltac:(unfold o, gh; bd; auto) ltac:(unfold o', gh; bd; auto)
    hnz' hG hl hT' (hcol ltac:(lia)) w1 w2) as (c1 & c2).
  replace (kk (vent (es_off es)) e) with (kk o e) by (unfold kk; rewrite !oe by lia; auto).
  replace (kk (vent (es_off es')) e) with (kk o' e) by (unfold kk; rewrite !oe' by lia; auto).
  split; [|exact c2].
  (* the new matrix also satisfies the invariant *)
  assert (hei' : EI n A eps d' o' dead (mmul n W (mtr G)) sg (ent Q1)).
  { eapply ei_conj with (G := G) (a := s) (b := e); eauto; try lia.
    - intros q hqq. apply hf; lia.
    - intros j hj hdj.
      destruct (le_lt_dec s j) as [h1|h1]; [|].
      + unfold o', gh. bd; auto. rewrite hal in hdj by lia. discriminate.
      + unfold o', gh. bd. rewrite ho by auto.
        pose proof (ei_dead _ _ _ _ _ _ _ _ _ hei j ltac:(lia) hdj) as hz'. revert hz'. unfold o, gh. bd. auto. }
  assert (hlw := col_low n A eps d' o' dead _ sg _ sg0 e ltac:(lra) hei' ltac:(lia) hlow).
  assert (hcol2 : frob n 1 (fun i _ => tridiag d' o' i e) * frob n 1 (fun i _ => tridiag d' o' i e) = d' e * d' e + o' (e - 1)%nat * o' (e - 1)%nat).
  { rewrite frob_sq. unfold frob2. cbn [Rsum]. rewrite (Rsum_ext n _ (fun i => tridiag d' o' e i * tridiag d' o' i e)) by (intros; rewrite (tridiag_sym d' o' e); ring).
    rewrite tri_col by lia. assert (oz : o' e = 0) by (unfold o', gh; bd; auto). unfold tridiag. bd; try lia; rewrite ?oz; ring. }
  rewrite oe' in habv by lia.
  set (x := o' (e - 1)%nat) in *. set (y := d' e) in *.
  assert (hcc : c * c <= y * y + x * x). { rewrite <- hcol2. apply Rmult_le_compat; lra. }
  assert (hxy : eps * eps * (y * y) <= x * x).
  { replace (eps * eps * (y * y)) with ((eps * y) * (eps * y)) by ring. apply Rsqr_le_abs_1. rewrite Rabs_mult, (Rabs_right eps) by lra.
    pose proof (Rabs_pos (d' (e - 1)%nat)). nra. }
  set (eta := c * c * (eps * eps) / (1 + eps * eps)) in *.
  assert (heta : 0 < eta <= x * x).
  { unfold eta. assert (0 < 1 + eps * eps) by nra. split.
    - apply Rdiv_lt_0_compat; auto. apply Rmult_lt_0_compat; nra.
    - apply (Rmult_le_reg_r (1 + eps * eps)); auto. unfold Rdiv. rewrite Rmult_assoc, Rinv_l by lra. nra. }
  assert (ho2 : o (e - 2)%nat * o (e - 2)%nat <= Mm * Mm).
  { apply Rsqr_le_abs_1. rewrite (Rabs_right Mm) by lra. eapply Rle_trans; [|apply (ei_nrm _ _ _ _ _ _ _ _ _ hei)].
    eapply Rle_trans; [|apply (frob_entry_le _ _ _ (e - 1) (e - 2)); lia]. unfold tridiag. bd; try lia. lra. }
  set (a := o (e - 1)%nat) in *. set (b := o (e - 2)%nat) in *.
  assert (h4 : eta ^ 4 <= (x * x * (x * x)) * (x * x * (x * x))).
  { replace (eta ^ 4) with (eta * eta * (eta * eta)) by ring.
    assert (eta * eta <= x * x * (x * x)) by (apply Rmult_le_compat; lra). assert (0 <= eta * eta) by nra. apply Rmult_le_compat; lra. }
  assert (h5 : (x * x * (x * x)) * (x * x * (x * x)) <= (a * a * (b * b) / 2) * (a * a * (b * b) / 2)).
  { assert (0 <= x * x * (x * x)) by (apply Rle_0_sqr). apply Rmult_le_compat; auto. }
  assert (h6 : (a * a * (b * b) / 2) * (a * a * (b * b) / 2) = kk o e * (b * b) / 4) by (unfold kk; fold a b; field).
  assert (hk0 : 0 <= kk o e) by (unfold kk; fold a b; apply Rmult_le_pos; [apply Rle_0_sqr|apply Rle_0_sqr]).
  assert (h7 : kk o e * (b * b) <= kk o e * (Mm * Mm)) by (apply Rmult_le_compat_l; auto).
  unfold B. apply (Rmult_le_reg_r (Mm * Mm)); [nra|]. unfold Rdiv. rewrite Rmult_assoc, Rinv_l by nra. lra.
Qed.

Lemma kk_top s e es : LI n A eps s e es -> (s + 2 <= e)%nat -> kk (vent (es_off es)) e < B * 2 ^ Nn.
Proof.
  intros (Q & dead & W & sg & hsh & hq & hen & _ & ha & hei & _) hse. eapply Rle_lt_trans; [|exact hN].
  assert (hb : forall j, (j < e)%nat -> vent (es_off es) j * vent (es_off es) j <= Mm * Mm).
  { intros j hj. apply Rsqr_le_abs_1. rewrite (Rabs_right Mm) by lra. eapply Rle_trans; [|apply (ei_nrm _ _ _ _ _ _ _ _ _ hei)].
    eapply Rle_trans; [|apply (frob_entry_le _ _ _ (j + 1) j); lia]. unfold tridiag, gh. bd; try lia. lra. }
  unfold kk. pose proof (hb (e - 1)%nat ltac:(lia)). pose proof (hb (e - 2)%nat ltac:(lia)).
  pose proof (Rle_0_sqr (vent (es_off es) (e - 1))). pose proof (Rle_0_sqr (vent (es_off es) (e - 2))). unfold Rsqr in *.
  replace (Mm ^ 6) with (Mm * Mm * (Mm * Mm) * (Mm * Mm)) by ring.
  apply Rmult_le_compat; auto; [apply Rmult_le_pos; auto|]. apply Rmult_le_compat; auto.
Qed.

Lemma delimit_conv e es s' e' off' : MI n A eps e es ->
  delimit_subproblem (N:=RN) (es_diag es) (es_off es) e eps = Ret (s', e', off') ->
  (e' <= e)%nat /\ forall j, (j < e)%nat -> Rabs (vent off' j) <= Rabs (vent (es_off es) j).
Proof.
  intros (Q & dead & W & sg & hsh & hq & hen & _) hr. pose proof hsh as (s1 & s2 & s3).
  pose proof (post_inv _ _ _ _ _ (delimit_ok (N:=RN) eps (es_diag es) (es_off es) e ltac:(lia) ltac:(lia)) hr) as (g1 & g2 & g3 & g4 & g5 & g6).
  cbn [fst snd] in *. split; [lia|]. intros j hj.
  destruct (Nat.eq_dec e' 0) as [ek|nk]; [destruct (g5 ek) as (_ & ->); lra|].
  destruct (g6 ltac:(lia)) as (g7 & g8 & g9 & [(_ & ->)|(ps & _ & ->)]); [lra|].
  unfold vent. rewrite vget_vupd by lia. bd; [|lra]. change (n0 RN) with 0. rewrite Rabs_R0. apply Rabs_pos.
Qed.

Lemma loop_conv : forall fuel s e es t, LI n A eps s e es -> ((s + 2 <= e)%nat -> kk (vent (es_off es)) e < B * 2 ^ t) ->
  (e * (Nn + 1) + t <= fuel)%nat -> exists es', eig_loop (N:=RN) fuel eps s e es = Ret es'.
Proof.
  induction fuel as [|fuel IH]; intros s e es t hli ht hf; cbn [eig_loop];
  (destruct (Nat.eqb_spec e s) as [es0|hne]; [eauto|]); pose proof hli as (_ & _ & _ & _ & hshp & _ & hen & _ & habv & _).
  - exfalso. destruct e; lia.
  - destruct (wp_ret _ _ (post_usub e s (fun d => d = (e - s)%nat) noE False ltac:(lia) ltac:(reflexivity))) as (d & -> & ->). cbn [bind].
    assert (hstep : exists es1 e1, (if 2 <? S (e - s) then eig_big (N:=RN) s e eps es
         else if S (e - s) =? 2 then eig_two (N:=RN) s e eps es else Ret (es, e)) = Ret (es1, e1) /\ MI n A eps e1 es1 /\
       ((e1 + 1 <= e)%nat \/ e1 = e /\ (1 <= t)%nat /\ kk (vent (es_off es1)) e < B * 2 ^ (t - 1))).
    { destruct (Nat.ltb_spec 2 (S (e - s))).
      - destruct (wp_ret _ _ (big_real n A eps s e es ltac:(lra) ltac:(lia) hli)) as ([es1 e1] & hr & hmi). cbn [fst snd] in hmi.
        exists es1, e1. split; [auto|]. split; auto.
        destruct (big_conv s e es es1 e1 ltac:(lia) hli hr) as ([->| ->] & hk); [|left; lia].
        right. split; auto. destruct (hk eq_refl) as (k1 & k2). specialize (ht ltac:(lia)).
        assert (hB : 0 < B).
        { unfold B. apply Rdiv_lt_0_compat; [|nra]. apply Rmult_lt_0_compat; [lra|]. apply pow_lt. apply Rdiv_lt_0_compat; [|nra].
          apply Rmult_lt_0_compat; nra. }
        destruct t as [|t]; [cbn [pow] in ht; lra|]. split; [lia|]. cbn [pow] in ht. replace (S t - 1)%nat with t by lia. lra.
      - destruct (Nat.eqb_spec (S (e - s)) 2) as [e2|]; [|lia].
        destruct (wp_ret _ _ (eig_two_safe (N:=RN) n s e eps es (eig2_total_real eps) hshp ltac:(lia) ltac:(lia)
          ltac:(replace s with (e - 1)%nat by lia; apply habv; lia))) as ([es1 e1] & hr & _ & _ & h3). cbn [fst snd] in h3.
        exists es1, e1. split; auto. split; [|left; lia].
        replace e with (s + 1)%nat in * by lia. exact (post_inv _ _ _ _ _ (two_real n A eps s es ltac:(lra) hun hli) hr). }
    destruct hstep as (es1 & e1 & -> & hmi & hcase). cbn [bind].
    destruct (wp_ret _ _ (delimit_real n A eps e1 es1 ltac:(lra) hmi)) as ([[s' e'] off'] & hdl & hli'). rewrite hdl. cbn [bind].
    cbn [fst snd] in hli'. destruct (delimit_conv e1 es1 s' e' off' hmi hdl) as (d1 & d2).
    destruct (Nat.eq_dec e' e) as [ee|ne].
    + destruct hcase as [hcase|(-> & ht1 & hk)]; [lia|]. subst e'.
      apply (IH s' e _ (t - 1)%nat); auto; [|lia]. intros _. cbn [es_off]. eapply Rle_lt_trans; [|exact hk]. apply kk_mono; auto. lia.
    + apply (IH s' e' _ Nn); auto.
      * intros hse. apply (kk_top s' e' _ hli' hse).
      * assert (he' : (e' + 1 <= e)%nat) by (destruct hcase as [hcase|(hcase & _)]; lia).
        assert (((e' + 1) * (Nn + 1) <= e * (Nn + 1))%nat) by (apply Nat.mul_le_mono_r; auto). lia.
Qed.
End Loop.

(** ** The whole routine *)
Lemma pow_scale x y k : (x * y) ^ k = x ^ k * y ^ k. Proof. apply Rpow_mult_distr. Qed.

Lemma conv_arith (F c eps : R) N : 0 < F -> 0 < c -> eps = / IZR (2 ^ 52) -> F ^ 8 < c ^ 8 * 2 ^ N ->
  F ^ 6 < 4 * (c * c * (eps * eps) / (1 + eps * eps)) ^ 4 / (F * F) * 2 ^ (N + 415).
Proof.
  intros hF hc he hN. assert (h52 : eps = / 2 ^ 52) by (rewrite he; change (2 ^ 52)%Z with (Z.pow 2 (Z.of_nat 52)); rewrite <- pow_IZR; reflexivity).
  assert (p0 : 0 < eps) by (rewrite h52; apply Rinv_0_lt_compat, pow_lt; lra).
  assert (p1 : eps <= / 8). { rewrite h52. apply Rinv_le_contravar; [lra|]. change 8 with (IZR 8); replace (IZR 8) with (2 ^ 3) by ring. apply Rle_pow; [lra|lia]. }
  set (w := / (1 + eps * eps)).
  assert (w0 : 0 < w) by (apply Rinv_0_lt_compat; nra).
  assert (hw : 7 / 8 <= w). { unfold w. rewrite <- (Rinv_inv (7 / 8)). apply Rinv_le_contravar; [nra|]. apply (Rle_trans _ (1 + / 8)); [nra|]. lra. }
  assert (hw4 : / 2 <= w ^ 4). { replace (w ^ 4) with ((w * w) * (w * w)) by ring. assert (3 / 4 <= w * w) by nra. nra. }
  assert (h8 : eps ^ 8 * 2 ^ 415 = / 2).
  { rewrite h52, pow_inv, <- pow_mult. change (52 * 8)%nat with (1 + 415)%nat. rewrite pow_add. set (p := 2 ^ 415). assert (p <> 0) by (apply pow_nonzero; lra). field. auto. }
  apply (Rmult_lt_reg_r (F * F)); [nra|].
  replace (4 * (c * c * (eps * eps) / (1 + eps * eps)) ^ 4 / (F * F) * 2 ^ (N + 415) * (F * F))
    with (c ^ 8 * 2 ^ N * (4 * (eps ^ 8 * 2 ^ 415) * w ^ 4)).
  2:{ rewrite pow_add. unfold Rdiv. fold w. set (p := 2 ^ 415). set (q := 2 ^ N). field. lra. }
  replace (F ^ 6 * (F * F)) with (F ^ 8) by ring.
  eapply Rlt_le_trans; [exact hN|]. rewrite h8. rewrite <- (Rmult_1_r (c ^ 8 * 2 ^ N)) at 1. apply Rmult_le_compat_l; [|lra].
  apply Rmult_le_pos; apply pow_le; lra.
Qed.
Definition e0 : M := fun i _ => if Nat.eqb i 0 then 1 else 0.
Lemma frob_e0 n : (1 <= n)%nat -> frob n 1 e0 = 1.
Proof.
  intros hn. rewrite <- sqrt_1. unfold frob. f_equal. unfold frob2, e0. cbn [Rsum]. rewrite (Rsum_single n 0); [cbn [Nat.eqb]; ring|lia|].
  intros i hi ne. destruct (Nat.eqb_spec i 0); [lia|ring].
Qed.
Lemma symmetric_eig_conv fuel (a : mat RN) (s c : R) (N : nat) : let n := nr a in let eps := nepsilon RN in
  nr a = nc a -> symmetric n (ent a) ->
  (forall x : M, s * frob n 1 x <= frob n 1 (mmul n (ent a) x)) ->
  0 < c -> c <= s - INR (n - 1) * (2 * eps * frob n n (ent a)) ->
  frob n n (ent a) ^ 8 < c ^ 8 * 2 ^ N -> (n * (N + 416) <= fuel)%nat ->
  exists vals q, symmetric_eig fuel a true eps = Ret (vals, Some q).
Proof.
  intros n eps sq hs hlow hc hcs hN hfu.
  assert (he : 0 < eps) by apply eps_R_pos.
  unfold symmetric_eig, check_square. fold n. rewrite <- sq. fold n. rewrite Nat.eqb_refl. cbn [bind negb].
  destruct (Nat.ltb_spec n 1) as [h0|h0]; [eauto|].
  destruct (scale_down_real a) as (ha & hsc & hle & hun); try lia.
  set (am := abs_max a) in *. set (m := scale_down a am) in *.
  assert (d1 : nr m = n) by apply nr_scale_down. assert (d2 : nc m = n) by (transitivity (nc a); [apply nc_scale_down|lia]).
  assert (hsm : symmetric (nr m) (ent m)).
  { rewrite d1. intros i j hi hj. unfold mtr. unfold m, scale_down.
    destruct (neq RN am (n0 RN)); cbn [negb]; [apply hs; auto|].
    unfold ent. rewrite !get_mmap by lia. f_equal. apply hs; auto. }
  destruct (wp_ret _ _ (sym_tridiagonal_real m ltac:(lia) ltac:(lia) hsm)) as (td & -> & ok). cbn [bind].
  destruct (wp_ret _ _ (tri_generate_q_real _ _ _ ok)) as (q0 & -> & k1 & k2 & k3). cbn [bind].
  rewrite d1 in *.
  destruct (tri_into_diagonals td) as [diag off] eqn:et.
  assert (l1 : length diag = n /\ length off = (n - 1)%nat /\
     (forall j, (j < n)%nat -> vent diag j = ent (diag_matrix td) j j) /\
     (forall j, (j + 1 < n)%nat -> vent off j = Rabs (vent (off_diagonal td) j))).
  { unfold tri_into_diagonals in et. injection et as <- <-. rewrite (to_nr _ _ _ ok), (to_nc _ _ _ ok), Nat.min_id.
    unfold vmap. rewrite !length_vmk. pose proof (to_len _ _ _ ok). split; auto. split; [auto|].
    unfold vent. split; intros j hj; rewrite vget_vmk by lia; reflexivity. }
  destruct l1 as (l1 & l2 & l3 & l4).
  destruct (Nat.eqb_spec n 1) as [e1|ne1]; [eauto|].
  assert (hq0 : orthogonal n (ent q0)).
  { apply (orthogonal_proper _ _ _ (meq_sym _ _ _ _ k3)). apply (trid_H _ _ _ ok). }
  assert (hei0 : EI n (ent m) eps (vent diag) (gh (n - 1) off) (fun _ => false) (ent q0) (fun i => i) (ent q0)).
  { assert (hz : ent m =[n, n]= mmul n (ent q0) (mmul n (tridiag (vent diag) (gh (n - 1) off)) (mtr (ent q0)))).
    { assert (ht : tridiag (vent diag) (gh (n - 1) off) =[n, n]= tridiag (fun j => ent (diag_matrix td) j j) (fun j => Rabs (vent (off_diagonal td) j))).
      { apply tridiag_ext; auto. intros j hj. unfold gh. bd. apply l4; lia. }
      rewrite k3, ht. apply (to_eq _ _ _ ok). }
    constructor; auto.
    - unfold dcount. rewrite Rsum_0 by auto. rewrite Rmult_0_l. right. unfold frob, frob2. rewrite <- sqrt_0. f_equal.
      apply Rsum_0. intros i hi. apply Rsum_0. intros j hj. unfold msub. rewrite <- hz by auto. ring.
    - right. rewrite <- (frob_conj n (ent q0) (tridiag _ _)) by auto. apply frob_ext. rewrite <- hz. reflexivity.
    - discriminate. }
  (* scaling *)
  assert (hax : forall x : M, frob n 1 (mmul n (ent a) x) = am * frob n 1 (mmul n (ent m) x)).
  { intros x. transitivity (frob n 1 (mscal am (mmul n (ent m) x))); [|rewrite frob_scal, Rabs_right by lra; reflexivity].
    apply frob_ext. intros i j hi hj. unfold mscal, mmul. rewrite <- Rsum_scal_l. apply Rsum_ext. intros k hk. rewrite hsc by lia. ring. }
  assert (hfa : frob n n (ent a) = am * frob n n (ent m)).
  { transitivity (frob n n (mscal am (ent m))); [|rewrite frob_scal, Rabs_right by lra; reflexivity]. apply frob_ext. intros i j hi hj. unfold mscal. apply hsc; lia. }
  assert (hs0 : 0 < s). { pose proof (frob_nonneg n n (ent a)). pose proof (pos_INR (n - 1)).
    assert (0 <= INR (n - 1) * (2 * eps * frob n n (ent a))) by (apply Rmult_le_pos; [auto|nra]). lra. }
  assert (ham : 0 < am).
  { destruct ha as [|ha]; auto. exfalso. specialize (hlow e0). rewrite hax, <- ha, Rmult_0_l, frob_e0 in hlow by lia. lra. }
  rewrite hfa in hcs, hN. rewrite <- sq in hun. fold n in hun.
  set (F := frob n n (ent m)) in *.
  assert (hF : 0 < F).
  { pose proof (frob_nonneg n n (ent m)) as [|h]; auto. exfalso. fold F in h. specialize (hlow e0). rewrite hax, frob_e0 in hlow by lia.
    rewrite (frob_zero n 1 (mmul n (ent m) e0)) in hlow; [lra|]. intros i j hi hj. unfold mmul. apply Rsum_0. intros k hk.
    assert (h2 : frob2 n n (ent m) = 0) by (rewrite <- frob_sq; fold F; rewrite <- h; ring).
    rewrite (frob2_0_inv n n (ent m) h2) by auto. ring. }
  destruct (wp_ret _ _ (delimit_real n (ent m) eps (n - 1) (ES diag off (Some q0)) ltac:(lra)
     ltac:(exists q0, (fun _ => false), (ent q0), (fun i => i); split; [split; [|split]; cbn [es_diag es_off es_q]; auto; split; auto|];
           split; [auto|]; split; [lia|]; split; [auto|]; split; [intros; lia|auto])))
    as ([[st k] off'] & hd & hli). cbn [es_diag es_off es_q fst snd] in hd, hli. rewrite hd. cbn [bind].
  set (cm := c / am). set (sm := s / am).
  assert (hcm : 0 < cm) by (apply Rdiv_lt_0_compat; auto).
  assert (hlm : forall x : M, sm * frob n 1 x <= frob n 1 (mmul n (ent m) x)).
  { intros x. specialize (hlow x). rewrite hax in hlow. apply (Rmult_le_reg_l am); auto. unfold sm.
    replace (am * (s / am * frob n 1 x)) with (s * frob n 1 x) by (field; lra). auto. }
  assert (hcsm : cm <= sm - INR (n - 1) * (2 * eps * frob n n (ent m))).
  { fold F. apply (Rmult_le_reg_l am); auto. unfold cm, sm.
    replace (am * (c / am)) with c by (field; lra).
    replace (am * (s / am - INR (n - 1) * (2 * eps * F))) with (s - INR (n - 1) * (2 * eps * (am * F))) by (field; lra). auto. }
  assert (hNm : F ^ 8 < cm ^ 8 * 2 ^ N).
  { apply (Rmult_lt_reg_l (am ^ 8)); [apply pow_lt; auto|]. rewrite <- Rmult_assoc, <- !pow_scale.
    unfold cm. replace (am * (c / am)) with c by (field; lra). auto. }
  assert (hB : F ^ 6 < 4 * (cm * cm * (eps * eps) / (1 + eps * eps)) ^ 4 / (F * F) * 2 ^ (N + 415)).
  { apply conv_arith; auto. }
  destruct (loop_conv n (ent m) eps cm sm (N + 415) ltac:(auto) ltac:(auto) ltac:(auto) hun hlm hcsm hB fuel st k _ (N + 415) hli) as (es' & hl).
  - intros hk. eapply kk_top; eauto.
  - pose proof hli as (_ & _ & _ & _ & _ & _ & hkn & _). assert ((k + 1) * (N + 416) <= n * (N + 416))%nat by (apply Nat.mul_le_mono_r; lia). lia.
  - rewrite hl. cbn [bind]. pose proof (loop_real n (ent m) eps ltac:(lra) hun fuel _ _ _ hli) as hp. rewrite hl in hp. cbn [post] in hp.
    destruct hp as (Q & dead & W & sg & g1 & g2 & g3). rewrite g2. eauto.
Qed.

(** ** One sweep, without the loop invariant *)
Lemma sweep_conv n start e eps (es es' : eig_state RN) Q e' : (start + 2 <= e < n)%nat ->
  length (es_diag es) = n -> length (es_off es) = (n - 1)%nat -> es_q es = Some Q -> nr Q = n -> nc Q = n ->
  ((0 < start)%nat -> vent (es_off es) (start - 1) = 0) ->
  (forall j, (start <= j < e)%nat -> vent (es_off es) j <> 0) ->
  eig_big (N:=RN) start e eps es = Ret (es', e') ->
  let b1 := vent (es_off es) (e - 1) in let b2 := vent (es_off es) (e - 2) in
  let c1 := vent (es_off es') (e - 1) in let c2 := vent (es_off es') (e - 2) in
  c1 ^ 4 <= (b1 * b2) ^ 2 / 2 /\ (c1 ^ 2 * c2) ^ 2 <= (b1 ^ 2 * b2) ^ 2 / 2.
Proof.
  intros hse l1 l2 hq q1 q2 hz hnz hr. cbv zeta.
  assert (hsh : es_shape n es) by (split; [auto|]; split; [auto|]; rewrite hq; split; auto).
  assert (hsw := post_inv _ _ _ _ _ (sweep_real n start e eps es Q ltac:(lia) ltac:(lia) hsh hq hz ltac:(apply hnz; lia)) hr).
  cbn [fst snd] in hsw. destruct hsw as ((G & Q1 & sh & hq1 & hG & hl & hQ1 & hT & ho & _ & hcol) & _).
  set (om := wilkinson_shift (N:=RN) _ _ _) in hcol.
  set (o := gh e (es_off es)) in *. set (o' := gh e (es_off es')) in *. set (d := vent (es_diag es)) in *. set (d' := vent (es_diag es')) in *.
  assert (hT' : mmul n G (mmul n (tridiag d o) (mtr G)) =[n, n]= tridiag d' o') by (rewrite hT; apply bulged_0).
  assert (oe : forall j, (j < e)%nat -> vent (es_off es) j = o j) by (intros; unfold o, gh; bd; auto).
  assert (oe' : forall j, (j < e)%nat -> vent (es_off es') j = o' j) by (intros; unfold o', gh; bd; auto).
  assert (hnz' : forall j, (start <= j < e)%nat -> o j <> 0) by (intros; rewrite <- oe by lia; apply hnz; lia).
  destruct (wilkinson_real (d (e - 1)%nat) (d e) (o (e - 1)%nat) ltac:(apply hnz'; lia)) as (w1 & w2 & _).
  rewrite <- oe in w1, w2 by lia. fold om in w1, w2. rewrite oe in w1, w2 by lia.
  destruct (st_conv n start e d o d' o' G om ltac:(lia) ltac:(lia) ltac:(intros; rewrite <- oe by lia; auto) ltac:(unfold o, gh; bd; auto) ltac:(unfold o', gh; bd; auto)
    hnz' hG hl hT' (hcol ltac:(lia)) w1 w2) as (c1 & c2).
  rewrite !oe, !oe' by lia. split.
  - replace (o' (e - 1)%nat ^ 4) with (o' (e - 1)%nat * o' (e - 1)%nat * (o' (e - 1)%nat * o' (e - 1)%nat)) by ring.
    eapply Rle_trans; [exact c1|]. right. field.
  - replace ((o' (e - 1)%nat ^ 2 * o' (e - 2)%nat) ^ 2) with (o' (e - 1)%nat * o' (e - 1)%nat * (o' (e - 1)%nat * o' (e - 1)%nat) * (o' (e - 2)%nat * o' (e - 2)%nat)) by ring.
    eapply Rle_trans; [exact c2|]. right. field.
Qed.
