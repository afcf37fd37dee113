(** * Rounding errors of binary64 arithmetic

    [SpecFloat]'s operations, which the instance [FN] uses, are connected to Flocq's verified
    operations, and the standard model of floating-point arithmetic is derived. *)
From Coq Require Import Reals ZArith List Arith Lia Lra Bool.
From Coq.Floats Require Import SpecFloat.
From Flocq Require Import Core BinarySingleNaN Relative Plus_error.
From Verif Require Import Scalar Arr Inst SpecF.

Local Open Scope R_scope.

#[global] Instance Hprec : Prec_gt_0 prec := eq_refl.
#[global] Instance Hemax : Prec_lt_emax prec emax := eq_refl.

(** ** SpecFloat against Flocq *)
Section Bridge.
Let B := binary_float prec emax.

Lemma round_nearest_even_equiv s m l :
  round_nearest_even m l = choice_mode mode_NE s m l.
Proof.
  case l as [ | c]; [reflexivity|].
  case c; [ |reflexivity..]. simpl. unfold Round.cond_incr. case Z.even; reflexivity.
Qed.

Lemma binary_round_aux_equiv sx mx ex lx :
  SpecFloat.binary_round_aux prec emax sx mx ex lx
  = binary_round_aux prec emax mode_NE sx mx ex lx.
Proof.
  unfold SpecFloat.binary_round_aux, binary_round_aux.
  set (mrse' := shr_fexp _ _ _).
  case mrse'; intros mrs' e'; simpl.
  now rewrite (round_nearest_even_equiv sx).
Qed.

Lemma binary_round_equiv s m e :
  SpecFloat.binary_round prec emax s m e = binary_round prec emax mode_NE s m e.
Proof.
  unfold SpecFloat.binary_round, binary_round, shl_align_fexp.
  set (mez := shl_align _ _ _); case mez as [mz ez].
  apply binary_round_aux_equiv.
Qed.

Lemma binary_normalize_equiv m e szero :
  SpecFloat.binary_normalize prec emax m e szero
  = B2SF (binary_normalize prec emax Hprec Hemax mode_NE m e szero).
Proof.
  case m as [ | p | p].
  - now simpl.
  - simpl; rewrite B2SF_SF2B; apply binary_round_equiv.
  - simpl; rewrite B2SF_SF2B; apply binary_round_equiv.
Qed.

Lemma add_equiv (x y : B) : SFadd prec emax (B2SF x) (B2SF y) = B2SF (Bplus mode_NE x y).
Proof.
  destruct x as [sx|sx| |sx mx ex Bx], y as [sy|sy| |sy my ey By];
    [now (trivial || simpl; case Bool.eqb).. | ].
  apply binary_normalize_equiv.
Qed.
Lemma sub_equiv (x y : B) : SFsub prec emax (B2SF x) (B2SF y) = B2SF (Bminus mode_NE x y).
Proof.
  destruct x as [sx|sx| |sx mx ex Bx], y as [sy|sy| |sy my ey By];
    [now (trivial || simpl; case Bool.eqb).. | ].
  simpl. unfold Zminus. rewrite <- cond_Zopp_negb. apply binary_normalize_equiv.
Qed.
Lemma mul_equiv (x y : B) : SFmul prec emax (B2SF x) (B2SF y) = B2SF (Bmult mode_NE x y).
Proof.
  destruct x as [sx|sx| |sx mx ex Bx], y as [sy|sy| |sy my ey By]; [now trivial..|].
  simpl. rewrite B2SF_SF2B. apply binary_round_aux_equiv.
Qed.
Lemma div_equiv (x y : B) : SFdiv prec emax (B2SF x) (B2SF y) = B2SF (Bdiv mode_NE x y).
Proof.
  destruct x as [sx|sx| |sx mx ex Bx], y as [sy|sy| |sy my ey By]; [now trivial..|].
  simpl. rewrite B2SF_SF2B. set (melz := SFdiv_core_binary _ _ _ _ _ _).
  case melz as [[mz ez] lz]. apply binary_round_aux_equiv.
Qed.
Lemma sqrt_equiv (x : B) : SFsqrt prec emax (B2SF x) = B2SF (Bsqrt mode_NE x).
Proof.
  destruct x as [sx|sx| |sx mx ex Bx]; [now (trivial || case sx).. | ].
  case sx; [reflexivity | ]. simpl. rewrite B2SF_SF2B. set (melz := SFsqrt_core_binary _ _ _ _).
  case melz as [[mz ez] lz]. apply binary_round_aux_equiv.
Qed.

Lemma fvalid_B2SF x : fvalid x -> exists b : B, x = B2SF b.
Proof. intros h. exists (SF2B x h). symmetry. apply B2SF_SF2B. Qed.
Lemma B2SF_fvalid (b : B) : fvalid (B2SF b).
Proof. apply valid_binary_B2SF. Qed.
Lemma fr_B2SF (b : B) : fr (B2SF b) = B2R b.
Proof. destruct b; reflexivity. Qed.
Lemma ffin_B2SF (b : B) : ffin (B2SF b) <-> is_finite b = true.
Proof. unfold ffin. rewrite is_finite_SF_B2SF. reflexivity. Qed.
End Bridge.

(** ** Validity is preserved *)
Ltac tob := repeat match goal with
  | H : fvalid ?x |- _ => is_var x; apply fvalid_B2SF in H; destruct H as [? ->] end.

Lemma fvalid_add x y : fvalid x -> fvalid y -> fvalid (nadd FN x y).
Proof. intros. tob. unfold nadd, FN. rewrite add_equiv. apply B2SF_fvalid. Qed.
Lemma fvalid_sub x y : fvalid x -> fvalid y -> fvalid (nsub FN x y).
Proof. intros. tob. unfold nsub, FN. rewrite sub_equiv. apply B2SF_fvalid. Qed.
Lemma fvalid_mul x y : fvalid x -> fvalid y -> fvalid (nmul FN x y).
Proof. intros. tob. unfold nmul, FN. rewrite mul_equiv. apply B2SF_fvalid. Qed.
Lemma fvalid_div x y : fvalid x -> fvalid y -> fvalid (ndiv FN x y).
Proof. intros. tob. unfold ndiv, FN. rewrite div_equiv. apply B2SF_fvalid. Qed.
Lemma fvalid_sqrt x : fvalid x -> fvalid (nsqrt FN x).
Proof. intros. tob. unfold nsqrt, FN. rewrite sqrt_equiv. apply B2SF_fvalid. Qed.
Lemma fvalid_opp x : fvalid x -> fvalid (nopp FN x).
Proof. destruct x; auto. Qed.
Lemma fvalid_abs x : fvalid x -> fvalid (nabs FN x).
Proof. destruct x; auto. Qed.
Lemma fvalid_0 : fvalid (n0 FN). Proof. reflexivity. Qed.
Lemma fr_opp x : fr (nopp FN x) = - fr x.
Proof.
  destruct x as [s|s| |s m e]; try (symmetry; apply Ropp_0).
  destruct s; unfold fr, nopp, FN; simpl; rewrite <- F2R_Zopp; reflexivity.
Qed.
Lemma ffin_opp x : ffin (nopp FN x) <-> ffin x.
Proof. destruct x; reflexivity. Qed.
Lemma fr_abs x : fr (nabs FN x) = Rabs (fr x).
Proof.
  destruct x as [s|s| |s m e]; try (symmetry; apply Rabs_R0).
  unfold fr, nabs, FN; simpl. rewrite <- F2R_Zabs. destruct s; reflexivity.
Qed.
Lemma ffin_abs x : ffin (nabs FN x) <-> ffin x.
Proof. destruct x; reflexivity. Qed.
Lemma fr_0 : fr (n0 FN) = 0. Proof. reflexivity. Qed.
Lemma ffin_0 : ffin (n0 FN). Proof. reflexivity. Qed.

(** ** Standard model *)
Lemma uro_pos : 0 < uro. Proof. apply Rinv_0_lt_compat. apply IZR_lt. reflexivity. Qed.
Lemma uro_small : uro <= / 8.
Proof.
  apply Rinv_le; [lra|]. apply IZR_le. discriminate.
Qed.
Lemma eta_pos : 0 < eta. Proof. apply bpow_gt_0. Qed.
Lemma eta_half : / 2 * bpow radix2 (3 - emax - prec) = eta.
Proof. unfold eta. change (/2) with (bpow radix2 (-1)). now rewrite <- bpow_plus. Qed.
Lemma u_ro_uro : u_ro radix2 prec = uro.
Proof.
  unfold u_ro, uro. change (bpow radix2 (- prec + 1)) with (/ IZR (2 ^ 52)).
  change (2 ^ 53)%Z with (2 * 2 ^ 52)%Z. rewrite mult_IZR. rewrite Rinv_mult. reflexivity.
Qed.

Local Notation rnd := (round radix2 (SpecFloat.fexp prec emax) (round_mode mode_NE)).
Local Notation rbnd := (uro / (1 + uro)).

(** the relative error has the slightly better bound u/(1+u), so that both 1+d and 1/(1+d) are
    within u of 1 *)
Definition dlt (d : R) : Prop := Rabs d <= rbnd.
Lemma dlt_u d : dlt d -> Rabs d <= uro.
Proof.
  intros h. eapply Rle_trans; [exact h|]. pose proof uro_pos.
  apply Rmult_le_reg_r with (1 + uro); [lra|]. field_simplify; nra.
Qed.
Lemma dlt_pos d : dlt d -> 0 < 1 + d.
Proof. intros h. apply dlt_u in h. pose proof uro_small. apply Rabs_le_inv in h. lra. Qed.
Lemma dlt_inv d : dlt d -> Rabs (/ (1 + d) - 1) <= uro.
Proof.
  intros h. pose proof (dlt_pos _ h) as hp. pose proof uro_pos. pose proof uro_small.
  replace (/ (1 + d) - 1) with (- d / (1 + d)) by (field; lra).
  unfold Rdiv. rewrite Rabs_mult, Rabs_Ropp, (Rabs_pos_eq (/ _)) by (left; now apply Rinv_0_lt_compat).
  apply Rmult_le_reg_r with (1 + d); auto. rewrite Rmult_assoc, Rinv_l, Rmult_1_r by lra.
  unfold dlt in h.
  assert (hq : 1 - Rabs d <= 1 + d) by (pose proof (Rle_abs (- d)); rewrite Rabs_Ropp in *; lra).
  assert (e : Rabs d * (1 + uro) <= uro).
  { eapply Rle_trans; [apply Rmult_le_compat_r; [lra|exact h]|]. right. field. lra. }
  nra.
Qed.

Lemma rnd_ex x : exists d e, dlt d /\ Rabs e <= eta /\ rnd x = x * (1 + d) + e.
Proof.
  destruct (relative_error_N_FLT'_ex radix2 (3 - emax - prec) prec Hprec (fun x => negb (Z.even x)) x)
    as (d & e & h1 & h2 & _ & h4).
  exists d, e. rewrite eta_half in h2. unfold dlt. rewrite <- u_ro_uro. repeat split; auto.
Qed.
Lemma rnd_plus_ex (x y : R) : generic_format radix2 (SpecFloat.fexp prec emax) x ->
  generic_format radix2 (SpecFloat.fexp prec emax) y ->
  exists d, dlt d /\ rnd (x + y) = (x + y) * (1 + d).
Proof.
  intros hx hy.
  destruct (FLT_plus_error_N_ex radix2 (3 - emax - prec) prec (fun x => negb (Z.even x)) x y hx hy)
    as (d & h1 & h2).
  exists d. unfold dlt. rewrite <- u_ro_uro. split; auto.
Qed.

Lemma overflow_not_fin (b : binary_float prec emax) s :
  B2SF b = binary_overflow prec emax mode_NE s -> is_finite b = true -> False.
Proof. destruct b; simpl; discriminate. Qed.

Lemma add_std x y : fvalid x -> fvalid y -> ffin (nadd FN x y) ->
  ffin x /\ ffin y /\ exists d, dlt d /\ fr (nadd FN x y) = (fr x + fr y) * (1 + d).
Proof.
  intros vx vy. tob. unfold nadd, FN. rewrite add_equiv, !ffin_B2SF, !fr_B2SF.
  rename x1 into x, x0 into y. intros hf.
  assert (hx : is_finite x = true) by (destruct x, y; auto; simpl in hf; try destruct (Bool.eqb _ _); discriminate).
  assert (hy : is_finite y = true) by (destruct x, y; auto; simpl in hf; try destruct (Bool.eqb _ _); discriminate).
  split; auto. split; auto.
  pose proof (Bplus_correct prec emax Hprec Hemax mode_NE x y hx hy) as h.
  destruct (Rlt_bool _ _).
  - destruct h as (-> & _). apply rnd_plus_ex; apply generic_format_B2R.
  - destruct h as (h & _). exfalso. eapply overflow_not_fin; eauto.
Qed.
Lemma sub_std x y : fvalid x -> fvalid y -> ffin (nsub FN x y) ->
  ffin x /\ ffin y /\ exists d, dlt d /\ fr (nsub FN x y) = (fr x - fr y) * (1 + d).
Proof.
  intros vx vy. tob. unfold nsub, FN. rewrite sub_equiv, !ffin_B2SF, !fr_B2SF.
  rename x1 into x, x0 into y. intros hf.
  assert (hx : is_finite x = true) by (destruct x, y; auto; simpl in hf; try destruct (Bool.eqb _ _); discriminate).
  assert (hy : is_finite y = true) by (destruct x, y; auto; simpl in hf; try destruct (Bool.eqb _ _); discriminate).
  split; auto. split; auto.
  pose proof (Bminus_correct prec emax Hprec Hemax mode_NE x y hx hy) as h.
  destruct (Rlt_bool _ _).
  - destruct h as (-> & _). unfold Rminus. apply rnd_plus_ex; [|apply generic_format_opp]; apply generic_format_B2R.
  - destruct h as (h & _). exfalso. eapply overflow_not_fin; eauto.
Qed.
Lemma mul_std x y : fvalid x -> fvalid y -> ffin (nmul FN x y) ->
  ffin x /\ ffin y /\
  exists d e, dlt d /\ Rabs e <= eta /\ fr (nmul FN x y) = fr x * fr y * (1 + d) + e.
Proof.
  intros vx vy. tob. unfold nmul, FN. rewrite mul_equiv, !ffin_B2SF, !fr_B2SF.
  rename x1 into x, x0 into y. intros hf.
  assert (hx : is_finite x = true) by (destruct x, y; auto; simpl in hf; discriminate).
  assert (hy : is_finite y = true) by (destruct x, y; auto; simpl in hf; discriminate).
  split; auto. split; auto.
  pose proof (Bmult_correct prec emax Hprec Hemax mode_NE x y) as h.
  destruct (Rlt_bool _ _).
  - destruct h as (-> & _). apply rnd_ex.
  - exfalso. eapply overflow_not_fin; eauto.
Qed.
(** a finite quotient by a finite number: the divisor is not zero *)
Lemma div_std x y : fvalid x -> fvalid y -> ffin y -> ffin (ndiv FN x y) ->
  ffin x /\ fr y <> 0 /\
  exists d e, dlt d /\ Rabs e <= eta /\ fr (ndiv FN x y) = fr x / fr y * (1 + d) + e.
Proof.
  intros vx vy. tob. unfold ndiv, FN. rewrite div_equiv, !ffin_B2SF, !fr_B2SF.
  rename x1 into x, x0 into y. intros hy hf.
  assert (hx : is_finite x = true) by (destruct x, y; auto; simpl in hf; discriminate).
  assert (h0 : B2R y <> 0).
  { destruct y; try discriminate; [destruct x; discriminate|]. simpl. intros ee.
    apply eq_0_F2R in ee. destruct s; discriminate. }
  split; auto. split; auto.
  pose proof (Bdiv_correct prec emax Hprec Hemax mode_NE x y h0) as h.
  destruct (Rlt_bool _ _).
  - destruct h as (-> & _). apply rnd_ex.
  - exfalso. eapply overflow_not_fin; eauto.
Qed.
Lemma sqrt_std x : fvalid x -> ffin (nsqrt FN x) ->
  ffin x /\ 0 <= fr x /\
  exists d e, dlt d /\ Rabs e <= eta /\ fr (nsqrt FN x) = sqrt (fr x) * (1 + d) + e.
Proof.
  intros vx. tob. unfold nsqrt, FN. rewrite sqrt_equiv, !ffin_B2SF, !fr_B2SF.
  rename x0 into x. intros hf.
  destruct (Bsqrt_correct prec emax Hprec Hemax mode_NE x) as (h1 & h2 & _). rewrite hf in h2.
  assert (hx : is_finite x = true) by (destruct x as [| | |[]]; auto; discriminate).
  split; auto. split.
  - destruct x as [| | |[]]; simpl; try lra; try discriminate. apply F2R_ge_0. discriminate.
  - rewrite h1. apply rnd_ex.
Qed.

(** a square root does not underflow *)
Lemma sqrt_rel x : fvalid x -> ffin (nsqrt FN x) ->
  ffin x /\ 0 <= fr x /\ exists d, dlt d /\ fr (nsqrt FN x) = sqrt (fr x) * (1 + d).
Proof.
  intros vx. tob. unfold nsqrt, FN. rewrite sqrt_equiv, !ffin_B2SF, !fr_B2SF.
  rename x0 into x. intros hf.
  destruct (Bsqrt_correct prec emax Hprec Hemax mode_NE x) as (h1 & h2 & _). rewrite hf in h2.
  assert (hx : is_finite x = true) by (destruct x as [| | |[]]; auto; discriminate).
  split; auto. assert (h0 : 0 <= B2R x).
  { destruct x as [| | |[]]; simpl; try lra; try discriminate. apply F2R_ge_0. discriminate. }
  split; auto. rewrite h1. destruct h0 as [h0|h0].
  - destruct (relative_error_N_FLX'_ex radix2 prec Hprec (fun x => negb (Z.even x)) (sqrt (B2R x)))
      as (d & h3 & h4).
    exists d. split; [unfold dlt; rewrite <- u_ro_uro; exact h3|]. rewrite <- h4.
    apply (round_FLT_FLX radix2 (3 - emax - prec) prec).
    rewrite Rabs_pos_eq by apply sqrt_ge_0.
    assert (hb : bpow radix2 (-1074) <= B2R x).
    { destruct x as [| | |s m e hv]; try (simpl in h0; lra). 
      apply Rle_trans with (bpow radix2 e).
      - apply bpow_le. pose proof hv as hv'. apply andb_prop in hv'. destruct hv' as [hv' _].
        apply Zeq_bool_eq in hv'. revert hv'. unfold SpecFloat.fexp, emin. unfold emax, prec. lia.
      - simpl in *. destruct s; [exfalso; revert h0; apply Rle_not_lt, F2R_le_0; discriminate|].
        unfold F2R. simpl. rewrite <- (Rmult_1_l (bpow radix2 e)) at 1.
        apply Rmult_le_compat_r; [apply bpow_ge_0|]. apply IZR_le. lia. }
    apply Rle_trans with (bpow radix2 (-537)); [apply bpow_le; discriminate|].
    rewrite <- (sqrt_Rsqr (bpow radix2 (-537))) by apply bpow_ge_0.
    apply sqrt_le_1_alt. unfold Rsqr. rewrite <- bpow_plus. exact hb.
  - exists 0. split; [|rewrite <- h0, sqrt_0, round_0; [ring|apply valid_rnd_round_mode]].
    unfold dlt. rewrite Rabs_R0. pose proof uro_pos. apply Rmult_le_pos; [lra|].
    left. apply Rinv_0_lt_compat. lra.
Qed.

(** ** Products of k factors 1+d, or of their inverses *)
Definition near (k : nat) (x : R) : Prop := Rabs (x - 1) <= gam k.

Lemma pow_u_ge1 k : 1 <= (1 + uro) ^ k.
Proof. apply pow_R1_Rle. pose proof uro_pos. lra. Qed.
Lemma gam_0 : gam 0 = 0. Proof. unfold gam. simpl. lra. Qed.
Lemma gam_nonneg k : 0 <= gam k.
Proof. unfold gam. pose proof (pow_u_ge1 k). lra. Qed.
Lemma pow_u_mono a b : (a <= b)%nat -> (1 + uro) ^ a <= (1 + uro) ^ b.
Proof. intros. apply Rle_pow; [|auto]. pose proof uro_pos. lra. Qed.
Lemma gam_mono a b : (a <= b)%nat -> gam a <= gam b.
Proof. intros h. unfold gam. pose proof (pow_u_mono a b h). lra. Qed.
Lemma gam_add a b : gam a + gam b + gam a * gam b = gam (a + b).
Proof. unfold gam. rewrite pow_add. ring. Qed.
Lemma near_mono a b x : (a <= b)%nat -> near a x -> near b x.
Proof. unfold near. intros h h1. pose proof (gam_mono a b h). lra. Qed.
Lemma near_1 k : near k 1.
Proof. unfold near. rewrite Rminus_diag_eq by auto. rewrite Rabs_R0. apply gam_nonneg. Qed.
Lemma near_abs k x : near k x -> Rabs x <= (1 + uro) ^ k.
Proof.
  unfold near, gam. intros h. replace x with ((x - 1) + 1) by ring.
  eapply Rle_trans; [apply Rabs_triang|]. rewrite Rabs_R1. lra.
Qed.
Lemma near_mul a b x y : near a x -> near b y -> near (a + b) (x * y).
Proof.
  intros hx hy. pose proof (near_abs _ _ hy) as hy'. unfold near in *.
  replace (x * y - 1) with ((x - 1) * y + (y - 1)) by ring.
  eapply Rle_trans; [apply Rabs_triang|]. rewrite Rabs_mult.
  pose proof (Rabs_pos (x - 1)). pose proof (Rabs_pos y). pose proof (gam_nonneg a).
  assert (Rabs (x - 1) * Rabs y <= gam a * (1 + uro) ^ b) by (apply Rmult_le_compat; auto).
  unfold gam in *. rewrite pow_add. lra.
Qed.
Lemma near_dlt d : dlt d -> near 1 (1 + d).
Proof.
  intros h. unfold near, gam. simpl. rewrite Rmult_1_r.
  replace (1 + d - 1) with d by ring. apply dlt_u in h. lra.
Qed.
Lemma near_inv d : dlt d -> near 1 (/ (1 + d)).
Proof. intros h. unfold near, gam. simpl. rewrite Rmult_1_r. apply dlt_inv in h. lra. Qed.

(** the usual constant: gam n <= nu / (1 - nu) *)
Lemma gam_usual n : INR n * uro < 1 -> gam n <= INR n * uro / (1 - INR n * uro).
Proof.
  intros h. pose proof uro_pos as hu.
  assert (hp : forall k, (1 + uro) ^ k * (1 - INR k * uro) <= 1).
  { induction k as [|k IH]; [simpl; lra|].
    rewrite S_INR. simpl pow. pose proof (pow_u_ge1 k). pose proof (pos_INR k).
    assert (0 <= (1 + uro) ^ k * ((INR k + 1) * (uro * uro))) by (repeat apply Rmult_le_pos; lra).
    nra. }
  specialize (hp n). unfold gam. apply Rmult_le_reg_r with (1 - INR n * uro); [lra|].
  unfold Rdiv. rewrite Rmult_assoc, Rinv_l by lra. lra.
Qed.

(** ** Signs: NaN, or the sign bit is clear *)
Definition nneg (s : spec_float) : Prop := s = S754_nan \/ f_neg s = false.

Lemma nneg_B2SF (b : binary_float prec emax) : nneg (B2SF b) <-> (is_nan b = true \/ Bsign b = false).
Proof. unfold nneg. destruct b; simpl; split; intros [h|h]; auto; try discriminate. Qed.
Lemma overflow_inf s : binary_overflow prec emax mode_NE s = S754_infinity s.
Proof. reflexivity. Qed.
Lemma nneg_0 : nneg (n0 FN). Proof. right. reflexivity. Qed.
Lemma nneg_mul x : fvalid x -> nneg (nmul FN x x).
Proof.
  intros vx. tob. unfold nmul, FN. rewrite mul_equiv, nneg_B2SF. rename x0 into x.
  pose proof (Bmult_correct prec emax Hprec Hemax mode_NE x x) as h.
  destruct (Rlt_bool _ _).
  - destruct h as (_ & _ & h). destruct (is_nan (Bmult mode_NE x x)); auto. right. rewrite h by auto.
    apply xorb_nilpotent.
  - right. rewrite overflow_inf, xorb_nilpotent in h. destruct (Bmult mode_NE x x); simpl in h |- *; congruence.
Qed.
Lemma nneg_B2R (b : binary_float prec emax) : Bsign b = false -> 0 <= B2R b.
Proof. destruct b; simpl; try lra. intros ->. apply F2R_ge_0. discriminate. Qed.
Lemma nneg_add x y : fvalid x -> fvalid y -> nneg x -> nneg y -> nneg (nadd FN x y).
Proof.
  intros vx vy. tob. unfold nadd, FN. rewrite add_equiv, !nneg_B2SF. rename x1 into x, x0 into y.
  destruct (is_nan x) eqn:nx; [destruct x; try discriminate; left; reflexivity|].
  destruct (is_nan y) eqn:ny; [destruct y; try discriminate; left; destruct x; reflexivity|].
  intros [?|hx] [?|hy]; try discriminate.
  destruct (is_finite x) eqn:fx.
  - destruct (is_finite y) eqn:fy.
    + right. pose proof (Bplus_correct prec emax Hprec Hemax mode_NE x y fx fy) as h.
      pose proof (nneg_B2R x hx). pose proof (nneg_B2R y hy).
      destruct (Rlt_bool _ _).
      * destruct h as (_ & _ & ->). destruct (Rcompare_spec (B2R x + B2R y) 0); try lra.
        now rewrite hx.
      * destruct h as (h & _). rewrite overflow_inf, hx in h. destruct (Bplus mode_NE x y); simpl in h |- *; congruence.
    + right. destruct y; try discriminate. destruct x; try discriminate; exact hy.
  - right. destruct x; try discriminate. simpl in hx. subst. destruct y; try discriminate; simpl in *; subst; reflexivity.
Qed.
(** subtracting a non-negative number (or NaN) from a finite one does not overflow upwards *)
Lemma sub_nneg x y : fvalid x -> fvalid y -> ffin x -> nneg y ->
  ffin (nsub FN x y) \/ nsub FN x y = S754_nan \/ nsub FN x y = S754_infinity true.
Proof.
  intros vx vy. tob. unfold nsub, FN. rewrite sub_equiv, nneg_B2SF, !ffin_B2SF.
  rename x1 into x, x0 into y. intros fx hy.
  destruct (is_nan y) eqn:ny; [destruct y; try discriminate; right; left; destruct x; reflexivity|].
  destruct hy as [?|hy]; [discriminate|].
  destruct (is_finite y) eqn:fy.
  - pose proof (Bminus_correct prec emax Hprec Hemax mode_NE x y fx fy) as h.
    destruct (Rlt_bool _ _).
    + left. apply h.
    + right. right. destruct h as (-> & h). rewrite h, hy. reflexivity.
  - right. right. destruct y; try discriminate. simpl in hy. subst. destruct x; try discriminate; reflexivity.
Qed.
