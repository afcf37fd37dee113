(** * C78: diagonal matrices: no iteration, no fill-in, and what binary64 makes of them *)
From Coq Require Import Reals Lra List Arith Lia Bool ZArith.
From Coq.Floats Require Import SpecFloat.
From Flocq Require Import Core BinarySingleNaN.
From Verif Require Import Scalar Arr MBase MDirect MDecomp MEigh Inst Hoare Spec SpecF RLin PTri PChol PRound PTriF PCholF PFloat PHouseF PGivF PTrdF PApx PEigG PEighR PDiag Ex.
Import ListNotations.
Local Open Scope R_scope.

(** ** Specification *)
(** one of the two zeros of binary64 *)
Definition fzero (x : FN) : Prop := exists s, x = S754_zero s.
(** equal, or both zero *)
Definition same_number (x y : FN) : Prop := x = y \/ fzero x /\ fzero y.
(** finite entries on the diagonal and zeros elsewhere *)
Definition diagonal_f (n : nat) (a : mat FN) : Prop := nr a = n /\ nc a = n /\
  (forall i, (i < n)%nat -> fokx (get a i i)) /\ forall i j, (i < n)%nat -> (j < n)%nat -> i <> j -> fzero (get a i j).
Definition diagonal_r (n : nat) (a : mat RN) : Prop := nr a = n /\ nc a = n /\
  forall i j, (i < n)%nat -> (j < n)%nat -> i <> j -> ent a i j = 0.
(** [m] is the largest of the absolute values on the diagonal *)
Definition largest_diag (n : nat) (a : mat FN) (m : FN) : Prop := fokx m /\
  (forall i, (i < n)%nat -> Rabs (frm a i i) <= fr m) /\ exists i, (i < n)%nat /\ Rabs (frm a i i) = fr m.
(** the identity matrix, exactly *)
Definition is_identity {N : Num} (n : nat) (w : mat N) : Prop := nr w = n /\ nc w = n /\
  forall i j, (i < n)%nat -> (j < n)%nat -> get w i j = if Nat.eqb i j then n1 N else n0 N.

(** ** Zeros *)
Lemma sgn_0 : nsignum RN 0 = 1.
Proof. change ((if Rltb 0 0 then -1 else 1) = 1). unfold Rltb. destruct (Rlt_dec 0 0); [lra|reflexivity]. Qed.
Lemma zeros_R : zeros_ok RN (fun x => x = 0 :> R).
Proof.
  split.
  - reflexivity.
  - intros x y h h'. change (x + y = 0). lra.
  - intros x h. change (x - 0 = 0). lra.
  - intros x y h h'. change (x * y = 0). rewrite h. ring.
  - intros x h. change (x * 1 = 0). lra.
  - intros x h. change (x * (2 / 1) = 0). lra.
  - intros x h. change (x * - (2 / 1) = 0). lra.
  - intros x h. change (Rabs x = 0). rewrite h. apply Rabs_R0.
  - intros x h. change (sqrt x = 0). rewrite h. apply sqrt_0.
  - intros x y h h'. change (nsignum RN x * y = 0). rewrite h'. ring.
  - intros x h. change (Reqb x 0 = true). unfold Reqb. destruct (Req_EM_T x 0); auto; lra.
  - intros x a b h. change (Rltb (/ IZR (2 ^ 52) * (Rabs a + Rabs b)) (Rabs x) = false). rewrite h, Rabs_R0. unfold Rltb. destruct (Rlt_dec _ 0) as [hl|]; auto. exfalso.
    assert (0 <= / IZR (2 ^ 52) * (Rabs a + Rabs b)); [|lra].
    apply Rmult_le_pos; [|pose proof (Rabs_pos a); pose proof (Rabs_pos b); lra]. apply Rlt_le, Rinv_0_lt_compat, IZR_lt. reflexivity.
  - intros x h. change (0 + x = 0). lra.
  - intros x h. change (1 + x = 1). lra.
  - change (0 * nsignum RN 0 = 0). ring.
  - change (1 * nsignum RN 0 = 1). rewrite sgn_0. ring.
Qed.

Definition nonneg_or_nan (x : spec_float) : Prop := x = S754_nan \/ nonneg x.
Lemma nn_abs x : nonneg_or_nan (SFabs x).
Proof. destruct x; [right|right|left|right]; cbn; auto. Qed.
Lemma nn_add x y : nonneg_or_nan x -> nonneg_or_nan y -> nonneg_or_nan (SFadd prec emax x y).
Proof. intros [->|hx]; [left; reflexivity|]. intros [->|hy]; [left; destruct x; reflexivity|]. right. apply SFadd_nonneg; auto. Qed.
Lemma nn_eps x : nonneg_or_nan x -> nonneg_or_nan (SFmul prec emax (nepsilon FN) x).
Proof.
  intros [->|hx]; [left; reflexivity|]. set (e := nepsilon FN).
  assert (he : exists m k, e = S754_finite false m k) by (vm_compute; eauto). destruct he as (m & k & ->).
  destruct x as [s|s| |s m' k']; cbn in hx; try tauto; subst; cbn [SFmul xorb]; try (right; cbn; auto; fail).
  right. apply signed_nonneg, binary_round_aux_signed. lia.
Qed.
Lemma nn_lt x s : nonneg_or_nan x -> SFltb x (S754_zero s) = false.
Proof. intros [->|h]; [reflexivity|]. destruct x as [t|t| |t m e]; cbn in h; try tauto; subst; destruct s; reflexivity. Qed.
Lemma zeros_F : zeros_ok FN fzero.
Proof.
  split.
  - exists false. reflexivity.
  - intros x y (s & ->) (t & ->). destruct s, t; eexists; reflexivity.
  - intros x (s & ->). destruct s; eexists; reflexivity.
  - intros x y (s & ->) (t & ->). destruct s, t; eexists; reflexivity.
  - intros x (s & ->). destruct s; eexists; vm_compute; reflexivity.
  - intros x (s & ->). destruct s; eexists; vm_compute; reflexivity.
  - intros x (s & ->). destruct s; eexists; vm_compute; reflexivity.
  - intros x (s & ->). destruct s; eexists; reflexivity.
  - intros x (s & ->). destruct s; eexists; reflexivity.
  - intros x y (s & ->) (t & ->). destruct s, t; eexists; vm_compute; reflexivity.
  - intros x (s & ->). destruct s; reflexivity.
  - intros x a b (s & ->). apply nn_lt, nn_eps, nn_add; apply nn_abs.
  - intros x (s & ->). destruct s; reflexivity.
  - intros x (s & ->). destruct s; reflexivity.
  - reflexivity.
  - vm_compute. reflexivity.
Qed.

(** ** eigh *)
(** In exact arithmetic, with any fuel: the diagonal itself and the identity *)
Lemma low_R n (a : mat RN) : diagonal_r n a -> low0 (N := RN) (Z := fun x => x = 0 :> R) n (scale_down a (abs_max a)).
Proof.
  intros (e1 & e2 & h) i j hj hi. unfold scale_down. destruct (negb _).
  - rewrite get_mmap by lia. change (ent a i j / abs_max a = 0). rewrite h by lia. unfold Rdiv. ring.
  - apply (h i j); lia.
Qed.
Lemma eigh_of {N : Num} fuel (a : mat N) n (P : list N -> Prop) (Q : mat N -> Prop) :
  wp (symmetric_eig fuel a true (nepsilon N)) (fun '(vals, q) => length vals = n /\ P vals /\ exists w, q = Some w /\ Q w) ->
  exists vals w, eigh fuel a = Ret (vals, w) /\ length vals = n /\ P vals /\ Q w.
Proof.
  intros h. apply wp_ret in h. destruct h as ([vals q] & e & h1 & h2 & w & -> & h3). exists vals, w. unfold eigh. rewrite e. auto.
Qed.
Lemma eigvalsh_of {N : Num} fuel (a : mat N) n (P : list N -> Prop) :
  wp (symmetric_eig fuel a false (nepsilon N)) (fun '(vals, q) => length vals = n /\ P vals /\ q = None) ->
  exists vals, eigvalsh fuel a = Ret vals /\ length vals = n /\ P vals.
Proof. intros h. apply wp_ret in h. destruct h as ([vals q] & e & h1 & h2 & _). exists vals. unfold eigvalsh. rewrite e. auto. Qed.
Lemma scale_back_R n (a : mat RN) i : nr a = n -> nc a = n -> (i < n)%nat -> nmul RN (get (scale_down a (abs_max a)) i i) (abs_max a) = ent a i i :> R.
Proof.
  intros e1 e2 hi. unfold scale_down. change (neq RN (abs_max a) (n0 RN)) with (Reqb (abs_max a) 0). unfold Reqb.
  destruct (Req_EM_T (abs_max a) 0) as [h|h]; cbn [negb].
  - change (ent a i i * abs_max a = ent a i i). rewrite h. destruct (abs_max_real a) as (h2 & _); try lia.
    pose proof (h2 i i ltac:(lia) ltac:(lia)) as h3. rewrite h in h3. pose proof (Rabs_pos (ent a i i)).
    assert (ent a i i = 0) as ->; [|ring]. destruct (Req_dec (ent a i i) 0) as [|hne]; auto. apply Rabs_pos_lt in hne. lra.
  - rewrite get_mmap by lia. change (ent a i i / abs_max a * abs_max a = ent a i i). field. exact h.
Qed.
Theorem C78_eigh_exact n fuel (a : mat RN) : diagonal_r n a -> (1 <= n)%nat ->
  (exists vals w, eigh fuel a = Ret (vals, w) /\ length vals = n /\ (forall i, (i < n)%nat -> vent vals i = ent a i i) /\ is_identity n w) /\
  (exists vals, eigvalsh fuel a = Ret vals /\ length vals = n /\ forall i, (i < n)%nat -> vent vals i = ent a i i).
Proof.
  intros hd hn. pose proof hd as (e1 & e2 & _). split.
  - apply eigh_of. eapply post_mono; [apply (symeig_zero zeros_R n fuel a true); auto; apply low_R; auto|].
    intros [vals q] (h1 & h2 & h3). repeat split; auto. intros i hi. unfold vent. rewrite h2 by auto. apply scale_back_R with n; auto.
  - apply eigvalsh_of. eapply post_mono; [apply (symeig_zero zeros_R n fuel a false); auto; apply low_R; auto|].
    intros [vals q] (h1 & h2 & h3). repeat split; auto. intros i hi. unfold vent. rewrite h2 by auto. apply scale_back_R with n; auto.
Qed.
Print Assumptions C78_eigh_exact.

(** In binary64, with any fuel, for every size: the eigenvectors are exactly the identity, and each value is the diagonal entry
    divided by the largest one and multiplied by it again, two roundings *)
Lemma fzero_fr (x : FN) : fzero x -> fr x = 0. Proof. intros (s & ->). reflexivity. Qed.
Lemma fzero_ok (x : FN) : fzero x -> fokx x. Proof. intros (s & ->). split; reflexivity. Qed.
Lemma fr_zero (x : FN) : fokx x -> fr x = 0 -> fzero x. Proof. intros (_ & h) e. exact (zero_sf x h e). Qed.
Lemma diag_max n (a : mat FN) : diagonal_f n a -> (1 <= n)%nat -> largest_diag n a (abs_max a).
Proof.
  intros (e1 & e2 & h1 & h2) hn.
  assert (ha : forall i j, (i < n)%nat -> (j < n)%nat -> fokx (get a i j)).
  { intros i j hi hj. destruct (Nat.eq_dec i j) as [->|]; auto. apply fzero_ok; auto. }
  destruct (abs_max_f a n e1 e2 hn ha) as (g1 & g2 & i & j & hi & hj & g3). split; auto. split; [intros k hk; apply (g2 k k); auto|].
  destruct (Nat.eq_dec i j) as [->|ne]; [eauto|]. exists i. split; auto. apply Rle_antisym; [apply g2; auto|].
  rewrite <- g3. unfold frm. rewrite (fzero_fr (get a i j)) by auto. rewrite Rabs_R0. apply Rabs_pos.
Qed.
Lemma neq_zero (m : FN) : fokx m -> negb (neq FN m (n0 FN)) = if Req_EM_T (fr m) 0 then false else true.
Proof.
  intros hm. destruct (Req_EM_T (fr m) 0) as [e|ne].
  - destruct (fr_zero m hm e) as (s & ->). destruct s; reflexivity.
  - destruct hm as (_ & hf). destruct m as [s|s| |s p e]; try discriminate hf; [exfalso; apply ne; reflexivity|]. destruct s; reflexivity.
Qed.
Lemma zero_div (x m : FN) : fzero x -> fokx m -> fr m <> 0 -> fzero (ndiv FN x m).
Proof. intros (s & ->) (_ & hf) ne. destruct m as [t|t| |t p e]; try discriminate hf; [exfalso; apply ne; reflexivity|]. eexists. reflexivity. Qed.
Lemma low_F n (a : mat FN) : diagonal_f n a -> (1 <= n)%nat -> low0 (N := FN) (Z := fzero) n (scale_down a (abs_max a)).
Proof.
  intros hd hn i j hj hi. destruct (diag_max n a hd hn) as (hm & _). destruct hd as (e1 & e2 & _ & h). unfold scale_down. rewrite neq_zero by auto.
  destruct (Req_EM_T _ _); [apply h; lia|]. rewrite get_mmap by lia. apply zero_div; auto. apply h; lia.
Qed.
Definition rescaled (m x : FN) : FN := nmul FN (ndiv FN x m) m.
Lemma scale_back_F n (a : mat FN) i : diagonal_f n a -> (1 <= n)%nat -> (i < n)%nat -> let m := abs_max a in
  let v := nmul FN (get (scale_down a m) i i) m in if Req_EM_T (fr m) 0 then fzero v else v = rescaled m (get a i i).
Proof.
  intros hd hn hi m v. destruct (diag_max n a hd hn) as (hm & hm1 & _). fold m in hm, hm1. pose proof hd as (e1 & e2 & h1 & h).
  unfold v, scale_down. rewrite neq_zero by auto. destruct (Req_EM_T (fr m) 0) as [e|ne].
  - apply (z_mul _ _ zeros_F); [|apply fr_zero; auto]. apply fr_zero; auto. pose proof (hm1 i hi) as hh. rewrite e in hh. unfold frm in hh.
    destruct (Req_dec (fr (get a i i)) 0) as [|hne]; auto. apply Rabs_pos_lt in hne. lra.
  - rewrite get_mmap by lia. reflexivity.
Qed.
Theorem C78_eigh_binary64 n fuel (a : mat FN) : diagonal_f n a -> (1 <= n)%nat ->
  exists m, largest_diag n a m /\
  let good := fun vals : list FN => length vals = n /\ forall i, (i < n)%nat ->
    if Req_EM_T (fr m) 0 then fzero (vget vals i) else vget vals i = rescaled m (get a i i) in
  (exists vals w, eigh fuel a = Ret (vals, w) /\ good vals /\ is_identity n w) /\ (exists vals, eigvalsh fuel a = Ret vals /\ good vals).
Proof.
  intros hd hn. exists (abs_max a). split; [apply diag_max; auto|]. pose proof hd as (e1 & e2 & _). intros good. split.
  - destruct (eigh_of fuel a n good (is_identity n)) as (vals & w & h1 & h2 & h3 & h4); [|exists vals, w; auto].
    eapply post_mono; [apply (symeig_zero zeros_F n fuel a true); auto; apply low_F; auto|].
    intros [vals q] (h1 & h2 & w & h3 & h4). repeat split; auto; [|exists w; split; auto].
    intros i hi. rewrite h2 by auto. apply (scale_back_F n a i); auto.
  - destruct (eigvalsh_of fuel a n good) as (vals & h1 & h2 & h3); [|exists vals; auto].
    eapply post_mono; [apply (symeig_zero zeros_F n fuel a false); auto; apply low_F; auto|].
    intros [vals q] (h1 & h2 & h3). repeat split; auto. intros i hi. rewrite h2 by auto. apply (scale_back_F n a i); auto.
Qed.
Print Assumptions C78_eigh_binary64.

(** The relative error of the two roundings is at most 3 u, as long as nothing underflows *)
Theorem C78_error n (a : mat FN) m i : diagonal_f n a -> largest_diag n a m -> (i < n)%nat -> 0 < fr m <= bpow radix2 1021 ->
  fokx (rescaled m (get a i i)) /\ Rabs (fr (rescaled m (get a i i)) - frm a i i) <= 3 * uro * Rabs (frm a i i) + 2 * (fr m + 1) * eta.
Proof.
  intros (e1 & e2 & h1 & _) (m1 & m2 & _) hi (p0 & p1). pose proof (h1 i hi) as hx. pose proof (m2 i hi) as hm. unfold frm in *. set (x := get a i i) in *.
  assert (hu : 0 < uro <= / 1024). { unfold uro. split; [apply Rinv_0_lt_compat, IZR_lt; reflexivity|]. apply Rinv_le; [lra|]. apply IZR_le. cbv. discriminate. }
  assert (he : 0 < eta <= / 1024). { unfold eta. split; [apply bpow_gt_0|]. change (/ 1024) with (bpow radix2 (-10)). apply bpow_le. lia. }
  assert (hq : Rabs (fr x / fr m) <= 1). { unfold Rdiv. rewrite Rabs_mult, (Rabs_pos_eq (/ fr m)) by (apply Rlt_le, Rinv_0_lt_compat; auto). apply (Rmult_le_reg_r (fr m)); auto. rewrite Rmult_assoc, Rinv_l by lra. lra. }
  assert (b1 : 1 <= bpow radix2 1023) by (change 1 with (bpow radix2 0); apply bpow_le; lia).
  destruct (div_err x m hx m1 ltac:(lra) ltac:(lra)) as (q1 & q2). set (q := ndiv FN x m) in *.
  assert (hqb : Rabs (fr q) <= 2). { replace (fr q) with ((fr q - fr x / fr m) + fr x / fr m) by ring. eapply Rle_trans; [apply Rabs_triang|]. nra. }
  assert (b2 : 4 * bpow radix2 1021 = bpow radix2 1023) by (change 4 with (bpow radix2 2); rewrite <- bpow_plus; reflexivity).
  pose proof (Rabs_pos_eq (fr m) ltac:(lra)) as ham.
  destruct (mul_err q m q1 m1) as (v1 & v2). { rewrite ham. pose proof (bpow_gt_0 radix2 1021). pose proof (Rabs_pos (fr q)). nra. }
  split; [exact v1|]. unfold rescaled. fold q. rewrite ham in v2.
  assert (hax : Rabs (fr x / fr m) * fr m = Rabs (fr x)). { rewrite <- ham at 2. rewrite <- Rabs_mult. f_equal. field. lra. }
  assert (hd : Rabs (fr q * fr m - fr x) <= uro * Rabs (fr x) + eta * fr m).
  { replace (fr q * fr m - fr x) with ((fr q - fr x / fr m) * fr m) by (field; lra). rewrite Rabs_mult, ham.
    replace (uro * Rabs (fr x) + eta * fr m) with ((uro * Rabs (fr x / fr m) + eta) * fr m) by (rewrite <- hax; ring). apply Rmult_le_compat_r; lra. }
  assert (hqm : Rabs (fr q) * fr m <= Rabs (fr x) + (uro * Rabs (fr x) + eta * fr m)).
  { rewrite <- ham. rewrite <- Rabs_mult. replace (fr q * fr m) with ((fr q * fr m - fr x) + fr x) by ring. eapply Rle_trans; [apply Rabs_triang|]. rewrite ham. lra. }
  set (v := nmul FN q m) in *. replace (fr v - fr x) with ((fr v - fr q * fr m) + (fr q * fr m - fr x)) by ring. eapply Rle_trans; [apply Rabs_triang|].
  pose proof (Rabs_pos (fr x)) as hpx. set (X := Rabs (fr x)) in *. set (y := Rabs (fr q) * fr m) in *.
  assert (uro * y <= uro * X + uro * (uro * X) + uro * (eta * fr m)) by (clear - hqm hu; nra).
  assert (uro * (uro * X) <= uro * X) by (apply Rmult_le_compat_l; [lra|]; rewrite <- (Rmult_1_l X) at 2; apply Rmult_le_compat_r; lra).
  assert (0 <= eta * fr m) by (clear - he p0; nra).
  assert (uro * (eta * fr m) <= eta * fr m) by (rewrite <- (Rmult_1_l (eta * fr m)) at 2; apply Rmult_le_compat_r; lra). lra.
Qed.
Print Assumptions C78_error.

(** The values are not always the diagonal itself: the eigenvalues of diag(49, 1) in binary64 *)
Theorem C78_binary64_exact_refuted : exists a vals w, diagonal_f 2 a /\ eigh 10 a = Ret (vals, w) /\ SFeqb (vget vals 1) (get a 1 1) = false.
Proof.
  set (a := fmat 2 [[49; 0]; [0; 1]]%Z).
  assert (hd : diagonal_f 2 a).
  { split; [reflexivity|]. split; [reflexivity|]. split.
    - intros [|[|i]] hi; [| |lia]; split; vm_compute; reflexivity.
    - intros [|[|i]] [|[|j]] hi hj ne; try lia; exists false; reflexivity. }
  destruct (C78_eigh_binary64 2 10 a hd ltac:(lia)) as (m & hm & (vals & w & h1 & (h2 & h3) & h4) & _).
  exists a, vals, w. split; auto. split; auto.
  assert (e : match eigh 10 a with Ret (v, _) => SFeqb (vget v 1) (get a 1 1) | _ => true end = false) by (vm_compute; reflexivity).
  rewrite h1 in e. exact e.
Qed.
Print Assumptions C78_binary64_exact_refuted.

(** ** Triangular systems and Cholesky *)
Definition fnormal (x : FN) : Prop := fokx x /\ fr x <> 0.
Lemma fnormal_inv (x : FN) : fnormal x -> exists s m e, x = S754_finite s m e.
Proof. intros ((_ & hf) & ne). destruct x as [s|s| |s m e]; try discriminate hf; [exfalso; apply ne; reflexivity|eauto]. Qed.
Lemma zero_mul_l (x y : FN) : ffin x -> fzero y -> fzero (nmul FN x y).
Proof. intros hx (s & ->). destruct x; try discriminate hx; eexists; reflexivity. Qed.
Lemma add_zero_same (x y z : FN) : same_number x z -> ffin z -> fzero y -> same_number (nadd FN x y) z.
Proof.
  intros [->|((s & ->) & hz)] hf (t & ->).
  - destruct z as [r|r| |r m e]; try discriminate hf; [right; split; [destruct r, t|]; eexists; reflexivity|left; reflexivity].
  - right. split; auto. destruct s, t; eexists; reflexivity.
Qed.
Lemma sub_zero_same (x y z : FN) : same_number x z -> ffin z -> fzero y -> same_number (nsub FN x y) z.
Proof.
  intros [->|((s & ->) & hz)] hf (t & ->).
  - destruct z as [r|r| |r m e]; try discriminate hf; [right; split; [destruct r, t|]; eexists; reflexivity|left; reflexivity].
  - right. split; auto. destruct s, t; eexists; reflexivity.
Qed.
Lemma div_same (x y d : FN) : same_number x y -> fnormal d -> same_number (ndiv FN x d) (ndiv FN y d).
Proof.
  intros [->|((s & ->) & (t & ->))] hd; [left; reflexivity|]. destruct (fnormal_inv d hd) as (r & m & e & ->). right. split; eexists; reflexivity.
Qed.
Lemma same_fin (x y : FN) : same_number x y -> ffin y -> ffin x.
Proof. intros [->|((s & ->) & _)]; auto. intros _. reflexivity. Qed.
Lemma opp_fin (x : FN) : ffin x -> ffin (nopp FN x). Proof. destruct x; auto. Qed.
Lemma elim_zero (t x : nat -> FN) (b : FN) m : ffin b -> (forall q, (q < m)%nat -> fzero (t q) /\ ffin (x q)) -> same_number (elim t x b m) b.
Proof.
  intros hb. induction m as [|m IH]; intros h; [left; reflexivity|]. cbn [elim]. apply add_zero_same; auto.
  destruct (h m) as (h1 & h2); auto. apply zero_mul_l; auto. apply opp_fin; auto.
Qed.
Lemma ord_ord u n q : (q < n)%nat -> ord u n (ord u n q) = q /\ (ord u n q < n)%nat. Proof. destruct u; unfold ord; lia. Qed.

(** One division for each entry: nothing off the diagonal changes a value *)
Theorem C78_solve_triangular n u (a b : mat FN) : diagonal_f n a -> (forall i, (i < n)%nat -> frm a i i <> 0) -> nr b = n ->
  (forall i k, (i < n)%nat -> (k < nc b)%nat -> ffin (get b i k) /\ ffin (ndiv FN (get b i k) (get a i i))) ->
  exists x, solve_triangular a b u = Ret x /\ nr x = n /\ nc x = nc b /\
    forall i k, (i < n)%nat -> (k < nc b)%nat -> same_number (get x i k) (ndiv FN (get b i k) (get a i i)).
Proof.
  intros (e1 & e2 & ha & hz) hd hb hf.
  assert (hw : wp (solve_triangular a b u) (fun x => nr x = nr b /\ nc x = nc b /\ forall p k, (p < nr a)%nat -> (k < nc b)%nat ->
      get x p k = ndiv FN (row_val a b x u k p (ord u (nr a) p)) (get a p p))).
  { unfold solve_triangular. apply (solve_system_exact a b u _ (fun i => get a i i)); try lia. intros i hi. unfold at2. bd. reflexivity. }
  destruct (wp_ret _ _ hw) as (x & hx & x1 & x2 & x3). exists x. split; auto. split; [lia|]. split; auto. rewrite e1 in x3.
  assert (hs : forall s p k, (ord u n p < s)%nat -> (p < n)%nat -> (k < nc b)%nat -> same_number (get x p k) (ndiv FN (get b p k) (get a p p))).
  { induction s as [|s IH]; intros p k hs hp hk; [lia|]. rewrite x3 by auto. apply div_same.
    - unfold row_val. rewrite e1. apply elim_zero; [apply hf; auto|]. intros q hq.
      assert (hqn : (q < n)%nat) by (destruct (ord_ord u n p hp); lia). destruct (ord_ord u n q hqn) as (o1 & o2). split.
      + apply hz; auto. intros ->. rewrite o1 in hq. lia.
      + eapply same_fin; [apply IH; auto; lia|]. apply hf; auto.
    - split; [apply ha; auto|apply hd; auto]. }
  intros i k hi hk. apply (hs (S (ord u n i))); auto.
Qed.
Print Assumptions C78_solve_triangular.

Lemma sqrt_normal (x : FN) : fokx x -> 0 < fr x -> fnormal (nsqrt FN x).
Proof.
  intros hx hp. destruct (sqrt_ok x hx (Rlt_le _ _ hp)) as (h1 & d & h2 & h3). split; auto. rewrite h3.
  apply Rmult_integral_contrapositive. split; [apply Rgt_not_eq, sqrt_lt_R0; auto|]. apply Rabs_le_inv in h2. assert (hu : uro <= / 1024) by (unfold uro; apply Rinv_le; [lra|]; apply IZR_le; cbv; discriminate). lra.
Qed.
Definition positive_diag (n : nat) (a : mat FN) : Prop := diagonal_f n a /\ forall i, (i < n)%nat -> 0 < frm a i i.
Lemma sum_zero (m : nat) (f : nat -> FN) : (forall i, (i < m)%nat -> fzero (f i)) -> fzero (sumn m f).
Proof.
  induction m as [|m IH]; intros h; [exists false; reflexivity|]. simpl. destruct (IH ltac:(auto)) as (s & ->). destruct (h m) as (t & ->); auto. destruct s, t; eexists; reflexivity.
Qed.
Lemma zero_mul (x y : FN) : fzero x -> fzero y -> fzero (nmul FN x y). Proof. intros (s & ->) (t & ->). eexists. reflexivity. Qed.
Lemma same_normal (x y : FN) : same_number x y -> fnormal y -> x = y.
Proof. intros [->|(_ & h)] (_ & hn); auto. exfalso. apply hn, fzero_fr, h. Qed.
Lemma off_zero n (a m : mat FN) p q : positive_diag n a -> (q < p)%nat -> (p < n)%nat ->
  (forall i, (i < q)%nat -> fzero (get m q i) /\ fzero (get m p i)) -> get m q q = nsqrt FN (get a q q) -> fzero (chol_off a m p q).
Proof.
  intros ((_ & _ & ha & hz) & hp) hq hpn h e. unfold chol_off. rewrite e. destruct (sqrt_normal (get a q q)) as (h1 & h2); [apply ha; lia|apply hp; lia|].
  apply zero_div; auto. assert (hs : fzero (sumn q (fun i => nmul FN (get m q i) (get m p i)))) by (apply sum_zero; intros i hi; apply zero_mul; apply h; auto).
  destruct hs as (s & ->). destruct (hz p q) as (t & ->); try lia. destruct s, t; eexists; reflexivity.
Qed.
Lemma pivot_same n (a m : mat FN) p : positive_diag n a -> (p < n)%nat -> (forall i, (i < p)%nat -> fzero (get m p i)) -> chol_pivot a m p = get a p p.
Proof.
  intros ((_ & _ & ha & hz) & hp) hpn h. unfold chol_pivot. assert (hn : fnormal (get a p p)) by (split; [apply ha; auto|apply Rgt_not_eq, hp; auto]).
  apply same_normal; auto. apply sub_zero_same; [left; reflexivity|apply hn|]. apply sum_zero. intros i hi. apply zero_mul; auto.
Qed.
Lemma diag_chol n (a m : mat FN) j : positive_diag n a -> chol_ex a n j m -> (j <= n)%nat ->
  forall p, (p < j)%nat -> get m p p = nsqrt FN (get a p p) /\ forall q, (q < p)%nat -> fzero (get m p q).
Proof.
  intros hd (i1 & i2 & i3 & i4 & i5) hj. apply (well_founded_induction Wf_nat.lt_wf (fun p => (p < j)%nat -> get m p p = nsqrt FN (get a p p) /\ forall q, (q < p)%nat -> fzero (get m p q))).
  intros p IH hp.
  assert (ho : forall q, (q < p)%nat -> fzero (get m p q)).
  { apply (well_founded_induction Wf_nat.lt_wf (fun q => (q < p)%nat -> fzero (get m p q))). intros q IHq hq. rewrite i3 by auto.
    apply (off_zero n); auto; try lia; [|apply IH; lia]. intros i hi. split; [apply (IH q); lia|apply IHq; lia]. }
  split; auto. destruct (i4 p hp) as (_ & ->). rewrite (pivot_same n); auto. lia.
Qed.
Lemma chol_row_diag n (a m : mat FN) j : positive_diag n a -> (j < n)%nat -> chol_ex a n j m -> exists m', chol_row j m = (m', Ret tt).
Proof.
  intros hd hj hi. pose proof (diag_chol n a m j hd hi (Nat.lt_le_incl _ _ hj)) as hc. unfold chol_row.
  destruct (wp_ret _ _ (chol_loop_exact a n j m hj hi)) as ([m1 d] & -> & h1 & h2 & h3 & h4 & h5).
  cbn [fst snd] in h1, h2, h3, h4, h5. destruct hi as (i1 & i2 & i3 & i4 & i5).
  assert (ho : forall q, (q < j)%nat -> fzero (get m1 j q)).
  { apply (well_founded_induction Wf_nat.lt_wf (fun q => (q < j)%nat -> fzero (get m1 j q))). intros q IHq hq. rewrite h4 by auto.
    apply (off_zero n); auto; try lia; [|rewrite h3 by lia; apply hc; lia]. intros i hi. split; [rewrite h3 by lia; apply hc; lia|apply IHq; lia]. }
  unfold at2. rewrite h1, h2. bd. rewrite h3 by lia. rewrite i5 by lia. rewrite h5.
  change (nsub FN (get a j j) (sumn j (fun i => nmul FN (get m1 j i) (get m1 j i)))) with (chol_pivot a m1 j). rewrite (pivot_same n) by auto.
  destruct hd as ((_ & _ & ha & _) & hp). assert (hle : nle FN (get a j j) (n0 FN) = false).
  { specialize (hp j hj). specialize (ha j hj). unfold frm in hp. destruct (get a j j) as [s|s| |s p e]; try (exfalso; apply (Rlt_irrefl 0); exact hp).
    destruct s; [|reflexivity]. exfalso. apply (Rlt_irrefl 0). eapply Rlt_trans; [exact hp|]. unfold fr. cbn. apply F2R_lt_0. reflexivity. }
  rewrite hle. unfold atm2. rewrite h1, h2. bd. cbn [andb]. eauto.
Qed.
Lemma chol_rows_diag n (a : mat FN) cnt : positive_diag n a -> forall j m, (j + cnt = n)%nat -> chol_ex a n j m -> exists m', chol_rows cnt j m = (m', Ret tt).
Proof.
  intros hd. induction cnt as [|c IH]; intros j m hj hi; [eexists; reflexivity|]. cbn [chol_rows].
  destruct (chol_row_diag n a m j hd ltac:(lia) hi) as (m' & e). rewrite e. apply IH; [lia|]. eapply chol_row_exact; eauto. lia.
Qed.

(** Square roots of the diagonal, each rounded once; zeros elsewhere; no error *)
Theorem C78_cholesky n (a : mat FN) : positive_diag n a ->
  exists l, cholesky a = Ret l /\ nr l = n /\ nc l = n /\ (forall i, (i < n)%nat -> get l i i = nsqrt FN (get a i i)) /\
    forall i j, (i < n)%nat -> (j < n)%nat -> i <> j -> fzero (get l i j).
Proof.
  intros hd. pose proof hd as ((e1 & e2 & _) & _).
  assert (h0 : chol_ex a n 0 a) by (repeat split; auto; intros; lia).
  destruct (chol_rows_diag n a n hd 0 a ltac:(lia) h0) as (m & hm). pose proof (chol_rows_exact a n n 0 a m ltac:(lia) h0 hm) as hx.
  pose proof (diag_chol n a m n hd hx (le_n n)) as hc. destruct hx as (i1 & i2 & _).
  destruct (wp_ret _ _ (triangular_inplace_ok m Lower ltac:(lia))) as (l & hl & l1 & l2 & l3 & l4). exists l.
  split. { unfold cholesky, cholesky_dirty, cholesky_inplace_dirty, check_square. rewrite e1, e2, Nat.eqb_refl, hm. cbn [bind]. exact hl. }
  split; [lia|]. split; [lia|]. split.
  - intros i hi. rewrite l4 by (try lia; unfold outside; lia). apply hc; auto.
  - intros i j hi hj ne. destruct (Nat.lt_ge_cases j i).
    + rewrite l4 by (try lia; unfold outside; lia). apply hc; auto.
    + rewrite l3 by (try lia; unfold outside; lia). exists false. reflexivity.
Qed.
Print Assumptions C78_cholesky.

(** ** Instances: diag(4, 9, 1) *)
Definition diag_ex : mat FN := fmat 3 [[4; 0; 0]; [0; 9; 0]; [0; 0; 1]]%Z.
Example diag_ex_ok : positive_diag 3 diag_ex.
Proof.
  split; [split; [reflexivity|split; [reflexivity|split]]|].
  - intros [|[|[|i]]] hi; try lia; split; vm_compute; reflexivity.
  - intros [|[|[|i]]] [|[|[|j]]] hi hj ne; try lia; exists false; reflexivity.
  - intros [|[|[|i]]] hi; try lia; apply F2R_gt_0; reflexivity.
Qed.
Example diag_ex_chol : match cholesky diag_ex with Ret l => SFeqb (get l 1 1) (f_of_Z 3%Z) && SFeqb (get l 1 0) (n0 FN) | _ => false end = true.
Proof. vm_compute. reflexivity. Qed.
Example diag_ex_eigh : match eigh 0 diag_ex with Ret (v, w) => SFeqb (vget v 0) (f_of_Z 4%Z) && SFeqb (get w 0 0) (n1 FN) && SFeqb (get w 0 1) (n0 FN) | _ => false end = true.
Proof. vm_compute. reflexivity. Qed.
Example diag_ex_solve : match solve_triangular diag_ex (fmat 1 [[8]; [27]; [1]]%Z) Upper with Ret x => SFeqb (get x 1 0) (f_of_Z 3%Z) | _ => false end = true.
Proof. vm_compute. reflexivity. Qed.
