(** * norm.rs in floating point *)
From Coq Require Import Reals List Arith Lia Lra Bool.
From Coq.Floats Require Import SpecFloat.
From Flocq Require Import Core BinarySingleNaN.
From Verif Require Import Scalar Arr MBase MDirect Inst Hoare Spec SpecF RLin PNorm PRound PTriF PCholF.
Import ListNotations.
Local Open Scope R_scope.

Lemma fold_sumn {N : Num} (f : N -> N) (v : list N) :
  fold_left (fun acc x => nadd N acc (f x)) v (n0 N) = sumn (length v) (fun i => f (vget v i)).
Proof.
  induction v as [|x v IH] using rev_ind; auto.
  rewrite fold_left_app, app_length, Nat.add_comm. cbn [fold_left length Nat.add sumn]. f_equal.
  - rewrite IH. apply sumn_ext. intros i hi. unfold vget. rewrite app_nth1 by auto. reflexivity.
  - unfold vget. rewrite app_nth2, Nat.sub_diag by lia. reflexivity.
Qed.

Lemma sum_std (f : nat -> FN) m : (forall j, (j < m)%nat -> fvalid (f j)) -> ffin (sumn m f) ->
  (forall j, (j < m)%nat -> ffin (f j)) /\
  exists D, (forall j, (j < m)%nat -> near m (D j)) /\ fr (sumn m f) = Rsum m (fun j => fr (f j) * D j).
Proof.
  intros hv. induction m as [|m IH]; intros hf.
  - split; [intros; lia|]. exists (fun _ => 1). split; [intros; lia|reflexivity].
  - cbn [sumn] in hf.
    assert (vs : fvalid (sumn m f)) by (apply sumn_valid; auto).
    destruct (add_std _ _ vs (hv m ltac:(lia)) hf) as (f1 & f2 & d & hd & e1).
    destruct IH as (g1 & D & g3 & g6); auto.
    split. { intros j hj. destruct (Nat.eq_dec j m) as [->|]; auto. apply g1. lia. }
    exists (fun j => if Nat.eqb j m then (1 + d) else D j * (1 + d)). split.
    + intros j hj. destruct (Nat.eqb_spec j m) as [->|].
      * apply near_mono with 1%nat; [lia|]. now apply near_dlt.
      * replace (S m) with (m + 1)%nat by lia. apply near_mul; [|now apply near_dlt]. apply g3. lia.
    + cbn [Rsum sumn]. rewrite Nat.eqb_refl.
      rewrite (Rsum_ext m _ (fun j => fr (f j) * D j * (1 + d))).
      2:{ intros j hj. bd. ring. }
      rewrite Rsum_scal_r, e1, g6. ring.
Qed.

Lemma norm_l1_float (v : list FN) : (forall x, In x v -> fvalid x) -> ffin (norm_l1 v) ->
  let n := length v in let s := Rsum n (fun i => Rabs (frv v i)) in
  (forall x, In x v -> ffin x) /\ Rabs (fr (norm_l1 v) - s) <= gam n * s.
Proof.
  intros hv hf n s. unfold norm_l1 in *. rewrite (fold_sumn (nabs FN)) in *. fold n in hf.
  assert (hv' : forall j, (j < n)%nat -> fvalid (nabs FN (vget v j))).
  { intros j hj. apply fvalid_abs, hv, nth_In. auto. }
  destruct (sum_std (fun i => nabs FN (vget v i)) n hv' hf) as (g1 & D & g2 & g3). split.
  - intros x hx. destruct (In_nth _ _ (n0 FN) hx) as (i & hi & <-). apply ffin_abs. apply g1. auto.
  - fold n. rewrite g3. unfold s. rewrite <- Rsum_minus, <- Rsum_scal_l.
    eapply Rle_trans; [apply Rsum_abs|]. apply Rsum_le. intros i hi. rewrite fr_abs. fold (frv v i).
    replace (Rabs (frv v i) * D i - Rabs (frv v i)) with (Rabs (frv v i) * (D i - 1)) by ring.
    rewrite Rabs_mult, Rabs_Rabsolu, Rmult_comm. apply Rmult_le_compat_r; [apply Rabs_pos|]. apply g2. auto.
Qed.

Lemma norm_l2_float (v : list FN) : (forall x, In x v -> fvalid x) -> ffin (norm_l2 v) ->
  let n := length v in let s := vnorm2 n (frv v) in let r := fr (norm_l2 v) in
  (forall x, In x v -> ffin x) /\ 0 <= r /\
  Rabs (r * r - s) <= gam (n + 3) * s + (1 + uro) ^ (n + 3) * INR n * eta.
Proof.
  intros hv hf.
  assert (e0 : norm_l2 v = nsqrt FN (sumn (length v) (fun i => nmul FN (vget v i) (vget v i)))).
  { unfold norm_l2. now rewrite (fold_sumn (fun x => nmul FN x x)). }
  rewrite e0 in *. clear e0. set (n := length v) in *. cbv zeta. set (r := fr (nsqrt FN _)). set (s := vnorm2 _ _).
  assert (hv' : forall j, (j < n)%nat -> fvalid (vget v j)) by (intros j hj; apply hv, nth_In; auto).
  assert (vs : fvalid (sumn n (fun i => nmul FN (vget v i) (vget v i)))).
  { apply sumn_valid. intros. apply fvalid_mul; auto. }
  destruct (sqrt_rel _ vs hf) as (f1 & f2 & d & hd & e1).
  destruct (dot_std (vget v) (vget v) n ltac:(auto) f1) as (g1 & D & e & g2 & g3 & g4).
  fold r in e1. set (q := fr (sumn (N:=FN) n _)) in *.
  split. { intros x hx. destruct (In_nth _ _ (n0 FN) hx) as (i & hi & <-). apply (g1 i hi). }
  split. { rewrite e1. apply Rmult_le_pos; [apply sqrt_ge_0|]. left. now apply dlt_pos. }
  assert (er : r * r = q * ((1 + d) * (1 + d))).
  { rewrite e1. rewrite <- (sqrt_sqrt _ f2) at 3. ring. }
  set (C := (1 + d) * (1 + d)) in *.
  assert (hC : near (1 + 1) C) by (apply near_mul; now apply near_dlt).
  rewrite er, g4. unfold s, vnorm2.
  replace ((Rsum n (fun j => fr (vget v j) * fr (vget v j) * D j) + e) * C - Rsum n (fun i => frv v i * frv v i))
    with (Rsum n (fun i => frv v i * frv v i * (D i * C - 1)) + e * C).
  2:{ unfold frv. rewrite (Rsum_ext n _ (fun i => fr (vget v i) * fr (vget v i) * D i * C - fr (vget v i) * fr (vget v i))) by (intros; ring).
      rewrite Rsum_minus, Rsum_scal_r. ring. }
  eapply Rle_trans; [apply Rabs_triang|]. apply Rplus_le_compat.
  - eapply Rle_trans; [apply Rsum_abs|]. rewrite <- Rsum_scal_l. apply Rsum_le. intros i hi.
    rewrite Rabs_mult. pose proof (Rle_0_sqr (frv v i)) as hs. unfold Rsqr in hs.
    rewrite (Rabs_pos_eq (frv v i * frv v i)) by auto. rewrite Rmult_comm.
    apply Rmult_le_compat_r; auto. replace (n + 3)%nat with (S n + (1 + 1))%nat by lia. apply near_mul; auto.
  - rewrite Rabs_mult. pose proof (near_abs _ _ hC) as hc.
    replace ((1 + uro) ^ (n + 3) * INR n * eta) with (INR n * (1 + uro) ^ n * eta * (1 + uro) ^ 3) by (rewrite pow_add; ring).
    apply Rmult_le_compat; auto; try apply Rabs_pos. eapply Rle_trans; [exact hc|]. apply pow_u_mono. lia.
Qed.

(** comparison of finite numbers *)
Lemma ltb_std x y : fvalid x -> fvalid y -> ffin x -> ffin y -> nlt FN x y = Rltb (fr x) (fr y).
Proof.
  intros vx vy. tob. rewrite !ffin_B2SF, !fr_B2SF. rename x1 into x, x0 into y. intros fx fy.
  unfold nlt, FN. change (Bltb x y = Rltb (B2R x) (B2R y)).
  rewrite Bltb_correct by auto. unfold Rltb. destruct (Rlt_bool_spec (B2R x) (B2R y)); destruct (Rlt_dec _ _); auto; lra.
Qed.
Lemma nmax_std x y : fvalid x -> fvalid y -> ffin x -> ffin y ->
  fvalid (nmax FN x y) /\ ffin (nmax FN x y) /\ fr (nmax FN x y) = Rmax (fr x) (fr y).
Proof.
  intros vx vy fx fy. pose proof (ltb_std x y vx vy fx fy) as h. unfold nlt, FN in h.
  unfold nmax, FN, f_max.
  assert (e1 : f_is_nan x = false) by (destruct x; auto; discriminate).
  assert (e2 : f_is_nan y = false) by (destruct y; auto; discriminate).
  rewrite e1, e2, h. unfold Rltb, Rmax. destruct (Rlt_dec _ _); destruct (Rle_dec _ _); auto; try lra.
  split; auto. split; auto. lra.
Qed.

Lemma norm_max_aux_float (v : list FN) : (forall x, In x v -> fvalid x /\ ffin x) -> forall f : FN, fvalid f -> ffin f ->
  let m := fold_left (fun f val => nmax FN (nabs FN val) f) v f in
  fvalid m /\ ffin m /\ fr f <= fr m /\ (forall i, (i < length v)%nat -> Rabs (frv v i) <= fr m) /\
  (fr m = fr f \/ exists i, (i < length v)%nat /\ fr m = Rabs (frv v i)).
Proof.
  induction v as [|x v IH]; intros hv f vf ff; cbn [fold_left length]; cbv zeta.
  - split; auto. split; auto. split; [lra|]. split; [intros; lia|auto].
  - destruct (hv x (or_introl eq_refl)) as [vx fx].
    destruct (nmax_std (nabs FN x) f (fvalid_abs _ vx) vf (proj2 (ffin_abs x) fx) ff) as (v1 & v2 & v3).
    rewrite fr_abs in v3.
    destruct (IH (fun y hy => hv y (or_intror hy)) _ v1 v2) as (h0 & h0' & h1 & h2 & h3). cbv zeta in *.
    set (m := fold_left _ _ _) in *. rewrite v3 in *. pose proof (Rmax_l (Rabs (fr x)) (fr f)). pose proof (Rmax_r (Rabs (fr x)) (fr f)).
    split; auto. split; auto. split; [lra|]. split.
    + intros [|i] hi; [change (frv (x :: v) 0) with (fr x); lra|]. apply (h2 i). lia.
    + destruct h3 as [h3|(i & hi & h3)]; [|right; exists (S i); split; [lia|exact h3]].
      destruct (Rle_dec (Rabs (fr x)) (fr f)); [left; rewrite h3, Rmax_right; lra|].
      right. exists 0%nat. split; [lia|]. rewrite h3, Rmax_left by lra. reflexivity.
Qed.
Lemma norm_max_float (v : list FN) : (forall x, In x v -> fvalid x /\ ffin x) ->
  fvalid (norm_max v) /\ ffin (norm_max v) /\ is_maxabs (length v) (frv v) (fr (norm_max v)).
Proof.
  intros hv. destruct (norm_max_aux_float v hv (n0 FN) fvalid_0 ffin_0) as (h1 & h2 & h3 & h4 & h5).
  split; auto. split; auto. split; auto.
Qed.
