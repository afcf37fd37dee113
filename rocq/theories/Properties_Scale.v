(** * Property C69: eigh and svd in binary64 give the same vectors for a matrix and a multiple of it

    [FNh h] is the binary64 instance of the model with the libm function [hypot] replaced by [h]
    (SpecH.v); [FN] is the case of a correctly rounded one. *)
From Coq Require Import Reals List Arith Lia Lra Bool ZArith QArith.
From Coq.Floats Require Import SpecFloat.
From Flocq Require Import Core BinarySingleNaN.
From Verif Require Import Scalar Arr MBase MDirect MDecomp MEigh MSvd Inst Hoare Spec SpecF SpecH Ex RLin PRound PApx PTrdF PEigG PSvd PScale Properties_Rounding Properties_Underflow.
Import ListNotations.
Local Open Scope R_scope.

(** b is exactly k times a, both non-empty matrices of finite numbers, not all zero, with the same
    signs (of zeros too).  k need not be a power of two, but the entries of b are k times those of a
    without rounding. *)
Definition scaled_by (r c : nat) (k : R) (a b : mat FN) : Prop :=
  0 < k /\ nr a = r /\ nc a = c /\ nr b = r /\ nc b = c /\ (1 <= r)%nat /\ (1 <= c)%nat /\
  (forall i j, (i < r)%nat -> (j < c)%nat -> fvalid (get a i j) /\ ffin (get a i j)) /\
  (forall i j, (i < r)%nat -> (j < c)%nat -> fvalid (get b i j) /\ ffin (get b i j)) /\
  (forall i j, (i < r)%nat -> (j < c)%nat -> fr (get b i j) = k * fr (get a i j) /\ f_neg (get a i j) = f_neg (get b i j)) /\
  exists i j, (i < r)%nat /\ (j < c)%nat /\ fr (get a i j) <> 0.
(** the entry of largest magnitude *)
Definition largest (r c : nat) (a : mat FN) (x : FN) : Prop :=
  fvalid x /\ ffin x /\ (exists i j, (i < r)%nat /\ (j < c)%nat /\ fr x = Rabs (fr (get a i j))) /\ forall i j, (i < r)%nat -> (j < c)%nat -> Rabs (fr (get a i j)) <= fr x.

Lemma largest_max r c k a b : scaled_by r c k a b -> largest r c a (abs_max a) /\ largest r c b (abs_max b) /\ 0 < fr (abs_max a) /\ fr (abs_max b) = k * fr (abs_max a).
Proof.
  intros (h1 & h2 & h3 & h4 & h5 & h6 & h7 & h8 & h9 & h10 & h11).
  destruct (max_scale r c a b k h1 h2 h3 h4 h5 h6 h7 h8 h9 h10 h11) as (_ & _ & p & _ & e).
  destruct (PSvdG.abs_max_rf a r c h2 h3 h6 h7 h8) as ((v1 & f1) & u1 & i1 & j1 & hi1 & hj1 & e1). destruct (PSvdG.abs_max_rf b r c h4 h5 h6 h7 h9) as ((v2 & f2) & u2 & i2 & j2 & hi2 & hj2 & e2).
  split; [split; auto; split; auto; split; [exists i1, j1; auto|exact u1]|]. split; [split; auto; split; auto; split; [exists i2, j2; auto|exact u2]|]. auto.
Qed.
Lemma fix_abs (v : FN) : (if f_neg v then nopp FN v else v) = nabs FN v.
Proof. destruct v as [[|]|[|]| |[|]]; reflexivity. Qed.

(** C69, svd.  The singular vectors for b are those for a, bit by bit, and the singular values are
    |d_i * amax| and |d_i * bmax| (one rounded multiplication) for the same numbers d_i. *)
Theorem C69_svd_scaling (h : spec_float -> spec_float -> spec_float) (r c fuel : nat) (k : R) (a b : mat FN) (cu cv : bool) (u : option (mat FN)) (s : list FN) (vt : option (mat FN)) :
  scaled_by r c k a b -> svd (N:=FNh h) fuel a cu cv = Ret (u, s, vt) ->
  exists (s' d : list FN) (amax bmax : FN), svd (N:=FNh h) fuel b cu cv = Ret (u, s', vt) /\
    length s = Nat.min r c /\ length s' = Nat.min r c /\ length d = Nat.min r c /\
    largest r c a amax /\ largest r c b bmax /\ 0 < fr amax /\ fr bmax = k * fr amax /\
    forall i, (i < Nat.min r c)%nat -> vget s i = nabs FN (nmul FN (vget d i) amax) /\ vget s' i = nabs FN (nmul FN (vget d i) bmax).
Proof.
  intros hs e. destruct (largest_max _ _ _ _ _ hs) as (m1 & m2 & m3 & m4). destruct hs as (h1 & h2 & h3 & h4 & h5 & h6 & h7 & h8 & h9 & h10 & h11).
  unfold svd in *. pose proof (svd_scale r c a b k h1 h2 h3 h4 h5 h6 h7 h8 h9 h10 h11 h fuel cu cv (nmul (FNh h) (nepsilon (FNh h)) (nofQ (FNh h) 5%Z 1%positive))) as q.
  rewrite e in q. match type of q with sim _ _ ?m => destruct m as [[[u' s'] vt']| | | |] end; try contradiction. cbn [sim fst snd] in q. destruct q as (<- & <- & l1 & l2 & d & ld & hd).
  exists s', d, (abs_max a), (abs_max b). split; [reflexivity|]. split; [exact l1|]. split; [exact l2|]. split; [exact ld|]. split; [exact m1|]. split; [exact m2|]. split; [exact m3|]. split; [exact m4|].
  intros i hi. destruct (hd i hi) as (e1 & e2). cbv zeta in e1, e2. rewrite fix_abs in e1, e2. auto.
Qed.
Print Assumptions C69_svd_scaling.
(** Whether the iteration ends does not depend on the scale either *)
Theorem C69_svd_same_outcome (h : spec_float -> spec_float -> spec_float) (r c fuel : nat) (k : R) (a b : mat FN) (cu cv : bool) :
  scaled_by r c k a b -> (svd (N:=FNh h) fuel a cu cv = OutOfFuel <-> svd (N:=FNh h) fuel b cu cv = OutOfFuel) /\
  forall e, svd (N:=FNh h) fuel a cu cv = Err e <-> svd (N:=FNh h) fuel b cu cv = Err e.
Proof.
  intros (h1 & h2 & h3 & h4 & h5 & h6 & h7 & h8 & h9 & h10 & h11).
  unfold svd in *. pose proof (svd_scale r c a b k h1 h2 h3 h4 h5 h6 h7 h8 h9 h10 h11 h fuel cu cv (nmul (FNh h) (nepsilon (FNh h)) (nofQ (FNh h) 5%Z 1%positive))) as q.
  match type of q with sim _ ?m ?m' => destruct m, m' end; try contradiction; cbn [sim] in q; try (split; [split; intros; discriminate|split; intros; discriminate]).
  - subst. split; split; auto.
  - split; [split; auto|split; intros; discriminate].
Qed.
Print Assumptions C69_svd_same_outcome.

(** C69, eigh and eigvalsh *)
Theorem C69_eigh_scaling (h : spec_float -> spec_float -> spec_float) (n fuel : nat) (k : R) (a b : mat FN) (vals : list FN) (vecs : mat FN) :
  scaled_by n n k a b -> eigh (N:=FNh h) fuel a = Ret (vals, vecs) ->
  exists (vals' d : list FN) (amax bmax : FN), eigh (N:=FNh h) fuel b = Ret (vals', vecs) /\ eigvalsh (N:=FNh h) fuel a = Ret vals /\ eigvalsh (N:=FNh h) fuel b = Ret vals' /\
    largest n n a amax /\ largest n n b bmax /\ 0 < fr amax /\ fr bmax = k * fr amax /\
    vals = map (fun x => nmul FN x amax) d /\ vals' = map (fun x => nmul FN x bmax) d.
Proof.
  intros hs e. destruct (largest_max _ _ _ _ _ hs) as (m1 & m2 & m3 & m4). destruct hs as (h1 & h2 & h3 & h4 & h5 & h6 & h7 & h8 & h9 & h10 & h11).
  assert (hv : forall (f : FN -> FN) (d : list FN), vmap (N:=FN) f d = map f d).
  { intros f d. unfold vmap, vmk. clear. induction d as [|x d IH]; [reflexivity|]. cbn [length seq map]. f_equal. rewrite <- seq_shift, map_map. exact IH. }
  pose proof (fun v => symeig_scale n n a b k h1 h2 h3 h4 h5 h6 h7 h8 h9 h10 h11 h fuel v (nepsilon (FNh h)) eq_refl) as q.
  pose proof (PEigh.symmetric_eig_sim (N:=FNh h) fuel a (nepsilon (FNh h))) as va. pose proof (PEigh.symmetric_eig_sim (N:=FNh h) fuel b (nepsilon (FNh h))) as vb.
  unfold eigh, eigvalsh in *. pose proof (q true) as q1.
  match type of q1 with sim _ ?m _ => destruct m as [[v1 w1]| | | |] end; try discriminate. match type of q1 with sim _ _ ?m => destruct m as [[v2 w2]| | | |] end; try contradiction.
  cbn [sim fst snd bind] in *. destruct q1 as (<- & d & -> & ->). destruct w1 as [w|]; [|discriminate]. cbn [unwrap_opt bind] in *. injection e as <- <-.
  match type of va with match ?m with _ => _ end => destruct m as [[v3 w3]| | | |] end; try contradiction. match type of vb with match ?m with _ => _ end => destruct m as [[v4 w4]| | | |] end; try contradiction.
  cbn [fst snd bind] in *. destruct va as (<- & _). destruct vb as (<- & _).
  exists (vmap (N:=FN) (fun v => nmul FN v (abs_max b)) d), d, (abs_max a), (abs_max b). rewrite !hv. split; auto. split; auto. split; auto. split; [exact m1|]. split; [exact m2|]. split; [exact m3|]. split; [exact m4|]. auto.
Qed.
Print Assumptions C69_eigh_scaling.

(** What the last multiplication does to the values: k times the value up to three roundings *)
Theorem C69_values (x m m' : FN) (k : R) : fvalid x -> fvalid m -> fvalid m' -> 0 < k -> fr m' = k * fr m ->
  ffin (nmul FN x m) -> ffin (nmul FN x m') ->
  Rabs (fr (nmul FN x m') - k * fr (nmul FN x m)) <= 3 * uro * (k * Rabs (fr (nmul FN x m))) + 2 * (1 + k) * eta.
Proof.
  intros vx vm vm' hk em f1 f2. destruct (mul_std x m vx vm f1) as (_ & _ & d1 & e1 & hd1 & he1 & E1). destruct (mul_std x m' vx vm' f2) as (_ & _ & d2 & e2 & hd2 & he2 & E2).
  rewrite E2, em. set (p := fr (nmul FN x m)) in *. set (z := fr x * fr m) in *. replace (fr x * (k * fr m)) with (k * z) by (unfold z; ring).
  apply dlt_u in hd1, hd2. pose proof uro_pos as hu. pose proof uro_small as hu8. pose proof eta_pos as het.
  assert (hz : Rabs z * (7 / 8) <= Rabs p + eta).
  { assert (Rabs (z * (1 + d1)) <= Rabs p + eta). { replace (z * (1 + d1)) with (p - e1) by lra. eapply Rle_trans; [apply Rabs_triang|]. rewrite Rabs_Ropp. lra. }
    rewrite Rabs_mult in H. apply Rabs_le_inv in hd1. rewrite (Rabs_right (1 + d1)) in H by lra. eapply Rle_trans; [|exact H]. apply Rmult_le_compat_l; [apply Rabs_pos|lra]. }
  replace (k * z * (1 + d2) + e2 - k * p) with (k * (z * (d2 - d1)) + (e2 - k * e1)) by (rewrite E1; ring).
  assert (h3 : Rabs (z * (d2 - d1)) <= Rabs z * (2 * uro)).
  { rewrite Rabs_mult. apply Rmult_le_compat_l; [apply Rabs_pos|]. eapply Rle_trans; [apply Rabs_triang|]. rewrite Rabs_Ropp. lra. }
  assert (h4 : Rabs (e2 - k * e1) <= (1 + k) * eta).
  { eapply Rle_trans; [apply Rabs_triang|]. rewrite Rabs_Ropp, Rabs_mult, (Rabs_right k) by lra. assert (k * Rabs e1 <= k * eta) by (apply Rmult_le_compat_l; lra). lra. }
  eapply Rle_trans; [apply Rabs_triang|]. rewrite Rabs_mult, (Rabs_right k) by lra.
  assert (h5 : Rabs z * (2 * uro) <= 3 * uro * Rabs p + eta).
  { pose proof (Rabs_pos p). pose proof (Rabs_pos z). assert (Rabs z * (2 * uro) <= (Rabs p + eta) * (8 / 7) * (2 * uro)) by (apply Rmult_le_compat_r; lra). nra. }
  assert (k * Rabs (z * (d2 - d1)) <= k * (3 * uro * Rabs p + eta)) by (apply Rmult_le_compat_l; lra). lra.
Qed.
Print Assumptions C69_values.
(** and exactly k times the value when k is a power of two and nothing underflows *)
Theorem C69_power_of_two (x m m' : FN) (e : Z) : fvalid x -> fvalid m -> fvalid m' -> fr m' = bpow radix2 e * fr m ->
  ffin (nmul FN x m) -> ffin (nmul FN x m') ->
  bpow radix2 (-1022) <= Rabs (fr x * fr m) -> bpow radix2 (-1022) <= Rabs (fr x * fr m') ->
  fr (nmul FN x m') = bpow radix2 e * fr (nmul FN x m).
Proof.
  intros vx vm vm' em f1 f2 n1 n2. rewrite (mul_round x m vx vm f1), (mul_round x m' vx vm' f2). rewrite em in *.
  replace (fr x * (bpow radix2 e * fr m)) with (fr x * fr m * bpow radix2 e) in * by ring. rewrite round_pow2; auto. ring.
Qed.
Print Assumptions C69_power_of_two.

(** ** Examples: a 4x3 and a symmetric 3x3 matrix, and three times them *)
Definition scaledb (q : Q) (a b : mat FN) : bool :=
  mokb a && mokb b && Nat.eqb (nr a) (nr b) && Nat.eqb (nc a) (nc b) &&
  forallb (fun i => forallb (fun j => Qeq_bool (fq (get b i j)) (q * fq (get a i j)) && Bool.eqb (f_neg (get a i j)) (f_neg (get b i j))) (seq 0 (nc a))) (seq 0 (nr a)).
Lemma scaledb_ok (r c : nat) (q : Q) (a b : mat FN) : (0 < q)%Q -> nr a = r -> nc a = c -> (1 <= r)%nat -> (1 <= c)%nat -> (exists i j, (i < r)%nat /\ (j < c)%nat /\ fr (get a i j) <> 0) ->
  scaledb q a b = true -> scaled_by r c (Q2R q) a b.
Proof.
  intros hq h1 h2 h3 h4 hz h. unfold scaledb in h. apply andb_prop in h as (h & k5). apply andb_prop in h as (h & k4). apply andb_prop in h as (h & k3). apply andb_prop in h as (k1 & k2).
  apply Nat.eqb_eq in k3, k4. rewrite h1 in *. rewrite h2 in *.
  split. { apply Qreals.Qlt_Rlt in hq. rewrite RMicromega.Q2R_0 in hq. exact hq. }
  split; auto. split; auto. split; auto. split; auto. split; auto. split; auto.
  split. { intros i j hi hj. split; apply (mokb_ok a k1 i j); lia. }
  split. { intros i j hi hj. split; apply (mokb_ok b k2 i j); lia. }
  split; auto. intros i j hi hj. rewrite forallb_forall in k5. specialize (k5 i ltac:(apply in_seq; lia)). rewrite forallb_forall in k5. specialize (k5 j ltac:(apply in_seq; lia)).
  apply andb_prop in k5 as (q1 & q2). apply Qeq_bool_iff in q1. apply eqb_prop in q2. split; auto.
  rewrite !Q2R_fq, <- Qreals.Q2R_mult. apply Qreals.Qeq_eqR. exact q1.
Qed.
Definition scl_a : mat FN := fmat 3 [[2; 3; 4]; [3; -1; 0]; [4; 0; 1]; [1; 5; -2]]%Z.
Definition scl_b : mat FN := fmat 3 [[6; 9; 12]; [9; -3; 0]; [12; 0; 3]; [3; 15; -6]]%Z.
Definition sce_a : mat FN := fmat 3 [[2; 3; 4]; [3; -1; 5]; [4; 5; 1]]%Z.
Definition sce_b : mat FN := fmat 3 [[6; 9; 12]; [9; -3; 15]; [12; 15; 3]]%Z.
Definition ret_okb {A} (m : res A) : bool := match m with Ret _ => true | _ => false end.
Lemma ret_okb_ok {A} (m : res A) : ret_okb m = true -> exists x, m = Ret x.
Proof. destruct m; try discriminate. eauto. Qed.
Example C69_example : scaled_by 4 3 (Q2R 3) scl_a scl_b /\ scaled_by 3 3 (Q2R 3) sce_a sce_b /\
  (exists u s vt s', svd 50 scl_a true true = Ret (u, s, vt) /\ svd 50 scl_b true true = Ret (u, s', vt)) /\
  exists vals vecs vals', eigh 50 sce_a = Ret (vals, vecs) /\ eigh 50 sce_b = Ret (vals', vecs).
Proof.
  assert (ha : scaled_by 4 3 (Q2R 3) scl_a scl_b).
  { apply scaledb_ok; try (reflexivity || lia || (vm_compute; reflexivity)). exists 0%nat, 0%nat. split; [lia|]. split; [lia|]. rewrite Q2R_fq. apply Rgt_not_eq. rewrite <- RMicromega.Q2R_0. apply Qreals.Qlt_Rlt. vm_compute. reflexivity. }
  assert (hb : scaled_by 3 3 (Q2R 3) sce_a sce_b).
  { apply scaledb_ok; try (reflexivity || lia || (vm_compute; reflexivity)). exists 0%nat, 0%nat. split; [lia|]. split; [lia|]. rewrite Q2R_fq. apply Rgt_not_eq. rewrite <- RMicromega.Q2R_0. apply Qreals.Qlt_Rlt. vm_compute. reflexivity. }
  split; auto. split; auto. split.
  - destruct (ret_okb_ok (svd 50 scl_a true true)) as ([[u s] vt] & e); [vm_compute; reflexivity|].
    destruct (C69_svd_scaling f_hypot 4 3 50 (Q2R 3) scl_a scl_b true true u s vt ha e) as (s' & _ & _ & _ & e' & _). exists u, s, vt, s'. auto.
  - destruct (ret_okb_ok (eigh 50 sce_a)) as ([vals vecs] & e); [vm_compute; reflexivity|].
    destruct (C69_eigh_scaling f_hypot 3 50 (Q2R 3) sce_a sce_b vals vecs hb e) as (vals' & _ & _ & _ & e' & _). exists vals, vecs, vals'. auto.
Qed.
