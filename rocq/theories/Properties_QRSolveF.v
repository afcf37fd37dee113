(** * Properties C55 and C56: solving with QR in binary64 is backward stable *)
From Coq Require Import Reals List Arith Lia Lra Bool ZArith QArith.
From Coq.Floats Require Import SpecFloat.
From Flocq Require Import Core BinarySingleNaN.
From Verif Require Import Scalar Arr MBase MDirect Inst Hoare Spec SpecF Ex RLin PQR PRound PTriF PHouseF PQRF PQRG PQRS Properties_Rounding Properties_QRFloat.
Import ListNotations.
Local Open Scope R_scope.

(** The squares of the diagonal entries of R stay clear of overflow and underflow; at most 2^47 rows. *)
Definition diag_clean (n c : nat) (d : qrdecomp FN) : Prop :=
  INR n * (64 * uro) <= 1 /\
  forall k, (k < c)%nat -> ffin (vget (qdiag d) k) /\ bpow radix2 (-480) <= Rabs (fr (vget (qdiag d) k)) <= bpow radix2 510.
(** Relative error of the perturbed matrix: c (10 n + 70) roundings of QR and c of back substitution *)
Definition rel_solve (n c : nat) : R := gam (c * (10 * n + 70) + c).
(** Euclidean norm of a vector *)
Definition vnorm (n : nat) (x : nat -> R) : R := sqrt (Rsum n (fun i => x i * x i)).

Lemma vnorm_vn n x : vnorm n x = vn n x.
Proof. exact (colnorm_vn n (fun i _ => x i) 0). Qed.
Lemma clean_ok n c d : diag_clean n c d -> fits n /\ forall k, (k < c)%nat -> diag_ok (vget (qdiag d) k).
Proof. intros (h1 & h2). split; auto. intros k hk. destruct (h2 k hk) as (g1 & g2). split; auto. Qed.

(** C55.  A finite column computed by solve is the exact least-squares solution (the exact solution,
    if A is square) of a problem whose matrix and right-hand side are tiny perturbations of the given
    ones, and the perturbed matrix has full rank.  That the result is finite also shows that A and
    the right-hand side were. *)
Theorem C55_qr_solve_backward_stable (a b x : mat FN) d k :
  mvalid a -> mvalid b -> qr_into a = Ret d -> qr_solve d b = Ret x ->
  let n := nr a in let c := nc a in (0 < c)%nat -> (k < nc b)%nat -> diag_clean n c d ->
  (forall i, (i < c)%nat -> ffin (get x i k)) ->
  (forall i j, (i < n)%nat -> (j < c)%nat -> ffin (get a i j)) /\ (forall i, (i < n)%nat -> ffin (get b i k)) /\
  exists (At : M) (bt : nat -> R), let xk := fun j => frm x j k in
    (forall j, (j < c)%nat -> colnorm n (msub At (frm a)) j <= rel_solve n c * colnorm n (frm a) j + 2 * abs_qr n c) /\
    vnorm n (fun i => bt i - frm b i k) <= rel_qr n c * colnorm n (frm b) k + 2 * abs_qr n c /\
    injective n c At /\
    (forall y, resid2 n c At bt xk <= resid2 n c At bt y /\
       (resid2 n c At bt y <= resid2 n c At bt xk -> forall j, (j < c)%nat -> y j = xk j)) /\
    (n = c -> forall i, (i < n)%nat -> Rsum c (fun j => At i j * xk j) = bt i).
Proof.
  intros va vb e es n c hc hk hcl hx. destruct (clean_ok _ _ _ hcl) as (hn & hd).
  destruct (qr_solve_float a b x d k va vb e es hn hk hc hd hx) as (h1 & h2 & At & bt & h3 & h4 & h5 & h6 & h7).
  split; auto. split; auto. exists At, bt. split.
  { intros j hj. rewrite abs_qr_eq, !colnorm_vn. apply (h3 j hj). }
  split; [rewrite vnorm_vn, abs_qr_eq, colnorm_vn; exact h4|]. split; auto. split; auto.
  intros y. destruct (lsq_optimal n c At bt (fun j => frm x j k) h6 y) as (g1 & g2). auto.
Qed.
Print Assumptions C55_qr_solve_backward_stable.

(** [least_squares] of a matrix with at least as many rows as columns is this computation, and so is
    [inverse], on the columns of the identity. *)
Theorem C55_least_squares (a b x : mat FN) : (nc a <= nr a)%nat -> least_squares a b = Ret x ->
  exists d, qr_into a = Ret d /\ qr_solve d b = Ret x.
Proof.
  intros h e. unfold least_squares in e. destruct (Nat.leb_spec (nc a) (nr a)); [|lia].
  destruct (qr_into a) as [d| | | |]; try discriminate. exists d. auto.
Qed.
Print Assumptions C55_least_squares.

Theorem C55_inverse_backward_stable (a x : mat FN) d k :
  mvalid a -> qr_into a = Ret d -> qr_inverse d = Ret x ->
  let n := nr a in (k < n)%nat -> diag_clean n n d -> (forall i, (i < n)%nat -> ffin (get x i k)) ->
  nc a = n /\ exists (At : M) (bt : nat -> R),
    (forall j, (j < n)%nat -> colnorm n (msub At (frm a)) j <= rel_solve n n * colnorm n (frm a) j + 2 * abs_qr n n) /\
    vnorm n (fun i => bt i - mid i k) <= rel_qr n n + 2 * abs_qr n n /\
    injective n n At /\
    (forall i, (i < n)%nat -> Rsum n (fun j => At i j * frm x j k) = bt i).
Proof.
  intros va e ei n hk hcl hx.
  pose proof (qr_class a) as s. rewrite e in s. destruct s as (s0 & s1 & s2 & s3 & s4).
  unfold qr_inverse in ei. unfold check_square in ei. destruct (Nat.eqb_spec (nr (qr d)) (nc (qr d))) as [sq|]; [|discriminate]. cbn [bind] in ei.
  assert (hc : nc a = n) by (unfold n; congruence). split; auto.
  assert (hl : length (qdiag d) = n) by (unfold n; congruence). rewrite hl in ei.
  assert (ve : mvalid (eye n : mat FN)).
  { intros i j hi hj. unfold eye in hi, hj |- *. rewrite nr_mk in hi. rewrite nc_mk in hj. rewrite get_mk by auto. destruct (Nat.eqb i j); reflexivity. }
  destruct (C55_qr_solve_backward_stable a (eye n) x d k va ve e ei) as (_ & _ & At & bt & h1 & h2 & h3 & _ & h5); rewrite ?hc; auto; try lia.
  fold n in h1, h2, h3, h5. rewrite hc in h1, h2, h3, h5. exists At, bt. split; [exact h1|].
  assert (em : forall i, (i < n)%nat -> frm (eye n : mat FN) i k = mid i k).
  { intros i hi. unfold frm, eye. rewrite get_mk by auto. unfold mid. destruct (Nat.eqb i k); [exact fr_f1|reflexivity]. }
  split; [|split; auto].
  rewrite vnorm_vn in h2 |- *. rewrite colnorm_vn in h2. rewrite (vn_ext n _ (fun i => bt i - mid i k)) in h2 by (intros i hi; rewrite em by auto; reflexivity).
  assert (e1 : vn n (fun i => frm (eye n : mat FN) i k) = 1).
  { apply vn_unit. rewrite (Rsum_single n k); [rewrite em by auto; unfold mid; rewrite Nat.eqb_refl; ring|auto|].
    intros i hi ne. rewrite em by auto. unfold mid. destruct (Nat.eqb_spec i k); [contradiction|ring]. }
  rewrite e1 in h2. lra.
Qed.
Print Assumptions C55_inverse_backward_stable.

(** C56.  A finite column computed by solve_tr is close to the exact minimum-norm solution of a
    perturbed problem A~^T x = b~: the perturbation of A is tiny, that of b is due to underflow alone. *)
Theorem C56_qr_solve_tr_stable (a b x : mat FN) d k :
  mvalid a -> mvalid b -> qr_into a = Ret d -> qr_solve_tr d b = Ret x ->
  let n := nr a in let c := nc a in (k < nc b)%nat -> diag_clean n c d ->
  (forall i, (i < n)%nat -> ffin (get x i k)) ->
  (forall i j, (i < n)%nat -> (j < c)%nat -> ffin (get a i j)) /\ (forall i, (i < c)%nat -> ffin (get b i k)) /\
  exists (At : M) (bt xt : nat -> R),
    (forall j, (j < c)%nat -> colnorm n (msub At (frm a)) j <= rel_solve n c * colnorm n (frm a) j + 2 * abs_qr n c) /\
    (forall j, (j < c)%nat -> Rabs (bt j - frm b j k) <= bpow radix2 (-507)) /\
    injective n c At /\
    (forall j, (j < c)%nat -> Rsum n (fun i => At i j * xt i) = bt j) /\
    (forall z, (forall j, (j < c)%nat -> Rsum n (fun i => At i j * z i) = bt j) ->
       vnorm2 n xt <= vnorm2 n z /\ (vnorm2 n z <= vnorm2 n xt -> forall i, (i < n)%nat -> z i = xt i)) /\
    vnorm n (fun i => frm x i k - xt i) <= sqrt (INR c) * (eps_qr n c + gam (S c) * (1 + eps_qr n c)) * vnorm n xt + bpow radix2 (-507).
Proof.
  intros va vb e es n c hk hcl hx. destruct (clean_ok _ _ _ hcl) as (hn & hd).
  destruct (qr_solve_tr_float a b x d k va vb e es hn hk hd hx) as (h1 & h2 & At & bt & xt & h3 & h4 & h5 & h6 & (w & h7) & h8).
  assert (eo : omega = bpow radix2 (-507)).
  { unfold omega, zeta. replace (-507)%Z with (1 + -508)%Z by reflexivity. rewrite bpow_plus. reflexivity. }
  split; auto. split; auto. exists At, bt, xt. split.
  { intros j hj. rewrite abs_qr_eq, !colnorm_vn. apply (h3 j hj). }
  split; [intros j hj; rewrite <- eo; auto|]. split; auto. split; auto. split.
  - intros z hz. apply (min_norm n c At bt xt w); auto.
  - rewrite !vnorm_vn, eps_qr_eq, <- eo. exact h8.
Qed.
Print Assumptions C56_qr_solve_tr_stable.

(** [least_squares] of a matrix with more columns than rows is this computation on its transpose. *)
Theorem C56_least_squares_wide (a b x : mat FN) : (nr a < nc a)%nat -> least_squares a b = Ret x ->
  exists d, qr_into (transpose a) = Ret d /\ qr_solve_tr d b = Ret x.
Proof.
  intros h e. unfold least_squares in e. destruct (Nat.leb_spec (nc a) (nr a)); [lia|].
  destruct (qr_into (transpose a)) as [d| | | |]; try discriminate. exists d. auto.
Qed.
Print Assumptions C56_least_squares_wide.

(** ** Examples *)
Definition dcleanb (n c : nat) (d : qrdecomp FN) : bool :=
  (n <? 100)%nat && forallb (fun k => match vget (qdiag d) k with S754_finite s m e => rangeb (S754_finite false m e) | _ => false end) (seq 0 c).
Lemma dcleanb_ok n c d : dcleanb n c d = true -> diag_clean n c d.
Proof.
  unfold dcleanb. rewrite andb_true_iff. intros (h1 & h2). apply Nat.ltb_lt in h1. split.
  - apply Rle_trans with (100 * (64 * uro)).
    + apply Rmult_le_compat_r; [pose proof uro_pos; lra|]. apply lt_INR in h1. change 100 with (IZR (Z.of_nat 100)). rewrite <- INR_IZR_INZ. lra.
    + unfold uro. change (2 ^ 53)%Z with 9007199254740992%Z. lra.
  - intros k hk. rewrite forallb_forall in h2. specialize (h2 k ltac:(apply in_seq; lia)). destruct (vget (qdiag d) k) as [s|s| |s m e]; try discriminate.
    split; [reflexivity|]. apply rangeb_ok in h2. destruct h2 as [h2|h2].
    + exfalso. revert h2. unfold fr, SF2R. intros h2. apply Float_prop.eq_0_F2R in h2. discriminate.
    + assert (ea : Rabs (fr (S754_finite s m e)) = fr (S754_finite false m e)); [|rewrite ea; exact h2].
      unfold fr, SF2R. rewrite <- Float_prop.F2R_Zabs. f_equal. f_equal. destruct s; reflexivity.
Qed.
Definition solve_checkb (a b : mat FN) (n c : nat) (sol : qrdecomp FN -> mat FN -> res (mat FN)) (f : mat FN -> bool) : bool :=
  match qr_into a with Ret d => match sol d b with Ret x => dcleanb n c d && mokb x && f x | _ => false end | _ => false end.
Lemma solve_checkb_ok a b n c sol f : solve_checkb a b n c sol f = true ->
  exists d x, qr_into a = Ret d /\ sol d b = Ret x /\ diag_clean n c d /\ mokb x = true /\ f x = true.
Proof.
  unfold solve_checkb. destruct (qr_into a) as [d| | | |]; try discriminate. destruct (sol d b) as [x| | | |] eqn:e; try discriminate.
  intros h. rewrite !andb_true_iff in h. destruct h as ((h1 & h2) & h3). exists d, x. pose proof (dcleanb_ok n c d h1). tauto.
Qed.

(** A 3x2 least-squares problem, and a transposed one, whose solutions are not binary64 numbers *)
Example C55_C56_example : let a := fmat 2 [[3; 1]; [4; 2]; [0; 7]]%Z in let b := fmat 1 [[1]; [2]; [4]]%Z in let b' := fmat 1 [[1]; [2]]%Z in
  mvalid a /\ mvalid b /\ mvalid b' /\
  (exists d x, qr_into a = Ret d /\ qr_solve d b = Ret x /\ diag_clean 3 2 d /\ (forall i, (i < 2)%nat -> ffin (get x i 0))) /\
  (exists d x, qr_into a = Ret d /\ qr_solve_tr d b' = Ret x /\ diag_clean 3 2 d /\ (forall i, (i < 3)%nat -> ffin (get x i 0))).
Proof.
  set (a := fmat 2 [[3; 1]; [4; 2]; [0; 7]]%Z). set (b := fmat 1 [[1]; [2]; [4]]%Z). set (b' := fmat 1 [[1]; [2]]%Z).
  split; [intros i j; apply (mokb_ok a); vm_compute; reflexivity|].
  split; [intros i j; apply (mokb_ok b); vm_compute; reflexivity|].
  split; [intros i j; apply (mokb_ok b'); vm_compute; reflexivity|]. split.
  - destruct (solve_checkb_ok a b 3 2 qr_solve (fun x => Nat.eqb (nr x) 2 && Nat.eqb (nc x) 1)) as (d & x & h1 & h2 & h3 & h4 & h5); [vm_compute; reflexivity|].
    apply andb_prop in h5. destruct h5 as (h5 & h6). apply Nat.eqb_eq in h5, h6.
    exists d, x. split; [exact h1|]. split; [exact h2|]. split; [exact h3|]. intros i hi. apply (mokb_ok x h4 i 0); lia.
  - destruct (solve_checkb_ok a b' 3 2 qr_solve_tr (fun x => Nat.eqb (nr x) 3 && Nat.eqb (nc x) 1)) as (d & x & h1 & h2 & h3 & h4 & h5); [vm_compute; reflexivity|].
    apply andb_prop in h5. destruct h5 as (h5 & h6). apply Nat.eqb_eq in h5, h6.
    exists d, x. split; [exact h1|]. split; [exact h2|]. split; [exact h3|]. intros i hi. apply (mokb_ok x h4 i 0); lia.
Qed.

(** A 2x2 inverse *)
Example C55_inverse_example : let a := fmat 2 [[3; 1]; [4; 2]]%Z in
  mvalid a /\ exists d x, qr_into a = Ret d /\ qr_inverse d = Ret x /\ diag_clean 2 2 d /\ (forall i k, (i < 2)%nat -> (k < 2)%nat -> ffin (get x i k)).
Proof.
  set (a := fmat 2 [[3; 1]; [4; 2]]%Z).
  split; [intros i j; apply (mokb_ok a); vm_compute; reflexivity|].
  destruct (solve_checkb_ok a a 2 2 (fun d _ => qr_inverse d) (fun x => Nat.eqb (nr x) 2 && Nat.eqb (nc x) 2)) as (d & x & h1 & h2 & h3 & h4 & h5); [vm_compute; reflexivity|].
  apply andb_prop in h5. destruct h5 as (h5 & h6). apply Nat.eqb_eq in h5, h6.
  exists d, x. split; [exact h1|]. split; [exact h2|]. split; [exact h3|]. intros i k hi hk. apply (mokb_ok x h4 i k); lia.
Qed.
