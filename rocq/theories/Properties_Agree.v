(** * C79: the algorithms agree with each other (exact arithmetic) *)
From Coq Require Import Reals Lra List Arith Lia Bool ZArith Setoid Morphisms.
From Verif Require Import Scalar Arr MBase MDirect MDecomp MEigh Inst Hoare Spec RLin PTri PChol PQR PLobR Ex.
From Verif Require Import Properties_Cholesky Properties_QR Properties_EighD.
Import ListNotations.
Local Open Scope R_scope.

(** ** Specification *)
(** [g] is the matrix A^T A, and [c] the matrix A^T b *)
Definition gram_of (a g : mat RN) : Prop := nr g = nc a /\ nc g = nc a /\ ent g =[nc a, nc a]= mmul (nr a) (mtr (ent a)) (ent a).
Definition moments_of (a b c : mat RN) : Prop := nr c = nc a /\ nc c = nc b /\ ent c =[nc a, nc b]= mmul (nr a) (mtr (ent a)) (ent b).

Lemma gram_sym a g : gram_of a g -> symmetric (nr g) (ent g).
Proof.
  intros (e1 & e2 & h). unfold symmetric. rewrite e1. intros i j hi hj. unfold mtr. rewrite (h i j), (h j i) by auto. unfold mmul, mtr. apply Rsum_ext. intros. ring.
Qed.

(** ** QR and Cholesky *)
(** The Cholesky factor of A^T A is the transpose of the R of A; one factorisation succeeds exactly when the other calls A invertible *)
Theorem C79_cholesky_qr (a g : mat RN) : (nc a <= nr a)%nat -> gram_of a g ->
  exists d q r, qr_into a = Ret d /\ qr_into_decomp d = Ret (q, r) /\
    (is_invertible d = true -> exists l, cholesky g = Ret l /\ ent l =[nc a, nc a]= mtr (ent r)) /\
    (is_invertible d = false -> cholesky g = Err NotPositiveDefinite).
Proof.
  intros hle hg. pose proof (gram_sym a g hg) as hs. pose proof hg as (g1 & g2 & h).
  destruct (C10_qr_factorises a hle) as (d & q & r & e1 & _ & _ & e4 & q1 & q2 & r1 & r2 & hq & hr & hp & hA).
  destruct (C11_is_invertible a hle) as (d' & e1' & hinv). rewrite e1 in e1'. injection e1' as <-.
  exists d, q, r. split; auto. split; auto.
  assert (hpd : posdef (nc a) (ent g) <-> injective (nr a) (nc a) (ent a)) by (apply gram_injective; auto).
  destruct (C06_cholesky_iff_posdef g ltac:(lia) hs) as (c1 & c2). rewrite g1 in c1, c2. split.
  - intros hi. apply hinv in hi. destruct (proj2 c1 (proj2 hpd hi)) as (l & hl). exists l. split; auto. symmetry.
    rewrite <- g1. apply (C06_cholesky_unique g l (mtr (ent r)) hs hl); rewrite g1.
    + intros i j hi' hj hij. unfold mtr. apply hr; auto.
    + intros i hi'. unfold mtr. pose proof (upper_injective_inv (ent r) (nc a) hr) as hne. assert (hri : injective (nc a) (nc a) (ent r)).
      { intros v hv. apply hi. intros k hk. transitivity (Rsum (nc a) (fun j => mmul (nc a) (ent q) (ent r) k j * v j)); [apply Rsum_ext; intros j hj; rewrite (hA k j hk hj); reflexivity|].
        unfold mmul. rewrite (Rsum_ext _ _ (fun j => Rsum (nc a) (fun m => ent q k m * (ent r m j * v j)))) by (intros; rewrite <- Rsum_scal_r; apply Rsum_ext; intros; ring).
        rewrite Rsum_swap. apply Rsum_0. intros m hm. rewrite Rsum_scal_l. rewrite hv by auto. ring. }
      specialize (hne hri i hi'). specialize (hp i hi'). lra.
    + rewrite h. rewrite <- hA. rewrite (mtr_mmul (nr a) (nc a) (nc a)). rewrite (mmul_assoc _ (nc a) (nr a)).
      rewrite <- (mmul_assoc _ (nr a) (nc a) _ (mtr (ent q))). unfold orthonormal_cols in hq. rewrite hq. rewrite mmul_1_l. rewrite (mtr_mtr (nc a) (nc a)). reflexivity.
  - intros hi. apply c2. intros hpd'. apply hpd, hinv in hpd'. congruence.
Qed.
Print Assumptions C79_cholesky_qr.

(** Least squares by QR is the solution of the normal equations by Cholesky *)
Theorem C79_normal_equations (a b g c x : mat RN) : (nc a <= nr a)%nat -> gram_of a g -> moments_of a b c -> least_squares a b = Ret x ->
  exists y, solvec g c = Ret y /\ nr y = nr x /\ nc y = nc x /\ ent y =[nc a, nc b]= ent x.
Proof.
  intros hle hg (c1 & c2 & hc) hx. pose proof (gram_sym a g hg) as hs. pose proof hg as (g1 & g2 & h).
  pose proof (C15_least_squares_class RN a b) as hcl. rewrite hx in hcl. destruct hcl as (hb & _).
  assert (hinj : injective (nr a) (nc a) (ent a)).
  { destruct (C15_least_squares_rank a b hb) as (k & _). destruct (Nat.leb_spec (nc a) (nr a)); [|lia]. apply k. eauto. }
  destruct (C12_qr_least_squares a b hle hinj hb) as (d & x' & _ & _ & e & x1 & x2 & hn & _). rewrite hx in e. injection e as <-.
  destruct (C08_solvec g c ltac:(lia) hs) as (k & _). rewrite g1, c2 in k.
  destruct k as (y & hy & y1 & y2 & y3 & y4); [apply gram_injective with (n := nr a) (V := ent a); auto|lia|].
  exists y. split; auto. split; [lia|]. split; [lia|]. symmetry. apply y4. rewrite h, hc. rewrite (mmul_assoc _ (nr a) (nc a)).
  rewrite (mmul_sub_r (nc a) (nr a) (nc b)) in hn. intros i j hi hj. specialize (hn i j hi hj). unfold msub in hn. lra.
Qed.
Print Assumptions C79_normal_equations.

(** For a positive definite matrix Cholesky and QR solve and invert alike *)
Theorem C79_positive_definite (a b : mat RN) : nr a = nc a -> symmetric (nr a) (ent a) -> posdef (nr a) (ent a) -> nr b = nr a ->
  exists d x y z xi yi, qr_into a = Ret d /\ solvec a b = Ret x /\ qr_solve d b = Ret y /\ least_squares a b = Ret z /\ invc a = Ret xi /\ qr_inverse d = Ret yi /\
    ent x =[nr a, nc b]= ent y /\ ent x =[nr a, nc b]= ent z /\ ent xi =[nr a, nr a]= ent yi.
Proof.
  intros sq hs hpd hb. pose proof (posdef_injective _ _ hpd) as hinj. assert (hinj' : injective (nr a) (nc a) (ent a)) by (rewrite <- sq; auto).
  destruct (C08_solvec a b sq hs) as (k & _). destruct (k hpd hb) as (x & hx & _ & _ & x3 & x4).
  destruct (C12_qr_least_squares a b ltac:(lia) hinj' hb) as (d & y & hd & hy & hz & _ & _ & _ & _ & y3). specialize (y3 sq). rewrite <- sq in y3.
  destruct (C09_invc a sq hs) as (k2 & _). destruct (k2 hpd) as (xi & hxi & _ & _ & xi1 & xi2).
  destruct (C14_qr_inverse a ltac:(lia)) as (d' & hd' & k3 & _). rewrite hd in hd'. injection hd' as <-.
  destruct (k3 sq hinj) as (yi & hyi & _ & _ & yi1 & _).
  exists d, x, y, y, xi, yi. repeat (split; [assumption|]). split; [symmetry; apply x4; auto|]. split; [symmetry; apply x4; auto|].
  rewrite <- (mmul_1_r (nr a) (nr a) (ent xi)). rewrite <- yi1. rewrite <- (mmul_assoc _ (nr a) (nr a)). rewrite xi2. apply mmul_1_l.
Qed.
Print Assumptions C79_positive_definite.

(** ** Cholesky and eigvalsh *)
(** A matrix with a Cholesky factor has positive computed eigenvalues, and they sum to the squared Frobenius norm of the factor;
    a computed eigenvalue that is not positive means that Cholesky fails *)
Theorem C79_cholesky_eigvalsh fuel (a : mat RN) vals : nr a = nc a -> symmetric (nr a) (ent a) -> eigvalsh fuel a = Ret vals ->
  (forall l, cholesky a = Ret l -> (forall i, (i < nr a)%nat -> 0 < vent vals i) /\ Rsum (nr a) (vent vals) = frob2 (nr a) (nr a) (ent l)) /\
  (forall i, (i < nr a)%nat -> vent vals i <= 0 -> cholesky a = Err NotPositiveDefinite).
Proof.
  intros sq hs hv. destruct (C06_cholesky_iff_posdef a sq hs) as (k1 & k2). split.
  - intros l hl. assert (hpd : posdef (nr a) (ent a)) by (apply k1; eauto). split.
    + intros i hi. apply (C76_range fuel a vals i sq hs hv hi); auto.
    + rewrite (C76_trace fuel a vals sq hs hv). destruct (C05_cholesky_factor a l hs hl) as (_ & _ & _ & _ & _ & hf).
      rewrite <- (frob2_tr (nr a) (nr a) (ent l)). rewrite frob2_trace. apply Rsum_ext. intros i hi. rewrite <- (hf i i hi hi). reflexivity.
  - intros i hi h0. apply k2. intros hpd. pose proof (proj2 (proj2 (proj2 (C76_range fuel a vals i sq hs hv hi))) hpd). lra.
Qed.
Print Assumptions C79_cholesky_eigvalsh.

(** ** Examples *)
Example C79_data : let a := rmat 2 [[1;0];[1;1];[1;2]]%Z in let b := rmat 1 [[1];[2];[4]]%Z in
  (nc a <= nr a)%nat /\ gram_of a (rmat 2 [[3;3];[3;5]]%Z) /\ moments_of a b (rmat 1 [[7];[10]]%Z) /\ exists x, least_squares a b = Ret x.
Proof.
  split; [simpl; lia|]. split; [|split].
  - split; [reflexivity|]. split; [reflexivity|]. intros [|[|i]] [|[|j]] hi hj; simpl in hi, hj; try lia; unfold mmul, mtr, ent, get; simpl; ring.
  - split; [reflexivity|]. split; [reflexivity|]. intros [|[|i]] [|j] hi hj; simpl in hi, hj; try lia; unfold mmul, mtr, ent, get; simpl; ring.
  - destruct C12_nonvacuous as (h1 & h2 & h3). destruct (C12_qr_least_squares _ _ h1 h2 h3) as (d & x & _ & _ & h & _). eauto.
Qed.

(** In binary64 the two can disagree about rank: the columns of the Laeuchli matrix (1, 1; e, 0; 0, e), e = 2^-30, are independent and QR says so,
    but the rounded A^T A is (1, 1; 1, 1), which Cholesky rejects *)
Theorem C79_binary64_refuted : exists a : mat FN, (nc a <= nr a)%nat /\
  match qr_into a with Ret d => is_invertible d | _ => false end = true /\ (let* g := dot2 (transpose a) a in cholesky g)%res = Err NotPositiveDefinite.
Proof.
  exists (Mat 3 2 [[f_of_Z 1; f_of_Z 1]; [fpow2 (-30); f_of_Z 0]; [f_of_Z 0; fpow2 (-30)]]). split; [simpl; lia|]. split; vm_compute; reflexivity.
Qed.
Print Assumptions C79_binary64_refuted.
