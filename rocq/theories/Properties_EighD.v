(** * C76: in exact arithmetic the computed eigenvalues are Rayleigh quotients of an orthonormal basis *)
From Coq Require Import Reals List Arith Lia Lra Bool ZArith.
From Coq.Floats Require Import SpecFloat.
From Verif Require Import Scalar Arr MBase MDirect MDecomp MEigh Inst Hoare Spec RLin PTri PHouse PTrid PGivens PEigh PEighR PEighD Ex.
Import ListNotations.
Local Open Scope R_scope.

(** ** Specification *)
(** [v 0], ..., [v (n-1)] are an orthonormal basis of R^n *)
Definition orthonormal_basis (n : nat) (v : nat -> nat -> R) : Prop :=
  forall i j, (i < n)%nat -> (j < n)%nat -> Rsum n (fun k => v i k * v j k) = if Nat.eqb i j then 1 else 0.
Definition trace (n : nat) (A : M) : R := Rsum n (fun i => A i i).

Lemma qform_conj n (P A : M) i : mmul n P (mmul n A (mtr P)) i i = qform n A (P i).
Proof.
  unfold mmul, mtr, qform. apply Rsum_ext. intros k hk. rewrite <- Rsum_scal_l. apply Rsum_ext. intros l hl. ring.
Qed.
Lemma sum_nonzero n f : Rsum n f <> 0 -> exists i, (i < n)%nat /\ f i <> 0.
Proof.
  induction n as [|n IH]; cbn [Rsum]; intros h; [lra|]. destruct (Req_dec (f n) 0) as [e|e]; [|eauto].
  destruct IH as (i & hi & hf); [lra|]. exists i. split; auto.
Qed.
Lemma orth_basis n P : orthogonal n P -> orthonormal_basis n P.
Proof. intros (_ & h) i j hi hj. specialize (h i j hi hj). exact h. Qed.

Lemma eigvalsh_diag fuel (a : mat RN) vals : nr a = nc a -> symmetric (nr a) (ent a) -> eigvalsh fuel a = Ret vals ->
  length vals = nr a /\ exists P, orthogonal (nr a) P /\ forall i, (i < nr a)%nat -> vent vals i = mmul (nr a) P (mmul (nr a) (ent a) (mtr P)) i i.
Proof.
  intros sq hs h. rewrite eigvalsh_eigh in h. unfold eigh in h.
  destruct (symmetric_eig fuel a true (nepsilon RN)) as [[v q]| | | |] eqn:e; try discriminate. cbn [bind] in h.
  destruct q as [q|]; [|discriminate]. cbn in h. injection h as ->.
  destruct (symmetric_eig_diag fuel a (nepsilon RN) vals q) as (h1 & P & h2 & h3); auto.
  - left. apply eps_R_pos.
  - split; auto. exists P. split; auto. intros i hi. symmetry. auto.
Qed.

(** Whatever the iteration dropped, each value is v^T A v for a unit vector v, the vectors of different
    values being orthogonal. *)
Theorem C76_rayleigh fuel (a : mat RN) vals : nr a = nc a -> symmetric (nr a) (ent a) -> eigvalsh fuel a = Ret vals ->
  length vals = nr a /\ exists v, orthonormal_basis (nr a) v /\
    forall i, (i < nr a)%nat -> vent vals i = qform (nr a) (ent a) (v i).
Proof.
  intros sq hs h. destruct (eigvalsh_diag fuel a vals sq hs h) as (h1 & P & h2 & h3). split; auto.
  exists P. split; [apply orth_basis; auto|]. intros i hi. rewrite h3 by auto. apply qform_conj.
Qed.
Print Assumptions C76_rayleigh.

(** The sum of the values is the trace, with no error at all. *)
Theorem C76_trace fuel (a : mat RN) vals : nr a = nc a -> symmetric (nr a) (ent a) -> eigvalsh fuel a = Ret vals ->
  Rsum (nr a) (vent vals) = trace (nr a) (ent a).
Proof.
  intros sq hs h. destruct (eigvalsh_diag fuel a vals sq hs h) as (h1 & P & (h2 & _) & h3). set (n := nr a) in *.
  rewrite (Rsum_ext n _ _ h3). unfold mmul, mtr, trace.
  rewrite Rsum_swap. transitivity (Rsum n (fun k => Rsum n (fun l => ent a k l * Rsum n (fun i => P i k * P i l)))).
  - apply Rsum_ext. intros k hk. transitivity (Rsum n (fun i => Rsum n (fun l => ent a k l * (P i k * P i l)))).
    + apply Rsum_ext. intros i hi. rewrite <- Rsum_scal_l. apply Rsum_ext. intros l hl. ring.
    + rewrite Rsum_swap. apply Rsum_ext. intros l hl. apply Rsum_scal_l.
  - apply Rsum_ext. intros k hk. rewrite (Rsum_single n k); auto.
    + pose proof (h2 k k hk hk) as e. unfold mmul, mtr, mid in e. rewrite e, Nat.eqb_refl. ring.
    + intros l hl hne. pose proof (h2 k l hk hl) as e. unfold mmul, mtr, mid in e. rewrite e.
      destruct (Nat.eqb_spec k l); [congruence|ring].
Qed.
Print Assumptions C76_trace.

(** No value leaves the numerical range of the matrix; on a positive (semi)definite one all are positive
    (nonnegative). *)
Theorem C76_range fuel (a : mat RN) vals i : nr a = nc a -> symmetric (nr a) (ent a) -> eigvalsh fuel a = Ret vals -> (i < nr a)%nat ->
  (forall lo, (forall x, lo * vnorm2 (nr a) x <= qform (nr a) (ent a) x) -> lo <= vent vals i) /\
  (forall hi, (forall x, qform (nr a) (ent a) x <= hi * vnorm2 (nr a) x) -> vent vals i <= hi) /\
  ((forall x, 0 <= qform (nr a) (ent a) x) -> 0 <= vent vals i) /\
  (posdef (nr a) (ent a) -> 0 < vent vals i).
Proof.
  intros sq hs h hi. destruct (C76_rayleigh fuel a vals sq hs h) as (h1 & v & h2 & h3). rewrite h3 by auto.
  assert (hn : vnorm2 (nr a) (v i) = 1) by (unfold vnorm2; rewrite h2 by auto; rewrite Nat.eqb_refl; reflexivity).
  repeat split.
  - intros lo hlo. specialize (hlo (v i)). rewrite hn in hlo. lra.
  - intros u hu. specialize (hu (v i)). rewrite hn in hu. lra.
  - intros hp. apply hp.
  - intros hp. apply hp. destruct (sum_nonzero (nr a) (fun k => v i k * v i k)) as (k & hk & hz); [fold (vnorm2 (nr a) (v i)); lra|].
    exists k. split; auto. intros e. apply hz. rewrite e. ring.
Qed.
Print Assumptions C76_range.

(** The squares of the values sum to at most the square of the Frobenius norm. *)
Theorem C76_squares fuel (a : mat RN) vals : nr a = nc a -> symmetric (nr a) (ent a) -> eigvalsh fuel a = Ret vals ->
  Rsum (nr a) (fun i => vent vals i * vent vals i) <= frob2 (nr a) (nr a) (ent a).
Proof.
  intros sq hs h. destruct (eigvalsh_diag fuel a vals sq hs h) as (h1 & P & h2 & h3). set (n := nr a) in *.
  assert (hf : frob2 n n (mmul n P (mmul n (ent a) (mtr P))) = frob2 n n (ent a)).
  { pose proof (frob_conj n P (ent a) h2) as e. unfold frob in e. apply sqrt_inj in e; auto;
    apply Rsum_nonneg; intros; apply Rsum_nonneg; intros; apply sqn. }
  rewrite <- hf. unfold frob2. apply Rsum_le. intros i hi. rewrite h3 by auto.
  apply (Rsum_term_le n (fun j => mmul n P (mmul n (ent a) (mtr P)) i j * mmul n P (mmul n (ent a) (mtr P)) i j) i); auto.
  intros. apply sqn.
Qed.
Print Assumptions C76_squares.

(** ** Examples *)
Definition a76 : mat RN := rmat 2 [[4; 10]; [10; 25]]%Z.
Lemma a76_psd x : 0 <= qform 2 (ent a76) x.
Proof.
  unfold qform, ent, a76, rmat. cbn. replace (_ + _) with ((2 * x 0%nat + 5 * x 1%nat) * (2 * x 0%nat + 5 * x 1%nat)) by ring. apply sqn.
Qed.
(** a singular matrix: the values are nonnegative and sum to 29 in exact arithmetic *)
Example C76_example : exists vals, eigvalsh 1 a76 = Ret vals /\ nr a76 = nc a76 /\ symmetric (nr a76) (ent a76) /\
  0 <= vent vals 0 /\ 0 <= vent vals 1 /\ vent vals 0 + vent vals 1 = 29.
Proof.
  assert (sq : nr a76 = nc a76) by reflexivity.
  assert (hs : symmetric (nr a76) (ent a76)).
  { intros i j hi hj. unfold mtr. cbn in hi, hj. destruct i as [|[|i]], j as [|[|j]]; try lia; reflexivity. }
  destruct (eigh_small a76 (eig2_total_real _) sq) as ([v q] & e); [cbn; lia|].
  assert (ev : eigvalsh 1 a76 = Ret v) by (rewrite eigvalsh_eigh, e; reflexivity).
  exists v. split; auto. split; auto. split; auto.
  split; [|split].
  - destruct (C76_range 1 a76 v 0 sq hs ev) as (_ & _ & h & _); [cbn; lia|]. apply h, a76_psd.
  - destruct (C76_range 1 a76 v 1 sq hs ev) as (_ & _ & h & _); [cbn; lia|]. apply h, a76_psd.
  - pose proof (C76_trace 1 a76 v sq hs ev) as h. unfold trace in h. cbn [nr a76 rmat length Rsum] in h.
    unfold ent in h. cbn in h. lra.
Qed.

(** The claim about positive semidefinite matrices is one about exact arithmetic: in binary64 the same matrix,
    whose entries are small integers, gets a negative value. *)
Theorem C76_binary64_psd_refuted : exists l : list (list Z),
  (forall x, 0 <= qform 2 (ent (rmat 2 l)) x) /\
  match eigvalsh 1 (fmat 2 l) with
  | Ret vals => existsb (fun x => match x with S754_finite true _ _ => true | _ => false end) vals
  | _ => false
  end = true.
Proof. exists [[4; 10]; [10; 25]]%Z. split; [exact a76_psd|vm_compute; reflexivity]. Qed.
Print Assumptions C76_binary64_psd_refuted.
