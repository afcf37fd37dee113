(** * Property C57: which matrices binary64 Cholesky accepts *)
From Coq Require Import Reals List Arith Lia Lra Bool ZArith QArith Psatz.
From Coq.Floats Require Import SpecFloat.
From Flocq Require Import Core BinarySingleNaN.
From Verif Require Import Scalar Arr MBase MDirect Inst Hoare Spec SpecF Ex RLin PChol PRound PCholF PHouseF PCholG Properties_Rounding.
Import ListNotations.
Local Open Scope R_scope.

(** x^T A x, and the same with only the diagonal of A *)
Definition quad_form (n : nat) (A : M) (x : nat -> R) : R := Rsum n (fun i => x i * Rsum n (fun j => A i j * x j)).
Definition quad_diag (n : nat) (A : M) (x : nat -> R) : R := Rsum n (fun i => A i i * (x i * x i)).
(** The rounding errors of the factorisation, relative to sqrt (a_ii a_jj) *)
Definition chol_err (n : nat) : R := gam (2 * n + 20).
(** A matrix given by its lower triangle: finite, with a diagonal clear of overflow and underflow *)
Definition chol_input (a : mat FN) : Prop :=
  nr a = nc a /\ mvalid a /\ (forall i j, (j <= i < nr a)%nat -> ffin (get a i j)) /\
  forall i, (i < nr a)%nat -> bpow radix2 (-900) <= frm a i i <= bpow radix2 1000.

Lemma symdiag a i : sym_of_lower (frm a) i i = frm a i i.
Proof. unfold sym_of_lower. now rewrite Nat.leb_refl. Qed.

(** C57.  If x^T A x >= (n+4) gam(2n+20) sum a_ii x_i^2 for every x, then cholesky succeeds in binary64:
    no pivot is rejected, nothing overflows, and L L^T is A up to gam(2n+20) sqrt (a_ii a_jj) per entry. *)
Theorem C57_accepts_positive_definite (a : mat FN) : chol_input a ->
  let n := nr a in let A := sym_of_lower (frm a) in
  (forall x, (INR n + 4) * chol_err n * quad_diag n A x <= quad_form n A x) ->
  exists l, cholesky a = Ret l /\ nr l = n /\ nc l = n /\ (forall i j, (i < n)%nat -> (j < n)%nat -> ffin (get l i j)) /\
    (forall i, (i < n)%nat -> 0 < frm l i i) /\ lower_tri n n (frm l) /\
    (forall i j, (i < n)%nat -> (j < n)%nat -> Rabs (mmul n (frm l) (mtr (frm l)) i j - A i j) <= chol_err n * (sqrt (A i i) * sqrt (A j j))).
Proof.
  intros (sq & va & fin & rng) n A pd. apply (cholesky_accepts a sq va); auto.
  intros p hp. rewrite symdiag. apply rng. exact hp.
Qed.
Print Assumptions C57_accepts_positive_definite.

(** Conversely, a matrix with x^T A x < - n gam(2n+20) sum a_ii x_i^2 for some x gets no finite factor. *)
Theorem C57_rejects_indefinite (a : mat FN) x : chol_input a ->
  let n := nr a in let A := sym_of_lower (frm a) in
  (INR n + 4) * chol_err n <= 1 -> quad_form n A x < - (INR n * chol_err n) * quad_diag n A x ->
  forall l, cholesky a = Ret l -> exists i j, (j <= i < n)%nat /\ ~ ffin (get l i j).
Proof.
  intros (sq & va & fin & rng) n A hn hx l hl.
  assert (dec : (exists i j, (j <= i < n)%nat /\ ~ ffin (get l i j)) \/ forall i j, (j <= i < n)%nat -> ffin (get l i j)).
  { destruct (forallb (fun i => forallb (fun j => is_finite_SF (get l i j)) (seq 0 (S i))) (seq 0 n)) eqn:e.
    - right. intros i j hij. rewrite forallb_forall in e. specialize (e i ltac:(apply in_seq; lia)). rewrite forallb_forall in e. apply (e j). apply in_seq. lia.
    - left. assert (he : exists i, (i < n)%nat /\ forallb (fun j => is_finite_SF (get l i j)) (seq 0 (S i)) = false).
      { destruct (existsb (fun i => negb (forallb (fun j => is_finite_SF (get l i j)) (seq 0 (S i)))) (seq 0 n)) eqn:e2.
        - apply existsb_exists in e2. destruct e2 as (i & h1 & h2). apply in_seq in h1. exists i. split; [lia|]. now apply negb_true_iff.
        - exfalso. enough (forallb (fun i => forallb (fun j => is_finite_SF (get l i j)) (seq 0 (S i))) (seq 0 n) = true) by congruence.
          apply forallb_forall. intros i hi. destruct (forallb (fun j => is_finite_SF (get l i j)) (seq 0 (S i))) eqn:e3; auto.
          exfalso. enough (existsb (fun i => negb (forallb (fun j => is_finite_SF (get l i j)) (seq 0 (S i)))) (seq 0 n) = true) by congruence.
          apply existsb_exists. exists i. split; auto. now rewrite e3. }
      destruct he as (i & hi & e2). exists i. revert e2. generalize (le_n (S i)). generalize (S i) at 1 3. intros m. induction m as [|m IH]; intros hm e2; [discriminate|].
      rewrite seq_S, forallb_app in e2. simpl in e2. rewrite andb_true_r in e2. apply andb_false_iff in e2. destruct e2 as [e2|e2].
      + apply IH; auto; lia.
      + exists m. split; [lia|]. unfold ffin. congruence. }
  destruct dec as [|hf]; auto. exfalso.
  destruct (cholesky_rejects a l va hn ltac:(intros p hp; rewrite symdiag; apply rng; exact hp) hl hf) as (_ & h). specialize (h x).
  change (- (INR n * chol_err n) * quad_diag n A x <= quad_form n A x) in h. lra.
Qed.
Print Assumptions C57_rejects_indefinite.

(** That the factor has to be finite cannot be left out: with a tiny first pivot a row of the factor
    overflows, inf - inf gives NaN, and NaN passes the test for positive pivots.  A finite symmetric
    matrix with x^T A x < 0 at x = (-1, 0, 0, 1) is accepted, and the factor returned has a NaN. *)
Definition nan_matrix : mat FN :=
  let z := f_of_Z 0 in let t := fpow2 (-500) in let h := fpow2 900 in
  Mat 4 4 [[fpow2 (-1000); t; t; h]; [t; f_of_Z 2; f_of_Z 2; z]; [t; f_of_Z 2; f_of_Z 3; z]; [h; z; z; f_of_Z 1]].
Lemma chol_checkb_ok (a : mat FN) (f : mat FN -> bool) : match cholesky a with Ret l => f l | _ => false end = true -> exists l, cholesky a = Ret l /\ f l = true.
Proof. destruct (cholesky a) as [l| | | |]; try discriminate. intros h. exists l. auto. Qed.
Theorem C57_accepts_indefinite_refuted : exists (a l : mat FN), mokb a = true /\ a = transpose a /\ nr a = 4%nat /\ cholesky a = Ret l /\ get l 3 3 = S754_nan /\
  (fq (get a 0 0) - 2 * fq (get a 3 0) + fq (get a 3 3) < 0)%Q.
Proof.
  destruct (chol_checkb_ok nan_matrix (fun l => match get l 3 3 with S754_nan => true | _ => false end)) as (l & e & h); [vm_compute; reflexivity|].
  exists nan_matrix, l. split; [vm_compute; reflexivity|]. split; [vm_compute; reflexivity|]. split; [reflexivity|]. split; [exact e|].
  split; [clear e; cbv beta in h; destruct (get l 3 3); try discriminate h; reflexivity|]. vm_compute. reflexivity.
Qed.
Print Assumptions C57_accepts_indefinite_refuted.

(** ** Examples: a positive definite matrix with an irrational factor, and an indefinite one *)
Lemma gam24 : 6 * gam (2 * 2 + 20) <= / 2.
Proof.
  pose proof (gam_usual 24) as h. change (2 * 2 + 20)%nat with 24%nat. assert (e : INR 24 = 24) by (rewrite INR_IZR_INZ; reflexivity). rewrite e in h.
  assert (hu : uro <= / 1000000) by (unfold uro; apply Rinv_le; [lra|]; apply IZR_le; discriminate). pose proof uro_pos.
  assert (24 * uro / (1 - 24 * uro) <= / 12). { apply Rmult_le_reg_r with (1 - 24 * uro); [lra|]. unfold Rdiv. rewrite Rmult_assoc, Rinv_l by lra. lra. }
  lra.
Qed.
Lemma small_range z : fr (f_of_Z z) = IZR z -> (1 <= z <= 4)%Z -> bpow radix2 (-900) <= fr (f_of_Z z) <= bpow radix2 1000.
Proof.
  intros -> h. split.
  - apply Rle_trans with 1; [apply (bpow_le radix2 _ 0); discriminate|]. apply IZR_le. lia.
  - apply Rle_trans with (bpow radix2 2); [change (bpow radix2 2) with 4; apply IZR_le; lia|]. apply bpow_le. discriminate.
Qed.
Example C57_accepts_example : let a := fmat 2 [[2; 1]; [1; 2]]%Z in chol_input a /\
  (forall x, (INR (nr a) + 4) * chol_err (nr a) * quad_diag (nr a) (sym_of_lower (frm a)) x <= quad_form (nr a) (sym_of_lower (frm a)) x).
Proof.
  set (a := fmat 2 [[2; 1]; [1; 2]]%Z). cbv zeta. assert (ka : mokb a = true) by (vm_compute; reflexivity). split.
  - split; [reflexivity|]. split; [intros i j hi hj; apply (mokb_ok a ka i j); auto|].
    split; [intros i j hij; change (nr a) with 2%nat in hij; apply (mokb_ok a ka i j); change (nr a) with 2%nat; change (nc a) with 2%nat; lia|].
    intros i hi. change (nr a) with 2%nat in hi. destruct i as [|[|i]]; try lia; apply (small_range 2 fr_f2); lia.
  - intros x. change (nr a) with 2%nat. unfold quad_diag, quad_form, sym_of_lower. cbn [Rsum Nat.leb].
    change (frm a 0%nat 0%nat) with (fr (f_of_Z 2)). change (frm a 1%nat 1%nat) with (fr (f_of_Z 2)). change (frm a 1%nat 0%nat) with (fr (f_of_Z 1)). rewrite fr_f1, fr_f2.
    pose proof gam24 as h. fold (chol_err 2) in h. change (INR 2) with 2.
    set (u := x 0%nat). set (v := x 1%nat). pose proof (Rle_0_sqr u) as h1. pose proof (Rle_0_sqr v) as h2. pose proof (Rle_0_sqr (u + v)) as h3. unfold Rsqr in *.
    assert ((2 + 4) * chol_err 2 * (0 + 2 * (u * u) + 2 * (v * v)) <= / 2 * (0 + 2 * (u * u) + 2 * (v * v))) by (apply Rmult_le_compat_r; lra). lra.
Qed.
Example C57_rejects_example : let a := fmat 2 [[1; 2]; [2; 1]]%Z in let x := fun i => if Nat.eqb i 0 then 1 else -1 in chol_input a /\ (INR (nr a) + 4) * chol_err (nr a) <= 1 /\
  quad_form (nr a) (sym_of_lower (frm a)) x < - (INR (nr a) * chol_err (nr a)) * quad_diag (nr a) (sym_of_lower (frm a)) x.
Proof.
  set (a := fmat 2 [[1; 2]; [2; 1]]%Z). cbv zeta. assert (ka : mokb a = true) by (vm_compute; reflexivity). split; [|split].
  - split; [reflexivity|]. split; [intros i j hi hj; apply (mokb_ok a ka i j); auto|].
    split; [intros i j hij; change (nr a) with 2%nat in hij; apply (mokb_ok a ka i j); change (nr a) with 2%nat; change (nc a) with 2%nat; lia|].
    intros i hi. change (nr a) with 2%nat in hi. destruct i as [|[|i]]; try lia; apply (small_range 1 fr_f1); lia.
  - pose proof gam24 as h. fold (chol_err 2) in h. change (nr a) with 2%nat. change (INR 2) with 2. lra.
  - change (nr a) with 2%nat. unfold quad_diag, quad_form, sym_of_lower. cbn [Rsum Nat.leb Nat.eqb].
    change (frm a 0%nat 0%nat) with (fr (f_of_Z 1)). change (frm a 1%nat 1%nat) with (fr (f_of_Z 1)). change (frm a 1%nat 0%nat) with (fr (f_of_Z 2)). rewrite fr_f1, fr_f2.
    pose proof gam24 as h. fold (chol_err 2) in h. change (INR 2) with 2. lra.
Qed.
