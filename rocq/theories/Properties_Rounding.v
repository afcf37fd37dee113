(** * Properties C43-C46: rounding errors of the binary64 computations

    Everything here is about the instance [FN] of the model: the operations of IEEE 754 binary64 in
    exactly the order in which the code performs them.  No input is excluded except through the
    stated hypotheses; overflow is excluded by asking for a finite result. *)
From Coq Require Import Reals List Arith Lia Lra Bool ZArith QArith.
From Coq.Floats Require Import SpecFloat.
From Verif Require Import Scalar Arr MBase MDirect Inst Hoare Spec SpecF Ex RLin PTri PChol PNorm PRound PTriF PCholF PNormF.
Import ListNotations.
Local Open Scope R_scope.

(** gam k is the usual constant of rounding-error analysis *)
Theorem C43_gam (k : nat) : INR k * uro < 1 -> 0 <= gam k /\ gam k <= INR k * uro / (1 - INR k * uro).
Proof. intros h. split; [apply gam_nonneg|apply gam_usual; auto]. Qed.
Print Assumptions C43_gam.

(** C43.  solve_triangular in binary64 is componentwise backward stable: each column of the result
    solves exactly a system whose triangle differs from the given one by a relative (1+u)^n - 1 per
    entry, and whose right-hand side differs only by underflow.  A finite result also shows that
    nothing in the triangle or the right-hand side is infinite or NaN and no pivot is zero. *)
Theorem C43_solve_triangular_backward_stable (a b x : mat FN) (u : UPLO) (k : nat) :
  mvalid a -> mvalid b -> (forall i, (i < nr a)%nat -> ffin (get a i i)) ->
  solve_triangular a b u = Ret x -> (k < nc b)%nat ->
  (forall i, (i < nr a)%nat -> ffin (get x i k)) ->
  let n := nr a in let T := tri_of u (frm a) in
  (forall i, (i < n)%nat -> ffin (get b i k) /\ frm a i i <> 0) /\
  (forall i j, (i < n)%nat -> (j < n)%nat -> ~ outside u i j -> ffin (get a i j)) /\
  exists (dT : M) (db : nat -> R),
    (forall i j, (i < n)%nat -> (j < n)%nat -> Rabs (dT i j) <= gam n * Rabs (T i j)) /\
    (forall i, (i < n)%nat -> Rabs (db i) <= (1 + uro) ^ n * (INR n + Rabs (frm a i i)) * eta) /\
    (forall i, (i < n)%nat -> Rsum n (fun j => madd T dT i j * frm x j k) = frm b i k + db i).
Proof. exact (solve_triangular_backward a b x u k). Qed.
Print Assumptions C43_solve_triangular_backward_stable.

(** The operations and their order, for any scalar type: entry p of the solution is
    ((b_p - x_q0 t_pq0) - x_q1 t_pq1 ...) / t_pp, the indices q running towards p. *)
Theorem C43_operations (N : Num) (a b x : mat N) (u : UPLO) : solve_triangular a b u = Ret x ->
  let n := nr a in
  let idx k := match u with Lower => k | Upper => (n - 1 - k)%nat end in
  forall p c, (p < n)%nat -> (c < nc b)%nat ->
    get x p c = ndiv N
      (fold_left (fun acc q => nadd N acc (nmul N (nopp N (get x (idx q) c)) (get a p (idx q))))
                 (seq 0 (idx p)) (get b p c))
      (get a p p).
Proof.
  intros hs n idx p c hp hc.
  assert (hcl := solve_triangular_class a b u). rewrite hs in hcl. destruct hcl as (sq & hb & h1 & h2).
  assert (dg : forall i, (i < nr a)%nat -> at2 a i i = Ret (get a i i)) by (intros; unfold at2; bd; reflexivity).
  pose proof (post_inv _ _ _ _ _ (solve_system_exact a b u (fun i => at2 a i i) (fun i => get a i i) sq hb dg) hs)
    as (_ & _ & h).
  rewrite h by auto. unfold row_val. fold n. change (ord u n p) with (idx p). f_equal.
  generalize (idx p) as m. intros m. induction m as [|m IH]; [reflexivity|].
  rewrite seq_S, fold_left_app. cbn [elim fold_left Nat.add]. rewrite IH. reflexivity.
Qed.
Print Assumptions C43_operations.

(** C44.  The binary64 Cholesky factor: exactly lower triangular, positive diagonal, and L L^T
    differs from A (as given by its lower triangle) by at most gam (n+2) |L||L|^T per entry, plus
    underflow. *)
Theorem C44_cholesky_backward_stable (a l : mat FN) :
  mvalid a -> cholesky a = Ret l -> (forall i j, (j <= i < nr a)%nat -> ffin (get l i j)) ->
  let n := nr a in let L := frm l in
  nr a = nc a /\ nr l = n /\ nc l = n /\
  lower_tri n n L /\ (forall i, (i < n)%nat -> 0 < L i i) /\
  (forall i j, (j <= i < n)%nat -> ffin (get a i j)) /\
  forall i j, (i < n)%nat -> (j < n)%nat ->
    let m := Nat.min i j in
    Rabs (mmul n L (mtr L) i j - sym_of_lower (frm a) i j)
    <= gam (n + 2) * mmul n (mabs L) (mtr (mabs L)) i j
       + (1 + uro) ^ (n + 2) * (INR n + Rabs (L m m)) * eta.
Proof.
  intros va hc hf. destruct (cholesky_backward a l va hc hf) as (h1 & h2 & h3 & _ & h5 & h6 & h7 & h8).
  cbv zeta. repeat (split; [assumption|]). exact h8.
Qed.
Print Assumptions C44_cholesky_backward_stable.

(** C45.  solvec in binary64: each finite column of the result solves a system A + dA, b + db with
    |dA| <= gam (3n+2) |L||L|^T plus underflow, where L is the computed factor, and db is underflow
    only.  Only the diagonal of A is required to be finite: with a finite result the rest follows. *)
Theorem C45_solvec_backward_stable (a b x : mat FN) (k : nat) :
  mvalid a -> mvalid b -> (forall i, (i < nr a)%nat -> ffin (get a i i)) ->
  solvec a b = Ret x -> (k < nc b)%nat ->
  (forall i, (i < nr a)%nat -> ffin (get x i k)) ->
  let n := nr a in
  nr a = nc a /\ nr b = n /\
  exists l, cholesky_dirty a = Ret l /\ let L := tri_of Lower (frm l) in
  (forall i, (i < n)%nat -> 0 < L i i) /\
  (forall i, (i < n)%nat -> ffin (get b i k)) /\
  (forall i j, (j <= i < n)%nat -> ffin (get l i j) /\ ffin (get a i j)) /\
  exists (dA : M) (db : nat -> R),
    (forall i j, (i < n)%nat -> (j < n)%nat -> let m := Nat.min i j in
       Rabs (dA i j) <= gam (3 * n + 2) * mmul n (mabs L) (mtr (mabs L)) i j
                        + (1 + uro) ^ (n + 2) * (INR n + Rabs (L m m)) * eta) /\
    (forall i, (i < n)%nat -> Rabs (db i) <=
       (1 + uro) ^ (2 * n) * (INR n + L i i + Rsum n (fun j => Rabs (L i j) * (INR n + L j j))) * eta) /\
    (forall i, (i < n)%nat ->
       Rsum n (fun j => madd (sym_of_lower (frm a)) dA i j * frm x j k) = frm b i k + db i).
Proof. exact (solvec_backward a b x k). Qed.
Print Assumptions C45_solvec_backward_stable.

(** invc: each finite column k of the result solves (A + dA) x = e_k + db with the same bounds *)
Theorem C45_invc_backward_stable (a x : mat FN) (k : nat) :
  mvalid a -> (forall i, (i < nr a)%nat -> ffin (get a i i)) ->
  invc a = Ret x -> (k < nr a)%nat -> (forall i, (i < nr a)%nat -> ffin (get x i k)) ->
  let n := nr a in
  exists l, cholesky_dirty a = Ret l /\ let L := tri_of Lower (frm l) in
  exists (dA : M) (db : nat -> R),
    (forall i j, (i < n)%nat -> (j < n)%nat -> let m := Nat.min i j in
       Rabs (dA i j) <= gam (3 * n + 2) * mmul n (mabs L) (mtr (mabs L)) i j
                        + (1 + uro) ^ (n + 2) * (INR n + Rabs (L m m)) * eta) /\
    (forall i, (i < n)%nat -> Rabs (db i) <=
       (1 + uro) ^ (2 * n) * (INR n + L i i + Rsum n (fun j => Rabs (L i j) * (INR n + L j j))) * eta) /\
    (forall i, (i < n)%nat ->
       Rsum n (fun j => madd (sym_of_lower (frm a)) dA i j * frm x j k) = mid i k + db i).
Proof.
  intros va hd hs hk hf n.
  assert (ve : mvalid (eye (nr a))).
  { intros i j hi hj. unfold eye in *. rewrite nr_mk, nc_mk in *. rewrite get_mk by auto. bd; reflexivity. }
  destruct (solvec_backward a (eye (nr a)) x k va ve hd hs hk hf) as (_ & _ & l & hl & _ & _ & _ & dA & db & h1 & h2 & h3).
  exists l. split; auto. exists dA, db. split; auto. split; auto.
  intros i hi. rewrite h3 by auto. f_equal. unfold frm, eye, mid. rewrite get_mk by auto.
  destruct (Nat.eqb i k); [|reflexivity].
  change (n1 FN) with (S754_finite false 4503599627370496 (-52)). unfold fr, BinarySingleNaN.SF2R, Defs.F2R. simpl. lra.
Qed.
Print Assumptions C45_invc_backward_stable.

(** C46.  The norms in binary64.  norm_max is exact and never overflows. *)
Theorem C46_norm_max_exact (v : list FN) : (forall x, In x v -> fvalid x /\ ffin x) ->
  let m := fr (norm_max v) in
  ffin (norm_max v) /\ (forall i, (i < length v)%nat -> Rabs (frv v i) <= m) /\
  ((v = [] /\ m = 0) \/ exists i, (i < length v)%nat /\ m = Rabs (frv v i)).
Proof.
  intros hv. destruct (norm_max_float v hv) as (_ & h1 & h2 & h3 & h4). cbv zeta.
  split; auto. split; auto. destruct v as [|y v]; [left; auto|]. right.
  destruct h4 as [h4|h4]; auto. exists 0%nat. split; [simpl; lia|].
  specialize (h3 0%nat ltac:(simpl; lia)). pose proof (Rabs_pos (frv (y :: v) 0)). rewrite h4 in *. lra.
Qed.
Print Assumptions C46_norm_max_exact.

(** norm_l1: relative error at most gam n *)
Theorem C46_norm_l1_error (v : list FN) : (forall x, In x v -> fvalid x) -> ffin (norm_l1 v) ->
  let n := length v in let s := Rsum n (fun i => Rabs (frv v i)) in
  (forall x, In x v -> ffin x) /\ Rabs (fr (norm_l1 v) - s) <= gam n * s.
Proof. exact (norm_l1_float v). Qed.
Print Assumptions C46_norm_l1_error.

(** norm_l2: the square has relative error at most gam (n+3), plus underflow of the squares *)
Theorem C46_norm_l2_error (v : list FN) : (forall x, In x v -> fvalid x) -> ffin (norm_l2 v) ->
  let n := length v in let s := vnorm2 n (frv v) in let r := fr (norm_l2 v) in
  (forall x, In x v -> ffin x) /\ 0 <= r /\
  Rabs (r * r - s) <= gam (n + 3) * s + (1 + uro) ^ (n + 3) * INR n * eta /\
  (0 < s -> Rabs (r - sqrt s) <= gam (n + 3) * sqrt s + (1 + uro) ^ (n + 3) * INR n * eta / sqrt s).
Proof.
  intros hv hf. destruct (norm_l2_float v hv hf) as (h1 & h2 & h3). cbv zeta. cbv zeta in h3.
  set (n := length v) in *. set (s := vnorm2 n (frv v)) in *. set (r := fr (norm_l2 v)) in *.
  split; auto. split; auto. split; auto. intros hs.
  pose proof (sqrt_lt_R0 s hs) as hq. pose proof (sqrt_sqrt s (Rlt_le _ _ hs)) as hqq.
  set (t := sqrt s) in *.
  apply Rmult_le_reg_r with t; auto.
  replace ((gam (n + 3) * t + (1 + uro) ^ (n + 3) * INR n * eta / t) * t)
    with (gam (n + 3) * s + (1 + uro) ^ (n + 3) * INR n * eta) by (rewrite <- hqq; field; lra).
  eapply Rle_trans; [|exact h3]. rewrite <- hqq.
  replace (r * r - t * t) with ((r - t) * (r + t)) by ring. rewrite Rabs_mult.
  apply Rmult_le_compat_l; [apply Rabs_pos|]. rewrite Rabs_pos_eq by lra. lra.
Qed.
Print Assumptions C46_norm_l2_error.

(** ** Examples *)
Definition okb (x : spec_float) : bool := valid_binary prec emax x && BinarySingleNaN.is_finite_SF x.
Definition mokb (m : mat FN) : bool :=
  forallb (fun i => forallb (fun j => okb (get m i j)) (seq 0 (nc m))) (seq 0 (nr m)).
Lemma mokb_ok m : mokb m = true -> forall i j, (i < nr m)%nat -> (j < nc m)%nat -> fvalid (get m i j) /\ ffin (get m i j).
Proof.
  unfold mokb. intros h i j hi hj. rewrite forallb_forall in h. specialize (h i ltac:(apply in_seq; lia)).
  rewrite forallb_forall in h. specialize (h j ltac:(apply in_seq; lia)).
  apply andb_prop in h. exact h.
Qed.
(** result of a computation, for the examples *)
Definition okres (m : res (mat FN)) : bool := match m with Ret x => mokb x | _ => false end.

(** forward substitution with a result that is not exact: 3 * x_0 <> 1 *)
Example C43_example : let a := fmat 2 [[3; 0]; [1; 7]]%Z in let b := fmat 1 [[1]; [1]]%Z in
  mvalid a /\ mvalid b /\ (forall i, (i < nr a)%nat -> ffin (get a i i)) /\
  exists x, solve_triangular a b Lower = Ret x /\ (forall i, (i < nr a)%nat -> ffin (get x i 0)) /\
    ~ (fq (get x 0 0) * 3 == 1)%Q /\ ~ (fq (get x 0 0) + fq (get x 1 0) * 7 == 1)%Q.
Proof.
  set (a := fmat 2 [[3; 0]; [1; 7]]%Z). set (b := fmat 1 [[1]; [1]]%Z). cbv zeta.
  assert (ka : mokb a = true) by (vm_compute; reflexivity).
  assert (kb : mokb b = true) by (vm_compute; reflexivity).
  split; [intros i j hi hj; apply (mokb_ok a ka i j); auto|].
  split; [intros i j hi hj; apply (mokb_ok b kb i j); auto|].
  split; [intros i hi; apply (mokb_ok a ka i i); auto|].
  assert (kx : okres (solve_triangular a b Lower) = true) by (vm_compute; reflexivity).
  destruct (solve_triangular a b Lower) as [x| | | |] eqn:ex; try discriminate.
  assert (dx : nr x = 2%nat /\ nc x = 1%nat).
  { pose proof (solve_triangular_class a b Lower) as h. rewrite ex in h. destruct h as (_ & _ & -> & ->). auto. }
  assert (kq : (let q := match solve_triangular a b Lower with
                        | Ret x => (Qeq_bool (fq (get x 0 0) * 3) 1 || Qeq_bool (fq (get x 0 0) + fq (get x 1 0) * 7) 1)%Q
                        | _ => true end in q = false)) by (vm_compute; reflexivity).
  rewrite ex in kq. cbv zeta in kq. apply orb_false_elim in kq. destruct kq as [k1 k2].
  exists x. split; auto. split; [intros i hi; apply (mokb_ok x kx); destruct dx; simpl in hi; lia|].
  split; apply Qeq_bool_neq; auto.
Qed.

(** A = [2 1; 1 2]: the factor contains sqrt 2, so rounding errors are unavoidable *)
Example C44_C45_example : let a := fmat 2 [[2; 1]; [1; 2]]%Z in let b := fmat 1 [[1]; [0]]%Z in
  mvalid a /\ mvalid b /\ (forall i, (i < nr a)%nat -> ffin (get a i i)) /\
  (exists l, cholesky a = Ret l /\ (forall i j, (j <= i < nr a)%nat -> ffin (get l i j)) /\
     ~ (fq (get l 0 0) * fq (get l 0 0) == 2)%Q) /\
  (exists x, solvec a b = Ret x /\ forall i, (i < nr a)%nat -> ffin (get x i 0)) /\
  (exists x, invc a = Ret x /\ forall i k, (i < nr a)%nat -> (k < nr a)%nat -> ffin (get x i k)).
Proof.
  set (a := fmat 2 [[2; 1]; [1; 2]]%Z). set (b := fmat 1 [[1]; [0]]%Z). cbv zeta.
  assert (ka : mokb a = true) by (vm_compute; reflexivity).
  assert (kb : mokb b = true) by (vm_compute; reflexivity).
  split; [intros i j hi hj; apply (mokb_ok a ka i j); auto|].
  split; [intros i j hi hj; apply (mokb_ok b kb i j); auto|].
  split; [intros i hi; apply (mokb_ok a ka i i); auto|].
  assert (dim : forall (m : res (mat FN)) r c,
    (match m with Ret x => mokb x && Nat.eqb (nr x) r && Nat.eqb (nc x) c | _ => false end) = true ->
    exists x, m = Ret x /\ nr x = r /\ nc x = c /\ forall i j, (i < r)%nat -> (j < c)%nat -> ffin (get x i j)).
  { intros m r c h. destruct m as [x| | | |]; try discriminate.
    apply andb_prop in h. destruct h as [h h3]. apply andb_prop in h. destruct h as [h1 h2].
    apply Nat.eqb_eq in h2, h3. subst. exists x. repeat split; auto. intros. apply (mokb_ok x h1); auto. }
  split; [|split].
  - destruct (dim (cholesky a) 2%nat 2%nat) as (l & el & h1 & h2 & h3); [vm_compute; reflexivity|].
    exists l. split; auto. split; [intros i j hij; apply h3; simpl in hij; lia|].
    assert (kq : match cholesky a with Ret l => Qeq_bool (fq (get l 0 0) * fq (get l 0 0)) 2 | _ => true end = false)
      by (vm_compute; reflexivity).
    rewrite el in kq. apply Qeq_bool_neq. exact kq.
  - destruct (dim (solvec a b) 2%nat 1%nat) as (x & ex & h1 & h2 & h3); [vm_compute; reflexivity|].
    exists x. split; auto.
  - destruct (dim (invc a) 2%nat 2%nat) as (x & ex & h1 & h2 & h3); [vm_compute; reflexivity|].
    exists x. split; auto.
Qed.

Example C46_example : let v := [f_of_Z 3; f_of_Z (-1); nofQ FN 1 3] in
  (forall x, In x v -> fvalid x /\ ffin x) /\ ffin (norm_l1 (N:=FN) v) /\ ffin (norm_l2 (N:=FN) v).
Proof.
  split; [|split; vm_compute; reflexivity].
  intros x hx. repeat (destruct hx as [<-|hx]; [split; vm_compute; reflexivity|]). destruct hx.
Qed.
