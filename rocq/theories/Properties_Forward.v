(** * Property C66: forward error of the direct solvers in binary64 *)
From Coq Require Import Reals List Arith Lia Lra Psatz Bool ZArith QArith.
From Coq.Floats Require Import SpecFloat.
From Flocq Require Import Core BinarySingleNaN.
From Verif Require Import Scalar Arr MBase MDirect Inst Hoare Spec SpecF Ex RLin PRound PTriF PCholF PHouseF PTrdF PFwd PFwdF Properties_Rounding Properties_QRFloat Properties_QRSolveF.
Import ListNotations.
Local Open Scope R_scope.

(** ** C66.  solve_triangular.  G is the inverse of the triangle T and xs the exact solution.  The error
    of entry i is at most |G| (gam n |T| |x| + underflow), entry by entry. *)
Theorem C66_solve_triangular_forward (a b x : mat FN) (u : UPLO) (k : nat) (G : M) (xs : nat -> R) :
  mvalid a -> mvalid b -> (forall i, (i < nr a)%nat -> ffin (get a i i)) ->
  solve_triangular a b u = Ret x -> (k < nc b)%nat -> (forall i, (i < nr a)%nat -> ffin (get x i k)) ->
  let n := nr a in let T := tri_of u (frm a) in
  mmul n G T =[n, n]= mid -> (forall i, (i < n)%nat -> Rsum n (fun j => T i j * xs j) = frm b i k) ->
  forall i, (i < n)%nat -> Rabs (frm x i k - xs i) <=
    Rsum n (fun j => Rabs (G i j) * (gam n * Rsum n (fun l => Rabs (T j l) * Rabs (frm x l k)) + (1 + uro) ^ n * (INR n + Rabs (frm a j j)) * eta)).
Proof.
  intros va vb hd es hk hf n T hG hx.
  destruct (solve_triangular_backward a b x u k va vb hd es hk hf) as (_ & _ & dT & db & h1 & h2 & h3).
  fold n T in h1, h2, h3.
  apply (fwd_comp n T G (fun i => frm x i k) xs (fun i => frm b i k) (fun i => db i - Rsum n (fun j => dT i j * frm x j k))); auto.
  - intros i hi. pose proof (h3 i hi) as q. unfold madd in q.
    rewrite (Rsum_ext n _ (fun j => T i j * frm x j k + dT i j * frm x j k)) in q by (intros; ring). rewrite Rsum_plus in q. lra.
  - intros i hi. eapply Rle_trans; [apply Rabs_triang|]. rewrite Rabs_Ropp, Rplus_comm. apply Rplus_le_compat; [|apply h2; auto].
    eapply Rle_trans; [apply Rsum_abs|]. rewrite <- Rsum_scal_l. apply Rsum_le. intros l hl. rewrite Rabs_mult, <- Rmult_assoc.
    apply Rmult_le_compat_r; [apply Rabs_pos|auto].
Qed.
Print Assumptions C66_solve_triangular_forward.

(** ** solvec.  With t the trace of A and |G| the norm of the inverse of A, the relative error is at most
    |G| (2 t gam(3n+2) + underflow): the condition number times the rounding errors. *)
Theorem C66_solvec_forward (a b x : mat FN) (k : nat) (G : M) (xs : nat -> R) :
  mvalid a -> mvalid b -> (forall i, (i < nr a)%nat -> ffin (get a i i)) ->
  solvec a b = Ret x -> (k < nc b)%nat -> (forall i, (i < nr a)%nat -> ffin (get x i k)) ->
  let n := nr a in let A := sym_of_lower (frm a) in let t := Rsum n (fun i => A i i) in
  INR n * (64 * uro) <= 1 -> mmul n G A =[n, n]= mid -> (forall i, (i < n)%nat -> Rsum n (fun j => A i j * xs j) = frm b i k) ->
  let g := frob n n G in let err := vnorm n (fun i => frm x i k - xs i) in
  err <= g * (chol_fwd n t * vnorm n (fun i => frm x i k) + chol_fwd0 n t) /\
  (1 - g * chol_fwd n t) * err <= g * (chol_fwd n t * vnorm n xs + chol_fwd0 n t).
Proof.
  intros va vb hd es hk hf n A t hn hG hx g err. unfold err. rewrite !vnorm_vn.
  pose proof (solvec_forward a b x k G xs va vb hd es hk hf hn hG hx) as h. split; [exact h|].
  apply fwd_rel; [apply frob_nonneg| |exact h].
  destruct (solvec_backward a b x k va vb hd es hk hf) as (sq & _ & l & hl & hp & _ & hfin & dA & db & h1 & h2 & h3).
  eapply Rle_trans; [apply (frob_nonneg n n dA)|]. apply (dA_bound n A (tri_of Lower (frm l)) hn); auto.
  intros i hi. pose proof (chol_gram_backward a l va hl ltac:(intros; apply hfin; auto) i i hi hi) as q. unfold chol_uf in q. rewrite Nat.min_id in q. exact q.
Qed.
Print Assumptions C66_solvec_forward.

(** ** QR: the columns of the perturbation, as one norm *)
Definition fwd_qr (n c : nat) (A : M) : R := rel_solve n c * frob n c A + INR c * (2 * abs_qr n c).
Definition fwd_rhs (n c : nat) (b : nat -> R) : R := rel_qr n c * vnorm n b + 2 * abs_qr n c.
Lemma frob_cols n c A : vn c (fun j => colnorm n A j) = frob n c A.
Proof.
  unfold vn, frob, frob2. f_equal. transitivity (Rsum c (fun j => Rsum n (fun i => A i j * A i j))).
  - apply Rsum_ext. intros j hj. cbn [Rsum]. unfold colnorm. rewrite Rplus_0_l. apply sqrt_sqrt. apply Rsum_nonneg. intros. nra.
  - apply Rsum_swap.
Qed.
Lemma abs_qr_nonneg n c : 0 <= abs_qr n c.
Proof.
  unfold abs_qr, rel_qr. apply Rmult_le_pos; [|apply bpow_ge_0]. apply Rmult_le_pos; [apply pos_INR|]. pose proof (gam_nonneg (c * (10 * n + 70))). lra.
Qed.
Lemma cols_frob n c (A At : M) : (forall j, (j < c)%nat -> colnorm n (msub At A) j <= rel_solve n c * colnorm n A j + 2 * abs_qr n c) ->
  frob n c (msub At A) <= fwd_qr n c A.
Proof.
  intros h. unfold fwd_qr. rewrite <- !frob_cols. pose proof (abs_qr_nonneg n c). apply vn_bound; [apply gam_nonneg|lra|].
  intros j hj. rewrite !Rabs_pos_eq by apply sqrt_pos. auto.
Qed.
Lemma fwd_qr_nonneg n c A : 0 <= fwd_qr n c A.
Proof.
  unfold fwd_qr. pose proof (abs_qr_nonneg n c). pose proof (Rmult_le_pos _ _ (gam_nonneg (c * (10 * n + 70) + c)) (frob_nonneg n c A)).
  pose proof (Rmult_le_pos (INR c) (2 * abs_qr n c) (pos_INR c) ltac:(lra)). unfold rel_solve. lra.
Qed.
Lemma residual_of n (A At : M) (b bt x : nat -> R) e d : (forall i, (i < n)%nat -> Rsum n (fun j => At i j * x j) = bt i) ->
  frob n n (msub At A) <= e -> vn n (fun i => bt i - b i) <= d ->
  exists r, (forall i, (i < n)%nat -> Rsum n (fun j => A i j * x j) = b i + r i) /\ vn n r <= e * vn n x + d.
Proof.
  intros h he hd. exists (fun i => (bt i - b i) + -1 * Rsum n (fun j => msub At A i j * x j)). split.
  - intros i hi. rewrite <- h by auto. unfold msub. rewrite (Rsum_ext n (fun j => (At i j - A i j) * x j) (fun j => At i j * x j - A i j * x j)) by (intros; ring).
    rewrite Rsum_minus. ring.
  - eapply Rle_trans; [apply vn_plus|]. rewrite vn_scal. replace (Rabs (-1)) with 1 by (rewrite Rabs_left; lra).
    pose proof (vn_mv n n (msub At A) x). pose proof (Rmult_le_compat_r _ _ _ (vn_nonneg n x) he). lra.
Qed.

(** ** qr.solve on a square system: G is the inverse of A and xs the exact solution *)
Theorem C66_qr_solve_forward (a b x : mat FN) d k (G : M) (xs : nat -> R) :
  mvalid a -> mvalid b -> qr_into a = Ret d -> qr_solve d b = Ret x ->
  let n := nr a in let A := frm a in nc a = n -> (0 < n)%nat -> (k < nc b)%nat -> diag_clean n n d ->
  (forall i, (i < n)%nat -> ffin (get x i k)) ->
  mmul n G A =[n, n]= mid -> (forall i, (i < n)%nat -> Rsum n (fun j => A i j * xs j) = frm b i k) ->
  let g := frob n n G in let e := fwd_qr n n A in let e0 := fwd_rhs n n (fun i => frm b i k) in
  let err := vnorm n (fun i => frm x i k - xs i) in
  err <= g * (e * vnorm n (fun i => frm x i k) + e0) /\ (1 - g * e) * err <= g * (e * vnorm n xs + e0).
Proof.
  intros va vb eq es n A hc hp hk hcl hx hG hxs g e e0 err.
  pose proof (C55_qr_solve_backward_stable a b x d k va vb eq es) as H. cbv zeta in H. fold n in H. rewrite hc in H.
  destruct (H hp hk hcl hx) as (_ & _ & At & bt & h1 & h2 & _ & _ & h3). fold A in h1.
  destruct (residual_of n A At (fun i => frm b i k) bt (fun i => frm x i k) e e0) as (r & r1 & r2).
  - intros i hi. apply h3; auto.
  - apply cols_frob; auto.
  - rewrite <- vnorm_vn. exact h2.
  - unfold err. rewrite !vnorm_vn. pose proof (fwd_norm n A G (fun i => frm x i k) xs _ r e e0 hG hxs r1 r2) as q. split; [exact q|].
    apply fwd_rel; [apply frob_nonneg|apply fwd_qr_nonneg|exact q].
Qed.
Print Assumptions C66_qr_solve_forward.

(** ** qr.inverse: column k of the computed inverse against column k of the inverse G *)
Theorem C66_qr_inverse_forward (a x : mat FN) d k (G : M) :
  mvalid a -> qr_into a = Ret d -> qr_inverse d = Ret x ->
  let n := nr a in let A := frm a in (k < n)%nat -> diag_clean n n d -> (forall i, (i < n)%nat -> ffin (get x i k)) ->
  mmul n G A =[n, n]= mid -> mmul n A G =[n, n]= mid ->
  let g := frob n n G in let e := fwd_qr n n A in let e0 := rel_qr n n + 2 * abs_qr n n in
  let err := vnorm n (fun i => frm x i k - G i k) in
  err <= g * (e * vnorm n (fun i => frm x i k) + e0) /\ (1 - g * e) * err <= g * (e * vnorm n (fun i => G i k) + e0).
Proof.
  intros va eq es n A hk hcl hx hG hG' g e e0 err.
  destruct (C55_inverse_backward_stable a x d k va eq es hk hcl hx) as (hc & At & bt & h1 & h2 & _ & h3). fold n A in h1, h2, h3.
  destruct (residual_of n A At (fun i => mid i k) bt (fun i => frm x i k) e e0) as (r & r1 & r2).
  - intros i hi. apply h3; auto.
  - apply cols_frob; auto.
  - rewrite <- vnorm_vn. exact h2.
  - unfold err. rewrite !vnorm_vn.
    pose proof (fwd_norm n A G (fun i => frm x i k) (fun i => G i k) _ r e e0 hG ltac:(intros i hi; apply hG'; auto) r1 r2) as q. split; [exact q|].
    apply fwd_rel; [apply frob_nonneg|apply fwd_qr_nonneg|exact q].
Qed.
Print Assumptions C66_qr_inverse_forward.

(** ** qr.solve on an overdetermined system (and least_squares): P is the pseudo-inverse of A and xs the
    exact least-squares solution; the last term, the square of the norm of P times the residual, is Wedin's. *)
Theorem C66_least_squares_forward (a b x : mat FN) d k (P : M) (xs : nat -> R) :
  mvalid a -> mvalid b -> qr_into a = Ret d -> qr_solve d b = Ret x ->
  let n := nr a in let c := nc a in let A := frm a in let bk := fun i => frm b i k in
  (0 < c)%nat -> (k < nc b)%nat -> diag_clean n c d -> (forall i, (i < c)%nat -> ffin (get x i k)) ->
  mmul n P A =[c, c]= mid -> symmetric n (mmul c A P) -> (forall y, resid2 n c A bk xs <= resid2 n c A bk y) ->
  let g := frob c n P in let e := fwd_qr n c A in let e0 := fwd_rhs n c bk in
  vnorm c (fun i => frm x i k - xs i) <=
    g * (e * vnorm c (fun i => frm x i k) + e0) + g * g * e * (sqrt (resid2 n c A bk xs) + e0 + e * vnorm c xs).
Proof.
  intros va vb eq es n c A bk hp hk hcl hx hP hS hxs g e e0.
  destruct (C55_qr_solve_backward_stable a b x d k va vb eq es hp hk hcl hx) as (_ & _ & At & bt & h1 & h2 & _ & h3 & _). fold n c A in h1, h2, h3.
  set (xk := fun j => frm x j k) in *.
  assert (hE : frob n c (msub At A) <= e) by (apply cols_frob; auto).
  assert (hD : vn n (fun i => bt i - bk i) <= e0) by (rewrite <- vnorm_vn; exact h2).
  rewrite !vnorm_vn. fold xk. change (fun i => frm x i k - xs i) with (fun i => xk i - xs i).
  eapply Rle_trans; [exact (fwd_lsq n c A At P bk bt xk xs e e0 hP hS hxs ltac:(intros y; exact (proj1 (h3 y))) hE hD)|].
  apply Rplus_le_compat_l. apply Rmult_le_compat_l.
  { apply Rmult_le_pos; [|apply fwd_qr_nonneg]. pose proof (frob_nonneg c n P). fold g in H. nra. }
  eapply Rle_trans; [apply sqrt_le_1_alt; exact (proj1 (h3 xs))|].
  assert (hv : forall X y z, sqrt (resid2 n c X y z) = vn n (fun i => Rsum c (fun j => X i j * z j) - y i)).
  { intros. unfold vn, frob, frob2, resid2, vnorm2. f_equal. apply Rsum_ext. intros. cbn [Rsum]. ring. }
  rewrite !hv.
  rewrite (vn_ext n _ (fun i => ((Rsum c (fun j => A i j * xs j) - bk i) + -1 * (bt i - bk i)) + Rsum c (fun j => msub At A i j * xs j))).
  - eapply Rle_trans; [apply vn_plus|]. apply Rplus_le_compat.
    + eapply Rle_trans; [apply vn_plus|]. apply Rplus_le_compat_l. rewrite vn_scal. replace (Rabs (-1)) with 1 by (rewrite Rabs_left; lra). lra.
    + eapply Rle_trans; [apply vn_mv|]. apply Rmult_le_compat_r; [apply vn_nonneg|exact hE].
  - intros i hi. unfold msub. rewrite (Rsum_ext c (fun j => (At i j - A i j) * xs j) (fun j => At i j * xs j - A i j * xs j)) by (intros; ring). rewrite Rsum_minus. ring.
Qed.
Print Assumptions C66_least_squares_forward.

(** ** Examples: small systems with their exact inverses and solutions *)
Definition fw_a : mat FN := fmat 2 [[2; 1]; [1; 2]]%Z.
Definition fw_b : mat FN := fmat 1 [[1]; [1]]%Z.
Definition fw_G : M := fun i j => if Nat.eqb i j then 2 / 3 else - (1 / 3).
Definition fw_t : mat FN := fmat 2 [[2; 0]; [1; 1]]%Z.
Lemma fw_inv : mmul 2 fw_G (frm fw_a) =[2, 2]= mid /\ mmul 2 (frm fw_a) fw_G =[2, 2]= mid.
Proof.
  assert (h : forall i j, (i < 2)%nat -> (j < 2)%nat -> frm fw_a i j = if Nat.eqb i j then 2 else 1).
  { intros i j hi hj. destruct i as [|[|]], j as [|[|]]; try lia; first [exact fr_f2 | exact fr_f1]. }
  split; intros i j hi hj; unfold mmul; cbn [Rsum]; rewrite !h by lia; destruct i as [|[|]], j as [|[|]]; try lia; unfold fw_G, mid; cbn [Nat.eqb]; lra.
Qed.
Lemma fw_sol i : (i < 2)%nat -> Rsum 2 (fun j => frm fw_a i j * (1 / 3)) = frm fw_b i 0%nat.
Proof.
  intros hi. destruct i as [|[|]]; try lia; cbn [Rsum];
  [change (frm fw_a 0%nat 0%nat) with (fr (f_of_Z 2)); change (frm fw_a 0%nat 1%nat) with (fr (f_of_Z 1)); change (frm fw_b 0%nat 0%nat) with (fr (f_of_Z 1))
  |change (frm fw_a 1%nat 0%nat) with (fr (f_of_Z 1)); change (frm fw_a 1%nat 1%nat) with (fr (f_of_Z 2)); change (frm fw_b 1%nat 0%nat) with (fr (f_of_Z 1))];
  rewrite fr_f1, fr_f2; lra.
Qed.
Lemma fw_valid (m : mat FN) : mokb m = true -> mvalid m.
Proof. intros h i j hi hj. apply (mokb_ok m h i j); auto. Qed.
Lemma fw_fin (m : mat FN) r c : mokb m = true -> nr m = r -> nc m = c -> forall i k, (i < r)%nat -> (k < c)%nat -> ffin (get m i k).
Proof. intros h <- <- i k hi hk. apply (mokb_ok m h i k); auto. Qed.
Definition fw_checkb (m : res (mat FN)) (r c : nat) : bool := match m with Ret x => mokb x && (nr x =? r)%nat && (nc x =? c)%nat | _ => false end.
Lemma fw_checkb_ok m r c : fw_checkb m r c = true -> exists x, m = Ret x /\ forall i k, (i < r)%nat -> (k < c)%nat -> ffin (get x i k).
Proof.
  unfold fw_checkb. destruct m as [x| | | |]; try discriminate. rewrite !andb_true_iff. intros ((h1 & h2) & h3). apply Nat.eqb_eq in h2, h3.
  exists x. split; auto. apply fw_fin; auto.
Qed.

Example C66_example_triangular : let u := Lower in let xs := fun i => if Nat.eqb i 0%nat then 1 / 2 else 1 / 2 in let G : M := fun i j => match i, j with O, O => 1 / 2 | 1%nat, O => - (1 / 2) | 1%nat, 1%nat => 1 | _, _ => 0 end in
  mvalid fw_t /\ mvalid fw_b /\ (forall i, (i < nr fw_t)%nat -> ffin (get fw_t i i)) /\
  (exists x, solve_triangular fw_t fw_b u = Ret x /\ forall i, (i < nr fw_t)%nat -> ffin (get x i 0%nat)) /\
  mmul 2 G (tri_of u (frm fw_t)) =[2, 2]= mid /\ (forall i, (i < 2)%nat -> Rsum 2 (fun j => tri_of u (frm fw_t) i j * xs j) = frm fw_b i 0%nat).
Proof.
  cbv zeta. split; [apply fw_valid; vm_compute; reflexivity|]. split; [apply fw_valid; vm_compute; reflexivity|].
  split; [intros i hi; apply (fw_fin fw_t 2 2); auto; vm_compute; reflexivity|].
  split.
  { destruct (fw_checkb_ok (solve_triangular fw_t fw_b Lower) 2 1) as (x & h1 & h2); [vm_compute; reflexivity|]. exists x. split; [exact h1|]. intros i hi. apply h2; [exact hi|lia]. }
  assert (e : forall i j, (i < 2)%nat -> (j < 2)%nat -> tri_of Lower (frm fw_t) i j = match i, j with O, O => 2 | 1%nat, O => 1 | 1%nat, 1%nat => 1 | _, _ => 0 end).
  { intros i j hi hj. destruct i as [|[|]], j as [|[|]]; try lia; first [exact fr_f2 | exact fr_f1 | reflexivity]. }
  split.
  - intros i j hi hj. unfold mmul. cbn [Rsum]. rewrite !e by lia. destruct i as [|[|]], j as [|[|]]; try lia; unfold mid; cbn [Nat.eqb]; lra.
  - intros i hi. cbn [Rsum]. rewrite !e by lia. destruct i as [|[|]]; try lia; cbn [Nat.eqb];
      [change (frm fw_b 0%nat 0%nat) with (fr (f_of_Z 1))|change (frm fw_b 1%nat 0%nat) with (fr (f_of_Z 1))]; rewrite fr_f1; lra.
Qed.

Example C66_example_solvec : let A := sym_of_lower (frm fw_a) in
  mvalid fw_a /\ mvalid fw_b /\ (forall i, (i < nr fw_a)%nat -> ffin (get fw_a i i)) /\
  (exists x, solvec fw_a fw_b = Ret x /\ forall i, (i < nr fw_a)%nat -> ffin (get x i 0%nat)) /\
  INR (nr fw_a) * (64 * uro) <= 1 /\ mmul 2 fw_G A =[2, 2]= mid /\ (forall i, (i < 2)%nat -> Rsum 2 (fun j => A i j * (1 / 3)) = frm fw_b i 0%nat).
Proof.
  cbv zeta. split; [apply fw_valid; vm_compute; reflexivity|]. split; [apply fw_valid; vm_compute; reflexivity|].
  split; [intros i hi; apply (fw_fin fw_a 2 2); auto; vm_compute; reflexivity|].
  split.
  { destruct (fw_checkb_ok (solvec fw_a fw_b) 2 1) as (x & h1 & h2); [vm_compute; reflexivity|]. exists x. split; [exact h1|]. intros i hi. apply h2; [exact hi|lia]. }
  split; [change (INR (nr fw_a)) with (1 + 1); unfold uro; change (2 ^ 53)%Z with 9007199254740992%Z; lra|].
  assert (e : forall i j, (i < 2)%nat -> (j < 2)%nat -> sym_of_lower (frm fw_a) i j = frm fw_a i j).
  { intros i j hi hj. destruct i as [|[|]], j as [|[|]]; try lia; reflexivity. }
  split.
  - intros i j hi hj. rewrite <- (proj1 fw_inv i j hi hj). unfold mmul. apply Rsum_ext. intros k hk. rewrite e; auto.
  - intros i hi. rewrite <- (fw_sol i hi). apply Rsum_ext. intros k hk. rewrite e; auto.
Qed.

Example C66_example_qr : mvalid fw_a /\ mvalid fw_b /\
  (exists d x, qr_into fw_a = Ret d /\ qr_solve d fw_b = Ret x /\ diag_clean 2 2 d /\ forall i, (i < 2)%nat -> ffin (get x i 0%nat)) /\
  (exists d x, qr_into fw_a = Ret d /\ qr_inverse d = Ret x /\ diag_clean 2 2 d /\ forall i k, (i < 2)%nat -> (k < 2)%nat -> ffin (get x i k)) /\
  mmul 2 fw_G (frm fw_a) =[2, 2]= mid /\ mmul 2 (frm fw_a) fw_G =[2, 2]= mid /\ (forall i, (i < 2)%nat -> Rsum 2 (fun j => frm fw_a i j * (1 / 3)) = frm fw_b i 0%nat).
Proof.
  split; [apply fw_valid; vm_compute; reflexivity|]. split; [apply fw_valid; vm_compute; reflexivity|].
  split; [|split; [|split; [exact (proj1 fw_inv)|split; [exact (proj2 fw_inv)|exact fw_sol]]]].
  - destruct (solve_checkb_ok fw_a fw_b 2 2 qr_solve (fun x => (nr x =? 2)%nat && (nc x =? 1)%nat)) as (d & x & h1 & h2 & h3 & h4 & h5); [vm_compute; reflexivity|].
    rewrite andb_true_iff in h5. destruct h5 as (h5 & h6). apply Nat.eqb_eq in h5, h6. exists d, x. split; [exact h1|]. split; [exact h2|]. split; [exact h3|]. intros i hi. apply (fw_fin x 2 1); auto.
  - destruct (solve_checkb_ok fw_a fw_b 2 2 (fun d _ => qr_inverse d) (fun x => (nr x =? 2)%nat && (nc x =? 2)%nat)) as (d & x & h1 & h2 & h3 & h4 & h5); [vm_compute; reflexivity|].
    rewrite andb_true_iff in h5. destruct h5 as (h5 & h6). apply Nat.eqb_eq in h5, h6. exists d, x. split; [exact h1|]. split; [exact h2|]. split; [exact h3|]. apply (fw_fin x 2 2); auto.
Qed.

(** the least-squares solution of 3 x = 1, 4 x = 2 is 11/25 *)
Definition fw_l : mat FN := fmat 1 [[3]; [4]]%Z.
Definition fw_lb : mat FN := fmat 1 [[1]; [2]]%Z.
Definition fw_P : M := fun _ k => match k with O => 3 / 25 | _ => 4 / 25 end.
Example C66_example_least_squares : let bk := fun i => frm fw_lb i 0%nat in
  mvalid fw_l /\ mvalid fw_lb /\
  (exists d x, qr_into fw_l = Ret d /\ qr_solve d fw_lb = Ret x /\ diag_clean 2 1 d /\ forall i, (i < 1)%nat -> ffin (get x i 0%nat)) /\
  mmul 2 fw_P (frm fw_l) =[1, 1]= mid /\ symmetric 2 (mmul 1 (frm fw_l) fw_P) /\ (forall y, resid2 2 1 (frm fw_l) bk (fun _ => 11 / 25) <= resid2 2 1 (frm fw_l) bk y).
Proof.
  cbv zeta. split; [apply fw_valid; vm_compute; reflexivity|]. split; [apply fw_valid; vm_compute; reflexivity|].
  assert (f3 : frm fw_l 0%nat 0%nat = 3) by (change (fr (f_of_Z 3) = 3); unfold fr; cbn; unfold F2R; cbn; lra).
  assert (f4 : frm fw_l 1%nat 0%nat = 4) by (change (fr (f_of_Z 4) = 4); unfold fr; cbn; unfold F2R; cbn; lra).
  split; [|split; [|split]].
  - destruct (solve_checkb_ok fw_l fw_lb 2 1 qr_solve (fun x => (nr x =? 1)%nat && (nc x =? 1)%nat)) as (d & x & h1 & h2 & h3 & h4 & h5); [vm_compute; reflexivity|].
    rewrite andb_true_iff in h5. destruct h5 as (h5 & h6). apply Nat.eqb_eq in h5, h6. exists d, x. split; [exact h1|]. split; [exact h2|]. split; [exact h3|]. intros i hi. apply (fw_fin x 1 1); auto.
  - intros i j hi hj. destruct i, j; try lia. unfold mmul, mid, fw_P. cbn [Rsum Nat.eqb]. rewrite f3, f4. lra.
  - intros i j hi hj. unfold mmul, mtr, fw_P. cbn [Rsum]. destruct i as [|[|]], j as [|[|]]; try lia; rewrite ?f3, ?f4; lra.
  - intros y. unfold resid2, vnorm2. cbn [Rsum]. rewrite f3, f4. change (frm fw_lb 0%nat 0%nat) with (fr (f_of_Z 1)). change (frm fw_lb 1%nat 0%nat) with (fr (f_of_Z 2)). rewrite fr_f1, fr_f2.
    pose proof (Rle_0_sqr (25 * y 0%nat - 11)). unfold Rsqr in *. lra.
Qed.
