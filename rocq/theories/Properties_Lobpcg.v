(** * C31 - C36, C41: lobpcg *)
From Coq Require Import Reals Lra List Arith Lia Bool ZArith QArith.
From Coq Require Import FunctionalExtensionality.
From Coq.Floats Require Import SpecFloat.
From Verif Require Import Scalar Arr MBase MDirect MDecomp MEigh MLobpcg Inst Ex Spec Hoare RLin PTri PChol PSort PLob PLobR.
Import ListNotations.
Local Open Scope nat_scope.

(** ** C36: orthonormalize *)

(** U^T U = I, V = U L^T, L lower triangular with positive diagonal *)
Theorem C36_orthonormal (v u l : mat RN) : orthonormalize v = Ret (u, l) ->
  nr u = nr v /\ nc u = nc v /\ nr l = nc v /\ nc l = nc v /\
  orthonormal_cols (nr v) (nc v) (ent u) /\ lower_tri (nc v) (nc v) (ent l) /\
  (forall i, i < nc v -> (0 < ent l i i)%R) /\
  ent v =[nr v, nc v]= mmul (nc v) (ent u) (mtr (ent l)).
Proof.
  intros e. destruct (post_inv _ _ _ _ _ (orthonormalize_R v) e) as (h & _). exact h.
Qed.
Print Assumptions C36_orthonormal.

(** It succeeds iff the columns are linearly independent; the only other outcome is NotPositiveDefinite *)
Theorem C36_iff (v : mat RN) :
  ((exists r, orthonormalize v = Ret r) <-> injective (nr v) (nc v) (ent v)) /\
  (~ injective (nr v) (nc v) (ent v) -> orthonormalize v = Err NotPositiveDefinite).
Proof.
  pose proof (orthonormalize_R v) as h. destruct (orthonormalize v) as [r|e| | |]; cbn [post] in h; try tauto.
  - split; [split; [tauto|intros _; eauto]|]. intros n. tauto.
  - destruct h as (-> & h). split; [split; [intros (r & hr); discriminate|tauto]|auto].
Qed.
Print Assumptions C36_iff.

Example C36_nonvacuous : injective 3 2 (ent (rmat 2 [[1;1];[0;1];[0;0]]%Z)).
Proof.
  intros x h. assert (h1 := h 1%nat ltac:(lia)). assert (h0 := h 0%nat ltac:(lia)). unfold ent, get in *. cbn in *.
  intros j hj. destruct j as [|[|j]]; [lra|lra|lia].
Qed.
(** Exact rational entries of a binary64 matrix or vector *)
Definition qm (m : mat FN) : list (list Q) := map (map (fun x => Qred (fq x))) (rows m).
Example C36_run :
  match orthonormalize (fmat 2 [[1;5];[0;2]]%Z) with
  | Ret (u, l) => (qm u, qm l) | _ => ([], []) end = ([[1#1; 0]; [0; 1#1]], [[1#1; 0]; [5#1; 2#1]])%Q /\
  orthonormalize (fmat 2 [[1;3];[0;0]]%Z) = Err NotPositiveDefinite.
Proof. split; vm_compute; reflexivity. Qed.

(** ** C31: the constraint step *)

(** The constraint step of lobpcg: the Cholesky factor of Y^T Y, then [apply_constraints] *)
Definition constraint_step {N : Num} (y v : mat N) : res (mat N) :=
  (let* yy := dot2 (transpose y) y in
   let* l := cholesky yy in
   apply_constraints v l y)%res.

(** Full statement: after the step the block is orthogonal to every column of Y *)
Definition C31_statement : Prop := forall y v v' : mat RN,
  nr y = nr v -> injective (nr y) (nc y) (ent y) -> constraint_step y v = Ret v' ->
  mmul (nr y) (mtr (ent y)) (ent v') =[nc y, nc v]= (fun _ _ => 0%R).

(** It is false: Y = (2, 0)^T, V = (1, 0)^T gives V' = (-1, 0)^T.  Only one of the two triangular solves needed
    for (Y^T Y)^-1 is done.  (No rounding happens in this run.) *)
Theorem C31_refuted : exists y v v' : mat FN,
  constraint_step y v = Ret v' /\ qm y = [[2#1]; [0]]%Q /\ qm v = [[1#1]; [0]]%Q /\ qm v' = [[(-1)#1]; [0]]%Q.
Proof.
  destruct (constraint_step (fmat 1 [[2];[0]]%Z) (fmat 1 [[1];[0]]%Z)) as [v'| | | |] eqn:e; try (vm_compute in e; discriminate).
  exists (fmat 1 [[2];[0]]%Z), (fmat 1 [[1];[0]]%Z), v'. split; [exact e|]. vm_compute in e. injection e as <-. vm_compute. auto.
Qed.
Print Assumptions C31_refuted.

Lemma constraint_step_R (y v : mat RN) : nr y = nr v -> injective (nr y) (nc y) (ent y) ->
  exists v' L U, constraint_step y v = Ret v' /\ nr v' = nr v /\ nc v' = nc v /\
    lower_tri (nc y) (nc y) L /\ (forall i, i < nc y -> (0 < L i i)%R) /\
    mmul (nc y) L (mtr L) =[nc y, nc y]= mmul (nr y) (mtr (ent y)) (ent y) /\
    mmul (nc y) L U =[nc y, nc v]= mmul (nr v) (mtr (ent y)) (ent v) /\
    ent v' =[nr v, nc v]= msub (ent v) (mmul (nc y) (ent y) U).
Proof.
  intros hy hinj.
  assert (h : wp (constraint_step y v) (fun v' => exists L U, nr v' = nr v /\ nc v' = nc v /\
    lower_tri (nc y) (nc y) L /\ (forall i, i < nc y -> (0 < L i i)%R) /\
    mmul (nc y) L (mtr L) =[nc y, nc y]= mmul (nr y) (mtr (ent y)) (ent y) /\
    mmul (nc y) L U =[nc y, nc v]= mmul (nr v) (mtr (ent y)) (ent v) /\
    ent v' =[nr v, nc v]= msub (ent v) (mmul (nc y) (ent y) U))).
  { unfold constraint_step. step1. apply dot2t_R; auto. intros g g1 g2 g3.
    assert (sq : nr g = nc g) by lia.
    pose proof (gram_sym _ _ _ _ g3) as hsym. pose proof (gram_injective _ _ _ _ g3) as hpi. rewrite <- g1 in hsym.
    destruct (cholesky_iff g sq hsym) as (hiff & _). rewrite g1 in hiff.
    destruct ((proj2 hiff) ((proj2 hpi) hinj)) as (l & el). rewrite el. cbn [bind].
    destruct (cholesky_factor g l hsym el) as (_ & l1 & l2 & l3 & l4 & l5). rewrite g1 in *.
    apply apply_constraints_R; auto. intros v' U v1 v2 v3 v4. exists (ent l), U. repeat split; auto. rewrite l5. exact g3. }
  destruct (wp_ret _ _ h) as (v' & e & L & U & r). exists v', L, U. split; auto.
Qed.

(** The step is right for every V exactly when Y is already orthonormal *)
Theorem C31_iff_orthonormal (y : mat RN) : injective (nr y) (nc y) (ent y) ->
  (forall v v' : mat RN, nr y = nr v -> constraint_step y v = Ret v' ->
     mmul (nr y) (mtr (ent y)) (ent v') =[nc y, nc v]= (fun _ _ => 0%R)) <->
  orthonormal_cols (nr y) (nc y) (ent y).
Proof.
  intros hinj. split.
  - intros h. destruct (constraint_step_R y y eq_refl hinj) as (v' & L & U & e & v1 & v2 & h1 & h2 & h3 & h4 & h5).
    specialize (h y v' eq_refl e). set (n := nr y) in *. set (k := nc y) in *. set (Y := ent y) in *.
    assert (hU : U =[k, k]= mtr L).
    { apply (injective_mmul k k k L); [apply lower_injective; auto; intros i hi; specialize (h2 i hi); lra|].
      rewrite h4, h3. reflexivity. }
    assert (hG : mmul k (mmul n (mtr Y) Y) (mtr L) =[k, k]= mmul k (mmul n (mtr Y) Y) mid).
    { rewrite h5 in h. rewrite mmul_sub_r in h. rewrite hU in h. rewrite mmul_1_r.
      rewrite (mmul_assoc k n k k (mtr Y) Y (mtr L)). intros i j hi hj. specialize (h i j hi hj). unfold msub in h. lra. }
    assert (hinjG : injective k k (mmul n (mtr Y) Y)).
    { apply posdef_injective. apply (gram_injective n k Y); [reflexivity|exact hinj]. }
    assert (hL : mtr L =[k, k]= mid) by (apply (injective_mmul k k k _ _ _ hinjG hG)).
    unfold orthonormal_cols. rewrite <- h3. rewrite hL. rewrite mmul_1_r.
    intros i j hi hj. specialize (hL j i hj hi). unfold mtr in hL. rewrite hL. exact (mtr_mid k i j hi hj).
  - intros ho v v' hv e. destruct (constraint_step_R y v hv hinj) as (v'' & L & U & e' & v1 & v2 & h1 & h2 & h3 & h4 & h5).
    assert (v'' = v') by congruence. subst v''. rewrite hv in *.
    apply (project_perp (nr v) (nc y) (nc v) (ent y) L (ent v) (ent v') U); auto.
    eapply factor_id; eauto.
Qed.
Print Assumptions C31_iff_orthonormal.

(** End to end: told to stay orthogonal to (2, 0, 0)^T, lobpcg on diag(3, 2, 1) converges to the eigenvalue 3, whose
    eigenvector (1, 0, 0)^T is the direction excluded by the constraint *)
Definition diag321 : mat FN := fmat 3 [[3;0;0];[0;2;0];[0;0;1]]%Z.
Theorem C31_lobpcg_refuted : exists (x y : mat FN) out,
  qm y = [[2#1]; [0]; [0]]%Q /\
  lobpcg 100 (fun v => dot2 diag321 v) x (fun v => Ret v) (Some y) (nofQ FN 1%Z 100000%positive) 20 Largest = Ret (LOk out) /\
  match map fq (eigvals out), map (map fq) (rows (eigvecs out)) with
  | [v], [e0] :: _ => (2999#1000 <= v)%Q /\ (999#1000 <= e0)%Q
  | _, _ => False
  end.
Proof.
  set (x := fmat 1 [[1];[2];[3]]%Z). set (y := fmat 1 [[2];[0];[0]]%Z).
  assert (h : match lobpcg 100 (fun v => dot2 diag321 v) x (fun v => Ret v) (Some y) (nofQ FN 1%Z 100000%positive) 20 Largest with
    | Ret (LOk out) => match map fq (eigvals out), map (map fq) (rows (eigvecs out)) with
        | [v], [e0] :: _ => Qle_bool (2999#1000) v && Qle_bool (999#1000) e0 | _, _ => false end
    | _ => false end = true) by (vm_compute; reflexivity).
  destruct (lobpcg 100 _ x _ (Some y) _ 20 Largest) as [[out|e o]| | | |] eqn:e0; try discriminate h.
  exists x, y, out. split; [vm_compute; auto|]. split; [exact e0|].
  destruct (map fq (eigvals out)) as [|v []]; try discriminate h.
  destruct (map (map fq) (rows (eigvecs out))) as [|[|w []] ?]; try discriminate h.
  apply andb_prop in h. split; apply Qle_bool_iff; apply h.
Qed.
Print Assumptions C31_lobpcg_refuted.

(** What remains true: with an orthonormal Y the returned vectors are orthogonal to Y, on every exit path.  Missing with
    respect to the full statement: constraint blocks that are only of full rank (false, see above). *)
Theorem C31_orthonormal_partial fuel (x y : mat RN) a m tol maxiter order A r :
  linear_op (nr x) A a -> total_op (nr x) m -> 1 <= nc x -> nr y = nr x ->
  orthonormal_cols (nr x) (nc y) (ent y) ->
  lobpcg fuel a x m (Some y) tol maxiter order = Ret r ->
  match r with
  | LOk out | LErr _ (Some out) => nr (eigvecs out) = nr x /\ nc (eigvecs out) = nc x /\
      mmul (nr x) (mtr (ent y)) (ent (eigvecs out)) =[nc y, nc x]= (fun _ _ => 0%R)
  | LErr _ None => True
  end.
Proof.
  intros ha hm hk hy ho e.
  assert (hc : cons_in (nr x) (nc y) (ent y) (Some y)).
  { split; auto. split; [|right; auto]. intros z hz j hj.
    assert (h0 : mmul (nc y) (mmul (nr x) (mtr (ent y)) (ent y)) (fun q _ => z q) j 0 = 0%R).
    { rewrite (mmul_assoc (nc y) (nr x) (nc y) 1 (mtr (ent y)) (ent y) (fun q _ => z q)) by (auto; lia).
      apply Rsum_0. intros i hi. unfold mmul. rewrite hz by auto. ring. }
    rewrite (mmul_proper (nc y) (nc y) 1 _ _ ho _ _ (meq_refl _ _ _) j 0%nat hj ltac:(lia)) in h0.
    rewrite (mmul_1_l (nc y) 1 (fun q _ => z q)) in h0 by (auto; lia). exact h0. }
  pose proof (lobpcg_honest fuel x a m (Some y) tol maxiter order A (nc y) (ent y) r ha hm hk hc e) as h.
  destruct r as [out|e' [out|]]; auto; destruct h as (_ & h1 & h2 & _ & h3 & _); auto.
Qed.
Print Assumptions C31_orthonormal_partial.

(** ** C32: the residual norms *)
Theorem C32_honest fuel (x : mat RN) a m y tol maxiter order A r :
  linear_op (nr x) A a -> total_op (nr x) m -> 1 <= nc x ->
  match y with None => True | Some y => nr y = nr x /\ injective (nr x) (nc y) (ent y) end ->
  lobpcg fuel a x m y tol maxiter order = Ret r ->
  match r with
  | LOk out | LErr _ (Some out) =>
      length (eigvals out) = nc x /\ nr (eigvecs out) = nr x /\ nc (eigvecs out) = nc x /\ length (rnorm out) = nc x /\
      forall j, j < nc x -> vent (rnorm out) j = eig_resid (nr x) A (ent (eigvecs out)) j (vent (eigvals out) j)
  | LErr _ None => True
  end.
Proof.
  intros ha hm hk hy e.
  assert (hc : cons_in (nr x) 0 mid y) by (destruct y; cbn; auto; tauto).
  pose proof (lobpcg_honest fuel x a m y tol maxiter order A 0 mid r ha hm hk hc e) as h.
  destruct r as [out|e' [out|]]; auto; destruct h as (h0 & h1 & h2 & h3 & _ & h4); auto 10.
Qed.
Print Assumptions C32_honest.

(** ** C41: no panic in exact arithmetic *)
Theorem C41_no_panic fuel (x : mat RN) a m y tol maxiter order A :
  linear_op (nr x) A a -> total_op (nr x) m -> 1 <= nc x ->
  match y with None => True | Some y => nr y = nr x /\ injective (nr x) (nc y) (ent y) end ->
  match lobpcg fuel a x m y tol maxiter order with
  | Ret _ | OutOfFuel => True
  | Err _ | Panicked | OutOfBounds => False
  end.
Proof.
  intros ha hm hk hy. assert (hc : cons_in (nr x) 0 mid y) by (destruct y; cbn; auto; tauto).
  pose proof (lobpcg_R fuel x a m y tol maxiter order A 0 mid ha hm hk hc) as h. unfold lobpcg.
  destruct (lobpcg_trace fuel a x m y tol maxiter order) as [[r o]| | | |]; cbn [bind post] in *; auto.
Qed.
Print Assumptions C41_no_panic.

Definition panics {A} (m : res A) : bool := match m with Panicked => true | _ => false end.
Lemma panics_eq {A} (m : res A) : panics m = true -> m = Panicked.
Proof. destruct m; cbn; congruence. Qed.

(** A start block without columns panics (any scalar type): [vecs.row(0)] of an empty matrix *)
Theorem C41_empty_refuted : exists x : mat FN, nc x = 0 /\ nr x = 2 /\
  lobpcg 10 (fun v => Ret v) x (fun v => Ret v) None (n0 FN) 5 Largest = Panicked.
Proof. exists (fmat 0 [[];[]]%Z). split; [reflexivity|]. split; [reflexivity|]. apply panics_eq. vm_compute. reflexivity. Qed.
Print Assumptions C41_empty_refuted.
(** So does a linearly dependent constraint block (the [unwrap] of its Cholesky factorisation) *)
Theorem C41_dependent_refuted : exists x y : mat FN, qm y = [[1#1; 1#1]; [0; 0]; [0; 0]]%Q /\
  lobpcg 10 (fun v => dot2 diag321 v) x (fun v => Ret v) (Some y) (n0 FN) 5 Largest = Panicked.
Proof. exists (fmat 1 [[1];[2];[3]]%Z), (fmat 2 [[1;1];[0;0];[0;0]]%Z). split; [reflexivity|]. apply panics_eq. vm_compute. reflexivity. Qed.
Print Assumptions C41_dependent_refuted.
(** ... and a NaN in the operator's matrix, as soon as two eigenvalues have to be sorted *)
Theorem C41_nan_refuted : exists (x p : mat FN),
  lobpcg 10 (fun v => dot2 p v) x (fun v => Ret v) None (n0 FN) 5 Largest = Panicked.
Proof. exists (fmat 2 [[1;0];[0;1];[1;1]]%Z), (Mat 3 3 [[fnan; fnan; fnan]; [fnan; fnan; fnan]; [fnan; fnan; fnan]]). apply panics_eq. vm_compute. reflexivity. Qed.
Print Assumptions C41_nan_refuted.

(** ** C33: the best iterate *)
(** [lobpcg_trace] is lobpcg together with the list of the iterates examined (with their residual norms) *)
Theorem C33_trace (N : Num) fuel a (x : mat N) m y tol maxiter order :
  lobpcg fuel a x m y tol maxiter order = (let* (r, _) := lobpcg_trace fuel a x m y tol maxiter order in Ret r)%res.
Proof. reflexivity. Qed.
Print Assumptions C33_trace.

(** the sum of the residual norms from left to right, the score that is compared *)
Definition added_up {N : Num} (v : list N) : N := fold_left (nadd N) v (n0 N).
Theorem C33_best (N : Num) nan (ord : num_order N nan) fuel a (x : mat N) m y tol maxiter order r st :
  lobpcg_trace fuel a x m y tol maxiter order = Ret (r, Some st) ->
  (forall h, In h (l_hist st) -> ~ nan (added_up (snd h))) ->
  exists out, (r = LOk out \/ exists e, r = LErr e (Some out)) /\
    first_best (fun h => added_up (snd h)) (l_hist st) (eigvals out, eigvecs out, rnorm out).
Proof.
  intros e hn. pose proof (weak_inv _ _ _ _ (w_lobpcg fuel a x m y tol maxiter order) e) as h. cbv beta iota in h.
  destruct h as (_ & va & ve & rn & h1 & h2 & _ & _ & _ & _ & hr). exists (Lob va ve rn). split.
  - destruct hr as [(-> & _)|(e' & -> & _)]; eauto.
  - cbn [eigvals eigvecs rnorm]. rewrite h2 in h1. exact (pick_first nan ord (l_hist st) hn _ h1).
Qed.
Print Assumptions C33_best.
(** Every returned triple comes with such a trace *)
Theorem C33_traced (N : Num) fuel a (x : mat N) m y tol maxiter order r :
  lobpcg fuel a x m y tol maxiter order = Ret r ->
  match r with
  | LOk _ | LErr _ (Some _) => exists st, lobpcg_trace fuel a x m y tol maxiter order = Ret (r, Some st) /\
      1 <= length (l_hist st) <= 1 + Nat.min (10 * nr x) maxiter
  | LErr _ None => True
  end.
Proof.
  intros e. unfold lobpcg in e. apply bind_ret in e. destruct e as ([r0 ost] & et & er). injection er as ->.
  pose proof (weak_inv _ _ _ _ (w_lobpcg fuel a x m y tol maxiter order) et) as h. cbv beta iota in h.
  destruct ost as [st|].
  - destruct h as (_ & va & ve & rn & h1 & h2 & _ & h3 & _ & _ & hr).
    assert (hl : 1 <= length (l_hist st) <= 1 + Nat.min (10 * nr x) maxiter) by (rewrite (Nat.mul_comm 10); cbn; lia).
    destruct hr as [(-> & _)|(e' & -> & _)]; exists st; auto.
  - destruct (nr x <? nc x); [subst r; exact I|]. destruct h as (e' & -> & _). exact I.
Qed.
Print Assumptions C33_traced.
(** In exact arithmetic there are no NaNs *)
Lemma added_up_R (v : list RN) : added_up v = Rsum (length v) (vent v).
Proof.
  unfold added_up. assert (h : forall l (s : R), fold_left (nadd RN) l s = (s + Rsum (length l) (vent l))%R).
  { induction l as [|x l IH]; intros s; [symmetry; apply Rplus_0_r|]. cbn [fold_left length]. rewrite IH, Rsum_S_l. change (nadd RN s x) with (s + x)%R. change (vent (x :: l) 0) with x. change (fun i => vent (x :: l) (S i)) with (vent l). apply Rplus_assoc. }
  rewrite h. apply Rplus_0_l.
Qed.
Theorem C33_exact fuel a (x : mat RN) m y tol maxiter order r st :
  lobpcg_trace fuel a x m y tol maxiter order = Ret (r, Some st) ->
  exists out, (r = LOk out \/ exists e, r = LErr e (Some out)) /\
    first_best (N:=RN) (fun h => Rsum (length (snd h)) (vent (snd h))) (l_hist st) (eigvals out, eigvecs out, rnorm out).
Proof.
  intros e. destruct (C33_best RN _ num_order_R fuel a x m y tol maxiter order r st e) as (out & h1 & h2); [auto|]. exists out. split; auto.
  replace (fun h : list RN * mat RN * list RN => Rsum (length (snd h)) (vent (snd h))) with (fun h : list RN * mat RN * list RN => added_up (snd h)); auto.
  apply functional_extensionality. intros h. apply added_up_R.
Qed.
Print Assumptions C33_exact.

(** ** C34: early rejection and number of operator applications *)
Theorem C34_not_thin (N : Num) fuel a (x : mat N) m y tol maxiter order :
  (nr x < nc x -> lobpcg fuel a x m y tol maxiter order = Ret (LErr (NotThin (nr x) (nc x)) None)) /\
  (forall r c o, lobpcg fuel a x m y tol maxiter order = Ret (LErr (NotThin r c) o) ->
     nr x < nc x /\ r = nr x /\ c = nc x /\ o = None).
Proof.
  split.
  - intros h. unfold lobpcg, lobpcg_trace. destruct (Nat.ltb_spec (nr x) (nc x)); [reflexivity|lia].
  - intros r c o e. pose proof (weak_inv _ _ _ _ (w_lobpcg_shape fuel a x m y tol maxiter order) e) as h. cbv beta iota in h.
    destruct o as [out|].
    + destruct h as (_ & _ & []).
    + destruct h as [(h1 & h2)|(_ & [])]. injection h2 as -> ->. auto.
Qed.
Print Assumptions C34_not_thin.

(** The outcome (also a panic) depends on the operator only through its values on a list of blocks, whose length is
    the bound: 0 for an early rejection, 1 + min(10 n, maxiter) otherwise *)
Theorem C34_operator_calls (N : Num) fuel a (x : mat N) m y tol maxiter order :
  exists l, length l <= (if nr x <? nc x then 0 else 1 + Nat.min (10 * nr x) maxiter) /\
    forall a', (forall z, In z l -> a' z = a z) ->
      lobpcg fuel a' x m y tol maxiter order = lobpcg fuel a x m y tol maxiter order.
Proof.
  destruct (lobpcg_queries fuel a x m y tol maxiter order) as (l & h1 & h2). exists l. split; [exact h1|].
  intros a' h. unfold lobpcg. rewrite (h2 a' h). reflexivity.
Qed.
Print Assumptions C34_operator_calls.

(** The counter incremented at each call in the model *)
Theorem C34_call_counter (N : Num) fuel a (x : mat N) m y tol maxiter order r st :
  lobpcg_trace fuel a x m y tol maxiter order = Ret (r, Some st) -> l_calls st <= 1 + Nat.min (10 * nr x) maxiter.
Proof.
  intros e. pose proof (weak_inv _ _ _ _ (w_lobpcg fuel a x m y tol maxiter order) e) as h. cbv beta iota in h.
  destruct h as (_ & va & ve & rn & _ & _ & _ & _ & h & _). rewrite (Nat.mul_comm 10). cbn. lia.
Qed.
Print Assumptions C34_call_counter.

(** ** C35: non-convergence *)
(** Full statement *)
Definition C35_statement (N : Num) : Prop := forall fuel (p x : mat N) tol maxiter order out,
  lobpcg fuel (fun v => dot2 p v) x (fun v => Ret v) None tol maxiter order = Ret (LOk out) ->
  forall j, j < length (rnorm out) -> nlt N tol (vget (rnorm out) j) = false.
(** It is false: at the iteration cap lobpcg returns Ok with the last residual whatever it is *)
Theorem C35_refuted : exists (p x : mat FN) out,
  lobpcg 100 (fun v => dot2 p v) x (fun v => Ret v) None (nofQ FN 1%Z 100000%positive) 0 Largest = Ret (LOk out) /\
  nlt FN (nofQ FN 1%Z 2%positive) (vget (rnorm out) 0) = true.
Proof.
  set (x := fmat 1 [[1];[2];[3]]%Z).
  assert (h : match lobpcg 100 (fun v => dot2 diag321 v) x (fun v => Ret v) None (nofQ FN 1%Z 100000%positive) 0 Largest with
    | Ret (LOk out) => nlt FN (nofQ FN 1%Z 2%positive) (vget (rnorm out) 0) | _ => false end = true) by (vm_compute; reflexivity).
  destruct (lobpcg 100 _ x _ None _ 0 Largest) as [[out|e o]| | | |] eqn:e0; try discriminate h.
  exists diag321, x, out. auto.
Qed.
Print Assumptions C35_refuted.
(** Also after iterations were made *)
Theorem C35_iterated_refuted : exists (p x : mat FN) out,
  lobpcg 100 (fun v => dot2 p v) x (fun v => Ret v) None (nofQ FN 1%Z 100000%positive) 1 Largest = Ret (LOk out) /\
  nlt FN (nofQ FN 1%Z 10%positive) (vget (rnorm out) 0) = true.
Proof.
  set (x := fmat 1 [[1];[2];[3]]%Z).
  assert (h : match lobpcg 100 (fun v => dot2 diag321 v) x (fun v => Ret v) None (nofQ FN 1%Z 100000%positive) 1 Largest with
    | Ret (LOk out) => nlt FN (nofQ FN 1%Z 10%positive) (vget (rnorm out) 0) | _ => false end = true) by (vm_compute; reflexivity).
  destruct (lobpcg 100 _ x _ None _ 1 Largest) as [[out|e o]| | | |] eqn:e0; try discriminate h.
  exists diag321, x, out. auto.
Qed.
Print Assumptions C35_iterated_refuted.
(** What an Ok does mean: the iterations were used up, or every column had a residual norm not above the tolerance in at
    least one iterate (not necessarily the same iterate for all columns, nor the returned one).  Missing with respect to the
    full statement: the error at the cap, and the residuals of the returned iterate. *)
Theorem C35_ok_partial (N : Num) fuel a (x : mat N) m y tol maxiter order out st :
  lobpcg_trace fuel a x m y tol maxiter order = Ret (LOk out, Some st) ->
  length (l_hist st) = 1 + Nat.min (10 * nr x) maxiter \/
  forall j, j < nc x -> exists h, In h (l_hist st) /\ nlt N tol (vget (snd h) j) = false.
Proof.
  intros e. pose proof (weak_inv _ _ _ _ (w_lobpcg fuel a x m y tol maxiter order) e) as h. cbv beta iota in h.
  destruct h as (_ & va & ve & rn & _ & _ & _ & _ & _ & hm & hr).
  destruct hr as [(_ & [hl|hc])|(e' & he & _)]; [| |discriminate].
  - left. rewrite (Nat.mul_comm 10). cbn. exact hl.
  - right. intros j hj.
    assert (hf : nth j (l_mask st) false = false).
    { destruct (nth j (l_mask st) false) eqn:en; auto. exfalso.
      assert (hin : In true (l_mask st)). { rewrite <- en. apply nth_In. rewrite hm, length_mask_of. auto. }
      unfold count_true in hc. assert (h2 : In true (filter (fun b : bool => b) (l_mask st))) by (apply filter_In; auto).
      destruct (filter _ _); [destruct h2|discriminate]. }
    rewrite hm, nth_mask_of in hf by auto.
    assert (hg : forall l, forallb (fun h => nlt N tol (vget (snd h) j)) l = false -> exists h : list N * mat N * list N, In h l /\ nlt N tol (vget (snd h) j) = false).
    { induction l as [|z l IH]; cbn [forallb]; [discriminate|]. destruct (nlt N tol (vget (snd z) j)) eqn:ez; cbn [andb].
      - intros h. destruct (IH h) as (w & h1 & h2). exists w. split; [right|]; auto.
      - intros _. exists z. split; [left|]; auto. }
    apply hg. exact hf.
Qed.
Print Assumptions C35_ok_partial.

(** ** Concrete instances: the hypotheses of C31-C35, C41 are met by a 3x3 problem *)
Lemma dot2_linear (p : mat RN) n : nr p = n -> nc p = n -> linear_op n (ent p) (fun v => dot2 p v).
Proof.
  intros h1 h2 y hy.
  assert (h : wp (dot2 p y) (fun z => nr z = n /\ nc z = nc y /\ ent z =[n, nc y]= mmul n (ent p) (ent y))).
  { apply dot2_R; [lia|]. intros c c1 c2 c3. rewrite h1, h2 in c3. repeat split; auto; lia. }
  destruct (wp_ret _ _ h) as (z & e & hz). exists z. tauto.
Qed.
Example C32_nonvacuous : let x := rmat 1 [[1];[2];[3]]%Z in let y := rmat 1 [[1];[0];[0]]%Z in
  linear_op (nr x) (ent (rmat 3 [[3;0;0];[0;2;0];[0;0;1]]%Z)) (fun v => dot2 (rmat 3 [[3;0;0];[0;2;0];[0;0;1]]%Z) v) /\
  total_op (nr x) (fun v => Ret v) /\ 1 <= nc x /\ nr y = nr x /\ orthonormal_cols (nr x) (nc y) (ent y) /\
  injective (nr x) (nc y) (ent y).
Proof.
  cbv zeta. split; [apply dot2_linear; reflexivity|]. split; [intros v _; eauto|]. split; [cbn; lia|]. split; [reflexivity|]. split.
  - intros i j hi hj. cbn in hi, hj. assert (i = 0) by lia. assert (j = 0) by lia. subst. unfold mmul, mtr, ent, get, mid. cbn. lra.
  - intros z hz j hj. cbn in hj. assert (j = 0) by lia. subst. specialize (hz 0 ltac:(cbn; lia)). unfold ent, get in hz. cbn in hz. lra.
Qed.
(** A binary64 run: three iterates or more, the last one is the best, converged *)
Definition run_321 := lobpcg_trace 100 (fun v => dot2 diag321 v) (fmat 1 [[1];[2];[3]]%Z) (fun v => Ret v) None
  (nofQ FN 1%Z 100000%positive) 20 Largest.
Example C33_run : match run_321 with
  | Ret (LOk out, Some st) => (2 <? length (l_hist st)) && (l_calls st <=? 1 + 20) &&
      match map fq (eigvals out) with [v] => Qle_bool (2999#1000) v && Qle_bool v (3001#1000) | _ => false end &&
      forallb (fun r => nlt FN r (nofQ FN 1%Z 100000%positive)) (rnorm out)
  | _ => false end = true.
Proof. vm_compute. reflexivity. Qed.
(** An early rejection, with an operator that would panic if called *)
Example C34_run : lobpcg (N:=FN) 10 (fun _ => Panicked) (fmat 3 [[1;0;0];[0;1;0]]%Z) (fun v => Ret v) None (n0 FN) 5 Largest
  = Ret (LErr (NotThin 2 3) None).
Proof. reflexivity. Qed.
(** An inner failure: 2 active columns cannot be extended to 4 independent directions in dimension 3; the best
    iterate is returned with the error *)
Example C33_failed_run : match lobpcg 100 (fun v => dot2 diag321 v) (fmat 2 [[1;1];[2;0];[3;1]]%Z) (fun v => Ret v) None
  (nofQ FN 1%Z 100000%positive) 20 Largest with Ret (LErr NotPositiveDefinite (Some out)) => length (eigvals out) | _ => 0 end = 2.
Proof. vm_compute. reflexivity. Qed.
