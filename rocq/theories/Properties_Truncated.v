(** * C37 - C40, C42: TruncatedEig, its iterator, TruncatedSvd *)
From Coq Require Import Reals Lra List Arith Lia Bool ZArith QArith.
From Verif Require Import Scalar Arr MBase MDirect MDecomp MEigh MLobpcg Inst Ex Spec Hoare RLin PSort PLob PLobR PTrunc.
Import ListNotations.
Local Open Scope nat_scope.

(** ** C37: the iterator *)
(** [nexts draw fuel k it] makes k successive calls of [next] *)
Theorem C37_history (N : Num) (G : Type) (draw : G -> N * G) fuel k (t : truncated_eig (N:=N) (G:=G)) step it0 items it :
  into_iter_step_size t step = Ret it0 -> nexts draw fuel k it0 = Ret (items, it) ->
  length items = k /\ chunks step (nr (te_problem t)) items (ti_remaining it) /\
  total items + ti_remaining it = nr (te_problem t) /\ total items <= nr (te_problem t).
Proof.
  unfold into_iter_step_size. destruct (Nat.ltb_spec step 1); [discriminate|]. intros e0 e. injection e0 as <-.
  pose proof (weak_inv _ _ _ _ (w_nexts draw fuel k _) e) as h. cbv beta iota in h. cbn [ti_step ti_remaining ti_eig] in h.
  destruct h as (h1 & _ & h3 & _). pose proof (chunks_total _ _ _ _ h3). repeat split; auto; lia.
Qed.
Print Assumptions C37_history.
(** Once all n pairs are delivered every further call returns None, without calling the solver and without changing anything *)
Theorem C37_exhausted (N : Num) (G : Type) (draw : G -> N * G) fuel k (t : truncated_eig (N:=N) (G:=G)) step it0 items it :
  into_iter_step_size t step = Ret it0 -> nexts draw fuel k it0 = Ret (items, it) -> total items = nr (te_problem t) ->
  forall fuel' j, nexts draw fuel' j it = Ret (repeat None j, it).
Proof.
  intros e0 e ht. destruct (C37_history N G draw fuel k t step it0 items it e0 e) as (_ & _ & h & _).
  assert (hr : ti_remaining it = 0) by lia. intros fuel' j. induction j as [|j IH]; auto. cbn [nexts repeat].
  unfold ti_next. rewrite hr. cbn [Nat.eqb bind]. rewrite IH. reflexivity.
Qed.
Print Assumptions C37_exhausted.
Theorem C37_step_size (N : Num) (G : Type) (t : truncated_eig (N:=N) (G:=G)) step :
  (into_iter_step_size t 0 = Panicked) /\
  (1 <= step -> into_iter_step_size t step = Ret (TI step (nr (te_problem t)) t)) /\
  into_iter_step_size t 1 = Ret (into_iter t).
Proof.
  split; [reflexivity|]. split; [|reflexivity]. intros h. unfold into_iter_step_size. destruct (Nat.ltb_spec step 1); [lia|reflexivity].
Qed.
Print Assumptions C37_step_size.
Theorem C37_decompose (N : Num) (G : Type) (draw : G -> N * G) fuel (t : truncated_eig (N:=N) (G:=G)) num :
  (te_decompose draw fuel t 0 = Ret (LOk (Lob [] (zeros 0 0) []), t)) /\
  (nr (te_problem t) < num -> exists t', te_decompose draw fuel t num = Ret (LErr (NotThin (nr (te_problem t)) num) None, t')).
Proof.
  split; [reflexivity|]. intros h. unfold te_decompose. destruct (Nat.eqb_spec num 0); [lia|].
  destruct (random_dims draw (nr (te_problem t)) num (te_rng t)) as (d1 & d2).
  destruct (random draw (nr (te_problem t)) num (te_rng t)) as [x g]. cbn [fst] in d1, d2.
  unfold lobpcg, lobpcg_trace. rewrite d1, d2. destruct (Nat.ltb_spec (nr (te_problem t)) num); [|lia]. cbn [bind]. eauto.
Qed.
Print Assumptions C37_decompose.

(** ** C38: the constraints *)
Theorem C38_next (N : Num) (G : Type) (draw : G -> N * G) fuel (it it' : teig_iter (N:=N) (G:=G)) item :
  ti_next draw fuel it = Ret (item, it') ->
  ti_step it' = ti_step it /\
  match item with
  | Some (vals, vecs) =>
      (exists c, te_constraints (ti_eig it') = Some c /\
         columns c = opt_columns (te_constraints (ti_eig it)) ++ columns vecs /\
         ti_eig it' = te_orthogonal_to (te_set_rng (ti_eig it) (te_rng (ti_eig it'))) c) /\
      ti_remaining it' = ti_remaining it - nc vecs /\ length vals = nc vecs
  | None => ti_remaining it' = ti_remaining it /\ ti_eig it' = te_set_rng (ti_eig it) (te_rng (ti_eig it'))
  end.
Proof.
  intros e. pose proof (weak_inv _ _ _ _ (w_next draw fuel it) e) as h. cbv beta iota in h. destruct h as (h1 & h2). split; auto.
  destruct item as [[vals vecs]|].
  - destruct h2 as (_ & h2 & h3 & h4 & c & h5 & h6 & h7). rewrite h3, h4, h2. split; eauto.
  - destruct h2 as (h2 & h3 & _). auto.
Qed.
Print Assumptions C38_next.
Theorem C38_history (N : Num) (G : Type) (draw : G -> N * G) fuel k (it it' : teig_iter (N:=N) (G:=G)) items :
  nexts draw fuel k it = Ret (items, it') ->
  opt_columns (te_constraints (ti_eig it')) = opt_columns (te_constraints (ti_eig it)) ++ delivered items.
Proof. intros e. pose proof (weak_inv _ _ _ _ (w_nexts draw fuel k it) e) as h. cbv beta iota in h. tauto. Qed.
Print Assumptions C38_history.

(** A random generator for the examples: 1, 2, 3, ... *)
Definition count_draw (z : Z) : FN * Z := (f_of_Z z, (z + 1)%Z).
Definition te321 : truncated_eig (N:=FN) (G:=Z) := te_new (fmat 3 [[3;0;0];[0;2;0];[0;0;1]]%Z) Largest 1%Z.
Definition summary {N : Num} {A} (r : res (list (option (list N * mat N)) * A)) : list (option nat) :=
  match r with Ret (l, _) => map (fun o => match o with Some (v, _) => Some (length v) | None => None end) l | _ => [] end.
(** Three single eigenvalues, then None *)
Example C37_run : summary (nexts count_draw 100 5 (into_iter te321)) = [Some 1; Some 1; Some 1; None; None].
Proof. vm_compute. reflexivity. Qed.

(** ** C39: singular values *)
Theorem C39_values (corr : R) (t : tsvd_result RN) vals idx : (0 <= nepsilon RN * corr < 1)%R ->
  singular_values_with_indices (N:=RN) corr t = Ret (vals, idx) ->
  let lam := tr_eigvals t in
  length vals = length idx /\ NoDup idx /\
  (forall i, i < length idx -> nth i idx 0 < length lam /\ vent vals i = sqrt (vent lam (nth i idx 0))) /\
  match tr_order t with
  | Largest => (forall i j, i < j -> j < length vals -> (vent vals j <= vent vals i)%R) /\
      (forall i, i < length vals -> (0 < vent vals i)%R) /\
      (forall j, j < length lam -> In j idx <-> forall i, i < length lam -> (nepsilon RN * corr * vent lam i < vent lam j)%R)
  | Smallest => (forall i j, i < j -> j < length vals -> (vent vals i <= vent vals j)%R) /\ length idx = length lam
  end.
Proof. exact (svi_R corr t vals idx). Qed.
Print Assumptions C39_values.

(** One factor is taken from the eigenvectors at the same indices, the other is its image divided by the singular value *)
Theorem C39_vectors (corr : R) (t : tsvd_result RN) u s vt :
  nr (tr_eigvecs t) = (if tr_ngm t then nc (tr_problem t) else nr (tr_problem t)) ->
  ts_values_vectors (N:=RN) corr t = Ret (u, s, vt) ->
  exists idx, singular_values_with_indices (N:=RN) corr t = Ret (s, idx) /\
    let n := nr (tr_problem t) in let m := nc (tr_problem t) in let k := length s in let A := ent (tr_problem t) in
    nr u = n /\ nc u = k /\ nr vt = k /\ nc vt = m /\
    if tr_ngm t then
      (forall i q, i < k -> q < m -> ent vt i q = ent (tr_eigvecs t) q (nth i idx 0)) /\
      (forall i p, i < k -> p < n -> vent s i <> 0%R -> mmul m A (mtr (ent vt)) p i = (vent s i * ent u p i)%R)
    else
      (forall i p, i < k -> p < n -> ent u p i = ent (tr_eigvecs t) p (nth i idx 0)) /\
      (forall i q, i < k -> q < m -> vent s i <> 0%R -> mmul n (mtr A) (ent u) q i = (vent s i * ent vt i q)%R).
Proof. exact (values_vectors_R corr t u s vt). Qed.
Print Assumptions C39_vectors.
(** The shape hypothesis holds for whatever decompose returns (num > 0), for every scalar type *)
Theorem C39_shape (N : Num) (G : Type) (draw : G -> N * G) fuel (t : truncated_svd (N:=N) (G:=G)) num r :
  ts_decompose draw fuel t num = Ret r -> 0 < num ->
  tr_problem r = ts_problem t /\ tr_order r = ts_order t /\ length (tr_eigvals r) = num /\ nc (tr_eigvecs r) = num /\
  nr (tr_eigvecs r) = (if tr_ngm r then nc (tr_problem r) else nr (tr_problem r)) /\
  tr_ngm r = (nc (ts_problem t) <? nr (ts_problem t)) /\ num <= Nat.min (nr (ts_problem t)) (nc (ts_problem t)).
Proof.
  intros e h. pose proof (weak_inv _ _ _ _ (w_svd draw fuel t num) e) as hw. cbv beta iota in hw.
  destruct hw as (h1 & h2 & h3). destruct (h3 ltac:(lia)) as (h4 & h5 & h6 & h7 & h8). auto 10.
Qed.
Print Assumptions C39_shape.

(** If the eigenpairs are exact and orthonormal the result is an exact truncated SVD *)
Theorem C39_exact_svd (corr : R) (t : tsvd_result RN) u s vt : (0 <= nepsilon RN * corr < 1)%R -> tr_order t = Largest ->
  let n := nr (tr_problem t) in let m := nc (tr_problem t) in let A := ent (tr_problem t) in
  let d := if tr_ngm t then m else n in
  let B := if tr_ngm t then mmul n (mtr A) A else mmul m A (mtr A) in
  nr (tr_eigvecs t) = d -> orthonormal_cols d (length (tr_eigvals t)) (ent (tr_eigvecs t)) ->
  (forall j p, j < length (tr_eigvals t) -> p < d ->
     mmul d B (ent (tr_eigvecs t)) p j = (vent (tr_eigvals t) j * ent (tr_eigvecs t) p j)%R) ->
  ts_values_vectors (N:=RN) corr t = Ret (u, s, vt) ->
  let k := length s in
  (forall i, i < k -> (0 < vent s i)%R) /\
  orthonormal_cols n k (ent u) /\ orthonormal_cols m k (mtr (ent vt)) /\
  (forall i p, i < k -> p < n -> mmul m A (mtr (ent vt)) p i = (vent s i * ent u p i)%R) /\
  (forall i q, i < k -> q < m -> mmul n (mtr A) (ent u) q i = (vent s i * ent vt i q)%R).
Proof.
  intros hc hord n m A d B hd ho he e k.
  destruct (C39_vectors corr t u s vt hd e) as (idx & es & h).
  cbv zeta in h. fold n m A k in h. destruct h as (u1 & u2 & v1 & v2 & h).
  pose proof (C39_values corr t s idx hc es) as hv. cbv zeta in hv. rewrite hord in hv. destruct hv as (l1 & l2 & l3 & _ & l5 & _). fold k in l1, l5.
  assert (hpos : forall i, i < k -> vent s i <> 0%R) by (intros i hi; specialize (l5 i hi); lra).
  set (lam := tr_eigvals t) in *. set (V := ent (tr_eigvecs t)) in *.
  set (W := fun q i => V q (nth i idx 0)).
  assert (hW : orthonormal_cols d k W).
  { intros i j hi hj. destruct (l3 i ltac:(lia)) as (a1 & _). destruct (l3 j ltac:(lia)) as (a2 & _).
    change (mmul d (mtr W) W i j) with (mmul d (mtr V) V (nth i idx 0) (nth j idx 0)). rewrite ho by auto. unfold mid.
    destruct (Nat.eqb_spec i j) as [->|hne]; [rewrite Nat.eqb_refl; reflexivity|].
    destruct (Nat.eqb_spec (nth i idx 0) (nth j idx 0)) as [e0|]; auto. exfalso. apply hne. apply (NoDup_nth idx 0); auto; lia. }
  assert (hsq : forall i, i < k -> vent lam (nth i idx 0) = (vent s i * vent s i)%R).
  { intros i hi. destruct (l3 i ltac:(lia)) as (a1 & a2). specialize (l5 i hi). rewrite a2 in *. symmetry. apply sqrt_sqrt.
    destruct (Rle_lt_dec 0 (vent lam (nth i idx 0))); auto. rewrite sqrt_neg_0 in l5; lra. }
  assert (hE : forall i q, i < k -> q < d -> mmul d B W q i = (vent s i * vent s i * W q i)%R).
  { intros i q hi hq. destruct (l3 i ltac:(lia)) as (a1 & _). change (mmul d B W q i) with (mmul d B V q (nth i idx 0)).
    rewrite he by auto. rewrite hsq by auto. reflexivity. }
  split; auto. unfold d, B in *. clear d B. destruct (tr_ngm t).
  - destruct h as (h1 & h2).
    assert (eW : mtr (ent vt) =[m, k]= W) by (intros q i hq hi; unfold mtr; rewrite h1 by auto; reflexivity).
    destruct (svd_core n m k A W (ent u) (vent s)) as (g1 & g2); auto.
    { intros i q hi hq. rewrite <- hE by auto. symmetry. apply (mmul_assoc m n m k (mtr A) A W); auto. }
    { intros i p hi hp. rewrite <- h2 by auto. apply Rsum_ext. intros q hq. rewrite <- eW by auto. reflexivity. }
    split; auto. split.
    { unfold orthonormal_cols. rewrite eW. exact hW. }
    split; [intros; apply h2; auto|]. intros i q hi hq. rewrite g1 by auto. rewrite h1 by auto. reflexivity.
  - destruct h as (h1 & h2).
    assert (eW : ent u =[n, k]= W) by (intros q i hq hi; rewrite h1 by auto; reflexivity).
    destruct (svd_core m n k (mtr A) W (mtr (ent vt)) (vent s)) as (g1 & g2); auto.
    { intros i q hi hq. rewrite <- hE by auto. symmetry. apply (mmul_assoc n m n k A (mtr A) W); auto. }
    { intros i p hi hp. unfold mtr at 2. rewrite <- h2 by auto. apply Rsum_ext. intros q hq. rewrite <- eW by auto. reflexivity. }
    split. { unfold orthonormal_cols. rewrite eW. exact hW. }
    split; auto. split; [|intros; apply h2; auto]. intros i p hi hp. rewrite h1 by auto. fold V. change (V p (nth i idx 0)) with (W p i).
    rewrite <- g1 by auto. reflexivity.
Qed.
Print Assumptions C39_exact_svd.

(** Both corrections used by the code meet the hypothesis (1e6 for f64; the f32 value 1e3 with f32 epsilon likewise) *)
Example C39_correction : (0 <= nepsilon RN * 1000000 < 1)%R.
Proof. change (nepsilon RN) with (/ IZR (2 ^ 52))%R. change (2 ^ 52)%Z with 4503599627370496%Z. lra. Qed.
(** diag(2, 3) x I: eigenvalues 4 and 9 of A^T A, with one negligible value dropped *)
Example C39_run :
  match ts_values_vectors (N:=FN) (f_of_Z 1000000) (TSR (N:=FN) (map f_of_Z [4; 9; 0]%Z) (fmat 3 [[1;0;0];[0;1;0];[0;0;1]]%Z) (fmat 3 [[2;0;0];[0;3;0];[0;0;0];[0;0;0]]%Z) Largest true) with
  | Ret (u, s, vt) => (map (map (fun x => Qred (fq x))) (rows u), map (fun x => Qred (fq x)) s, map (map (fun x => Qred (fq x))) (rows vt)) | _ => ([], [], []) end =
  ([[0;1];[1;0];[0;0];[0;0]], [3;2], [[0;1;0];[1;0;0]])%Q.
Proof. vm_compute. reflexivity. Qed.

(** ** C40: the accessors *)
(** Full statement *)
Definition C40_statement (N : Num) : Prop := forall (G : Type) (draw : G -> N * G) fuel (t : truncated_svd (N:=N) (G:=G)) num r corr,
  ts_decompose draw fuel t num = Ret r ->
  (exists v, ts_values corr r = Ret v) /\ (exists v, ts_values_vectors corr r = Ret v).
(** False: after decompose(0) with Order::Largest both accessors index an empty list *)
Definition ts321 : truncated_svd (N:=FN) (G:=Z) := ts_new (fmat 3 [[3;0;0];[0;2;0];[0;0;1]]%Z) Largest 1%Z.
Theorem C40_refuted : exists (t : truncated_svd (N:=FN) (G:=Z)) r,
  ts_decompose count_draw 100 t 0 = Ret r /\ ts_values (N:=FN) (f_of_Z 1000000) r = Panicked /\ ts_values_vectors (N:=FN) (f_of_Z 1000000) r = Panicked.
Proof. exists ts321. eexists. split; [reflexivity|]. split; reflexivity. Qed.
Print Assumptions C40_refuted.
(** True for every num > 0: eigenvalues that are NaN cannot get this far (sorting two or more of them panics inside decompose).
    Missing with respect to the full statement: num = 0 with Order::Largest (false, see above). *)
Theorem C40_positive_partial (N : Num) nan (ord : num_order N nan) (G : Type) (draw : G -> N * G) fuel
  (t : truncated_svd (N:=N) (G:=G)) num r corr :
  ts_decompose draw fuel t num = Ret r -> 0 < num \/ ts_order t = Smallest ->
  (exists v, ts_values corr r = Ret v) /\ (exists v, ts_values_vectors corr r = Ret v).
Proof.
  intros e h. pose proof (weak_inv _ _ _ _ (w_svd draw fuel t num) e) as (h1 & h2 & h3).
  pose proof (weak_inv _ _ _ _ (ordv_svd nan ord draw fuel t num) e) as (h4 & _).
  destruct num as [|num].
  - destruct h as [h|h]; [lia|]. cbn in e. injection e as <-. rewrite h. split; [|]; eexists; reflexivity.
  - destruct (h3 ltac:(lia)) as (g1 & g2 & g3 & g4 & g5).
    destruct (values_vectors_ok nan ord corr r) as (k1 & k2); auto.
    { intros _ hn. rewrite hn in h2. discriminate. }
    split; auto. apply k2; [lia|]. exact g4.
Qed.
Print Assumptions C40_positive_partial.
Example C40_run : match ts_decompose count_draw 100 ts321 1 with
  | Ret r => match ts_values (N:=FN) (f_of_Z 1000000) r with
             | Ret [s] => Qle_bool (299#100) (fq s) && Qle_bool (fq s) (301#100) | _ => false end
  | _ => false end = true.
Proof. vm_compute. reflexivity. Qed.

(** ** C42: eigenvalues in the requested order *)
Theorem C42_ordered (N : Num) nan (ord : num_order N nan) fuel a (x : mat N) m y tol maxiter order r :
  lobpcg fuel a x m y tol maxiter order = Ret r ->
  match r with
  | LOk out | LErr _ (Some out) =>
      (length (eigvals out) <= 1 \/ forall v, In v (eigvals out) -> ~ nan v) /\
      forall i j, i < j -> j < length (eigvals out) -> before order (vget (eigvals out) j) (vget (eigvals out) i) = false
  | LErr _ None => True
  end.
Proof. intros e. exact (weak_inv _ _ _ _ (ordv_lobpcg nan ord order fuel a x m y tol maxiter) e). Qed.
Print Assumptions C42_ordered.
Example C42_run : match lobpcg 100 (fun v => dot2 (fmat 5 [[5;0;0;0;0];[0;4;0;0;0];[0;0;3;0;0];[0;0;0;2;0];[0;0;0;0;1]]%Z) v)
    (fmat 2 [[1;1];[2;0];[3;1];[1;1];[0;2]]%Z) (fun v => Ret v) None (nofQ FN 1%Z 100000%positive) 3 Largest with
  | Ret (LOk out) | Ret (LErr _ (Some out)) => match map fq (eigvals out) with [a; b] => Qle_bool b a && negb (Qle_bool a b) | _ => false end
  | _ => false end = true.
Proof. vm_compute. reflexivity. Qed.
