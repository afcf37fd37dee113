(** * C84: least squares under changes of rows, columns and right-hand side (exact arithmetic) *)
From Coq Require Import Reals Lra List Arith Lia Bool ZArith Setoid Morphisms.
From Coq.Floats Require Import SpecFloat.
From Verif Require Import Scalar Arr MBase MDirect Inst Hoare Spec RLin PTri PChol PQR PLobR Ex.
From Verif Require Import Properties_QR Properties_Inverse.
Import ListNotations.
Local Open Scope R_scope.

(** ** Specification *)
(** [x] solves the normal equations A^T (A x - b) = 0, with [n] rows, [c] columns and [k] right-hand sides *)
Definition normal (n c k : nat) (A b x : M) : Prop := mmul n (mtr A) (msub (mmul c A x) b) =[c, k]= fun _ _ => 0.

Lemma normal_eq n c k A b x : normal n c k A b x <-> mmul c (mmul n (mtr A) A) x =[c, k]= mmul n (mtr A) b.
Proof.
  unfold normal. split; intros h.
  - rewrite (mmul_assoc c n c k). rewrite (mmul_sub_r c n k) in h. intros i j hi hj. specialize (h i j hi hj). unfold msub in h. lra.
  - rewrite (mmul_sub_r c n k). rewrite (mmul_assoc c n c k) in h. intros i j hi hj. specialize (h i j hi hj). unfold msub. lra.
Qed.
Lemma normal_unique n c k A b x y : injective n c A -> normal n c k A b x -> normal n c k A b y -> x =[c, k]= y.
Proof.
  intros hi hx hy. apply normal_eq in hx, hy. set (G := mmul n (mtr A) A) in *.
  assert (hg : injective c c G) by (apply posdef_injective, (proj2 (gram_injective n c A G (reflexivity _))), hi).
  intros i j hi' hj. enough (x i j - y i j = 0) by lra. apply (hg (fun m => x m j - y m j)); auto.
  intros p hp. transitivity (mmul c G x p j - mmul c G y p j).
  - unfold mmul at 1 2. rewrite <- Rsum_minus. apply Rsum_ext. intros. ring.
  - rewrite (hx p j), (hy p j) by auto. ring.
Qed.
Lemma lsq_facts (a b x : mat RN) : (nc a <= nr a)%nat -> least_squares a b = Ret x ->
  nr b = nr a /\ nr x = nc a /\ nc x = nc b /\ injective (nr a) (nc a) (ent a) /\ normal (nr a) (nc a) (nc b) (ent a) (ent b) (ent x).
Proof.
  intros hle e. pose proof (C15_least_squares_class RN a b) as hc. rewrite e in hc. destruct hc as (hb & x1 & x2).
  assert (hi : injective (nr a) (nc a) (ent a)).
  { destruct (C15_least_squares_rank a b hb) as (k & _). destruct (Nat.leb_spec (nc a) (nr a)); [|lia]. apply k. eauto. }
  destruct (C12_qr_least_squares a b hle hi hb) as (d & x' & _ & _ & e' & _ & _ & hn & _). rewrite e in e'. injection e' as <-. auto.
Qed.
Lemma lsq_solves (a b : mat RN) X : (nc a <= nr a)%nat -> nr b = nr a -> injective (nr a) (nc a) (ent a) ->
  normal (nr a) (nc a) (nc b) (ent a) (ent b) X ->
  exists y, least_squares a b = Ret y /\ nr y = nc a /\ nc y = nc b /\ ent y =[nc a, nc b]= X.
Proof.
  intros hle hb hi hn. destruct (C12_qr_least_squares a b hle hi hb) as (d & y & _ & _ & e & y1 & y2 & h & _).
  exists y. repeat (split; [assumption|]). apply (normal_unique (nr a) (nc a) (nc b) (ent a) (ent b)); auto.
Qed.

(** ** Theorems *)
(** Rows: multiplying a and b by a matrix U with orthonormal columns (a rotation, a permutation of the equations,
    additional zero equations) leaves the solution alone. *)
Theorem C84_rows (a b x a' b' : mat RN) (U : M) : (nc a <= nr a)%nat -> least_squares a b = Ret x ->
  orthonormal_cols (nr a') (nr a) U -> (nc a <= nr a')%nat -> nc a' = nc a -> nr b' = nr a' -> nc b' = nc b ->
  ent a' =[nr a', nc a]= mmul (nr a) U (ent a) -> ent b' =[nr a', nc b]= mmul (nr a) U (ent b) ->
  exists y, least_squares a' b' = Ret y /\ nr y = nc a /\ nc y = nc b /\ ent y =[nc a, nc b]= ent x.
Proof.
  intros hle e hU hle' c1 r1 c2 ha hb. destruct (lsq_facts a b x hle e) as (h1 & h2 & h3 & h4 & h5).
  assert (ht : mmul (nr a') (mtr (ent a')) U =[nc a, nr a]= mtr (ent a)).
  { rewrite ha. rewrite (mtr_mmul (nr a') (nr a) (nc a)). rewrite (mmul_assoc (nc a) (nr a) (nr a')). unfold orthonormal_cols in hU. rewrite hU. apply mmul_1_r. }
  assert (hg : mmul (nr a') (mtr (ent a')) (ent a') =[nc a, nc a]= mmul (nr a) (mtr (ent a)) (ent a)).
  { rewrite ha at 2. rewrite <- (mmul_assoc (nc a) (nr a') (nr a) (nc a)). rewrite ht. reflexivity. }
  assert (hm : mmul (nr a') (mtr (ent a')) (ent b') =[nc a, nc b]= mmul (nr a) (mtr (ent a)) (ent b)).
  { rewrite hb. rewrite <- (mmul_assoc (nc a) (nr a') (nr a) (nc b)). rewrite ht. reflexivity. }
  destruct (lsq_solves a' b' (ent x)) as (y & ey & y1 & y2 & y3); try lia; rewrite ?c1, ?c2 in *; eauto.
  - apply (gram_injective (nr a') (nc a) (ent a') (mmul (nr a) (mtr (ent a)) (ent a))); [symmetry; exact hg|].
    apply (proj2 (gram_injective (nr a) (nc a) (ent a) _ (reflexivity _))). auto.
  - apply normal_eq. rewrite hg, hm. apply normal_eq. exact h5.
Qed.
(** Columns: with other unknowns z, x = T z for an invertible T, the solution is the one in the other unknowns. *)
Theorem C84_columns (a b x a' : mat RN) (T S : M) : (nc a <= nr a)%nat -> least_squares a b = Ret x ->
  mmul (nc a) S T =[nc a, nc a]= mid -> mmul (nc a) T S =[nc a, nc a]= mid ->
  nr a' = nr a -> nc a' = nc a -> ent a' =[nr a, nc a]= mmul (nc a) (ent a) T ->
  exists y, least_squares a' b = Ret y /\ nr y = nc a /\ nc y = nc b /\ ent y =[nc a, nc b]= mmul (nc a) S (ent x).
Proof.
  intros hle e hS hT r1 c1 ha. destruct (lsq_facts a b x hle e) as (h1 & h2 & h3 & h4 & h5).
  destruct (lsq_solves a' b (mmul (nc a) S (ent x))) as (y & ey & y1 & y2 & y3); try lia; rewrite ?c1, ?r1 in *; eauto.
  - intros v hv. apply (inv_injective (nc a) T S hS). apply h4. intros i hi. rewrite <- (hv i hi).
    transitivity (mmul (nc a) (ent a) (mmul (nc a) T (fun m _ => v m)) i 0%nat); [reflexivity|].
    rewrite <- (mmul_assoc (nr a) (nc a) (nc a) 1 (ent a) T (fun m _ => v m) i 0%nat hi ltac:(lia)).
    unfold mmul at 1. apply Rsum_ext. intros j hj. rewrite (ha i j) by auto. reflexivity.
  - unfold normal in *. rewrite ha. rewrite (mtr_mmul (nr a) (nc a) (nc a)). rewrite (mmul_assoc (nr a) (nc a) (nc a) (nc b) (ent a) T).
    rewrite <- (mmul_assoc (nc a) (nc a) (nc a) (nc b) T S). rewrite hT. rewrite (mmul_1_l (nc a) (nc b)).
    rewrite (mmul_assoc (nc a) (nc a) (nr a) (nc b)). rewrite h5. intros i j hi hj. unfold mmul. apply Rsum_0. intros. ring.
Qed.
(** Right-hand side: adding A w to b adds w to the solution. *)
Theorem C84_shift (a b x b' : mat RN) (w : M) : (nc a <= nr a)%nat -> least_squares a b = Ret x ->
  nr b' = nr a -> nc b' = nc b -> ent b' =[nr a, nc b]= madd (ent b) (mmul (nc a) (ent a) w) ->
  exists y, least_squares a b' = Ret y /\ nr y = nc a /\ nc y = nc b /\ ent y =[nc a, nc b]= madd (ent x) w.
Proof.
  intros hle e r1 c1 hb. destruct (lsq_facts a b x hle e) as (h1 & h2 & h3 & h4 & h5).
  destruct (lsq_solves a b' (madd (ent x) w)) as (y & ey & y1 & y2 & y3); try lia; rewrite ?c1 in *; eauto.
  apply normal_eq. apply normal_eq in h5. rewrite hb. rewrite (mmul_add_r (nc a) (nr a) (nc b)), (mmul_add_r (nc a) (nc a) (nc b)).
  rewrite h5. rewrite (mmul_assoc (nc a) (nr a) (nc a) (nc b)). reflexivity.
Qed.
(** A consistent system is solved exactly. *)
Theorem C84_consistent (a b x : mat RN) (w : M) : (nc a <= nr a)%nat -> least_squares a b = Ret x ->
  ent b =[nr a, nc b]= mmul (nc a) (ent a) w -> ent x =[nc a, nc b]= w.
Proof.
  intros hle e hb. destruct (lsq_facts a b x hle e) as (h1 & h2 & h3 & h4 & h5).
  apply (normal_unique (nr a) (nc a) (nc b) (ent a) (ent b)); auto. apply normal_eq. rewrite hb. apply (mmul_assoc (nc a) (nr a) (nc a) (nc b)).
Qed.
Print Assumptions C84_rows.
Print Assumptions C84_columns.
Print Assumptions C84_shift.
Print Assumptions C84_consistent.

(** ** Binary64: the order of the equations matters, and the consistent system x = 1, 2 x = 2 is not solved exactly *)
Theorem C84_binary64_order_refuted : exists a b a' b' : mat FN,
  SFeqb (get a' 0 0) (get a 1 0) && SFeqb (get a' 1 0) (get a 0 0) && SFeqb (get b' 0 0) (get b 1 0) && SFeqb (get b' 1 0) (get b 0 0) = true /\
  match least_squares a b, least_squares a' b', least_squares a a with
  | Ret x, Ret y, Ret z => (SFltb (get x 0 0) (get y 0 0) = true \/ SFltb (get y 0 0) (get x 0 0) = true) /\ SFeqb (get z 0 0) (f_of_Z 1) = false
  | _, _, _ => False
  end.
Proof. exists (fmat 1 [[1]; [2]]%Z), (fmat 1 [[3]; [1]]%Z), (fmat 1 [[2]; [1]]%Z), (fmat 1 [[1]; [3]]%Z). vm_compute. auto. Qed.
Print Assumptions C84_binary64_order_refuted.

(** ** Examples: a call that succeeds, a permutation of the rows, a change of unknowns *)
Example C84_call : let a := rmat 2 [[1;0];[1;1];[1;2]]%Z in let b := rmat 1 [[1];[2];[4]]%Z in
  (nc a <= nr a)%nat /\ exists x, least_squares a b = Ret x.
Proof.
  destruct C12_nonvacuous as (h1 & h2 & h3). cbv zeta. split; [exact h1|].
  destruct (C12_qr_least_squares _ _ h1 h2 h3) as (d & x & _ & _ & e & _). eauto.
Qed.
(** U swaps the first two rows of three and adds a row of zeros *)
Definition swap_rows : M := fun i j => match i, j with O, S O | S O, O | S (S O), S (S O) => 1 | _, _ => 0 end.
Example C84_swap : orthonormal_cols 4 3 swap_rows.
Proof. intros [|[|[|i]]] [|[|[|j]]] hi hj; try lia; unfold mmul, mtr, mid, swap_rows; simpl; lra. Qed.
Definition shear (c : R) : M := fun i j => match i, j with O, O | S O, S O => 1 | O, S O => c | _, _ => 0 end.
Example C84_shear : mmul 2 (shear (-3)) (shear 3) =[2, 2]= mid /\ mmul 2 (shear 3) (shear (-3)) =[2, 2]= mid.
Proof. split; intros [|[|i]] [|[|j]] hi hj; try lia; unfold mmul, mid, shear; simpl; lra. Qed.
