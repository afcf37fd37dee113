(** * Proofs about norm.rs *)
From Coq Require Import Reals List Arith Lia Lra Bool.
From Verif Require Import Scalar Arr MBase Inst Hoare Spec RLin.
Import ListNotations.
Local Open Scope R_scope.

(** Left-to-right sums *)
Lemma fold_sum (f : R -> R) (v : list RN) : forall a, fold_left (fun acc x => acc + f x) v a = a + Rsum (length v) (fun i => f (vent v i)).
Proof.
  induction v as [|x v IH]; intros a; cbn [fold_left length].
  - simpl. lra.
  - rewrite IH, Rsum_S_l. change (vent (x :: v) 0) with x.
    change (a + f x + Rsum (length v) (fun i => f (vent v i)) = a + (f x + Rsum (length v) (fun i => f (vent v i)))). ring.
Qed.
Lemma norm_l1_sum (v : list RN) : norm_l1 (N:=RN) v = Rsum (length v) (fun i => Rabs (vent v i)).
Proof. unfold norm_l1. change (fold_left (fun acc x => acc + Rabs x) v 0 = Rsum (length v) (fun i => Rabs (vent v i))). rewrite (fold_sum Rabs). lra. Qed.
Lemma norm_l2_sum (v : list RN) : norm_l2 (N:=RN) v = sqrt (vnorm2 (length v) (vent v)).
Proof.
  unfold norm_l2. change (sqrt (fold_left (fun acc x => acc + x * x) v 0) = sqrt (vnorm2 (length v) (vent v))).
  rewrite (fold_sum (fun x => x * x)). f_equal. unfold vnorm2. lra.
Qed.
Lemma nmax_R (a b : RN) : nmax RN a b = Rmax a b.
Proof. reflexivity. Qed.
Lemma norm_max_aux (v : list RN) : forall f : R, let m := fold_left (fun f val => nmax RN (nabs RN val) f) v f in
  f <= m /\ (forall i, (i < length v)%nat -> Rabs (vent v i) <= m) /\ (m = f \/ exists i, (i < length v)%nat /\ m = Rabs (vent v i)).
Proof.
  induction v as [|x v IH]; intros f; cbn [fold_left length]; cbv zeta.
  - split; [lra|]. split; [intros; lia|auto].
  - rewrite nmax_R. change (nabs RN x) with (Rabs x). destruct (IH (Rmax (Rabs x) f)) as (h1 & h2 & h3). cbv zeta in *.
    set (m := fold_left _ _ _) in *. pose proof (Rmax_l (Rabs x) f). pose proof (Rmax_r (Rabs x) f).
    split; [lra|]. split.
    + intros [|i] hi; [change (vent (x :: v) 0) with x; lra|]. apply (h2 i). lia.
    + destruct h3 as [h3|(i & hi & h3)]; [|right; exists (S i); split; [lia|exact h3]].
      destruct (Rle_dec (Rabs x) f); [left; rewrite h3, Rmax_right; lra|]. right. exists 0%nat. split; [lia|].
      rewrite h3, Rmax_left by lra. reflexivity.
Qed.

(** The maximum of |x_i|, 0 for the empty array *)
Definition is_maxabs (n : nat) (x : nat -> R) (m : R) : Prop :=
  0 <= m /\ (forall i, (i < n)%nat -> Rabs (x i) <= m) /\ (m = 0 \/ exists i, (i < n)%nat /\ m = Rabs (x i)).
Lemma norm_max_is (v : list RN) : is_maxabs (length v) (vent v) (norm_max (N:=RN) v).
Proof. exact (norm_max_aux v 0). Qed.
Lemma maxabs_lub n x m b : is_maxabs n x m -> 0 <= b -> (forall i, (i < n)%nat -> Rabs (x i) <= b) -> m <= b.
Proof. intros (h1 & h2 & h3) hb h. destruct h3 as [->|(i & hi & ->)]; auto. Qed.

(** Cauchy-Schwarz in the form needed for the triangle inequality *)
Lemma vnorm2_nonneg n x : 0 <= vnorm2 n x.
Proof. apply Rsum_nonneg. intros. nra. Qed.
Lemma vnorm_triangle n x y : sqrt (vnorm2 n (fun i => x i + y i)) <= sqrt (vnorm2 n x) + sqrt (vnorm2 n y).
Proof.
  pose proof (frob_triangle 1 n (fun _ i => x i) (fun _ i => y i)) as h. unfold frob, frob2, madd in h. simpl Rsum in h.
  rewrite !Rplus_0_l in h. exact h.
Qed.
Lemma vnorm2_le_l1 n x : vnorm2 n x <= Rsum n (fun i => Rabs (x i)) * Rsum n (fun i => Rabs (x i)).
Proof.
  induction n as [|n IH]; [unfold vnorm2; simpl; lra|]. unfold vnorm2 in *. cbn [Rsum].
  assert (0 <= Rsum n (fun i => Rabs (x i))) by (apply Rsum_nonneg; intros; apply Rabs_pos).
  pose proof (Rabs_pos (x n)). assert (x n * x n = Rabs (x n) * Rabs (x n)) by (rewrite <- Rabs_mult, Rabs_right; auto; nra). nra.
Qed.
