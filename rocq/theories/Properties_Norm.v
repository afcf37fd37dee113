(** * Property C30: norm.rs *)
From Coq Require Import Reals List Arith Lia Lra ZArith QArith.
From Coq.Floats Require Import SpecFloat.
From Verif Require Import Scalar Arr MBase Inst Hoare Spec Ex RLin PNorm.
Import ListNotations.
Local Open Scope R_scope.

(** C30.  v lists the elements of an array of any shape.  m is the maximum of |x_0|, ..., |x_(n-1)|, 0 when n = 0. *)
Definition max_abs (n : nat) (x : nat -> R) (m : R) : Prop :=
  (n = 0%nat /\ m = 0) \/
  ((forall i, (i < n)%nat -> Rabs (x i) <= m) /\ exists i, (i < n)%nat /\ m = Rabs (x i)).
Theorem C30_definitions (v : list RN) :
  norm_l1 (N:=RN) v = Rsum (length v) (fun i => Rabs (vent v i)) /\
  norm_l2 (N:=RN) v = sqrt (Rsum (length v) (fun i => vent v i ^ 2)) /\
  max_abs (length v) (vent v) (norm_max (N:=RN) v).
Proof.
  split; [apply norm_l1_sum|]. split.
  - rewrite norm_l2_sum. f_equal. apply Rsum_ext. intros. simpl. ring.
  - destruct (norm_max_is v) as (h1 & h2 & h3). destruct v as [|x v]; [left; auto|]. right. split; auto.
    destruct h3 as [h3|h3]; auto. exists 0%nat. split; [simpl; lia|]. specialize (h2 0%nat ltac:(simpl; lia)).
    pose proof (Rabs_pos (vent (x :: v) 0)). rewrite h3 in *. lra.
Qed.
Print Assumptions C30_definitions.

(** Absolute homogeneity *)
Theorem C30_homogeneous (c : R) (v w : list RN) : length w = length v -> (forall i, (i < length v)%nat -> vent w i = c * vent v i) ->
  norm_l1 (N:=RN) w = Rabs c * norm_l1 (N:=RN) v /\ norm_l2 (N:=RN) w = Rabs c * norm_l2 (N:=RN) v /\
  norm_max (N:=RN) w = Rabs c * norm_max (N:=RN) v.
Proof.
  intros hl h. split; [|split].
  - rewrite !norm_l1_sum, hl, <- Rsum_scal_l. apply Rsum_ext. intros i hi. rewrite h by auto. apply Rabs_mult.
  - rewrite !norm_l2_sum, hl. unfold vnorm2. rewrite (Rsum_ext _ _ (fun i => c² * (vent v i * vent v i))).
    + rewrite Rsum_scal_l, sqrt_mult, sqrt_Rsqr_abs; auto; [apply Rle_0_sqr|apply vnorm2_nonneg].
    + intros i hi. rewrite h by auto. unfold Rsqr. ring.
  - pose proof (norm_max_is v) as (h1 & h2 & h3). pose proof (norm_max_is w) as hw. pose proof (Rabs_pos c). apply Rle_antisym.
    + eapply maxabs_lub; [exact hw|nra|]. intros i hi. rewrite h, Rabs_mult by lia. apply Rmult_le_compat_l; auto. apply h2; lia.
    + destruct h3 as [->|(i & hi & ->)]; [rewrite Rmult_0_r; apply hw|]. rewrite <- Rabs_mult, <- h by auto. apply hw. lia.
Qed.
Print Assumptions C30_homogeneous.

(** Triangle inequality *)
Theorem C30_triangle (u v w : list RN) : length u = length v -> length w = length v -> (forall i, (i < length v)%nat -> vent w i = vent u i + vent v i) ->
  norm_l1 (N:=RN) w <= norm_l1 (N:=RN) u + norm_l1 (N:=RN) v /\ norm_l2 (N:=RN) w <= norm_l2 (N:=RN) u + norm_l2 (N:=RN) v /\
  norm_max (N:=RN) w <= norm_max (N:=RN) u + norm_max (N:=RN) v.
Proof.
  intros h1 h2 h. split; [|split].
  - rewrite !norm_l1_sum, h1, h2, <- Rsum_plus. apply Rsum_le. intros i hi. rewrite h by auto. apply Rabs_triang.
  - rewrite !norm_l2_sum, h1, h2. replace (vnorm2 (length v) (vent w)) with (vnorm2 (length v) (fun i => vent u i + vent v i)).
    + apply vnorm_triangle.
    + apply Rsum_ext. intros i hi. rewrite h by auto. reflexivity.
  - pose proof (norm_max_is u) as (k1 & k2 & _). pose proof (norm_max_is v) as (k3 & k4 & _).
    eapply maxabs_lub; [apply norm_max_is|lra|]. intros i hi. rewrite h by lia.
    eapply Rle_trans; [apply Rabs_triang|]. apply Rplus_le_compat; [apply k2|apply k4]; lia.
Qed.
Print Assumptions C30_triangle.

(** Definiteness *)
Theorem C30_definite (v : list RN) :
  (norm_l1 (N:=RN) v = 0 <-> forall i, (i < length v)%nat -> vent v i = 0) /\
  (norm_l2 (N:=RN) v = 0 <-> forall i, (i < length v)%nat -> vent v i = 0) /\
  (norm_max (N:=RN) v = 0 <-> forall i, (i < length v)%nat -> vent v i = 0).
Proof.
  split; [|split].
  - rewrite norm_l1_sum. split; intros h.
    + intros i hi. pose proof (Rsum_term_le (length v) (fun i => Rabs (vent v i)) i (fun _ _ => Rabs_pos _) hi) as k. rewrite h in k.
      pose proof (Rabs_pos (vent v i)). destruct (Req_dec (vent v i) 0); auto. pose proof (Rabs_pos_lt (vent v i)). cbv beta in k. exfalso. intuition lra.
    + apply Rsum_0. intros i hi. rewrite h by auto. apply Rabs_R0.
  - rewrite norm_l2_sum. split; intros h.
    + apply sqrt_eq_0 in h; [|apply vnorm2_nonneg]. exact (Rsum_sq_0 _ _ h).
    + unfold vnorm2. rewrite Rsum_0; [apply sqrt_0|]. intros i hi. rewrite h by auto. ring.
  - destruct (norm_max_is v) as (h1 & h2 & h3). split; intros h.
    + intros i hi. specialize (h2 i hi). rewrite h in h2. pose proof (Rabs_pos (vent v i)).
      destruct (Req_dec (vent v i) 0); auto. pose proof (Rabs_pos_lt (vent v i)). exfalso. intuition lra.
    + destruct h3 as [h3|(i & hi & h3)]; auto. rewrite h3, h by auto. apply Rabs_R0.
Qed.
Print Assumptions C30_definite.

(** norm_max <= norm_l2 <= norm_l1 *)
Theorem C30_chain (v : list RN) : norm_max (N:=RN) v <= norm_l2 (N:=RN) v /\ norm_l2 (N:=RN) v <= norm_l1 (N:=RN) v.
Proof.
  rewrite norm_l1_sum, norm_l2_sum. split.
  - eapply maxabs_lub; [apply norm_max_is|apply sqrt_pos|]. intros i hi. rewrite <- sqrt_Rsqr_abs. apply sqrt_le_1_alt.
    apply (Rsum_term_le _ (fun i => vent v i * vent v i) i); auto. intros. nra.
  - rewrite <- (sqrt_Rsqr (Rsum _ _)) by (apply Rsum_nonneg; intros; apply Rabs_pos). apply sqrt_le_1_alt. apply vnorm2_le_l1.
Qed.
Print Assumptions C30_chain.

Example C30_nonvacuous : let v := map IZR [3; -4]%Z in let w := map IZR [6; -8]%Z in
  length w = length v /\ (forall i, (i < length v)%nat -> vent w i = 2 * vent v i) /\ (forall i, (i < length v)%nat -> vent w i = vent v i + vent v i).
Proof.
  split; auto. split; intros i hi; destruct i as [|[|i]]; simpl in hi; try lia; unfold vent, vget; simpl; lra.
Qed.
Example C30_run : let v := map f_of_Z [1; -3; 2; -8]%Z in
  norm_l1 (N:=FN) v = f_of_Z 14 /\ norm_max (N:=FN) v = f_of_Z 8 /\ norm_l2 (N:=FN) v = SFsqrt prec emax (f_of_Z 78).
Proof. split; [|split]; vm_compute; reflexivity. Qed.

(** Outside exact arithmetic norm_max ignores NaN elements: definiteness fails for the array [NaN] *)
Theorem C30_max_nan_refuted : exists v : list FN, In fnan v /\ norm_max (N:=FN) v = n0 FN.
Proof. exists [fnan]. split; [left; auto|]. vm_compute. reflexivity. Qed.
Print Assumptions C30_max_nan_refuted.
(** and norm_l2 underflows: it is 0 on a non-zero finite array *)
Theorem C30_l2_underflow_refuted : exists v : list FN, ~ (fq (vget v 0) == 0)%Q /\ norm_l2 (N:=FN) v = n0 FN.
Proof. exists [fpow2 (-600)]. split; [vm_compute; discriminate|]. vm_compute. reflexivity. Qed.
Print Assumptions C30_l2_underflow_refuted.
