(** * Properties C05-C09: cholesky.rs *)
From Coq Require Import Reals List Arith Lia Lra ZArith.
From Verif Require Import Scalar Arr MDirect Inst Hoare Spec Ex RLin PTri PChol.
Import ListNotations.
Local Open Scope R_scope.

(** C05: the factor of a symmetric matrix is lower triangular with positive diagonal, L L^T = A. *)
Theorem C05_cholesky_factor (a l : mat RN) :
  symmetric (nr a) (ent a) -> cholesky a = Ret l ->
  nr a = nc a /\ nr l = nr a /\ nc l = nr a /\ lower_tri (nr a) (nr a) (ent l) /\
  (forall i, (i < nr a)%nat -> 0 < ent l i i) /\
  mmul (nr a) (ent l) (mtr (ent l)) =[nr a, nr a]= ent a.
Proof. exact (cholesky_factor a l). Qed.
Print Assumptions C05_cholesky_factor.

(** Without symmetry: the factor belongs to the symmetric matrix described by the lower triangle,
    and exists exactly when that matrix is positive definite. *)
Theorem C05_cholesky_lower_only (a : mat RN) : nr a = nc a ->
  (posdef (nr a) (sym_of_lower (ent a)) /\
   exists l, cholesky a = Ret l /\ nr l = nr a /\ nc l = nr a /\
     lower_tri (nr a) (nr a) (ent l) /\ (forall i, (i < nr a)%nat -> 0 < ent l i i) /\
     mmul (nr a) (ent l) (mtr (ent l)) =[nr a, nr a]= sym_of_lower (ent a)) \/
  (~ posdef (nr a) (sym_of_lower (ent a)) /\ cholesky a = Err NotPositiveDefinite).
Proof. exact (cholesky_spec a). Qed.
Print Assumptions C05_cholesky_lower_only.

(** C06: success exactly on positive definite matrices; the factor is unique. *)
Theorem C06_cholesky_iff_posdef (a : mat RN) : nr a = nc a -> symmetric (nr a) (ent a) ->
  ((exists l, cholesky a = Ret l) <-> posdef (nr a) (ent a)) /\
  (~ posdef (nr a) (ent a) -> cholesky a = Err NotPositiveDefinite).
Proof. exact (cholesky_iff a). Qed.
Print Assumptions C06_cholesky_iff_posdef.

Theorem C06_cholesky_unique (a l : mat RN) (L : M) :
  symmetric (nr a) (ent a) -> cholesky a = Ret l ->
  lower_tri (nr a) (nr a) L -> (forall i, (i < nr a)%nat -> 0 < L i i) ->
  mmul (nr a) L (mtr L) =[nr a, nr a]= ent a -> L =[nr a, nr a]= ent l.
Proof. exact (cholesky_factor_unique a l L). Qed.
Print Assumptions C06_cholesky_unique.

Theorem C06_not_square (N : Num) (a : mat N) : nr a <> nc a ->
  cholesky a = Err (NotSquare (nr a) (nc a)) /\
  (forall b, solvec a b = Err (NotSquare (nr a) (nc a))) /\ invc a = Err (NotSquare (nr a) (nc a)).
Proof. exact (cholesky_not_square a). Qed.
Print Assumptions C06_not_square.

(** C07: in-place factorisation, whatever the scalars and whether it succeeds or fails: the shape
    and the strict upper triangle are untouched ... *)
Theorem C07_upper_triangle_preserved (N : Num) (a : mat N) :
  let '(a', outcome) := cholesky_inplace_dirty a in
  nr a' = nr a /\ nc a' = nc a /\
  (forall i j, (i < nr a)%nat -> (j < nc a)%nat -> (i < j)%nat -> get a' i j = get a i j) /\
  match outcome with
  | Ret _ | Err NotPositiveDefinite => nr a = nc a
  | Err e => nr a <> nc a /\ e = NotSquare (nr a) (nc a)
  | _ => False
  end.
Proof. exact (cholesky_dirty_frame a). Qed.
Print Assumptions C07_upper_triangle_preserved.

(** ... and the outcome and the resulting lower triangle only depend on the lower triangle. *)
Theorem C07_upper_triangle_ignored (N : Num) (a a' : mat N) : nr a = nr a' -> nc a = nc a' ->
  (forall i j, (i < nr a)%nat -> (j < nc a)%nat -> (j <= i)%nat -> get a i j = get a' i j) ->
  snd (cholesky_inplace_dirty a) = snd (cholesky_inplace_dirty a') /\
  forall i j, (i < nr a)%nat -> (j < nc a)%nat -> (j <= i)%nat ->
    get (fst (cholesky_inplace_dirty a)) i j = get (fst (cholesky_inplace_dirty a')) i j.
Proof. exact (cholesky_low a a'). Qed.
Print Assumptions C07_upper_triangle_ignored.

(** C08: solvec *)
Theorem C08_solvec (a b : mat RN) : nr a = nc a -> symmetric (nr a) (ent a) ->
  (posdef (nr a) (ent a) -> nr b = nr a ->
   exists x, solvec a b = Ret x /\ nr x = nr b /\ nc x = nc b /\
     mmul (nr a) (ent a) (ent x) =[nr a, nc b]= ent b /\
     forall y, mmul (nr a) (ent a) y =[nr a, nc b]= ent b -> y =[nr a, nc b]= ent x) /\
  (posdef (nr a) (ent a) -> nr b <> nr a -> solvec a b = Err (WrongRows (nr a) (nr b))) /\
  (~ posdef (nr a) (ent a) -> solvec a b = Err NotPositiveDefinite).
Proof. exact (solvec_sym a b). Qed.
Print Assumptions C08_solvec.

(** C09: invc *)
Theorem C09_invc (a : mat RN) : nr a = nc a -> symmetric (nr a) (ent a) ->
  (posdef (nr a) (ent a) ->
   exists x, invc a = Ret x /\ nr x = nr a /\ nc x = nr a /\
     mmul (nr a) (ent a) (ent x) =[nr a, nr a]= mid /\
     mmul (nr a) (ent x) (ent a) =[nr a, nr a]= mid) /\
  (~ posdef (nr a) (ent a) -> invc a = Err NotPositiveDefinite).
Proof. exact (invc_sym a). Qed.
Print Assumptions C09_invc.

(** A symmetric positive definite matrix: the hypotheses of C05, C06, C08, C09 are met *)
Example C05_nonvacuous : let a := rmat 2 [[4;2];[2;5]]%Z in
  nr a = nc a /\ symmetric (nr a) (ent a) /\ posdef (nr a) (ent a).
Proof.
  split; [reflexivity|]. split.
  - intros [|[|i]] [|[|j]] hi hj; unfold mtr, ent, get; simpl in *; try lia; reflexivity.
  - intros x (i & hi & hx). unfold qform, ent, get. simpl.
    assert (h : 0 < x 0%nat * x 0%nat + x 1%nat * x 1%nat).
    { destruct i as [|[|i]]; simpl in hi; [| |lia].
      - pose proof (sqn (x 1%nat)). assert (0 < x 0%nat * x 0%nat) by (apply Rsqr_pos_lt; auto). lra.
      - pose proof (sqn (x 0%nat)). assert (0 < x 1%nat * x 1%nat) by (apply Rsqr_pos_lt; auto). lra. }
    pose proof (sqn (x 0%nat + 2 * x 1%nat)). pose proof (sqn (x 0%nat)). pose proof (sqn (x 1%nat)). lra.
Qed.
(** and a symmetric matrix that is not *)
Example C06_nonvacuous : let a := rmat 2 [[1;2];[2;1]]%Z in
  symmetric (nr a) (ent a) /\ ~ posdef (nr a) (ent a).
Proof.
  split.
  - intros [|[|i]] [|[|j]] hi hj; unfold mtr, ent, get; simpl in *; try lia; reflexivity.
  - intros hp. specialize (hp (fun i => if Nat.eqb i 0 then 1 else -1)).
    unfold qform, ent, get in hp. simpl in hp.
    assert (h : 0 < -2); [|lra]. eapply Rlt_le_trans; [apply hp|lra].
    exists 0%nat. simpl. split; [lia|lra].
Qed.
Example C05_run :
  cholesky (fmat 2 [[4;2];[2;5]]%Z) = Ret (fmat 2 [[2;0];[1;2]]%Z) /\
  cholesky (fmat 2 [[1;2];[2;1]]%Z) = Err NotPositiveDefinite /\
  cholesky_inplace_dirty (fmat 2 [[4;7];[2;5]]%Z) = (fmat 2 [[2;7];[1;2]]%Z, Ret tt) /\
  solvec (fmat 2 [[4;2];[2;5]]%Z) (fmat 1 [[8];[12]]%Z) = Ret (fmat 1 [[1];[2]]%Z).
Proof. vm_compute. auto. Qed.
