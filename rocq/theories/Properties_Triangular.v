(** * Properties C01-C04: triangular.rs *)
From Coq Require Import Reals List Arith Lia Lra ZArith.
From Verif Require Import Scalar Arr MDirect Inst Hoare Spec Ex RLin PTri.
Import ListNotations.

(** C01: on a square matrix, the entries strictly outside the requested triangle become zero, every
    other entry and the shape are unchanged; a non-square matrix is rejected. Any scalar type. *)
Theorem C01_triangular_inplace (N : Num) (m : mat N) (u : UPLO) :
  match triangular_inplace m u with
  | Ret m' => nr m = nc m /\ nr m' = nr m /\ nc m' = nc m /\
      (forall i j, i < nr m -> j < nc m -> outside u i j -> get m' i j = n0 N) /\
      (forall i j, i < nr m -> j < nc m -> ~ outside u i j -> get m' i j = get m i j)
  | Err e => nr m <> nc m /\ e = NotSquare (nr m) (nc m)
  | _ => False
  end.
Proof. exact (triangular_inplace_spec m u). Qed.
Print Assumptions C01_triangular_inplace.

(** [into_triangular] is the same function on an owned matrix *)
Theorem C01_into_triangular (N : Num) (m : mat N) (u : UPLO) :
  into_triangular m u = triangular_inplace m u.
Proof. exact (eq_refl _). Qed.
Print Assumptions C01_into_triangular.

Example C01_nonvacuous :
  triangular_inplace (fmat 3 [[1;2;3];[4;5;6];[7;8;9]]%Z) Lower
  = Ret (fmat 3 [[1;0;0];[4;5;0];[7;8;9]]%Z).
Proof. vm_compute. reflexivity. Qed.

(** C02: the predicate holds exactly of square matrices whose other triangle is zero. *)
Theorem C02_is_triangular (N : Num) (m : mat N) (u : UPLO) :
  exists b, is_triangular m u = Ret b /\
    (b = true <-> nr m = nc m /\
       forall i j, i < nr m -> j < nc m -> outside u i j -> nis_zero N (get m i j) = true).
Proof. exact (is_triangular_spec m u). Qed.
Print Assumptions C02_is_triangular.

(** ... and in particular of every matrix made triangular, when zero is recognised as zero. *)
Theorem C02_into_triangular_is_triangular (N : Num) (m m' : mat N) (u : UPLO) :
  nis_zero N (n0 N) = true -> into_triangular m u = Ret m' -> is_triangular m' u = Ret true.
Proof. exact (into_triangular_is_triangular m m' u). Qed.
Print Assumptions C02_into_triangular_is_triangular.

Example C02_nonvacuous :
  nis_zero FN (n0 FN) = true /\
  is_triangular (fmat 2 [[1;0];[2;3]]%Z) Lower = Ret true /\
  is_triangular (fmat 2 [[1;0];[2;3]]%Z) Upper = Ret false /\
  is_triangular (fmat 2 [[1;2]]%Z) Upper = Ret false.
Proof. repeat split. Qed.

(** C03: with a non-zero diagonal the result is the unique solution of tri_u(T) x = b ... *)
Theorem C03_solve_triangular (t b : mat RN) (u : UPLO) :
  nr t = nc t -> nr b = nr t -> (forall i, i < nr t -> ent t i i <> 0%R) ->
  exists x, solve_triangular t b u = Ret x /\ nr x = nr b /\ nc x = nc b /\
    mmul (nr t) (tri_of u (ent t)) (ent x) =[nr t, nc b]= ent b /\
    forall y, mmul (nr t) (tri_of u (ent t)) y =[nr t, nc b]= ent b -> y =[nr t, nc b]= ent x.
Proof. exact (solve_triangular_unique t b u). Qed.
Print Assumptions C03_solve_triangular.

(** ... and the entries outside the requested triangle are never consulted (any scalar type). *)
Theorem C03_other_triangle_ignored (N : Num) (t t' b : mat N) (u : UPLO) :
  nr t = nr t' -> nc t = nc t' ->
  (forall i j, i < nr t -> j < nc t -> ~ outside u i j -> get t i j = get t' i j) ->
  solve_triangular t b u = solve_triangular t' b u.
Proof. exact (solve_triangular_frame t t' b u). Qed.
Print Assumptions C03_other_triangle_ignored.

Example C03_nonvacuous : let t := rmat 2 [[2;7];[3;4]]%Z in
  nr t = nc t /\ (forall i, i < nr t -> ent t i i <> 0%R).
Proof.
  split; [reflexivity|]. intros [|[|i]] h; unfold ent, get; simpl in *; try lra; lia.
Qed.
Example C03_run : solve_triangular (fmat 2 [[2;7];[3;4]]%Z) (fmat 1 [[2];[11]]%Z) Lower
  = Ret (fmat 1 [[1];[2]]%Z).
Proof. vm_compute. reflexivity. Qed.

(** C04: complete classification of the outcomes; no panic, no out-of-bounds access. *)
Theorem C04_solve_triangular_class (N : Num) (t b : mat N) (u : UPLO) :
  match solve_triangular t b u with
  | Ret x => nr t = nc t /\ nr b = nr t /\ nr x = nr b /\ nc x = nc b
  | Err (NotSquare r c) => nr t <> nc t /\ r = nr t /\ c = nc t
  | Err (WrongRows e a) => nr t = nc t /\ nr b <> nr t /\ e = nr t /\ a = nr b
  | _ => False
  end.
Proof. exact (solve_triangular_class t b u). Qed.
Print Assumptions C04_solve_triangular_class.

Example C04_nonvacuous :
  solve_triangular (fmat 2 [[1;2]]%Z) (fmat 1 [[1]]%Z) Upper = Err (NotSquare 1 2) /\
  solve_triangular (fmat 2 [[1;2];[0;1]]%Z) (fmat 1 [[1]]%Z) Upper = Err (WrongRows 2 1) /\
  solve_triangular (fmat 1 [[0]]%Z) (fmat 1 [[0]]%Z) Upper = Ret (mk 1 1 (fun _ _ => fnan)).
Proof. repeat split. Qed.
