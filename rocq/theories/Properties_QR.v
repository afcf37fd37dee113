(** * Properties C10-C16: qr.rs and reflection.rs *)
From Coq Require Import Reals List Arith Lia Lra ZArith.
From Verif Require Import Scalar Arr MBase MDirect Inst Hoare Spec Ex RLin PTri PChol PHouse PQR PRefl.
Import ListNotations.
Local Open Scope R_scope.

(** C10: a matrix with rows >= cols factorises as Q R. *)
Theorem C10_qr_factorises (a : mat RN) : (nc a <= nr a)%nat ->
  exists d q r, qr_into a = Ret d /\ qr_generate_q d = Ret q /\ qr_into_r d = Ret r /\
    qr_into_decomp d = Ret (q, r) /\
    nr q = nr a /\ nc q = nc a /\ nr r = nc a /\ nc r = nc a /\
    orthonormal_cols (nr a) (nc a) (ent q) /\ upper_tri (nc a) (nc a) (ent r) /\
    (forall i, (i < nc a)%nat -> 0 <= ent r i i) /\
    mmul (nc a) (ent q) (ent r) =[nr a, nc a]= ent a.
Proof. exact (qr_factorises a). Qed.
Print Assumptions C10_qr_factorises.

(** For a matrix of full column rank the factors are the only ones with positive diagonal. *)
Theorem C10_qr_unique (a : mat RN) (d : qrdecomp RN) (q r : mat RN) (Q R : M) :
  injective (nr a) (nc a) (ent a) -> qr_into a = Ret d -> qr_into_decomp d = Ret (q, r) ->
  orthonormal_cols (nr a) (nc a) Q -> upper_tri (nc a) (nc a) R ->
  (forall i, (i < nc a)%nat -> 0 < R i i) -> mmul (nc a) Q R =[nr a, nc a]= ent a ->
  Q =[nr a, nc a]= ent q /\ R =[nc a, nc a]= ent r.
Proof. exact (qr_unique a d q r Q R). Qed.
Print Assumptions C10_qr_unique.

(** Shapes and errors for any scalar semantics *)
Theorem C10_qr_class (N : Num) (a : mat N) :
  match qr_into a with
  | Ret d => (nc a <= nr a)%nat /\ nr (qr d) = nr a /\ nc (qr d) = nc a /\ qr_wf d
  | Err e => (nr a < nc a)%nat /\ e = NotThin (nr a) (nc a)
  | _ => False
  end.
Proof. exact (qr_class a). Qed.
Print Assumptions C10_qr_class.

Theorem C10_into_decomp_safe (N : Num) (a : mat N) (d : qrdecomp N) : qr_into a = Ret d ->
  exists q r, qr_into_decomp d = Ret (q, r) /\
    nr q = nr a /\ nc q = nc a /\ nr r = nc a /\ nc r = nc a.
Proof. exact (qr_decomp_shapes a d). Qed.
Print Assumptions C10_into_decomp_safe.

Example C10_nonvacuous : let a := rmat 2 [[3;1];[4;2];[0;5]]%Z in (nc a <= nr a)%nat.
Proof. simpl. lia. Qed.
Example C10_run :
  (let* d := qr_into (fmat 2 [[3;1];[4;-7];[0;5]]%Z) in let* qr := qr_into_decomp d in
   Ret (get (snd qr) 0 0, get (snd qr) 1 0, nr (fst qr), nc (fst qr)))%res = Ret (f_of_Z 5, f_of_Z 0, 3%nat, 2%nat) /\
  (let* d := qr_into (fmat 2 [[1;2]]%Z) in Ret (qdiag d))%res = Err (NotThin 1 2).
Proof. split; vm_compute; reflexivity. Qed.

(** C11: is_invertible decides linear independence of the columns. *)
Theorem C11_is_invertible (a : mat RN) : (nc a <= nr a)%nat ->
  exists d, qr_into a = Ret d /\ (is_invertible d = true <-> injective (nr a) (nc a) (ent a)).
Proof. exact (qr_invertible_iff a). Qed.
Print Assumptions C11_is_invertible.

Example C11_nonvacuous : injective 2 2 (ent (rmat 2 [[1;2];[3;4]]%Z)) /\
  ~ injective 2 2 (ent (rmat 2 [[1;2];[2;4]]%Z)).
Proof.
  split.
  - intros x h. pose proof (h 0%nat ltac:(lia)) as h0. pose proof (h 1%nat ltac:(lia)) as h1.
    unfold ent, get in h0, h1. simpl in h0, h1. intros [|[|j]] hj; try lia; lra.
  - intros h. specialize (h (fun j => match j with O => 2 | _ => -1 end)).
    assert (e : 2 = 0); [|lra]. apply (h) with (j := O); [|lia].
    intros [|[|i]] hi; unfold ent, get; simpl; try lia; lra.
Qed.
Example C11_run :
  (let* d := qr_into (fmat 2 [[3;1];[4;2]]%Z) in Ret (is_invertible d))%res = Ret true /\
  (let* d := qr_into (fmat 2 [[3;0];[4;0]]%Z) in Ret (is_invertible d))%res = Ret false.
Proof. split; vm_compute; reflexivity. Qed.

(** C12: least squares.  The residual is orthogonal to the columns of A, no other candidate has a
    smaller residual, every candidate as good is equal, and square systems are solved. *)
Theorem C12_qr_least_squares (a b : mat RN) :
  (nc a <= nr a)%nat -> injective (nr a) (nc a) (ent a) -> nr b = nr a ->
  exists d x, qr_into a = Ret d /\ qr_solve d b = Ret x /\ least_squares a b = Ret x /\
    nr x = nc a /\ nc x = nc b /\
    mmul (nr a) (mtr (ent a)) (msub (mmul (nc a) (ent a) (ent x)) (ent b)) =[nc a, nc b]= (fun _ _ => 0) /\
    (forall k y, (k < nc b)%nat ->
       let bk := fun i => ent b i k in let xk := fun j => ent x j k in
       resid2 (nr a) (nc a) (ent a) bk xk <= resid2 (nr a) (nc a) (ent a) bk y /\
       (resid2 (nr a) (nc a) (ent a) bk y <= resid2 (nr a) (nc a) (ent a) bk xk ->
        forall j, (j < nc a)%nat -> y j = xk j)) /\
    (nr a = nc a -> mmul (nc a) (ent a) (ent x) =[nr a, nc b]= ent b).
Proof. exact (qr_solve_spec a b). Qed.
Print Assumptions C12_qr_least_squares.

Example C12_nonvacuous : let a := rmat 2 [[1;0];[1;1];[1;2]]%Z in
  (nc a <= nr a)%nat /\ injective (nr a) (nc a) (ent a) /\ nr (rmat 1 [[1];[2];[4]]%Z) = nr a.
Proof.
  split; [simpl; lia|]. split; [|reflexivity].
  intros x h. pose proof (h 0%nat ltac:(simpl; lia)) as h0. pose proof (h 1%nat ltac:(simpl; lia)) as h1.
  unfold ent, get in h0, h1. simpl in h0, h1. intros [|[|j]] hj; simpl in hj; try lia; lra.
Qed.

(** C13: minimum-norm solution of the transposed system *)
Theorem C13_qr_solve_tr (a b : mat RN) :
  (nc a <= nr a)%nat -> injective (nr a) (nc a) (ent a) -> nr b = nc a ->
  exists d x, qr_into a = Ret d /\ qr_solve_tr d b = Ret x /\ nr x = nr a /\ nc x = nc b /\
    mmul (nr a) (mtr (ent a)) (ent x) =[nc a, nc b]= ent b /\
    (forall k z, (k < nc b)%nat ->
       (forall j, (j < nc a)%nat -> Rsum (nr a) (fun i => ent a i j * z i) = ent b j k) ->
       vnorm2 (nr a) (fun i => ent x i k) <= vnorm2 (nr a) z /\
       (vnorm2 (nr a) z <= vnorm2 (nr a) (fun i => ent x i k) -> forall i, (i < nr a)%nat -> z i = ent x i k)).
Proof. exact (qr_solve_tr_spec a b). Qed.
Print Assumptions C13_qr_solve_tr.

Theorem C13_least_squares_wide (a b : mat RN) : (nr a < nc a)%nat ->
  injective (nc a) (nr a) (mtr (ent a)) -> nr b = nr a ->
  exists x, least_squares a b = Ret x /\ nr x = nc a /\ nc x = nc b /\
    mmul (nc a) (ent a) (ent x) =[nr a, nc b]= ent b /\
    (forall k z, (k < nc b)%nat ->
       (forall j, (j < nr a)%nat -> Rsum (nc a) (fun i => ent a j i * z i) = ent b j k) ->
       vnorm2 (nc a) (fun i => ent x i k) <= vnorm2 (nc a) z /\
       (vnorm2 (nc a) z <= vnorm2 (nc a) (fun i => ent x i k) -> forall i, (i < nc a)%nat -> z i = ent x i k)).
Proof. exact (least_squares_wide a b). Qed.
Print Assumptions C13_least_squares_wide.

Example C13_nonvacuous : let a := rmat 3 [[1;0;2];[0;1;1]]%Z in
  (nr a < nc a)%nat /\ injective (nc a) (nr a) (mtr (ent a)) /\ nr (rmat 1 [[1];[2]]%Z) = nr a.
Proof.
  split; [simpl; lia|]. split; [|reflexivity].
  intros x h. pose proof (h 0%nat ltac:(simpl; lia)) as h0. pose proof (h 1%nat ltac:(simpl; lia)) as h1.
  unfold mtr, ent, get in h0, h1. simpl in h0, h1. intros [|[|j]] hj; simpl in hj; try lia; lra.
Qed.

(** C14: inverse *)
Theorem C14_qr_inverse (a : mat RN) : (nc a <= nr a)%nat ->
  exists d, qr_into a = Ret d /\
  (nr a = nc a -> injective (nr a) (nr a) (ent a) ->
   exists x, qr_inverse d = Ret x /\ nr x = nr a /\ nc x = nr a /\
     mmul (nr a) (ent a) (ent x) =[nr a, nr a]= mid /\
     mmul (nr a) (ent x) (ent a) =[nr a, nr a]= mid) /\
  (nr a = nc a -> ~ injective (nr a) (nr a) (ent a) -> qr_inverse d = Err NonInvertible) /\
  (nr a <> nc a -> qr_inverse d = Err (NotSquare (nr a) (nc a))).
Proof. exact (qr_inverse_spec a). Qed.
Print Assumptions C14_qr_inverse.

Example C14_nonvacuous : let a := rmat 2 [[1;2];[3;4]]%Z in
  (nc a <= nr a)%nat /\ nr a = nc a /\ injective (nr a) (nr a) (ent a).
Proof. split; [simpl; lia|]. split; [reflexivity|]. apply C11_nonvacuous. Qed.

(** C15: outcome classification for every scalar semantics, on every decomposition made by qr_into *)
Theorem C15_solve_class (N : Num) (a b : mat N) (d : qrdecomp N) : qr_into a = Ret d ->
  match qr_solve d b with
  | Ret x => nr b = nr a /\ is_invertible d = true /\ nr x = nc a /\ nc x = nc b
  | Err (WrongRows e x) => nr b <> nr a /\ e = nr a /\ x = nr b
  | Err NonInvertible => nr b = nr a /\ is_invertible d = false
  | _ => False
  end.
Proof. exact (qr_solve_class_a a b d). Qed.
Print Assumptions C15_solve_class.

Theorem C15_solve_tr_class (N : Num) (a b : mat N) (d : qrdecomp N) : qr_into a = Ret d ->
  match qr_solve_tr d b with
  | Ret x => nr b = nc a /\ is_invertible d = true /\ nr x = nr a /\ nc x = nc b
  | Err (WrongRows e x) => nr b <> nc a /\ e = nc a /\ x = nr b
  | Err NonInvertible => nr b = nc a /\ is_invertible d = false
  | _ => False
  end.
Proof. exact (qr_solve_tr_class_a a b d). Qed.
Print Assumptions C15_solve_tr_class.

Theorem C15_inverse_class (N : Num) (a : mat N) (d : qrdecomp N) : qr_into a = Ret d ->
  match qr_inverse d with
  | Ret x => nr a = nc a /\ is_invertible d = true /\ nr x = nr a /\ nc x = nr a
  | Err (NotSquare r c) => nr a <> nc a /\ r = nr a /\ c = nc a
  | Err NonInvertible => nr a = nc a /\ is_invertible d = false
  | _ => False
  end.
Proof. exact (qr_inverse_class_a a d). Qed.
Print Assumptions C15_inverse_class.

Theorem C15_least_squares_class (N : Num) (a b : mat N) :
  match least_squares a b with
  | Ret x => nr b = nr a /\ nr x = nc a /\ nc x = nc b
  | Err (WrongRows e x) => nr b <> nr a /\ e = nr a /\ x = nr b
  | Err NonInvertible => nr b = nr a /\
      exists d, qr_into (if Nat.leb (nc a) (nr a) then a else transpose a) = Ret d /\ is_invertible d = false
  | _ => False
  end.
Proof. exact (least_squares_class a b). Qed.
Print Assumptions C15_least_squares_class.

(** The rank-deficient case of least_squares in exact arithmetic: NonInvertible exactly when the
    smaller set of rows or columns is linearly dependent. *)
Theorem C15_least_squares_rank (a b : mat RN) : nr b = nr a ->
  ((exists x, least_squares a b = Ret x) <->
   if Nat.leb (nc a) (nr a) then injective (nr a) (nc a) (ent a) else injective (nc a) (nr a) (mtr (ent a))) /\
  ((exists x, least_squares a b = Ret x) \/ least_squares a b = Err NonInvertible).
Proof. exact (least_squares_rank a b). Qed.
Print Assumptions C15_least_squares_rank.

Example C15_run :
  (let* d := qr_into (fmat 1 [[3];[4]]%Z) in qr_solve d (fmat 1 [[1]]%Z))%res = Err (WrongRows 2 1) /\
  (let* d := qr_into (fmat 1 [[3];[4]]%Z) in qr_solve_tr d (fmat 1 [[1];[2]]%Z))%res = Err (WrongRows 1 2) /\
  least_squares (fmat 1 [[0];[0]]%Z) (fmat 1 [[1];[2]]%Z) = Err NonInvertible /\
  least_squares (fmat 2 [[0;0]]%Z) (fmat 1 [[1];[2]]%Z) = Err (WrongRows 1 2).
Proof. repeat split; vm_compute; reflexivity. Qed.

(** C16: reflections.  Columns (rows) are replaced by their mirror images ... *)
Theorem C16_reflect_cols (r : reflection RN) (m : mat RN) : length (axis r) = nr m ->
  exists m', reflect_cols r m = Ret m' /\ nr m' = nr m /\ nc m' = nc m /\
    forall i j, (i < nr m)%nat -> (j < nc m)%nat ->
      ent m' i j = mirror (nr m) (vent (axis r)) (bias r) (fun k => ent m k j) i.
Proof. exact (reflect_cols_real r m). Qed.
Print Assumptions C16_reflect_cols.

Theorem C16_reflect_rows (r : reflection RN) (m : mat RN) : length (axis r) = nc m ->
  exists m', reflect_rows r m = Ret m' /\ nr m' = nr m /\ nc m' = nc m /\
    forall i j, (i < nr m)%nat -> (j < nc m)%nat ->
      ent m' i j = mirror (nc m) (vent (axis r)) (bias r) (fun k => ent m i k) j.
Proof. exact (reflect_rows_real r m). Qed.
Print Assumptions C16_reflect_rows.

(** ... where the mirror image fixes the plane, negates the distance to it and is an isometry, *)
Theorem C16_mirror_geometry (n : nat) (v : nat -> R) (b : R) : vdot n v v = 1 ->
  (forall x i, vdot n v x = b -> mirror n v b x i = x i) /\
  (forall x, vdot n v (mirror n v b x) - b = - (vdot n v x - b)) /\
  (forall x y, vnorm2 n (fun i => mirror n v b x i - mirror n v b y i) = vnorm2 n (fun i => x i - y i)).
Proof. exact (mirror_geometry n v b). Qed.
Print Assumptions C16_mirror_geometry.

(** reflecting twice restores the matrix, and a reflection through the origin is orthogonal. *)
Theorem C16_reflect_twice (r : reflection RN) (m : mat RN) : length (axis r) = nr m ->
  vdot (nr m) (vent (axis r)) (vent (axis r)) = 1 ->
  exists m' m'', reflect_cols r m = Ret m' /\ reflect_cols r m' = Ret m'' /\
    nr m'' = nr m /\ nc m'' = nc m /\ ent m'' =[nr m, nc m]= ent m.
Proof. exact (reflect_twice r m). Qed.
Print Assumptions C16_reflect_twice.

Theorem C16_reflect_rows_twice (r : reflection RN) (m : mat RN) : length (axis r) = nc m ->
  vdot (nc m) (vent (axis r)) (vent (axis r)) = 1 ->
  exists m' m'', reflect_rows r m = Ret m' /\ reflect_rows r m' = Ret m'' /\
    nr m'' = nr m /\ nc m'' = nc m /\ ent m'' =[nr m, nc m]= ent m.
Proof. exact (reflect_rows_twice r m). Qed.
Print Assumptions C16_reflect_rows_twice.

Theorem C16_reflect_orthogonal (r : reflection RN) (m : mat RN) : length (axis r) = nr m ->
  vdot (nr m) (vent (axis r)) (vent (axis r)) = 1 -> bias r = 0 ->
  exists m' H, reflect_cols r m = Ret m' /\ orthogonal (nr m) H /\
    ent m' =[nr m, nc m]= mmul (nr m) H (ent m).
Proof. exact (reflect_orthogonal r m). Qed.
Print Assumptions C16_reflect_orthogonal.

Theorem C16_mismatch_panics (N : Num) (r : reflection N) (m : mat N) :
  (0 < nc m)%nat -> length (axis r) <> nr m -> reflect_cols r m = Panicked.
Proof. exact (reflect_cols_mismatch r m). Qed.
Print Assumptions C16_mismatch_panics.

Example C16_nonvacuous : let r := @Refl RN [0; 1; 0] 3 in let m := rmat 2 [[1;3];[2;4];[3;5]]%Z in
  length (axis r) = nr m /\ vdot (nr m) (vent (axis r)) (vent (axis r)) = 1.
Proof. split; [reflexivity|]. unfold vdot, vent, vget. simpl. ring. Qed.
(** the unit test reflect_plane_col of src/reflection.rs *)
Example C16_run :
  reflect_cols (@Refl FN [f_of_Z 0; f_of_Z 1; f_of_Z 0] (f_of_Z 3)) (fmat 2 [[1;3];[2;4];[3;5]]%Z)
  = Ret (fmat 2 [[1;3];[4;2];[3;5]]%Z).
Proof. vm_compute. reflexivity. Qed.
