(** * The unit tests of the crate, run on the model

    Every deterministic test of the [#[cfg(test)]] modules of src/*.rs (those that do not draw random
    numbers), on the binary64 instance of the model, with the inputs and the tolerances of the test.
    A decimal literal is the correctly rounded quotient of its digits by a power of ten, or is given
    as the exact double when the digits exceed 2^53. This is evidence that the model behaves like the code, not part of any
    theorem. *)
From Coq Require Import List Arith Bool ZArith.
From Coq.Floats Require Import SpecFloat.
From Verif Require Import Scalar Arr MBase MDirect MDecomp MEigh MSvd Inst Ex.
Import ListNotations.
Open Scope res_scope.

Definition d (m : Z) (k : nat) : FN := SFdiv prec emax (f_of_Z m) (f_of_Z (10 ^ Z.of_nat k)).
Definition fl (m e : Z) : FN := binary_normalize prec emax m e false.
(** approx: [|a - b| <= epsilon], for arrays also equal shapes; the default epsilon is f64::EPSILON *)
Definition close (eps a b : FN) : bool := SFleb (SFabs (nsub FN a b)) eps.
Definition vclose (eps : FN) (u v : list FN) : bool := (length u =? length v) && forallb (fun p => close eps (fst p) (snd p)) (combine u v).
Definition mclose (eps : FN) (a b : mat FN) : bool := (nr a =? nr b) && (nc a =? nc b) && vclose eps (elems a) (elems b).
Definition eps0 : FN := nepsilon FN.
(** assert_eq! on arrays of floats *)
Definition meq (a b : mat FN) : bool := (nr a =? nr b) && (nc a =? nc b) && forallb (fun p => SFeqb (fst p) (snd p)) (combine (elems a) (elems b)).
Definition passes (m : res bool) : bool := match m with Ret b => b | _ => false end.
Definition lerr_eqb (a b : lerr) : bool :=
  match a, b with
  | NotSquare x y, NotSquare x' y' | WrongRows x y, WrongRows x' y' | WrongColumns x y, WrongColumns x' y' | NotThin x y, NotThin x' y' => (x =? x') && (y =? y')
  | NotPositiveDefinite, NotPositiveDefinite | NonInvertible, NonInvertible | EmptyMatrix, EmptyMatrix => true
  | _, _ => false
  end.
Definition fails {A} (m : res A) (e : lerr) : bool := match m with Err e' => lerr_eqb e e' | _ => false end.
Definition succeeds {A} (m : res A) : bool := match m with Ret _ => true | _ => false end.
Definition F0 : mat FN := zeros 0 0.

(** ** src/triangular.rs *)
Definition t_one : mat FN := (Mat 1 1 [[(d (1) 0)]]).
Example triangular_corner_cases : passes (
  let* a := is_triangular F0 Lower in let* b := is_triangular F0 Upper in let* c := into_triangular F0 Lower in
  let* x := is_triangular t_one Lower in let* y := is_triangular t_one Upper in let* z := into_triangular t_one Upper in let* w := into_triangular t_one Lower in
  Ret (a && b && meq c F0 && x && y && meq z t_one && meq w t_one)) = true.
Proof. vm_compute. reflexivity. Qed.
Definition t_row : mat FN := (Mat 2 3 [[(d (1) 0); (d (2) 0); (d (3) 0)]; [(d (3) 0); (d (4) 0); (d (5) 0)]]).
Definition t_col : mat FN := (Mat 3 2 [[(d (1) 0); (d (2) 0)]; [(d (3) 0); (d (5) 0)]; [(d (6) 0); (d (8) 0)]]).
Example triangular_non_square : passes (
  let* a := is_triangular t_row Lower in let* b := is_triangular t_row Upper in let* x := is_triangular t_col Lower in let* y := is_triangular t_col Upper in
  Ret (negb a && negb b && negb x && negb y && fails (into_triangular t_row Lower) (NotSquare 2 3) && fails (into_triangular t_col Upper) (NotSquare 3 2))) = true.
Proof. vm_compute. reflexivity. Qed.
Definition t_square : mat FN := (Mat 3 3 [[(d (1) 0); (d (2) 0); (d (3) 0)]; [(d (4) 0); (d (5) 0); (d (6) 0)]; [(d (7) 0); (d (8) 0); (d (9) 0)]]).
Example triangular_square : passes (
  let* a := is_triangular t_square Lower in let* b := is_triangular t_square Upper in
  let* u := into_triangular t_square Upper in let* l := into_triangular t_square Lower in
  let* c := is_triangular u Lower in let* d_ := is_triangular u Upper in let* e := is_triangular l Lower in let* f := is_triangular l Upper in
  Ret (negb a && negb b && meq u (Mat 3 3 [[(d (1) 0); (d (2) 0); (d (3) 0)]; [(d (0) 0); (d (5) 0); (d (6) 0)]; [(d (0) 0); (d (0) 0); (d (9) 0)]]) && negb c && d_ && e && negb f && meq l (Mat 3 3 [[(d (1) 0); (d (0) 0); (d (0) 0)]; [(d (4) 0); (d (5) 0); (d (0) 0)]; [(d (7) 0); (d (8) 0); (d (9) 0)]]))) = true.
Proof. vm_compute. reflexivity. Qed.
Definition t_lower : mat FN := (Mat 2 2 [[(d (10) 1); (d (0) 1)]; [(d (30) 1); (d (40) 1)]]).
Definition t_upper : mat FN := (Mat 2 2 [[(d (44) 1); (d (21) 1)]; [(d (0) 1); (d (43) 1)]]).
Definition t_exp : mat FN := (Mat 2 3 [[(d (22) 1); (d (31) 1); (d (22) 1)]; [(d (10) 1); (d (0) 1); (d (57) 1)]]).
Example triangular_solve_triangular : passes (
  let* a := is_triangular t_lower Lower in let* b := dot2 t_lower t_exp in let* x := solve_triangular t_lower b Lower in
  let* a' := is_triangular t_upper Upper in let* b' := dot2 t_upper t_exp in let* x' := solve_triangular t_upper b' Upper in
  Ret (a && mclose (d (1) 7) x t_exp && a' && mclose (d (1) 7) x' t_exp)) = true.
Proof. vm_compute. reflexivity. Qed.
Example triangular_solve_corner_cases : passes (
  let* x := solve_triangular F0 F0 Upper in let* y := solve_triangular t_one t_one Upper in
  Ret ((nr x =? 0) && (nc x =? 0) && mclose eps0 y t_one && succeeds (solve_triangular (Mat 2 2 [[(d (0) 0); (d (3) 0)]; [(d (2) 0); (d (0) 0)]]) (zeros 2 2) Lower))) = true.
Proof. vm_compute. reflexivity. Qed.
Example triangular_solve_error : fails (solve_triangular (Mat 1 2 [[(d (12) 1); (d (33) 1)]]) (Mat 1 2 [[(d (12) 1); (d (33) 1)]]) Lower) (NotSquare 1 2) &&
  fails (solve_triangular (Mat 2 2 [[(d (11) 1); (d (22) 1)]; [(d (33) 1); (d (21) 1)]]) (Mat 1 2 [[(d (22) 1); (d (33) 1)]]) Upper) (WrongRows 2 1) = true.
Proof. vm_compute. reflexivity. Qed.

(** ** src/cholesky.rs *)
Definition t_pd : mat FN := (Mat 3 3 [[(d (25) 0); (d (15) 0); (d (-5) 0)]; [(d (15) 0); (d (18) 0); (d (0) 0)]; [(d (-5) 0); (d (0) 0); (d (11) 0)]]).
Example cholesky_decompose : passes (let* l := cholesky t_pd in let* p := dot2 l (transpose l) in
  Ret (mclose (d (1) 7) l (Mat 3 3 [[(d (50) 1); (d (0) 1); (d (0) 1)]; [(d (30) 1); (d (30) 1); (d (0) 1)]; [(d (-1) 0); (d (1) 0); (d (3) 0)]]) && mclose (d (1) 7) p t_pd)) = true.
Proof. vm_compute. reflexivity. Qed.
Example cholesky_bad_matrix :
  fails (cholesky (Mat 2 3 [[(d (1) 0); (d (2) 0); (d (3) 0)]; [(d (3) 0); (d (4) 0); (d (5) 0)]])) (NotSquare 2 3) && fails (solvec (Mat 2 3 [[(d (1) 0); (d (2) 0); (d (3) 0)]; [(d (3) 0); (d (4) 0); (d (5) 0)]]) (zeros 2 3)) (NotSquare 2 3) &&
  fails (cholesky (Mat 2 2 [[(d (1) 0); (d (2) 0)]; [(d (2) 0); (d (1) 0)]])) NotPositiveDefinite && fails (solvec (Mat 2 2 [[(d (1) 0); (d (2) 0)]; [(d (2) 0); (d (1) 0)]]) (zeros 2 3)) NotPositiveDefinite &&
  fails (cholesky (Mat 2 2 [[(d (0) 0); (d (0) 0)]; [(d (0) 0); (d (0) 0)]])) NotPositiveDefinite = true.
Proof. vm_compute. reflexivity. Qed.
Definition t_x : mat FN := (Mat 3 4 [[(d (10) 0); (d (-3) 0); (d (22) 1); (d (4) 0)]; [(d (0) 0); (d (24) 1); (d (-9) 1); (d (11) 1)]; [(d (55) 1); (d (76) 1); (d (81) 1); (d (10) 0)]]).
Example cholesky_solvec : passes (let* b := dot2 t_pd t_x in let* x := solvec t_pd b in Ret (mclose (d (1) 7) x t_x)) = true.
Proof. vm_compute. reflexivity. Qed.
(** the test uses the default tolerance f64::EPSILON *)
Example cholesky_invc : passes (let* i := invc t_pd in let* p := dot2 t_pd i in Ret (mclose eps0 p (eye 3))) = true.
Proof. vm_compute. reflexivity. Qed.
Example cholesky_corner_cases : passes (let* a := cholesky F0 in let* b := invc F0 in let* c := cholesky t_one in let* e := invc t_one in
  Ret (meq a F0 && meq b F0 && meq c t_one && meq e t_one)) = true.
Proof. vm_compute. reflexivity. Qed.

(** ** src/norm.rs *)
Example norm_norms : let a := elems (N:=FN) (Mat 2 2 [[(d (10) 1); (d (-3) 0)]; [(d (2) 0); (d (-8) 0)]]) in
  close eps0 (norm_l1 a) (d (14) 0) && close eps0 (norm_l2 a) (nsqrt FN (d (78) 0)) && close eps0 (norm_max a) (d (8) 0) = true.
Proof. vm_compute. reflexivity. Qed.

(** ** src/reflection.rs *)
Definition t_y : list FN := [(d (0) 0); (d (1) 0); (d (0) 0)].
Definition t_v : mat FN := (Mat 2 3 [[(d (1) 0); (d (2) 0); (d (3) 0)]; [(d (3) 0); (d (4) 0); (d (5) 0)]]).
Example reflection_reflect_plane_col : passes (
  let v := transpose t_v in
  let* a := reflect_cols (Refl t_y (d (0) 0)) v in let* b := reflect_cols (Refl t_y (d (0) 0)) a in let* c := reflect_cols (Refl t_y (d (3) 0)) v in
  Ret (mclose eps0 a (transpose (Mat 2 3 [[(d (1) 0); (d (-2) 0); (d (3) 0)]; [(d (3) 0); (d (-4) 0); (d (5) 0)]])) && mclose eps0 b v && mclose eps0 c (transpose (Mat 2 3 [[(d (1) 0); (d (4) 0); (d (3) 0)]; [(d (3) 0); (d (2) 0); (d (5) 0)]])))) = true.
Proof. vm_compute. reflexivity. Qed.
Example reflection_reflect_plane_row : passes (
  let v := t_v in
  let* a := reflect_rows (Refl t_y (d (0) 0)) v in let* b := reflect_rows (Refl t_y (d (0) 0)) a in let* c := reflect_rows (Refl t_y (d (3) 0)) v in
  Ret (mclose eps0 a (Mat 2 3 [[(d (1) 0); (d (-2) 0); (d (3) 0)]; [(d (3) 0); (d (-4) 0); (d (5) 0)]]) && mclose eps0 b v && mclose eps0 c (Mat 2 3 [[(d (1) 0); (d (4) 0); (d (3) 0)]; [(d (3) 0); (d (2) 0); (d (5) 0)]]))) = true.
Proof. vm_compute. reflexivity. Qed.

(** ** src/householder.rs *)
Definition oclose (eps : FN) (o : option FN) (x : FN) : bool := match o with Some y => close eps y x | None => false end.
Example householder_householder : passes (
  let* (a, x) := reflection_axis_mut [(d (15) 1); (d (2) 0); (d (3) 0)] in let* q := dot1 a a in
  let* (b, y) := reflection_axis_mut [(d (-3) 0); (d (0) 0); (d (0) 0); (d (0) 0)] in
  let* (c, z) := reflection_axis_mut [(d (0) 0); (d (0) 0)] in
  Ret (oclose (d (1) 4) x (d (-390512) 5) && vclose (d (1) 4) a [(d (8319) 4); (d (3078) 4); (d (4617) 4)] && close (d (1) 4) q (d (1) 0) &&
       oclose (d (1) 4) y (d (3) 0) && vclose (d (1) 4) b [(d (-1) 0); (d (0) 0); (d (0) 0); (d (0) 0)] && match z with None => true | _ => false end && vclose eps0 c [(d (0) 0); (d (0) 0)])) = true.
Proof. vm_compute. reflexivity. Qed.

(** ** src/givens.rs *)
Definition rot_mat (g : givens FN) : mat FN := Mat 2 2 [[rc g; nopp FN (rs g)]; [rs g; rc g]].
Example givens_cancel_y : passes (let* (g, r) := unwrap_opt (cancel_y (d (1) 0) (d (2) 0)) in let* p := dot2 (rot_mat g) (Mat 2 1 [[(d (1) 0)]; [(d (2) 0)]]) in
  Ret (close eps0 r (nsqrt FN (d (5) 0)) && close (d (1) 5) (rc g) (d (4472136) 7) && close (d (1) 5) (rs g) (d (-8944272) 7) && mclose eps0 p (Mat 2 1 [[r]; [(d (0) 0)]]) &&
       match cancel_y (d (3) 0) (d (0) 0) with None => true | _ => false end)) = true.
Proof. vm_compute. reflexivity. Qed.
Example givens_cancel_x : passes (let* (g, r) := unwrap_opt (cancel_x (d (1) 0) (d (2) 0)) in let* p := dot2 (rot_mat g) (Mat 2 1 [[(d (1) 0)]; [(d (2) 0)]]) in
  Ret (close eps0 r (nsqrt FN (d (5) 0)) && mclose eps0 p (Mat 2 1 [[(d (0) 0)]; [r]]))) = true.
Proof. vm_compute. reflexivity. Qed.
Example givens_rotate_rows : passes (let* (g, _) := unwrap_opt (cancel_y (d (1) 0) (d (2) 0)) in let rows := (Mat 4 2 [[(d (2) 0); (d (3) 0)]; [(d (4) 0); (d (5) 0)]; [(d (1) 0); (d (2) 0)]; [(d (3) 0); (d (4) 0)]]) in
  let* o := rotate_rows g rows in let* p := dot2 rows (rot_mat g) in
  Ret (mclose (d (1) 5) p o && fails (rotate_rows g (Mat 1 3 [[(d (1) 0); (d (2) 0); (d (3) 0)]])) (WrongColumns 2 3))) = true.
Proof. vm_compute. reflexivity. Qed.
Example givens_rotate_cols : passes (let* (g, _) := unwrap_opt (cancel_y (d (1) 0) (d (2) 0)) in let cols := (Mat 2 3 [[(d (2) 0); (d (3) 0); (d (4) 0)]; [(d (3) 0); (d (4) 0); (d (5) 0)]]) in
  let* o := rotate_cols g cols in let* p := dot2 (rot_mat g) cols in
  Ret (mclose (d (1) 5) p o && fails (rotate_cols g (Mat 1 3 [[(d (1) 0); (d (2) 0); (d (3) 0)]])) (WrongRows 2 1))) = true.
Proof. vm_compute. reflexivity. Qed.

(** ** src/qr.rs *)
Definition t_a32 : mat FN := (Mat 3 2 [[(d (32) 1); (d (13) 1)]; [(d (44) 1); (d (52) 1)]; [(d (13) 1); (d (67) 1)]]).
Definition t_a22 : mat FN := (Mat 2 2 [[(d (1) 0); (d (980) 2)]; [(d (-7) 0); (d (33) 1)]]).
Definition t_x23 : mat FN := (Mat 2 3 [[(d (32) 1); (d (13) 1); (d (44) 1)]; [(d (52) 1); (d (13) 1); (d (67) 1)]]).
Example qr_qr : passes (let* d_ := qr_into t_a32 in let* (q, r) := qr_into_decomp d_ in let* z := qr_into (zeros 2 2) in let* (q0, r0) := qr_into_decomp z in
  Ret (mclose (d (1) 5) q (Mat 3 2 [[(d (5720674) 7); (d (-4115578) 7)]; [(d (7865927) 7); (d (301901) 7)]; [(d (2324024) 7); (d (9108835) 7)]]) && mclose (d (1) 3) r (Mat 2 2 [[(d (5594) 3); (d (6391) 3)]; [(d (0) 0); (d (5725) 3)]]) &&
       mclose eps0 q0 (eye 2) && mclose eps0 r0 (zeros 2 2))) = true.
Proof. vm_compute. reflexivity. Qed.
Example qr_solve_test : passes (
  let* b := dot2 t_a22 t_x23 in let* d_ := qr_into t_a22 in let* x := qr_solve d_ b in
  let* e := qr_into (eye 2) in let* y := qr_solve e (zeros 2 3) in
  let* b' := dot2 t_a32 t_x23 in let* d' := qr_into t_a32 in let* x' := qr_solve d' b' in
  Ret (mclose (d (1) 5) x t_x23 && mclose eps0 y (zeros 2 3) && mclose (d (1) 5) x' t_x23)) = true.
Proof. vm_compute. reflexivity. Qed.
Example qr_solve_tr_test : passes (
  let* b := dot2 t_a22 t_x23 in let* d_ := qr_into (transpose t_a22) in let* x := qr_solve_tr d_ b in
  let* e := qr_into (eye 2) in let* y := qr_solve_tr e (zeros 2 3) in
  let a := transpose t_a32 in let* b' := dot2 a (transpose t_x23) in let* d' := qr_into (transpose a) in let* x' := qr_solve_tr d' b' in let* b2 := dot2 a x' in
  Ret (mclose (d (1) 5) x t_x23 && mclose eps0 y (zeros 2 3) && mclose (d (1) 7) b' b2)) = true.
Proof. vm_compute. reflexivity. Qed.
Example qr_inverse_test : passes (let* d_ := qr_into t_a22 in let* i := qr_inverse d_ in let* e := qr_into (eye 2) in let* j := qr_inverse e in
  Ret (mclose (d (1) 4) i (Mat 2 2 [[(d (4589) 5); (d (-1363) 4)]; [(d (9735) 5); (d (139) 4)]]) && mclose eps0 j (eye 2))) = true.
Proof. vm_compute. reflexivity. Qed.
Example qr_non_invertible : fails (let* d_ := qr_into (zeros (N:=FN) 2 2) in qr_inverse d_) NonInvertible && fails (least_squares (zeros (N:=FN) 2 2) (zeros 2 2)) NonInvertible &&
  fails (least_squares (zeros (N:=FN) 2 3) (zeros 2 2)) NonInvertible = true.
Proof. vm_compute. reflexivity. Qed.
Example qr_qt_mul : passes (
  let* d_ := qr_into t_a22 in let* q := qr_generate_q d_ in let* r := dot2 (transpose q) t_x23 in let* b := qt_mul d_ t_x23 in
  let* d' := qr_into t_a32 in let b0 := transpose t_x23 in let* q' := qr_generate_q d' in let* r' := dot2 (transpose q') b0 in let* b' := qt_mul d' b0 in let* s := slice b' 0 2 0 2 in
  Ret (mclose (d (1) 7) b r && mclose (d (1) 7) s r')) = true.
Proof. vm_compute. reflexivity. Qed.
Example qr_corner : passes (let* d_ := qr_into F0 in let* (q, r) := qr_into_decomp d_ in
  Ret (match elems q, elems r with [], [] => true | _, _ => false end && fails (qr_into (zeros (N:=FN) 2 3)) (NotThin 2 3) &&
       fails (let* d_ := qr_into (zeros (N:=FN) 3 2) in qr_inverse d_) (NotSquare 3 2))) = true.
Proof. vm_compute. reflexivity. Qed.

(** ** src/tridiagonal.rs *)
Definition t_tri : mat FN := (Mat 4 4 [[(d (40) 1); (d (1) 0); (d (-2) 0); (d (2) 0)]; [(d (1) 0); (d (2) 0); (d (0) 0); (d (1) 0)]; [(d (-2) 0); (d (0) 0); (d (3) 0); (d (-2) 0)]; [(d (2) 0); (d (1) 0); (d (-2) 0); (d (-1) 0)]]).
Definition q_ (n p : Z) : FN := ndiv FN (f_of_Z n) (f_of_Z p).
Example tridiagonal_sym_tridiagonal : passes (
  let* d_ := sym_tridiagonal t_tri in let (dg, od) := tri_into_diagonals d_ in let* q := tri_generate_q d_ in let* t := tri_into_matrix d_ in
  let* qt := dot2 q t in let* a := dot2 qt (transpose q) in let* o := dot2 q (transpose q) in
  let* one := sym_tridiagonal (Mat 1 1 [[(d (11) 1)]]) in let (d1, o1) := tri_into_diagonals one in
  Ret (vclose (d (1) 5) dg [(d (4) 0); q_ 10 3; q_ (-33) 25; q_ 149 75] && vclose (d (1) 5) od [(d (3) 0); q_ 5 3; q_ 68 75] && mclose (d (1) 9) a t_tri && mclose (d (1) 9) o (eye 4) &&
       vclose eps0 d1 [(d (11) 1)] && (length o1 =? 0))) = true.
Proof. vm_compute. reflexivity. Qed.
Example tridiagonal_sym_tridiag_error : fails (sym_tridiagonal (Mat 2 3 [[(d (1) 0); (d (2) 0); (d (3) 0)]; [(d (5) 0); (d (4) 0); (d (30) 1)]])) (NotSquare 2 3) && fails (sym_tridiagonal F0) EmptyMatrix = true.
Proof. vm_compute. reflexivity. Qed.

(** ** src/bidiagonal.rs *)
Definition mdiag (m : mat FN) : list FN := vmk (Nat.min (nr m) (nc m)) (fun i => get m i i).
Definition t_bl : mat FN := (Mat 3 4 [[(d (40) 1); (d (0) 0); (d (2) 0); (d (2) 0)]; [(d (-2) 0); (d (6) 0); (d (3) 0); (d (-2) 0)]; [(d (2) 0); (d (7) 0); (d (-32) 1); (d (-1) 0)]]).
Definition t_bu : mat FN := (Mat 4 3 [[(d (40) 1); (d (0) 0); (d (2) 0)]; [(d (-2) 0); (d (6) 0); (d (3) 0)]; [(d (2) 0); (d (7) 0); (d (-32) 1)]; [(d (4) 0); (d (-3) 0); (d (2) 1)]]).
Example bidiagonal_lower : passes (
  let* d_ := bidiagonal t_bl in let* u := generate_u d_ in let* vt := generate_vt d_ in let* b := into_b d_ in let (dg, od) := bi_into_diagonals d_ in
  let* uu := dot2 u (transpose u) in let* vv := dot2 vt (transpose vt) in let* ub := dot2 u b in let* p := dot2 ub vt in let* s := slice b 1 (nr b) 0 (nc b) in
  Ret ((nr u =? 3) && (nc u =? 3) && (nr b =? 3) && (nc b =? 3) && (nr vt =? 3) && (nc vt =? 4) && mclose (d (1) 5) uu (eye 3) && mclose (d (1) 5) vv (eye 3) && mclose (d (1) 5) p t_bl &&
       vclose eps0 dg (mdiag b) && vclose eps0 od (mdiag s))) = true.
Proof. vm_compute. reflexivity. Qed.
Example bidiagonal_upper : passes (
  let* d_ := bidiagonal t_bu in let* u := generate_u d_ in let* vt := generate_vt d_ in let* b := into_b d_ in let (dg, od) := bi_into_diagonals d_ in
  let* uu := dot2 (transpose u) u in let* vv := dot2 vt (transpose vt) in let* ub := dot2 u b in let* p := dot2 ub vt in let* s := slice b 0 (nr b) 1 (nc b) in
  Ret ((nr u =? 4) && (nc u =? 3) && (nr b =? 3) && (nc b =? 3) && (nr vt =? 3) && (nc vt =? 3) && mclose (d (1) 5) uu (eye 3) && mclose (d (1) 5) vv (eye 3) && mclose (d (1) 5) p t_bu &&
       vclose eps0 dg (mdiag b) && vclose eps0 od (mdiag s))) = true.
Proof. vm_compute. reflexivity. Qed.
Example bidiagonal_error : fails (bidiagonal F0) EmptyMatrix = true.
Proof. vm_compute. reflexivity. Qed.

(** ** src/eigh.rs *)
Definition pclose (eps : FN) (o : option (FN * FN)) (x y : FN) : bool := match o with Some (a, b) => close eps a x && close eps b y | None => false end.
Example eigh_eigvals_2x2 :
  pclose (d (1) 5) (compute_2x2_eigvals (d (5) 0) (d (4) 0) (d (3) 0) (d (2) 0)) (d (72749172) 7) (d (-2749172) 7) && pclose (d (1) 5) (compute_2x2_eigvals (d (6) 0) (d (2) 0) (d (-1) 0) (d (3) 0)) (d (5) 0) (d (4) 0) &&
  pclose (d (1) 5) (compute_2x2_eigvals (d (6) 0) (d (2) 0) (d (2) 0) (d (6) 0)) (d (8) 0) (d (4) 0) && match compute_2x2_eigvals (d (-2) 0) (d (3) 0) (d (-3) 0) (d (-2) 0) with None => true | _ => false end = true.
Proof. vm_compute. reflexivity. Qed.
Definition t_e2 : mat FN := (Mat 2 2 [[(d (6) 0); (d (2) 0)]; [(d (2) 0); (d (6) 0)]]).
Definition t_e3 : mat FN := (Mat 3 3 [[(d (1) 0); (d (-5) 0); (d (7) 0)]; [(d (-5) 0); (d (2) 0); (d (-9) 0)]; [(d (7) 0); (d (-9) 0); (d (3) 0)]]).
Definition none {A} (o : option A) : bool := match o with None => true | _ => false end.
Example eigh_symm_eigvals : passes (
  let* (v, w) := symmetric_eig 100 t_e2 false eps0 in let* (v', w') := symmetric_eig 100 t_e3 false eps0 in let* (s, _) := sort_eig v' (eye 3) Smallest in
  Ret (vclose eps0 v [(d (8) 0); (d (4) 0)] && none w && vclose (d (1) 5) s [(d (-686819) 5); (d (-341558) 5); (d (1628378) 5)] && none w')) = true.
Proof. vm_compute. reflexivity. Qed.
Definition test_eigvecs (a : mat FN) (ev : list FN) : bool := passes (
  let* (v, w) := symmetric_eig 100 a true eps0 in let* w := unwrap_opt w in let* (v, w) := sort_eig v w Largest in
  let* s := dot2 (transpose w) w in let* av := dot2 a w in
  Ret (vclose (d (1) 5) v ev && mclose (d (1) 5) s (eye (nr a)) && mclose (d (1) 5) av (mk (nr a) (nr a) (fun i j => nmul FN (vget v j) (get w i j))))).
Example eigh_sym_eigvecs1 : test_eigvecs (Mat 3 3 [[(d (3) 0); (d (1) 0); (d (1) 0)]; [(d (1) 0); (d (3) 0); (d (1) 0)]; [(d (1) 0); (d (1) 0); (d (3) 0)]]) [(d (5) 0); (d (2) 0); (d (2) 0)] = true.
Proof. vm_compute. reflexivity. Qed.
Example eigh_sym_eigvecs2 : test_eigvecs t_e2 [(d (8) 0); (d (4) 0)] = true.
Proof. vm_compute. reflexivity. Qed.
Example eigh_sym_eigvecs3 : test_eigvecs t_e3 [(d (1628378) 5); (d (-341558) 5); (d (-686819) 5)] = true.
Proof. vm_compute. reflexivity. Qed.
Example eigh_corner : passes (
  let* (v, w) := symmetric_eig 100 F0 false eps0 in let* (v', w') := symmetric_eig 100 F0 true eps0 in let* w' := unwrap_opt w' in
  Ret ((length v =? 0) && none w && (length v' =? 0) && meq w' F0 &&
    succeeds (symmetric_eig 100 (zeros (N:=FN) 1 1) true eps0) && succeeds (symmetric_eig 100 (zeros (N:=FN) 4 4) true eps0) && fails (symmetric_eig 100 (zeros (N:=FN) 3 1) true eps0) (NotSquare 3 1) &&
    succeeds (symmetric_eig 100 (Mat 2 2 [[(d (5) 0); (d (4) 0)]; [(d (3) 0); (d (2) 0)]]) true eps0) && succeeds (symmetric_eig 100 (Mat 2 2 [[(d (-2) 0); (d (3) 0)]; [(d (-3) 0); (d (-2) 0)]]) true eps0))) = true.
Proof. vm_compute. reflexivity. Qed.

(** ** src/svd.rs *)
Definition e15 : FN := (d (1) 15).
Definition oc (eps : FN) (o : option (mat FN)) (m : mat FN) : bool := match o with Some a => mclose eps a m | None => false end.
Example svd_svd_test : passes (
  let* r := svd_eps 100 (Mat 2 2 [[(d (30) 1); (d (0) 0)]; [(d (0) 0); (d (-2) 0)]]) true true e15 in
  let* (p, vt) := sort_svd r Largest in let (u, s) := p in let* (p', vt') := sort_svd r Smallest in let (u', s') := p' in
  let* (p2, vt2) := svd_eps 100 (Mat 2 3 [[(d (1) 0); (d (0) 0); (d (-1) 0)]; [(d (-2) 0); (d (1) 0); (d (4) 0)]]) false false e15 in let (u2, s2) := p2 in
  Ret (vclose (d (1) 7) s [(d (3) 0); (d (2) 0)] && oc (d (1) 7) u (Mat 2 2 [[(d (1) 0); (d (0) 0)]; [(d (0) 0); (d (-1) 0)]]) && oc (d (1) 7) vt (Mat 2 2 [[(d (1) 0); (d (0) 0)]; [(d (0) 0); (d (1) 0)]]) &&
       vclose (d (1) 7) s' [(d (2) 0); (d (3) 0)] && oc (d (1) 7) u' (Mat 2 2 [[(d (0) 0); (d (1) 0)]; [(d (-1) 0); (d (0) 0)]]) && oc (d (1) 7) vt' (Mat 2 2 [[(d (0) 0); (d (1) 0)]; [(d (1) 0); (d (0) 0)]]) &&
       vclose (d (1) 5) s2 [(d (51371) 5); (d (476824) 5)] && none u2 && none vt2)) = true.
Proof. vm_compute. reflexivity. Qed.
Definition test_svd_props (a : mat FN) (es : list FN) : bool := passes (
  let* r := svd_eps 100 a true true e15 in let* (p, vt) := sort_svd r Largest in let (u, s) := p in let* u := unwrap_opt u in let* vt := unwrap_opt vt in
  let* us := dot2 u (from_diag s) in let* pr := dot2 us vt in
  let* r2 := svd_eps 100 a false true e15 in let* (p2, vt2) := sort_svd r2 Largest in let (u2, s2) := p2 in
  let* r3 := svd_eps 100 a true false e15 in let* (p3, vt3) := sort_svd r3 Largest in let (u3, s3) := p3 in
  let* r4 := svd_eps 100 a false false e15 in let* (p4, vt4) := sort_svd r4 Largest in let (u4, s4) := p4 in
  Ret (vclose (d (1) 5) s es && forallb (fun x => negb (nis_neg FN x)) s && mclose (d (1) 5) pr a &&
       none u2 && vclose (d (1) 9) s2 s && oc (d (1) 9) vt2 vt && none vt3 && vclose (d (1) 9) s3 s && oc (d (1) 9) u3 u && none vt4 && none u4 && vclose (d (1) 9) s4 s)).
Example svd_svd_props1 : test_svd_props (Mat 1 3 [[(d (-2) 0); (d (1) 0); (d (4) 0)]]) [nsqrt FN (d (21) 0)] = true.
Proof. vm_compute. reflexivity. Qed.
Example svd_svd_props2 : test_svd_props (Mat 2 2 [[(d (1) 0); (d (1) 0)]; [(d (1) 0); (d (1) 0)]]) [(d (2) 0); (d (0) 0)] = true.
Proof. vm_compute. reflexivity. Qed.
Example svd_svd_props3 : test_svd_props (Mat 3 2 [[(d (-3) 0); (d (4) 0)]; [(d (43) 1); (d (21) 1)]; [(d (66) 1); (d (87) 1)]]) [(d (1180876) 5); (d (52633658) 7)] = true.
Proof. vm_compute. reflexivity. Qed.
Example svd_svd_props4 : test_svd_props (transpose (Mat 3 3 [[(d (1074785316637712) 14); (d (-5994983325167452) 15); (d (-6064492921857296) 15)]; [(d (-4149751381521569) 15); (fl (726715761288003) (-45)); (d (-4470436210703133) 15)]; [(fl (-6409949428266039) (-48)); (fl (-819338336080153) (-49)); (fl (1274245241055029) (-46))]])) [(d (316188022) 7); (d (223811978) 7); (d (0) 0)] = true.
Proof. vm_compute. reflexivity. Qed.
Example svd_svd_corner : passes (
  let* (p, vt) := svd_eps 100 (Mat 1 1 [[(d (0) 0)]]) true true e15 in let (u, s) := p in
  Ret (fails (svd_eps 100 (zeros (N:=FN) 0 1) false false e15) EmptyMatrix && vclose eps0 s [(d (0) 0)] && oc eps0 u (Mat 1 1 [[(d (1) 0)]]) && oc eps0 vt (Mat 1 1 [[(d (1) 0)]]))) = true.
Proof. vm_compute. reflexivity. Qed.
