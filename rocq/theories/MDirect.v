(** * Model of triangular.rs, cholesky.rs and qr.rs *)
From Coq Require Import List Arith Lia Bool.
From Verif Require Import Scalar Arr MBase.
Import ListNotations.
Open Scope res_scope.

(** src/triangular.rs:10-13 *)
Inductive UPLO := Upper | Lower.
Definition is_upper (u : UPLO) : bool := match u with Upper => true | Lower => false end.

Section MDirect.
Context {N : Num}.
Notation vec := (list N).
Notation mtx := (mat N).
Local Open Scope num_scope.
Local Infix "<?n" := Nat.ltb (at level 70).
Local Infix "<=?n" := Nat.leb (at level 70).
Local Infix "=?n" := Nat.eqb (at level 70).

(** ** triangular.rs *)

(** src/triangular.rs:37-53, [triangular_inplace] *)
Definition triangular_inplace (m : mtx) (uplo : UPLO) : res mtx :=
  let* n := check_square m in
  if is_upper uplo
  then for_ n 0 (fun i m => for_ i 0 (fun j m => atm2 m i j (n0 N)) m) m
  else for_ n 0 (fun i m => for_ (n - (i + 1)) (i + 1) (fun j m => atm2 m i j (n0 N)) m) m.

(** src/triangular.rs:32-35, [into_triangular] *)
Definition into_triangular (m : mtx) (uplo : UPLO) : res mtx := triangular_inplace m uplo.

(** src/triangular.rs:67-90, [is_triangular]; the early [return false] breaks both loops. *)
Definition is_triangular (m : mtx) (uplo : UPLO) : res bool :=
  let row_check (lo cnt i : nat) : res bool :=
    for_brk cnt lo (fun j (_ : bool) =>
      let* x := at2 m i j in
      if negb (nis_zero N x) then Ret (false, false) else Ret (true, true)) true in
  match check_square m with
  | Ret n =>
      for_brk n 0 (fun i (_ : bool) =>
        let* ok := (if is_upper uplo then row_check 0 i i
                    else row_check (i + 1)%nat (n - (i + 1))%nat i) in
        Ret (ok, ok)) true
  | _ => Ret false
  end.

(** src/triangular.rs:95-144, [solve_triangular_system_common] and [solve_triangular_system]:
    one column k of b, one row i. For the upper solver rows run downwards from n-1 to 0 with
    slice [..i], for the lower one from 0 to n-1 with slice [i+1..]. *)
Definition solve_row (a : mtx) (uplo : UPLO) (diag_fn : nat -> res N) (k i : nat) (b : mtx)
  : res mtx :=
  let* diag := diag_fn i in
  let* bik := at2 b i k in
  let coeff := bik / diag in
  let* b := atm2 b i k coeff in
  if is_upper uplo then
    let* bs := col_to b i k in
    let* as_ := col_to a i i in
    let* bs' := scaled_add bs (- coeff) as_ in
    Ret (put_col b 0 k bs')
  else
    let* bs := col_from b (i + 1) k in
    let* as_ := col_from a (i + 1) i in
    let* bs' := scaled_add bs (- coeff) as_ in
    Ret (put_col b (i + 1) k bs').

Definition solve_triangular_system (a b : mtx) (uplo : UPLO) (diag_fn : nat -> res N) : res mtx :=
  let* rows := check_square a in
  if negb (nr b =?n rows) then Err (WrongRows rows (nr b))
  else for_ (nc b) 0 (fun k b =>
         if is_upper uplo
         then for_rev rows (solve_row a uplo diag_fn k) b
         else for_ rows 0 (solve_row a uplo diag_fn k) b) b.

(** src/triangular.rs:158-187, [solve_triangular_inplace] / [solve_triangular_into] /
    [solve_triangular] *)
Definition solve_triangular (a b : mtx) (uplo : UPLO) : res mtx :=
  solve_triangular_system a b uplo (fun i => at2 a i i).

(** ** cholesky.rs *)

(** src/cholesky.rs:57-65: the inner loops over k and i for row j. *)
Definition chol_step (j k : nat) (st : mtx * N) : res (mtx * N) :=
  let (m, d) := st in
  let* s := for_ k 0 (fun i s =>
              let* x := at2 m k i in
              let* y := at2 m j i in
              Ret (s + x * y)) (n0 N) in
  let* ajk := at2 m j k in
  let* akk := at2 m k k in
  let s := (ajk - s) / akk in
  let* m := atm2 m j k s in
  Ret (m, d + s * s).

(** src/cholesky.rs:54-74: one iteration of the loop over rows j. The matrix is returned also on
    failure, because the in-place call leaves it behind. *)
Definition chol_row (j : nat) (m : mtx) : mtx * res unit :=
  match for_ j 0 (chol_step j) (m, n0 N) with
  | Ret (m', d) =>
      match at2 m' j j with
      | Ret ajj =>
          let d := ajj - d in
          if (d <=? n0 N) then (m', Err NotPositiveDefinite)
          else match atm2 m' j j (nsqrt N d) with
               | Ret m'' => (m'', Ret tt)
               | _ => (m', OutOfBounds)
               end
      | _ => (m', OutOfBounds)
      end
  | _ => (m, OutOfBounds)
  end.

Fixpoint chol_rows (cnt j : nat) (m : mtx) : mtx * res unit :=
  match cnt with
  | 0 => (m, Ret tt)
  | S c => match chol_row j m with
           | (m', Ret _) => chol_rows c (S j) m'
           | o => o
           end
  end.

(** src/cholesky.rs:51-76, [cholesky_inplace_dirty]: final contents of [self] and outcome. *)
Definition cholesky_inplace_dirty (m : mtx) : mtx * res unit :=
  match check_square m with
  | Ret n => chol_rows n 0 m
  | Err e => (m, Err e)
  | _ => (m, Panicked)
  end.

(** src/cholesky.rs:24-30, 106-109, [cholesky_into_dirty] / [cholesky_dirty] *)
Definition cholesky_dirty (m : mtx) : res mtx :=
  let (m', o) := cholesky_inplace_dirty m in
  let* _ := o in Ret m'.

(** src/cholesky.rs:78-82, 37-43, 111-114, [cholesky_inplace] / [cholesky_into] / [cholesky] *)
Definition cholesky (m : mtx) : res mtx :=
  let* m' := cholesky_dirty m in
  triangular_inplace m' Lower.

(** src/cholesky.rs:136-144, [solvec_inplace]; also 127-130 [solvec_into], 160-162 [solvec] *)
Definition solvec (a b : mtx) : res mtx :=
  let* chol := cholesky_dirty a in
  let* b := solve_triangular chol b Lower in
  solve_triangular (transpose chol) b Upper.

(** src/cholesky.rs:178-182, [invc_inplace]; 196-198, [invc] *)
Definition invc (a : mtx) : res mtx := solvec a (eye (nr a)).

(** ** qr.rs *)

(** src/qr.rs:68-73 *)
Record qrdecomp := QRD { qr : mtx; qdiag : vec }.

(** src/qr.rs:32-44, [qr_into]; 60-62, [qr] *)
Definition qr_into (m : mtx) : res qrdecomp :=
  if nr m <?n nc m then Err (NotThin (nr m) (nc m))
  else
    let* (m', d) := for_ (nc m) 0 (fun i st =>
        let (m, d) := (st : mtx * vec) in
        let* (m', x) := clear_column m i 0 in
        let* d' := set1 d i x in
        Ret (m', d')) (m, vzeros (nc m)) in
    Ret (QRD m' d).

(** src/qr.rs:86-88 *)
Definition qr_generate_q (d : qrdecomp) : res mtx := assemble_q (qr d) 0 (fun i => idx1 (qdiag d) i).

(** src/qr.rs:91-98, [into_r]; [diag_mut().assign(..)] panics on a length mismatch *)
Definition qr_into_r (d : qrdecomp) : res mtx :=
  let ncols := nc (qr d) in
  let* r := slice (qr d) 0 ncols 0 ncols in
  let* r := unwrap (triangular_inplace r Upper) in
  if length (qdiag d) =?n Nat.min (nr r) (nc r)
  then Ret (mk (nr r) (nc r) (fun i j => if i =?n j then nabs N (vget (qdiag d) i) else get r i j))
  else Panicked.

(** src/qr.rs:101-104 *)
Definition qr_into_decomp (d : qrdecomp) : res (mtx * mtx) :=
  let* q := qr_generate_q d in
  let* r := qr_into_r d in
  Ret (q, r).

(** src/qr.rs:110-120 *)
Definition qt_mul (d : qrdecomp) (b : mtx) : res mtx :=
  for_ (nc (qr d)) 0 (fun i b =>
    let* ax := col_from (qr d) i i in
    let* rows := slice b i (nr b) 0 (nc b) in
    let* rows := reflect_cols (Refl ax (n0 N)) rows in
    let* di := idx1 (qdiag d) i in
    let rows := mscale rows (nsignum N di) in
    Ret (put b i 0 rows)) b.

(** src/qr.rs:194-197 *)
Definition is_invertible (d : qrdecomp) : bool :=
  forallb (fun f => negb (nis_zero N f)) (qdiag d).

(** src/qr.rs:124-152, [solve_into]; 184-186, [solve] *)
Definition qr_solve (d : qrdecomp) (b : mtx) : res mtx :=
  if negb (nr (qr d) =?n nr b) then Err (WrongRows (nr (qr d)) (nr b))
  else if negb (is_invertible d) then Err NonInvertible
  else
    let* b := qt_mul d b in
    let ncols := nc (qr d) in
    let* b := slice b 0 ncols 0 (nc b) in
    let* r := slice (qr d) 0 ncols 0 ncols in
    solve_triangular_system r b Upper (fun i => let* x := at1 (qdiag d) i in Ret (nabs N x)).

(** src/qr.rs:156-181, [solve_tr_into]; 189-191, [solve_tr] *)
Definition qr_solve_tr (d : qrdecomp) (b : mtx) : res mtx :=
  if negb (nc (qr d) =?n nr b) then Err (WrongRows (nc (qr d)) (nr b))
  else if negb (is_invertible d) then Err NonInvertible
  else
    let ncols := nc (qr d) in
    let* r := slice (qr d) 0 ncols 0 ncols in
    let* b := solve_triangular_system (transpose r) b Lower
                (fun i => let* x := at1 (qdiag d) i in Ret (nabs N x)) in
    let* q := qr_generate_q d in
    dot2 q b.

(** src/qr.rs:200-203 *)
Definition qr_inverse (d : qrdecomp) : res mtx :=
  let* _ := check_square (qr d) in
  qr_solve d (eye (length (qdiag d))).

(** src/qr.rs:219-228, [least_squares_into]; 245-247, [least_squares] *)
Definition least_squares (a b : mtx) : res mtx :=
  if nc a <=?n nr a then
    let* d := qr_into a in qr_solve d b
  else
    let* d := qr_into (transpose a) in qr_solve_tr d b.

End MDirect.
Arguments qrdecomp N : clear implicits.
