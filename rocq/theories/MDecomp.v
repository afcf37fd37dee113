(** * Model of tridiagonal.rs and bidiagonal.rs *)
From Coq Require Import List Arith Lia Bool.
From Verif Require Import Scalar Arr MBase MDirect.
Import ListNotations.
Open Scope res_scope.

Section MDecomp.
Context {N : Num}.
Notation vec := (list N).
Notation mtx := (mat N).
Local Open Scope num_scope.
Local Infix "<?n" := Nat.ltb (at level 70).
Local Infix "<=?n" := Nat.leb (at level 70).
Local Infix "=?n" := Nat.eqb (at level 70).

(** [v.insert_axis(Axis(0))] and [v.insert_axis(Axis(1))] *)
Definition as_row (v : vec) : mtx := mk 1 (length v) (fun _ j => vget v j).
Definition as_col (v : vec) : mtx := mk (length v) 1 (fun i _ => vget v i).

(** ** tridiagonal.rs *)

(** src/tridiagonal.rs:71-77 *)
Record tridecomp := TRD { diag_matrix : mtx; off_diagonal : vec }.

(** src/tridiagonal.rs:40-60: loop body. [self.slice_mut(s![i+1.., ..])] split into
    [axis = (.., i)] and [m = (.., i+1..)]. State: (self, off_diagonal, p). *)
Definition tridiag_step (i : nat) (st : mtx * vec * vec) : res (mtx * vec * vec) :=
  let '(self, off, p) := st in
  let* ax := col_from self (i + 1) i in
  let* (ax, norm) := reflection_axis_mut ax in
  let self := put_col self (i + 1) i ax in
  let* off := set1 off i (match norm with Some x => x | None => n0 N end) in
  match norm with
  | None => Ret (self, off, p)
  | Some _ =>
      let* m := slice self (i + 1) (nr self) (i + 1) (nc self) in
      let* ps := vfrom p i in
      let* ps := gemv0 ntwo m ax ps in
      let* dot := dot1 ax ps in
      let* m := gemm1 (- n1 N) (as_col ps) (as_row ax) m in
      let* m := gemm1 (- n1 N) (as_col ax) (as_row ps) m in
      let* m := gemm1 (dot + dot) (as_col ax) (as_row ax) m in
      Ret (put self (i + 1) (i + 1) m, off, vput p i ps)
  end.

(** src/tridiagonal.rs:31-66, [sym_tridiagonal] *)
Definition sym_tridiagonal (self : mtx) : res tridecomp :=
  let* n := check_square self in
  if n <?n 1 then Err EmptyMatrix
  else
    let* st := for_ (n - 1) 0 tridiag_step (self, vzeros (n - 1), vzeros (n - 1)) in
    let '(self, off, _) := st in
    Ret (TRD self off).

(** src/tridiagonal.rs:90-92 *)
Definition tri_generate_q (d : tridecomp) : res mtx :=
  assemble_q (diag_matrix d) 1 (fun i => idx1 (off_diagonal d) i).

(** src/tridiagonal.rs:96-101; [diag()] has min(rows, cols) elements *)
Definition tri_into_diagonals (d : tridecomp) : vec * vec :=
  let m := diag_matrix d in
  (vmk (Nat.min (nr m) (nc m)) (fun i => get m i i), vmap (nabs N) (off_diagonal d)).

(** src/tridiagonal.rs:104-113 *)
Definition tri_into_matrix (d : tridecomp) : res mtx :=
  let* m := unwrap (triangular_inplace (diag_matrix d) Upper) in
  let* m := unwrap (triangular_inplace m Lower) in
  for_ (length (off_diagonal d)) 0 (fun i m =>
    let off := nabs N (vget (off_diagonal d) i) in
    let* m := set2 m (i + 1) i off in
    set2 m i (i + 1) off) m.

(** ** bidiagonal.rs *)

(** src/bidiagonal.rs:64-69 *)
Record bidecomp := BID { uv : mtx; bi_off : vec; bi_diag : vec; upper_diag : bool }.

(** src/bidiagonal.rs:27-59, [bidiagonal] *)
Definition bidiagonal (self : mtx) : res bidecomp :=
  let min_dim := Nat.min (nr self) (nc self) in
  if min_dim =?n 0 then Err EmptyMatrix
  else
    let upper := nc self <=?n nr self in
    let clr_d := fun (m : mtx) i => if upper then clear_column m i 0 else clear_row m i 0 in
    let clr_o := fun (m : mtx) i => if upper then clear_row m i 1 else clear_column m i 1 in
    let* (self, d, o) := for_ (min_dim - 1) 0 (fun i st =>
        let '(m, d, o) := (st : mtx * vec * vec) in
        let* (m, x) := clr_d m i in
        let* d := set1 d i x in
        let* (m, y) := clr_o m i in
        let* o := set1 o i y in
        Ret (m, d, o)) (self, vzeros min_dim, vzeros (min_dim - 1)) in
    let* (self, x) := clr_d self (min_dim - 1)%nat in
    let* d := set1 d (min_dim - 1) x in
    Ret (BID self o d upper).

(** src/bidiagonal.rs:90-97 *)
Definition generate_u (b : bidecomp) : res mtx :=
  let shift := if upper_diag b then 0 else 1 in
  if upper_diag b then assemble_q (uv b) shift (fun i => idx1 (bi_diag b) i)
  else assemble_q (uv b) shift (fun i => idx1 (bi_off b) i).

(** src/bidiagonal.rs:101-109 *)
Definition generate_vt (b : bidecomp) : res mtx :=
  let shift := if upper_diag b then 1 else 0 in
  let* q := (if upper_diag b then assemble_q (transpose (uv b)) shift (fun i => idx1 (bi_off b) i)
             else assemble_q (transpose (uv b)) shift (fun i => idx1 (bi_diag b) i)) in
  Ret (transpose q).

(** src/bidiagonal.rs:126-131 *)
Definition bi_into_diagonals (b : bidecomp) : vec * vec :=
  (vmap (nabs N) (bi_diag b), vmap (nabs N) (bi_off b)).

(** src/bidiagonal.rs:113-123; the slice [r..d, c..d] has a diagonal of length d-1, to which the
    off-diagonal is assigned (panic on a length mismatch) *)
Definition into_b (b : bidecomp) : res mtx :=
  let d := length (bi_diag b) in
  let '(r, c) := if upper_diag b then (0, 1) else (1, 0) in
  let '(diagonal, off) := bi_into_diagonals b in
  let res := from_diag diagonal in
  let* sub := slice res r d c d in
  let dl := Nat.min (nr sub) (nc sub) in
  if length off =?n dl then
    let sub := mk (nr sub) (nc sub) (fun i j => if i =?n j then vget off i else get sub i j) in
    Ret (put res r c sub)
  else Panicked.

End MDecomp.
Arguments tridecomp N : clear implicits.
Arguments bidecomp N : clear implicits.
