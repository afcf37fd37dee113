(** * Model of norm.rs, reflection.rs, householder.rs, givens.rs *)
From Coq Require Import List Arith Lia Bool.
From Verif Require Import Scalar Arr.
Import ListNotations.
Open Scope res_scope.

Section MBase.
Context {N : Num}.
Notation vec := (list N).
Notation mtx := (mat N).
Local Open Scope num_scope.
Local Infix "<?n" := Nat.ltb (at level 70).
Local Infix "=?n" := Nat.eqb (at level 70).

(** ** norm.rs (the trait is implemented for arrays of any dimension by iterating over all
    elements; the model takes the list of elements, [elems m] for a matrix) *)

(** src/norm.rs:25-27 *)
Definition norm_l1 (v : vec) : N := fold_left (fun acc x => acc + nabs N x) v (n0 N).
(** src/norm.rs:29-31 *)
Definition norm_l2 (v : vec) : N := nsqrt N (fold_left (fun acc x => acc + x * x) v (n0 N)).
(** src/norm.rs:33-35: [val.abs().max(f)] *)
Definition norm_max (v : vec) : N := fold_left (fun f val => nmax N (nabs N val) f) v (n0 N).

(** ** reflection.rs *)

(** src/reflection.rs:4-7, [Reflection { axis, bias }] *)
Record reflection := Refl { axis : vec; bias : N }.

(** src/reflection.rs:26-32, [reflect_cols]. One iteration reads column i, computes the factor and
    scaled-adds the axis to the column. [-2.0] is [-(2)]. *)
Definition reflect_col (r : reflection) (rhs : mtx) (i : nat) : res mtx :=
  let* c := column rhs i in
  let* d := dot1 (axis r) c in
  let factor := (d - bias r) * (- ntwo) in
  let* c' := scaled_add c factor (axis r) in
  Ret (put_col rhs 0 i c').
Definition reflect_cols (r : reflection) (rhs : mtx) : res mtx :=
  for_ (nc rhs) 0 (fun i m => reflect_col r m i) rhs.

(** src/reflection.rs:35-37, [reflect_rows]: through the transposed view *)
Definition reflect_rows (r : reflection) (lhs : mtx) : res mtx :=
  let* t := reflect_cols r (transpose lhs) in
  Ret (transpose t).

(** ** householder.rs *)

(** src/householder.rs:9-28, [reflection_axis_mut]: the new column and the optional norm. *)
Definition reflection_axis_mut (col : vec) : res (vec * option N) :=
  let* nsq := dot1 col col in
  let nrm := nsqrt N nsq in
  let* first := (if 0 <?n length col then Ret (vget col 0) else Panicked) in
  let signed_norm := nsignum N first * nrm in
  let col := vupd col 0 (first + signed_norm) in
  let new_norm_sq := (nsq + nabs N first * nrm) * ntwo in
  if negb (nis_zero N new_norm_sq)
  then let s := nsqrt N new_norm_sq in
       Ret (vmap (fun x => x / s) col, Some (- signed_norm))
  else Ret (col, None).

(** src/householder.rs:34-51, [clear_column]. [multi_slice_mut] splits column [icol] from the
    columns to its right. *)
Definition clear_column (matrix : mtx) (icol shift : nat) : res (mtx * N) :=
  let* ax := col_from matrix (icol + shift) icol in
  let* (ax', refl_norm) := reflection_axis_mut ax in
  let matrix := put_col matrix (icol + shift) icol ax' in
  match refl_norm with
  | Some rn =>
      let sign := nsignum N rn in
      let* refl_rows := slice matrix (icol + shift) (nr matrix) (icol + 1) (nc matrix) in
      let* refl_rows := reflect_cols (Refl ax' (n0 N)) refl_rows in
      let refl_rows := mscale refl_rows sign in
      Ret (put matrix (icol + shift) (icol + 1) refl_rows, rn)
  | None => Ret (matrix, n0 N)
  end.

(** src/householder.rs:57-63, [clear_row] *)
Definition clear_row (matrix : mtx) (irow shift : nat) : res (mtx * N) :=
  let* (t, rn) := clear_column (transpose matrix) irow shift in
  Ret (transpose t, rn).

(** src/householder.rs:68-93, [assemble_q]. *)
Definition assemble_q (matrix : mtx) (shift : nat) (diag_fn : nat -> res N) : res mtx :=
  let dim := Nat.min (nr matrix) (nc matrix) in
  let res0 :=
    if nr matrix =?n nc matrix then eye (nr matrix)
    else mk (nr matrix) dim (fun i j => if i =?n j then n1 N else n0 N) in
  let* cnt := usub dim shift in
  for_rev cnt (fun i res =>
    let* ax := col_from matrix (i + shift) i in
    let* res_rows := slice res (i + shift) (nr res) i (nc res) in
    let* res_rows := reflect_cols (Refl ax (n0 N)) res_rows in
    let* d := diag_fn i in
    let res_rows := mscale res_rows (nsignum N d) in
    Ret (put res (i + shift) i res_rows)) res0.

(** ** givens.rs *)

(** src/givens.rs:7-10 *)
Record givens := Rot { rc : N; rs : N }.

(** src/givens.rs:17-27 *)
Definition cancel_y (x y : N) : option (givens * N) :=
  if negb (nis_zero N y)
  then let r := nhypot N x y in Some (Rot (x / r) (- y / r), r)
  else None.

(** src/givens.rs:33-38; [rot.s *= -A::one()] *)
Definition cancel_x (x y : N) : option (givens * N) :=
  match cancel_y y x with
  | Some (rot, r) => Some (Rot (rc rot) (rs rot * (- n1 N)), r)
  | None => None
  end.

(** src/givens.rs:40-45 *)
Definition identity : givens := Rot (n1 N) (n0 N).

(** src/givens.rs:47-56 *)
Definition try_new (c s eps : N) : option (givens * N) :=
  let norm := nhypot N c s in
  if (eps <? norm) then Some (Rot (c / norm) (s / norm), norm) else None.

(** src/givens.rs:58-60 *)
Definition givens_new (c s : N) : givens * N :=
  match try_new c s (n0 N) with Some x => x | None => (identity, n0 N) end.

(** src/givens.rs:70-75 *)
Definition inverse (g : givens) : givens := Rot (rc g) (- rs g).

(** src/givens.rs:78-99, [rotate_rows]: lhs = lhs * self *)
Definition rotate_row (g : givens) (j : nat) (lhs : mtx) : res mtx :=
  let c := rc g in
  let s := rs g in
  let* a := at2 lhs j 0 in
  let* b := at2 lhs j 1 in
  let* lhs := atm2 lhs j 0 (a * c + s * b) in
  atm2 lhs j 1 (- s * a + b * c).
Definition rotate_rows (g : givens) (lhs : mtx) : res mtx :=
  if negb (nc lhs =?n 2) then Err (WrongColumns 2 (nc lhs))
  else for_ (nr lhs) 0 (rotate_row g) lhs.

(** src/givens.rs:102-111, [rotate_cols]: rhs = self * rhs, with the error renamed *)
Definition rotate_cols (g : givens) (rhs : mtx) : res mtx :=
  match rotate_rows (inverse g) (transpose rhs) with
  | Ret t => Ret (transpose t)
  | Err (WrongColumns e a) => Err (WrongRows e a)
  | o => o
  end.

End MBase.
Arguments reflection N : clear implicits.
Arguments givens N : clear implicits.
