(** * Arrays: the fragment of ndarray the crate uses

    [Array1] is a list; [Array2]/[ArrayBase<S, Ix2>] is a record of its two dimensions and its
    rows.  Memory layout (strides, owned/view) is not modelled: every view is the logical matrix
    it denotes, a mutable view is modelled by reading the slice, computing, and writing it back. *)
From Coq Require Import List Arith Lia Bool.
From Verif Require Import Scalar.
Import ListNotations.
Open Scope res_scope.

Record mat (A : Type) := Mat { nr : nat; nc : nat; rows : list (list A) }.
Arguments Mat {A} nr nc rows.
Arguments nr {A} m.
Arguments nc {A} m.
Arguments rows {A} m.

Section Arr.
Context {N : Num}.
Notation vec := (list N).
Notation mtx := (mat N).

(** Element at (i, j); [n0] outside the stored rows (callers check the bounds first). *)
Definition get (m : mtx) (i j : nat) : N := nth j (nth i (rows m) []) (n0 N).
Definition vget (v : vec) (i : nat) : N := nth i v (n0 N).

(** Matrix / vector tabulating a function. *)
Definition mk (r c : nat) (f : nat -> nat -> N) : mtx :=
  Mat r c (map (fun i => map (fun j => f i j) (seq 0 c)) (seq 0 r)).
Definition vmk (n : nat) (f : nat -> N) : vec := map f (seq 0 n).

(** Store at an index known to be in range. *)
Definition upd (m : mtx) (i j : nat) (v : N) : mtx :=
  mk (nr m) (nc m) (fun a b => if (a =? i) && (b =? j) then v else get m a b).
Definition vupd (v : vec) (i : nat) (x : N) : vec :=
  vmk (length v) (fun a => if a =? i then x else vget v a).

(** src/index.rs:18-29 [UncheckedIndex::at] (2D and 1D): checked in debug builds, unchecked in
    release builds; out of range is [OutOfBounds]. *)
Definition at2 (m : mtx) (i j : nat) : res N :=
  if (i <? nr m) && (j <? nc m) then Ret (get m i j) else OutOfBounds.
Definition at1 (v : vec) (i : nat) : res N :=
  if i <? length v then Ret (vget v i) else OutOfBounds.

(** src/index.rs:31-43 [UncheckedIndexMut::atm] followed by a store. *)
Definition atm2 (m : mtx) (i j : nat) (x : N) : res mtx :=
  if (i <? nr m) && (j <? nc m) then Ret (upd m i j x) else OutOfBounds.
Definition atm1 (v : vec) (i : nat) (x : N) : res vec :=
  if i <? length v then Ret (vupd v i x) else OutOfBounds.

(** ndarray's checked indexing [v[i]], [v[i] = x], [m[(i,j)] = x]: panics out of range. *)
Definition idx1 (v : vec) (i : nat) : res N :=
  if i <? length v then Ret (vget v i) else Panicked.
Definition set1 (v : vec) (i : nat) (x : N) : res vec :=
  if i <? length v then Ret (vupd v i x) else Panicked.
Definition set2 (m : mtx) (i j : nat) (x : N) : res mtx :=
  if (i <? nr m) && (j <? nc m) then Ret (upd m i j x) else Panicked.

(** Constructors: [Array2::zeros], [Array2::eye], [Array2::from_diag], [Array1::zeros]. *)
Definition zeros (r c : nat) : mtx := mk r c (fun _ _ => n0 N).
Definition eye (n : nat) : mtx := mk n n (fun i j => if i =? j then n1 N else n0 N).
Definition from_diag (v : vec) : mtx :=
  mk (length v) (length v) (fun i j => if i =? j then vget v i else n0 N).
Definition vzeros (n : nat) : vec := vmk n (fun _ => n0 N).

(** [reversed_axes], [t()] *)
Definition transpose (m : mtx) : mtx := mk (nc m) (nr m) (fun i j => get m j i).

(** [s![r0..r1, c0..c1]] of a matrix; panics on a bad range. *)
Definition slice (m : mtx) (r0 r1 c0 c1 : nat) : res mtx :=
  if (r0 <=? r1) && (r1 <=? nr m) && (c0 <=? c1) && (c1 <=? nc m)
  then Ret (mk (r1 - r0) (c1 - c0) (fun i j => get m (r0 + i) (c0 + j)))
  else Panicked.
(** Write a slice back through a mutable view starting at (r0, c0). *)
Definition put (m : mtx) (r0 c0 : nat) (sub : mtx) : mtx :=
  mk (nr m) (nc m) (fun i j =>
    if (r0 <=? i) && (i <? r0 + nr sub) && (c0 <=? j) && (j <? c0 + nc sub)
    then get sub (i - r0) (j - c0) else get m i j).

(** [s![r0.., c]] : part of a column, from row [r0] down. *)
Definition col_from (m : mtx) (r0 c : nat) : res vec :=
  if (r0 <=? nr m) && (c <? nc m)
  then Ret (vmk (nr m - r0) (fun i => get m (r0 + i) c))
  else Panicked.
Definition put_col (m : mtx) (r0 c : nat) (v : vec) : mtx :=
  mk (nr m) (nc m) (fun i j =>
    if (r0 <=? i) && (i <? r0 + length v) && (j =? c) then vget v (i - r0) else get m i j).

(** [s![..r, c]] : part of a column, the first [r] rows. *)
Definition col_to (m : mtx) (r c : nat) : res vec :=
  if (r <=? nr m) && (c <? nc m)
  then Ret (vmk r (fun i => get m i c))
  else Panicked.

(** [v.slice(s![i..])] *)
Definition vfrom (v : vec) (i : nat) : res vec :=
  if i <=? length v then Ret (vmk (length v - i) (fun k => vget v (i + k))) else Panicked.
Definition vput (v : vec) (i : nat) (w : vec) : vec :=
  vmk (length v) (fun k => if (i <=? k) && (k <? i + length w) then vget w (k - i) else vget v k).

(** [column(c)] *)
Definition column (m : mtx) (c : nat) : res vec := col_from m 0 c.

(** Indices of [s![lo..=hi;step]] *)
Fixpoint stride (fuel lo hi step : nat) : list nat :=
  match fuel with
  | 0 => []
  | S f => if lo <=? hi then lo :: stride f (lo + step) hi step else []
  end.

(** [s![.., lo..=hi;step]] : a strided selection of columns; panics if [hi >= ncols] or [step = 0]. *)
Definition cols_stride (m : mtx) (lo hi step : nat) : res (mtx * list nat) :=
  if (hi <? nc m) && (lo <=? S hi) && (0 <? step)
  then let ix := stride (S hi) lo hi step in
       Ret (mk (nr m) (length ix) (fun i j => get m i (nth j ix 0)), ix)
  else Panicked.
(** Write back through the strided mutable view. *)
Fixpoint find_idx (j : nat) (ix : list nat) (k : nat) : option nat :=
  match ix with
  | [] => None
  | a :: l => if a =? j then Some k else find_idx j l (S k)
  end.
Definition put_cols (m : mtx) (ix : list nat) (sub : mtx) : mtx :=
  mk (nr m) (nc m) (fun i j =>
    match find_idx j ix 0 with Some k => get sub i k | None => get m i j end).

(** [m.select(Axis(1), indices)]: panics on an out-of-range index. *)
Definition select_cols (m : mtx) (ix : list nat) : res mtx :=
  if forallb (fun j => j <? nc m) ix
  then Ret (mk (nr m) (length ix) (fun i k => get m i (nth k ix 0)))
  else Panicked.

(** Sum of the first n terms, left to right from zero. *)
Fixpoint sumn (n : nat) (f : nat -> N) : N :=
  match n with 0 => n0 N | S k => nadd N (sumn k f) (f k) end.

(** [u.dot(&v)] for 1D arrays; panics on different lengths.  ndarray sums in eight interleaved
    partial sums once the arrays have 8 or more elements; the model sums left to right
    (identical over the reals). *)
Definition dot1 (u v : vec) : res N :=
  if length u =? length v then Ret (sumn (length u) (fun i => nmul N (vget u i) (vget v i)))
  else Panicked.

(** [a.dot(&b)] for 2D arrays; panics when the inner dimensions differ. *)
Definition dot2 (a b : mtx) : res mtx :=
  if nc a =? nr b
  then Ret (mk (nr a) (nc b) (fun i j => sumn (nc a) (fun k => nmul N (get a i k) (get b k j))))
  else Panicked.

(** [y.scaled_add(alpha, &x)]: y += alpha * x; panics when the shapes are incompatible
    (broadcasting of a length-1 [x] is not used by the crate and is treated as a panic). *)
Definition scaled_add (y : vec) (alpha : N) (x : vec) : res vec :=
  if length y =? length x
  then Ret (vmk (length y) (fun i => nadd N (vget y i) (nmul N alpha (vget x i))))
  else Panicked.

(** [general_mat_mul(alpha, a, b, beta, c)] with beta = 1: c + alpha * a * b. *)
Definition gemm1 (alpha : N) (a b c : mtx) : res mtx :=
  if (nc a =? nr b) && (nr a =? nr c) && (nc b =? nc c)
  then Ret (mk (nr c) (nc c) (fun i j =>
         nadd N (get c i j) (nmul N alpha (sumn (nc a) (fun k => nmul N (get a i k) (get b k j))))))
  else Panicked.

(** [general_mat_vec_mul(alpha, a, x, 0, y)]: y = alpha * a * x (ndarray overwrites y when
    beta is zero). *)
Definition gemv0 (alpha : N) (a : mtx) (x y : vec) : res vec :=
  if (nc a =? length x) && (nr a =? length y)
  then Ret (vmk (nr a) (fun i =>
         nmul N alpha (sumn (nc a) (fun k => nmul N (get a i k) (vget x k)))))
  else Panicked.

(** Element-wise maps: [mapv], [m *= s], [m /= s], [v /= s]. *)
Definition mmap (f : N -> N) (m : mtx) : mtx := mk (nr m) (nc m) (fun i j => f (get m i j)).
Definition vmap (f : N -> N) (v : vec) : vec := vmk (length v) (fun i => f (vget v i)).
Definition mscale (m : mtx) (s : N) : mtx := mmap (fun x => nmul N x s) m.

(** [m.iter()] in logical (row-major) order. *)
Definition elems (m : mtx) : vec :=
  flat_map (fun i => map (fun j => get m i j) (seq 0 (nc m))) (seq 0 (nr m)).

(** src/lib.rs:64-71 *)
Definition check_square (m : mtx) : res nat :=
  if nr m =? nc m then Ret (nr m) else Err (NotSquare (nr m) (nc m)).

End Arr.
