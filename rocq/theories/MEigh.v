(** * Model of eigh.rs *)
From Coq Require Import List Arith Lia Bool.
From Verif Require Import Scalar Arr MBase MDirect MDecomp.
Import ListNotations.
Open Scope res_scope.

(** src/lib.rs:76-80 *)
Inductive Order := Largest | Smallest.

Section MEigh.
Context {N : Num}.
Notation vec := (list N).
Notation mtx := (mat N).
Local Open Scope num_scope.
Local Infix "<?n" := Nat.ltb (at level 70).
Local Infix "<=?n" := Nat.leb (at level 70).
Local Infix "=?n" := Nat.eqb (at level 70).

(** src/eigh.rs:27-30 and src/svd.rs:29-32: [iter().map(abs).fold(neg_infinity, max)] *)
Definition abs_max (m : mtx) : N :=
  fold_left (fun a b => nmax N a b) (map (nabs N) (elems m)) (nneg_inf N).

(** src/eigh.rs:32-34 and src/svd.rs:34-36: divide by the maximum unless it is zero *)
Definition scale_down (m : mtx) (amax : N) : mtx :=
  if negb (amax =? n0 N) then mmap (fun x => x / amax) m else m.

(** src/eigh.rs:179-187 *)
Definition wilkinson_shift (tmm tnn tmn : N) : N :=
  if negb (nis_zero N tmn) then
    let tmn_sq := tmn * tmn in
    let d := (tmm - tnn) * nhalf in
    tnn - tmn_sq / (d + nsignum N d * nsqrt N (d * d + tmn_sq))
  else tnn.

(** src/eigh.rs:189-199 *)
Definition compute_2x2_eigvals (h00 h10 h01 h11 : N) : option (N * N) :=
  let val := (h00 - h11) * nhalf in
  let discr := h10 * h01 + val * val in
  if (n0 N <=? discr) then
    let sqrt_discr := nsqrt N discr in
    let half_tra := (h00 + h11) * nhalf in
    Some (half_tra + sqrt_discr, half_tra - sqrt_discr)
  else None.

(** src/eigh.rs:140-150: first loop of [delimit_subproblem] *)
Fixpoint delim_end (diag off : vec) (eps : N) (n : nat) : res nat :=
  match n with
  | 0 => Ret 0
  | S m =>
      let* o := at1 off m in
      let* dn := at1 diag n in
      let* dm := at1 diag m in
      if (eps * (nabs N dn + nabs N dm) <? nabs N o) then Ret n
      else delim_end diag off eps m
  end.

(** src/eigh.rs:156-168: second loop *)
Fixpoint delim_start (diag off : vec) (eps : N) (new_start : nat) : res (nat * vec) :=
  match new_start with
  | 0 => Ret (0, off)
  | S m =>
      let* o := at1 off m in
      let* dn := at1 diag new_start in
      let* dm := at1 diag m in
      if nis_zero N o || (nabs N o <=? eps * (nabs N dn + nabs N dm)) then
        let* off := atm1 off m (n0 N) in
        Ret (new_start, off)
      else delim_start diag off eps m
  end.

(** src/eigh.rs:134-171, [delimit_subproblem]: (start, end, off_diag) *)
Definition delimit_subproblem (diag off : vec) (end_ : nat) (eps : N) : res (nat * nat * vec) :=
  let* n := delim_end diag off eps end_ in
  if n =?n 0 then Ret (0, 0, off)
  else
    let* ns := usub n 1 in
    let* (new_start, off) := delim_start diag off eps ns in
    Ret (new_start, n, off).

(** Loop state of the QR iteration: diag, off_diag, q_mat *)
Record eig_state := ES { es_diag : vec; es_off : vec; es_q : option mtx }.

(** Rotate the columns [c..c+2] of q_mat, if there is one (src/eigh.rs:89-94 and 116-121). *)
Definition rotate_q (g : givens N) (q : option mtx) (c : nat) : res (option mtx) :=
  match q with
  | None => Ret None
  | Some q =>
      let* s := slice q 0 (nr q) c (c + 2) in
      let* s := unwrap (rotate_rows g s) in
      Ret (Some (put q 0 c s))
  end.

(** src/eigh.rs:62-98: one iteration of the sweep, i in start..n; state ((x, y), es). *)
Definition eig_sweep_step (start n : nat) (i : nat) (st : N * N * eig_state)
  : res (bool * (N * N * eig_state)) :=
  let '(x, y, es) := st in
  let diag := es_diag es in
  let off := es_off es in
  let j := S i in
  match cancel_y x y with
  | Some (rot, norm) =>
      let* off := (if start <?n i then
                     let* i1 := usub i 1 in atm1 off i1 norm
                   else Ret off) in
      let cc := rc rot * rc rot in
      let ss := rs rot * rs rot in
      let cs := rc rot * rs rot in
      let* mii := at1 diag i in
      let* mjj := at1 diag j in
      let* mij := at1 off i in
      let b := cs * mij * ntwo in
      let* diag := atm1 diag i (cc * mii + ss * mjj - b) in
      let* diag := atm1 diag j (ss * mii + cc * mjj + b) in
      let* off := atm1 off i (cs * (mii - mjj) + mij * (cc - ss)) in
      let* n1_ := usub n 1 in
      let* (x, y, off) :=
        (if negb (i =?n n1_) then
           let* x := at1 off i in
           let* o := at1 off (S i) in
           let y := - rs rot * o in
           let* off := atm1 off (S i) (o * rc rot) in
           Ret (x, y, off)
         else Ret (x, y, off)) in
      let* q := rotate_q (inverse rot) (es_q es) i in
      Ret (true, (x, y, ES diag off q))
  | None => Ret (false, (x, y, es))
  end.

(** src/eigh.rs:55-102: the [subdim > 2] branch; returns the state and the new end *)
Definition eig_big (start end_ : nat) (eps : N) (es : eig_state) : res (eig_state * nat) :=
  let* m := usub end_ 1 in
  let n := end_ in
  let* ds := idx1 (es_diag es) start in
  let* dm := idx1 (es_diag es) m in
  let* dn := idx1 (es_diag es) n in
  let* om := idx1 (es_off es) m in
  let x := ds - wilkinson_shift dm dn om in
  let* y := idx1 (es_off es) start in
  let* (_, es) := for_brk (n - start) start (eig_sweep_step start n) ((x, y), es) in
  let* om := idx1 (es_off es) m in
  let* dm := idx1 (es_diag es) m in
  let* dn := idx1 (es_diag es) n in
  if (nabs N om <=? eps * (nabs N dm + nabs N dn)) then
    let* e := usub end_ 1 in Ret (es, e)
  else Ret (es, end_).

(** src/eigh.rs:103-123: the [subdim == 2] branch *)
Definition eig_two (start end_ : nat) (eps : N) (es : eig_state) : res (eig_state * nat) :=
  let* d0 := idx1 (es_diag es) start in
  let* o := idx1 (es_off es) start in
  let* d1 := idx1 (es_diag es) (start + 1) in
  let* (l1, l2) := unwrap_opt (compute_2x2_eigvals d0 o o d1) in
  let basis0 := l1 - d1 in
  let basis1 := o in
  let* diag := set1 (es_diag es) start l1 in
  let* diag := set1 diag (start + 1) l2 in
  let* q := (match es_q es, try_new basis0 basis1 eps with
             | Some q, Some (rot, _) => rotate_q rot (Some q) start
             | q, _ => Ret q
             end) in
  let* e := usub end_ 1 in
  Ret (ES diag (es_off es) q, e).

(** src/eigh.rs:51-128: the main loop, on fuel *)
Fixpoint eig_loop (fuel : nat) (eps : N) (start end_ : nat) (es : eig_state) : res eig_state :=
  if end_ =?n start then Ret es
  else
    match fuel with
    | 0 => OutOfFuel
    | S fuel =>
        let* d := usub end_ start in
        let subdim := S d in
        let* (es, e) :=
          (if 2 <?n subdim then eig_big start end_ eps es
           else if subdim =?n 2 then eig_two start end_ eps es
           else Ret (es, end_)) in
        let* (s', e', off') := delimit_subproblem (es_diag es) (es_off es) e eps in
        eig_loop fuel eps s' e' (ES (es_diag es) off' (es_q es))
    end.

(** src/eigh.rs:10-132, [symmetric_eig] *)
Definition symmetric_eig (fuel : nat) (matrix : mtx) (eigenvectors : bool) (eps : N)
  : res (vec * option mtx) :=
  let* dim := check_square matrix in
  if dim <?n 1 then Ret ([], if eigenvectors then Some (zeros 0 0) else None)
  else
    let amax := abs_max matrix in
    let matrix := scale_down matrix amax in
    let* td := sym_tridiagonal matrix in
    let* q := (if eigenvectors then let* q := tri_generate_q td in Ret (Some q) else Ret None) in
    let '(diag, off) := tri_into_diagonals td in
    if dim =?n 1 then Ret (vmap (fun x => x * amax) diag, q)
    else
      let* (start, end_, off) := delimit_subproblem diag off (dim - 1) eps in
      let* es := eig_loop fuel eps start end_ (ES diag off q) in
      Ret (vmap (fun x => x * amax) (es_diag es), es_q es).

(** src/eigh.rs:214-217, [eigh_into]; 233-235, [eigh] *)
Definition eigh (fuel : nat) (m : mtx) : res (vec * mtx) :=
  let* (vals, vecs) := symmetric_eig fuel m true (nepsilon N) in
  let* v := unwrap_opt vecs in
  Ret (vals, v).

(** src/eigh.rs:249-251, [eigvalsh_into]; 265-267, [eigvalsh] *)
Definition eigvalsh (fuel : nat) (m : mtx) : res vec :=
  let* (vals, _) := symmetric_eig fuel m false (nepsilon N) in Ret vals.

(** ** Sorting *)

(** src/eigh.rs:326-328, [cmp_floats] *)
Definition cmp_floats (a b : N) : res comparison := unwrap_opt (ncmp a b).

(** Rust's [slice::sort_by] is a stable sort; for a total preorder the result of a stable sort is
    unique, so insertion sort stands for it.  A panic of the comparator propagates. *)
Section Sort.
Context {A : Type} (cmp : A -> A -> res comparison).
Fixpoint insert (x : A) (l : list A) : res (list A) :=
  match l with
  | [] => Ret [x]
  | y :: l' =>
      let* c := cmp x y in
      match c with
      | Gt => let* r := insert x l' in Ret (y :: r)
      | _ => Ret (x :: y :: l')
      end
  end.
Fixpoint sort_by (l : list A) : res (list A) :=
  match l with
  | [] => Ret []
  | x :: l' => let* r := sort_by l' in insert x r
  end.
End Sort.

(** Comparator for [order]: src/eigh.rs:295-298. *)
Definition order_cmp (order : Order) (a b : N) : res comparison :=
  match order with Largest => cmp_floats b a | Smallest => cmp_floats a b end.

(** src/eigh.rs:290-301, [EigSort for Array1] (standard layout, so [as_slice_mut] succeeds) *)
Definition sort_vals (vals : vec) (order : Order) : res vec := sort_by (order_cmp order) vals.

(** [vals.iter().copied().enumerate().collect()] *)
Definition enumerate {A} (v : list A) : list (nat * A) := combine (seq 0 (length v)) v.

(** src/eigh.rs:304-323, [EigSort for (Array1, Array2)] *)
Definition sort_idx (vals : vec) (order : Order) : res (list (nat * N)) :=
  sort_by (fun a b => order_cmp order (snd a) (snd b)) (enumerate vals).
Definition assign_cols (src dst : mtx) (ix : list nat) : res mtx :=
  for_ (length ix) 0 (fun k out =>
    let* c := column src (nth k ix 0%nat) in
    if k <?n nc out then Ret (put_col out 0 k c) else Panicked) dst.
Definition sort_eig (vals : vec) (vecs : mtx) (order : Order) : res (vec * mtx) :=
  let* value_idx := sort_idx vals order in
  let* out := assign_cols vecs (zeros (nr vecs) (nc vecs)) (map fst value_idx) in
  Ret (map snd value_idx, out).

End MEigh.
Arguments eig_state N : clear implicits.
