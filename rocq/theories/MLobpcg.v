(** * Model of lobpcg/algorithm.rs, lobpcg/eig.rs and lobpcg/svd.rs *)
From Coq Require Import List Arith Lia Bool ZArith.
From Verif Require Import Scalar Arr MBase MDirect MDecomp MEigh.
Import ListNotations.
Local Open Scope nat_scope.
Open Scope res_scope.

(** [match m { Ok(a) => k(a), Err(e) => h(e) }]; panics propagate. *)
Definition catch {A B} (m : res A) (k : A -> res B) (h : lerr -> res B) : res B :=
  match m with
  | Ret a => k a
  | Err e => h e
  | Panicked => Panicked
  | OutOfBounds => OutOfBounds
  | OutOfFuel => OutOfFuel
  end.
(** [m.ok()] *)
Definition ok_ {A} (m : res A) : res (option A) :=
  catch m (fun a => Ret (Some a)) (fun _ => Ret None).

Section MLobpcg.
Context {N : Num}.
Notation vec := (list N).
Notation mtx := (mat N).
Local Open Scope num_scope.
Local Infix "<?n" := Nat.ltb (at level 70).
Local Infix "<=?n" := Nat.leb (at level 70).
Local Infix "=?n" := Nat.eqb (at level 70).

(** ndarray operators on matrices of the same shape.  A shape mismatch is a panic (ndarray would
    broadcast an operand with a unit axis; the crate only combines equal shapes). *)
Definition mzip (f : N -> N -> N) (a b : mtx) : res mtx :=
  if (nr a =?n nr b) && (nc a =?n nc b)
  then Ret (mk (nr a) (nc a) (fun i j => f (get a i j) (get b i j))) else Panicked.
(** [m * v] with a 1D array v: broadcast over the rows, column j is multiplied by v[j] *)
Definition col_scale (m : mtx) (v : vec) : res mtx :=
  if nc m =?n length v
  then Ret (mk (nr m) (nc m) (fun i j => get m i j * vget v j)) else Panicked.
(** [concatenate![Axis(1), a, b]] and [concatenate![Axis(0), a, b]] *)
Definition hcat (a b : mtx) : res mtx :=
  if nr a =?n nr b
  then Ret (mk (nr a) (nc a + nc b) (fun i j => if j <?n nc a then get a i j else get b i (j - nc a)))
  else Panicked.
Definition vcat (a b : mtx) : res mtx :=
  if nc a =?n nc b
  then Ret (mk (nr a + nr b) (nc a) (fun i j => if i <?n nr a then get a i j else get b (i - nr a) j))
  else Panicked.
Definition hcat3 (a b c : mtx) : res mtx := let* ab := hcat a b in hcat ab c.
Definition vcat3 (a b c : mtx) : res mtx := let* ab := vcat a b in vcat ab c.
(** [v.slice_move(s![..n])] *)
Definition vtake (v : vec) (n : nat) : res vec :=
  if n <=?n length v then Ret (vmk n (vget v)) else Panicked.
(** [(&m + &m.t()) / two] *)
Definition symmetrize (m : mtx) : res mtx :=
  let* s := mzip (nadd N) m (transpose m) in Ret (mmap (fun x => x / ntwo) s).

(** src/lobpcg/algorithm.rs:16-25, [generalized_eig]; the literal 1e-10f32 is 14411519 / 2^57 *)
Definition generalized_eig (fuel : nat) (a b : mtx) : res (vec * mtx) :=
  let* (vals_b, vecs_b) := eigh fuel b in
  let vals_b_recip := vmap (fun x =>
      n1 N / nsqrt N (nmax N x (nofQ N 14411519%Z 144115188075855872%positive))) vals_b in
  let* vecs_b_tilde := col_scale vecs_b vals_b_recip in
  let* av := dot2 a vecs_b_tilde in
  let* a_tilde := dot2 (transpose vecs_b_tilde) av in
  let* (vals_a, vecs_a) := eigh fuel a_tilde in
  let* vecs := dot2 vecs_b_tilde vecs_a in
  Ret (vals_a, vecs).

(** src/lobpcg/algorithm.rs:28-44, [sorted_eig]; [vecs.row(0)] panics on an empty matrix *)
Definition sorted_eig (fuel : nat) (a : mtx) (b : option mtx) (size : nat) (order : Order)
  : res (vec * mtx) :=
  let* (vals, vecs) := (match b with
                        | Some b => generalized_eig fuel a b
                        | None => eigh fuel a
                        end) in
  let* (vals, vecs) := sort_eig vals vecs order in
  let* row0 := column (transpose vecs) 0 in
  let s := vmap (nsignum N) row0 in
  let* vecs := col_scale vecs s in
  let* vals := vtake vals size in
  let* vecs := slice vecs 0 (nr vecs) 0 size in
  Ret (vals, vecs).

(** src/lobpcg/algorithm.rs:47-58, [ndarray_mask] *)
Definition mask_indices (mask : list bool) : list nat :=
  map fst (filter snd (enumerate mask)).
Definition ndarray_mask (m : mtx) (mask : list bool) : res mtx :=
  if length mask =?n nc m then select_cols m (mask_indices mask) else Panicked.

(** src/lobpcg/algorithm.rs:63-76, [apply_constraints] *)
Definition apply_constraints (v cholesky_yy y : mtx) : res mtx :=
  let* gram_yv := dot2 (transpose y) v in
  let* u := unwrap (solve_triangular cholesky_yy gram_yv Lower) in
  gemm1 (- n1 N) y u v.

(** src/lobpcg/algorithm.rs:81-97, [orthonormalize] *)
Definition orthonormalize (v : mtx) : res (mtx * mtx) :=
  let* gram_vv := dot2 (transpose v) v in
  let* fac := cholesky gram_vv in
  let* u := solve_triangular fac (transpose v) Lower in
  Ret (transpose u, fac).

(** src/lobpcg/mod.rs:47-52, [Lobpcg] and [LobpcgResult] *)
Record lobpcg_out := Lob { eigvals : vec; eigvecs : mtx; rnorm : vec }.
Inductive lres := LOk (l : lobpcg_out) | LErr (e : lerr) (l : option lobpcg_out).

(** [iter().cloned().sum()] *)
Definition vsum (v : vec) : N := fold_left (nadd N) v (n0 N).

(** Norms of the columns of the residual: src/lobpcg/algorithm.rs:202-206 *)
Definition col_norms (r : mtx) : vec :=
  vmk (nc r) (fun j => norm_l2 (vmk (nr r) (fun i => get r i j))).

(** Loop state.  [l_hist] (all iterates with their residual norms, oldest first) and [l_calls]
    (number of operator calls) are ghost: they are only ever written.  The variables [ident] and
    [previous_block_size] of the source satisfy ident = eye(current_block_size) after lines
    228-231 and are not carried. *)
Record lstate := LS {
  l_lambda : vec; l_x : mtx; l_ax : mtx; l_mask : list bool;
  l_best : option (vec * mtx * vec);
  l_prev : option (mtx * mtx); l_flag : bool;
  l_hist : list (vec * mtx * vec); l_calls : nat }.

(** Result of the main loop: the state at the [break], and [Ok]/[Err] of the loop *)
Definition lfinal := (lstate * option lerr)%type.

(** src/lobpcg/algorithm.rs:195-217: residual, norms and best result *)
Definition lob_measure (st : lstate) : res (mtx * vec * mtx * lstate) :=
  let lambda_diag := from_diag (l_lambda st) in
  let* lambda_x := dot2 (l_x st) lambda_diag in
  let* r := mzip (nsub N) (l_ax st) lambda_x in
  let residual_norms := col_norms r in
  let sum_rnorm := vsum residual_norms in
  let better := match l_best st with
                | Some (_, _, rn) => (sum_rnorm <? vsum rn)
                | None => true
                end in
  let cur := (l_lambda st, l_x st, residual_norms) in
  let best := if better then Some cur else l_best st in
  Ret (r, residual_norms, lambda_diag,
       LS (l_lambda st) (l_x st) (l_ax st) (l_mask st) best (l_prev st) (l_flag st)
          (l_hist st ++ [cur]) (l_calls st)).

(** src/lobpcg/algorithm.rs:302-316: mask and orthonormalize P and AP *)
Definition lob_p_ap (prev : option (mtx * mtx)) (mask : list bool) : res (option (mtx * mtx)) :=
  match prev with
  | None => Ret None
  | Some (p, ap) =>
      let* active_p := ndarray_mask p mask in
      let* active_ap := ndarray_mask ap mask in
      let* o := ok_ (orthonormalize active_p) in
      match o with
      | None => Ret None
      | Some (active_p, p_r) =>
          let* o := ok_ (solve_triangular p_r (transpose active_ap) Lower) in
          match o with
          | None => Ret None
          | Some t => Ret (Some (active_p, transpose t))
          end
      end
  end.

(** src/lobpcg/algorithm.rs:279-299: the Gram blocks; result (rar, xax, xx, rr, xr) *)
Definition lob_grams (flag : bool) (x ax r rar lambda_diag : mtx) (cbs : nat)
  : res (mtx * mtx * mtx * mtx * mtx) :=
  if flag then
    let* rar := symmetrize rar in
    let* xax := dot2 (transpose x) ax in
    let* xax := symmetrize xax in
    let* xx := dot2 (transpose x) x in
    let* rr := dot2 (transpose r) r in
    let* xr := dot2 (transpose x) r in
    Ret (rar, xax, xx, rr, xr)
  else Ret (rar, lambda_diag, eye (nc x), eye cbs, zeros (nc x) cbs).

(** src/lobpcg/algorithm.rs:325-353: Rayleigh-Ritz on span{X, R, P} *)
Definition lob_rr3 (fuel : nat) (flag : bool) (x r xax xar rar xx rr xr active_p active_ap : mtx)
  (cbs size_x : nat) (order : Order) : res (vec * mtx) :=
  let* xap := dot2 (transpose x) active_ap in
  let* rap := dot2 (transpose r) active_ap in
  let* pap := dot2 (transpose active_p) active_ap in
  let* xp := dot2 (transpose x) active_p in
  let* rp := dot2 (transpose r) active_p in
  let* (pap, pp) := (if flag : bool then
      let* pap := symmetrize pap in
      let* pp := dot2 (transpose active_p) active_p in Ret (pap, pp)
    else Ret (pap, eye cbs)) in
  let* a0 := hcat3 xax xar xap in
  let* a1 := hcat3 (transpose xar) rar rap in
  let* a2 := hcat3 (transpose xap) (transpose rap) pap in
  let* a := vcat3 a0 a1 a2 in
  let* b0 := hcat3 xx xr xp in
  let* b1 := hcat3 (transpose xr) rr rp in
  let* b2 := hcat3 (transpose xp) (transpose rp) pp in
  let* b := vcat3 b0 b1 b2 in
  sorted_eig fuel a (Some b) size_x order.

(** src/lobpcg/algorithm.rs:354-371: Rayleigh-Ritz on span{X, R} *)
Definition lob_rr2 (fuel : nat) (xax xar rar xx rr xr : mtx) (size_x : nat) (order : Order)
  : res (vec * mtx) :=
  let* a0 := hcat xax xar in
  let* a1 := hcat (transpose xar) rar in
  let* a := vcat a0 a1 in
  let* b0 := hcat xx xr in
  let* b1 := hcat (transpose xr) rr in
  let* b := vcat b0 b1 in
  sorted_eig fuel a (Some b) size_x order.

(** src/lobpcg/algorithm.rs:322-371: the first attempt, and the fallback on any error.
    Result: the p_ap kept and the eigenpairs or the error. *)
Definition lob_rr (fuel : nat) (flag : bool) (p_ap : option (mtx * mtx))
  (x r xax xar rar xx rr xr : mtx) (cbs size_x : nat) (order : Order)
  : res (option (mtx * mtx) * (lerr + vec * mtx)) :=
  let second := fun _ : lerr =>
    catch (lob_rr2 fuel xax xar rar xx rr xr size_x order)
      (fun s => Ret (None, inr s)) (fun e => Ret (None, inl e)) in
  match p_ap with
  | None => second NonInvertible
  | Some (active_p, active_ap) =>
      catch (lob_rr3 fuel flag x r xax xar rar xx rr xr active_p active_ap cbs size_x order)
        (fun s => Ret (p_ap, inr s)) second
  end.

(** src/lobpcg/algorithm.rs:384-412: new X, AX, P, AP; result (x, ax, p, ap) *)
Definition lob_update (p_ap : option (mtx * mtx)) (x ax r ar eig_vecs : mtx) (cbs size_x : nat)
  : res (mtx * mtx * mtx * mtx) :=
  let* (p, ap, tau) := (match p_ap with
    | Some (active_p, active_ap) =>
        let* tau := slice eig_vecs 0 size_x 0 (nc eig_vecs) in
        let* alpha := slice eig_vecs size_x (size_x + cbs) 0 (nc eig_vecs) in
        let* gamma := slice eig_vecs (size_x + cbs) (nr eig_vecs) 0 (nc eig_vecs) in
        let* ra := dot2 r alpha in
        let* pg := dot2 active_p gamma in
        let* p := mzip (nadd N) ra pg in
        let* ara := dot2 ar alpha in
        let* apg := dot2 active_ap gamma in
        let* ap := mzip (nadd N) ara apg in
        Ret (p, ap, tau)
    | None =>
        let* tau := slice eig_vecs 0 size_x 0 (nc eig_vecs) in
        let* alpha := slice eig_vecs size_x (nr eig_vecs) 0 (nc eig_vecs) in
        let* p := dot2 r alpha in
        let* ap := dot2 ar alpha in
        Ret (p, ap, tau)
    end) in
  let* xt := dot2 x tau in
  let* x := mzip (nadd N) xt p in
  let* axt := dot2 ax tau in
  let* ax := mzip (nadd N) axt ap in
  Ret (x, ax, p, ap).

Definition count_true (l : list bool) : nat := length (filter (fun b : bool => b) l).

(** src/lobpcg/algorithm.rs:264-269: 1.0 for f32, 1e-8 for f64 *)
Definition max_rnorm_float : N :=
  if (nofQ N 1%Z 100000000%positive <? nepsilon N) then nofQ N 1%Z 1%positive
  else nofQ N 1%Z 100000000%positive.

Section Loop.
(** The caller's operator and preconditioner, and the constraints with their Cholesky factor. *)
Context (fuel : nat) (a : mtx -> res mtx) (m : mtx -> res mtx) (yc : option (mtx * mtx))
        (tol : N) (size_x : nat) (order : Order).

(** [m(active_block_r.view_mut())]: works in place through a view, so the shape stays. *)
Definition precond (r : mtx) : res mtx :=
  let* r' := m r in Ret (mk (nr r) (nc r) (get r')).

(** src/lobpcg/algorithm.rs:239-416: the part of an iteration after the exit test *)
Definition lob_body (r lambda_diag : mtx) (residual_norms : vec) (cbs : nat) (st : lstate)
  : res (lstate * option lerr) :=
  let x := l_x st in
  let ax := l_ax st in
  let mask := l_mask st in
  let* active := ndarray_mask r mask in
  let* active := precond active in
  let* active := (match yc with
                  | Some (y, cyy) => apply_constraints active cyy y
                  | None => Ret active
                  end) in
  let* xtr := dot2 (transpose x) active in
  let* active := gemm1 (- n1 N) x xtr active in
  catch (orthonormalize active) (fun '(r, _) =>
    let* ar := a r in
    let calls := S (l_calls st) in
    let max_norm := fold_left (nmax N) residual_norms (nneg_inf N) in
    let flag := (max_norm <=? max_rnorm_float) || l_flag st in
    let* xar := dot2 (transpose x) ar in
    let* rar := dot2 (transpose r) ar in
    let* (rar, xax, xx, rr, xr) := lob_grams flag x ax r rar lambda_diag cbs in
    let* p_ap := lob_p_ap (l_prev st) mask in
    let* (p_ap, result) := lob_rr fuel flag p_ap x r xax xar rar xx rr xr cbs size_x order in
    match result with
    | inl e =>
        Ret (LS (l_lambda st) x ax mask (l_best st) (l_prev st) flag (l_hist st) calls, Some e)
    | inr (lambda, eig_vecs) =>
        let* (x, ax, p, ap) := lob_update p_ap x ax r ar eig_vecs cbs size_x in
        Ret (LS lambda x ax mask (l_best st) (Some (p, ap)) flag (l_hist st) calls, None)
    end)
  (fun e => Ret (st, Some e)).

(** src/lobpcg/algorithm.rs:193-417: the loop, recursive on the remaining iterations *)
Fixpoint lob_loop (iter : nat) (st : lstate) : res lfinal :=
  let* (r, residual_norms, lambda_diag, st) := lob_measure st in
  let mask := map (fun '(x, act) => (tol <? x) && act) (combine residual_norms (l_mask st)) in
  let st := LS (l_lambda st) (l_x st) (l_ax st) mask (l_best st) (l_prev st) (l_flag st)
               (l_hist st) (l_calls st) in
  let cbs := count_true mask in
  match iter with
  | 0 => Ret (st, None)
  | S iter' =>
      if cbs =?n 0 then Ret (st, None)
      else
        let* (st, e) := lob_body r lambda_diag residual_norms cbs st in
        match e with
        | Some e => Ret (st, Some e)
        | None => lob_loop iter' st
        end
  end.
End Loop.

(** src/lobpcg/algorithm.rs:119-431, [lobpcg], with the ghost final state alongside the result *)
Definition lobpcg_trace (fuel : nat) (a : mtx -> res mtx) (x : mtx) (m : mtx -> res mtx)
  (y : option mtx) (tol : N) (maxiter : nat) (order : Order) : res (lres * option lstate) :=
  let n := nr x in
  let size_x := nc x in
  if n <?n size_x then Ret (LErr (NotThin n size_x) None, None)
  else
    let iter := Nat.min (n * 10) maxiter in
    let* (x, yc) := (match y with
      | None => Ret (x, None)
      | Some y =>
          let* yy := dot2 (transpose y) y in
          let* cyy := unwrap (cholesky yy) in
          let* x := apply_constraints x cyy y in
          Ret (x, Some (y, cyy))
      end) in
    catch (orthonormalize x) (fun '(x, _) =>
      let* ax := a x in
      let* xax := dot2 (transpose x) ax in
      catch (sorted_eig fuel xax None size_x order) (fun '(lambda, eig_block) =>
        let* x := dot2 x eig_block in
        let* ax := dot2 ax eig_block in
        let st := LS lambda x ax (repeat true size_x) None None true [] 1 in
        let* (st, e) := lob_loop fuel a m yc tol size_x order iter st in
        let* (vals, vecs, rn) := unwrap_opt (l_best st) in
        let out := Lob vals vecs rn in
        match e with
        | None => Ret (LOk out, Some st)
        | Some e => Ret (LErr e (Some out), Some st)
        end)
      (fun e => Ret (LErr e None, None)))
    (fun e => Ret (LErr e None, None)).

Definition lobpcg (fuel : nat) (a : mtx -> res mtx) (x : mtx) (m : mtx -> res mtx)
  (y : option mtx) (tol : N) (maxiter : nat) (order : Order) : res lres :=
  let* (r, _) := lobpcg_trace fuel a x m y tol maxiter order in Ret r.

(** ** The random number generator: an arbitrary state with a draw function *)
Section Rng.
Context {G : Type} (draw : G -> N * G).

Fixpoint draws (n : nat) (g : G) : vec * G :=
  match n with
  | 0 => ([], g)
  | S k => let '(x, g) := draw g in let '(l, g) := draws k g in (x :: l, g)
  end.
(** src/lobpcg/mod.rs:30-38, [random] and the following [mapv(NumCast::from)] *)
Definition random (r c : nat) (g : G) : mtx * G :=
  let '(l, g) := draws (r * c) g in
  (mk r c (fun i j => vget l (i * c + j)), g).

(** ** lobpcg/eig.rs *)

(** src/lobpcg/eig.rs:40-48 *)
Record truncated_eig := TE {
  te_order : Order; te_problem : mtx; te_constraints : option mtx;
  te_precond : option mtx; te_precision : N; te_maxiter : nat; te_rng : G }.

(** src/lobpcg/eig.rs:57-67 *)
Definition te_new (problem : mtx) (order : Order) (rng : G) : truncated_eig :=
  TE order problem None None (nofQ N 1%Z 100000%positive) (nr problem * 2) rng.
(** src/lobpcg/eig.rs:79-113, the builder methods *)
Definition te_set_precision (t : truncated_eig) (p : N) : truncated_eig :=
  TE (te_order t) (te_problem t) (te_constraints t) (te_precond t) p (te_maxiter t) (te_rng t).
Definition te_set_maxiter (t : truncated_eig) (n : nat) : truncated_eig :=
  TE (te_order t) (te_problem t) (te_constraints t) (te_precond t) (te_precision t) n (te_rng t).
Definition te_orthogonal_to (t : truncated_eig) (c : mtx) : truncated_eig :=
  TE (te_order t) (te_problem t) (Some c) (te_precond t) (te_precision t) (te_maxiter t) (te_rng t).
Definition te_precondition_with (t : truncated_eig) (p : mtx) : truncated_eig :=
  TE (te_order t) (te_problem t) (te_constraints t) (Some p) (te_precision t) (te_maxiter t) (te_rng t).
Definition te_set_rng (t : truncated_eig) (g : G) : truncated_eig :=
  TE (te_order t) (te_problem t) (te_constraints t) (te_precond t) (te_precision t) (te_maxiter t) g.

(** [|mut y| y.assign(&preconditioner.dot(&y))]: assign panics on a shape mismatch
    (broadcasting of a one-row product is treated as a panic) *)
Definition precond_fn (p : option mtx) (y : mtx) : res mtx :=
  match p with
  | None => Ret y
  | Some p => let* py := dot2 p y in
              if (nr py =?n nr y) && (nc py =?n nc y) then Ret py else Panicked
  end.

(** src/lobpcg/eig.rs:138-172, [decompose]; the random state changes also in the caller's struct *)
Definition te_decompose (fuel : nat) (t : truncated_eig) (num : nat) : res (lres * truncated_eig) :=
  if num =?n 0 then Ret (LOk (Lob [] (zeros 0 0) []), t)
  else
    let '(x, g) := random (nr (te_problem t)) num (te_rng t) in
    let t := te_set_rng t g in
    let* r := lobpcg fuel (fun y => dot2 (te_problem t) y) x (precond_fn (te_precond t))
                (te_constraints t) (te_precision t) (te_maxiter t) (te_order t) in
    Ret (r, t).

(** src/lobpcg/eig.rs:220-224 *)
Record teig_iter := TI { ti_step : nat; ti_remaining : nat; ti_eig : truncated_eig }.

(** src/lobpcg/eig.rs:179-185 *)
Definition into_iter (t : truncated_eig) : teig_iter := TI 1 (nr (te_problem t)) t.
(** src/lobpcg/eig.rs:189-191 and 227-237 *)
Definition into_iter_step_size (t : truncated_eig) (step : nat) : res teig_iter :=
  if step <?n 1 then Panicked else Ret (TI step (nr (te_problem t)) t).

(** [stack(Axis(1), columns of a then columns of b).unwrap()]: an empty list of columns or
    columns of different lengths is an error *)
Definition stack_cols (a b : mtx) : res mtx :=
  if (nc a + nc b =?n 0)%nat then Panicked
  else if nc a =?n 0 then Ret b
  else if nc b =?n 0 then Ret a
  else hcat a b.

(** src/lobpcg/eig.rs:243-292, [Iterator::next]: the item and the new iterator *)
Definition ti_next (fuel : nat) (it : teig_iter) : res (option (vec * mtx) * teig_iter) :=
  if ti_remaining it =?n 0 then Ret (None, it)
  else
    let step_size := Nat.min (ti_step it) (ti_remaining it) in
    let* (r, eig) := te_decompose fuel (ti_eig it) step_size in
    let stop := TI (ti_step it) (ti_remaining it) eig in
    let go := fun l : lobpcg_out =>
      if existsb (fun rn => (nofQ N 1%Z 10%positive <? rn)) (rnorm l) then Ret (None, stop)
      else
        let* nc_ := (match te_constraints eig with
                     | Some c => stack_cols c (eigvecs l)
                     | None => Ret (eigvecs l)
                     end) in
        let* rem := usub (ti_remaining it) step_size in
        Ret (Some (eigvals l, eigvecs l), TI (ti_step it) rem (te_orthogonal_to eig nc_)) in
    match r with
    | LOk l => go l
    | LErr _ (Some l) => go l
    | LErr _ None => Ret (None, stop)
    end.

(** ** lobpcg/svd.rs *)

(** src/lobpcg/svd.rs:107-113 *)
Record truncated_svd := TS {
  ts_order : Order; ts_problem : mtx; ts_precision : N; ts_maxiter : nat; ts_rng : G }.
(** src/lobpcg/svd.rs:122-130 *)
Definition ts_new (problem : mtx) (order : Order) (rng : G) : truncated_svd :=
  TS order problem (nofQ N 1%Z 100000%positive) (nr problem * 2) rng.
(** src/lobpcg/svd.rs:139-153, the builder methods *)
Definition ts_set_precision (t : truncated_svd) (p : N) : truncated_svd :=
  TS (ts_order t) (ts_problem t) p (ts_maxiter t) (ts_rng t).
Definition ts_set_maxiter (t : truncated_svd) (n : nat) : truncated_svd :=
  TS (ts_order t) (ts_problem t) (ts_precision t) n (ts_rng t).

End Rng.

(** src/lobpcg/svd.rs:19-25 *)
Record tsvd_result := TSR {
  tr_eigvals : vec; tr_eigvecs : mtx; tr_problem : mtx; tr_order : Order; tr_ngm : bool }.

(** src/lobpcg/svd.rs:178-241, [decompose] *)
Definition ts_decompose {G} (draw : G -> N * G) (fuel : nat) (t : @truncated_svd G) (num : nat)
  : res tsvd_result :=
  if num =?n 0 then Ret (TSR [] (zeros 0 0) (zeros 0 0) (ts_order t) false)
  else
    let p := ts_problem t in
    let n := nr p in
    let mm := nc p in
    let '(x, _) := random draw (Nat.min n mm) num (ts_rng t) in
    let precision := ts_precision t * ts_precision t in
    let op := if mm <?n n
              then fun y => let* z := dot2 p y in dot2 (transpose p) z
              else fun y => let* z := dot2 (transpose p) y in dot2 p z in
    let* r := lobpcg fuel op x (fun y => Ret y) None precision (ts_maxiter t) (ts_order t) in
    match r with
    | LOk l => Ret (TSR (eigvals l) (eigvecs l) p (ts_order t) (mm <?n n))
    | LErr _ (Some l) => Ret (TSR (eigvals l) (eigvecs l) p (ts_order t) (mm <?n n))
    | LErr e None => Err e
    end.

(** src/lobpcg/svd.rs:29-59, [singular_values_with_indices]; [correction] is
    [MagnitudeCorrection::correction()] (lines 249-263: 1e3 for f32, 1e6 for f64) *)
Definition singular_values_with_indices (correction : N) (t : tsvd_result) : res (vec * list nat) :=
  let* a := sort_idx (tr_eigvals t) (tr_order t) in
  match tr_order t with
  | Largest =>
      let* top := (match a with [] => Panicked | (_, x) :: _ => Ret x end) in
      let cutoff := nepsilon N * correction * top in
      let a := filter (fun '(_, x) => (cutoff <? x)) a in
      Ret (map (fun '(_, b) => nsqrt N b) a, map fst a)
  | Smallest => Ret (map (fun '(_, b) => nsqrt N b) a, map fst a)
  end.

(** src/lobpcg/svd.rs:62-66 *)
Definition ts_values (correction : N) (t : tsvd_result) : res vec :=
  let* (values, _) := singular_values_with_indices correction t in Ret values.

(** [m.columns_mut().zip(values).for_each(|(a, b)| a.mapv_inplace(|x| x / b))] *)
Definition col_div (m : mtx) (v : vec) : mtx :=
  mk (nr m) (nc m) (fun i j => if j <?n length v then get m i j / vget v j else get m i j).

(** src/lobpcg/svd.rs:69-99: (u, values, v^T) *)
Definition ts_values_vectors (correction : N) (t : tsvd_result) : res (mtx * vec * mtx) :=
  let* (values, indices) := singular_values_with_indices correction t in
  if tr_ngm t then
    let* vlarge := select_cols (tr_eigvecs t) indices in
    let* ularge := dot2 (tr_problem t) vlarge in
    Ret (col_div ularge values, values, transpose vlarge)
  else
    let* ularge := select_cols (tr_eigvecs t) indices in
    let* vlarge := dot2 (transpose (tr_problem t)) ularge in
    Ret (ularge, values, transpose (col_div vlarge values)).

End MLobpcg.
Arguments lobpcg_out N : clear implicits.
Arguments lres N : clear implicits.
Arguments lstate N : clear implicits.
Arguments tsvd_result N : clear implicits.
