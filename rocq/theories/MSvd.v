(** * Model of svd.rs *)
From Coq Require Import List Arith Lia Bool ZArith.
From Verif Require Import Scalar Arr MBase MDirect MDecomp MEigh.
Import ListNotations.
Local Open Scope nat_scope.
Open Scope res_scope.

Section MSvd.
Context {N : Num}.
Notation vec := (list N).
Notation mtx := (mat N).
Local Open Scope num_scope.
Local Infix "<?n" := Nat.ltb (at level 70).
Local Infix "<=?n" := Nat.leb (at level 70).
Local Infix "=?n" := Nat.eqb (at level 70).

(** Loop state: diag, off_diag, u, vt *)
Record svd_state := SS { sd : vec; so : vec; su : option mtx; sv : option mtx }.

(** [rot.rotate_rows(&mut u.slice_mut(s![.., lo..=hi;step])).unwrap()] *)
Definition rot_u_stride (g : givens N) (u : option mtx) (lo hi step : nat) : res (option mtx) :=
  match u with
  | None => Ret None
  | Some u =>
      let* (s, ix) := cols_stride u lo hi step in
      let* s := unwrap (rotate_rows g s) in
      Ret (Some (put_cols u ix s))
  end.
(** [rot.rotate_cols(&mut vt.slice_mut(s![lo..=hi;step, ..])).unwrap()], through the transpose *)
Definition rot_vt_stride (g : givens N) (vt : option mtx) (lo hi step : nat) : res (option mtx) :=
  match vt with
  | None => Ret None
  | Some vt =>
      let t := transpose vt in
      let* (s, ix) := cols_stride t lo hi step in
      let* s := unwrap (rotate_cols g (transpose s)) in
      Ret (Some (transpose (put_cols t ix (transpose s))))
  end.
(** [rot.rotate_rows(&mut u.slice_mut(s![.., k..k + 2])).unwrap()] *)
Definition rot_u (g : givens N) (u : option mtx) (k : nat) : res (option mtx) := rotate_q g u k.
(** [rot.rotate_cols(&mut vt.slice_mut(s![k..k + 2, ..])).unwrap()] *)
Definition rot_vt (g : givens N) (vt : option mtx) (k : nat) : res (option mtx) :=
  match vt with
  | None => Ret None
  | Some vt =>
      let* s := slice vt k (k + 2) 0 (nc vt) in
      let* s := unwrap (rotate_cols g s) in
      Ret (Some (put vt k 0 s))
  end.

(** src/svd.rs:289-327, [cancel_horizontal_off_diagonal_elt] *)
Definition cancel_horizontal (is_upper : bool) (i end_ : nat) (st : svd_state) : res svd_state :=
  let* v0 := idx1 (so st) i in
  let* v1 := idx1 (sd st) (i + 1) in
  let* off := set1 (so st) i (n0 N) in
  let* (_, st) := for_brk (end_ - i) i (fun k s =>
    let '(v0, v1, st) := (s : N * N * svd_state) in
    match cancel_x v0 v1 with
    | Some (rot, norm) =>
        let* d := atm1 (sd st) (k + 1) norm in
        let* u := (if is_upper then rot_u_stride (inverse rot) (su st) i (k + 1) (k - i + 1)
                   else Ret (su st)) in
        let* vt := (if is_upper then Ret (sv st)
                    else rot_vt_stride rot (sv st) i (k + 1) (k - i + 1)) in
        if negb (k + 1 =?n end_)%nat then
          let* o := at1 (so st) (k + 1) in
          let* d2 := at1 d (k + 2) in
          let* off := atm1 (so st) (k + 1) (o * rc rot) in
          Ret (true, (- rs rot * o, d2, SS d off u vt))
        else Ret (true, (v0, v1, SS d (so st) u vt))
    | None => Ret (false, (v0, v1, st))
    end) ((v0, v1), SS (sd st) off (su st) (sv st)) in
  Ret st.

(** src/svd.rs:329-366, [cancel_vertical_off_diagonal_elt] *)
Definition cancel_vertical (is_upper : bool) (i : nat) (st : svd_state) : res svd_state :=
  let* v0 := idx1 (sd st) i in
  let* v1 := idx1 (so st) i in
  let* off := set1 (so st) i (n0 N) in
  let* (_, st) := for_rev_brk (i + 1) (fun k s =>
    let '(v0, v1, st) := (s : N * N * svd_state) in
    match cancel_y v0 v1 with
    | Some (rot, norm) =>
        let* d := atm1 (sd st) k norm in
        let* vt := (if is_upper then rot_vt_stride rot (sv st) k (i + 1) (i - k + 1)
                    else Ret (sv st)) in
        let* u := (if is_upper then Ret (su st)
                   else rot_u_stride (inverse rot) (su st) k (i + 1) (i - k + 1)) in
        if 0 <?n k then
          let* k1 := usub k 1 in
          let* d1 := at1 d k1 in
          let* o := at1 (so st) k1 in
          let* off := atm1 (so st) k1 (o * rc rot) in
          Ret (true, (d1, rs rot * o, SS d off u vt))
        else Ret (true, (v0, v1, SS d (so st) u vt))
    | None => Ret (false, (v0, v1, st))
    end) ((v0, v1), SS (sd st) off (su st) (sv st)) in
  Ret st.

(** src/svd.rs:235-258: first loop of [delimit_subproblem] *)
Fixpoint svd_delim_end (is_upper : bool) (eps : N) (n : nat) (st : svd_state)
  : res (nat * svd_state) :=
  match n with
  | 0 => Ret (0, st)
  | S m =>
      let* o := at1 (so st) m in
      let* dn := at1 (sd st) n in
      let* dm := at1 (sd st) m in
      if nis_zero N o || (nabs N o <=? eps * (nabs N dn + nabs N dm)) then
        let* off := atm1 (so st) m (n0 N) in
        svd_delim_end is_upper eps m (SS (sd st) off (su st) (sv st))
      else if (nabs N dm <=? eps) then
        let* d := atm1 (sd st) m (n0 N) in
        let* st := cancel_horizontal is_upper m (m + 1) (SS d (so st) (su st) (sv st)) in
        let* st := (if negb (m =?n 0) then
                      let* m1 := usub m 1 in cancel_vertical is_upper m1 st
                    else Ret st) in
        svd_delim_end is_upper eps m st
      else if (nabs N dn <=? eps) then
        let* d := atm1 (sd st) n (n0 N) in
        let* st := cancel_vertical is_upper m (SS d (so st) (su st) (sv st)) in
        svd_delim_end is_upper eps m st
      else Ret (n, st)
  end.

(** src/svd.rs:264-284: second loop *)
Fixpoint svd_delim_start (is_upper : bool) (eps : N) (n new_start : nat) (st : svd_state)
  : res (nat * svd_state) :=
  match new_start with
  | 0 => Ret (0, st)
  | S m =>
      let* o := at1 (so st) m in
      let* dn := at1 (sd st) new_start in
      let* dm := at1 (sd st) m in
      if (nabs N o <=? eps * (nabs N dn + nabs N dm)) then
        let* off := atm1 (so st) m (n0 N) in
        Ret (new_start, SS (sd st) off (su st) (sv st))
      else if (nabs N dm <=? eps) then
        let* d := atm1 (sd st) m (n0 N) in
        let* st := cancel_horizontal is_upper m n (SS d (so st) (su st) (sv st)) in
        let* st := (if negb (m =?n 0) then
                      let* m1 := usub m 1 in cancel_vertical is_upper m1 st
                    else Ret st) in
        Ret (new_start, st)
      else svd_delim_start is_upper eps n m st
  end.

(** src/svd.rs:226-287, [delimit_subproblem] *)
Definition svd_delimit (is_upper : bool) (end_ : nat) (eps : N) (st : svd_state)
  : res (nat * nat * svd_state) :=
  let* (n, st) := svd_delim_end is_upper eps end_ st in
  if n =?n 0 then Ret (0, 0, st)
  else
    let* ns := usub n 1 in
    let* (new_start, st) := svd_delim_start is_upper eps n ns st in
    Ret (new_start, n, st).

(** src/svd.rs:371-412, [compute_2x2_uptrig_svd] *)
Definition compute_2x2_uptrig_svd (m11 m12 m22 : N) (compute_u compute_v : bool)
  : N * N * option (givens N) * option (givens N) :=
  let two := ntwo in
  let denom := nhypot N (m11 + m22) m12 + nhypot N (m11 - m22) m12 in
  let v1 := m11 * m22 * two / denom in
  let v2 := denom / two in
  if compute_v || compute_u then
    let cv := m11 * m12 in
    let sv_ := v1 * v1 - m11 * m11 in
    let '(csv, sgn_v) := givens_new cv sv_ in
    let v1 := v1 * sgn_v in
    let v2 := v2 * sgn_v in
    let vt := if compute_v then Some csv else None in
    let cu := (m11 * rc csv + m12 * rs csv) / v1 in
    let su_ := (m22 * rs csv) / v1 in
    let '(csu, sgn_u) := givens_new cu su_ in
    let v1 := v1 * sgn_u in
    let v2 := v2 * sgn_u in
    let u := if compute_u then Some csu else None in
    (v1, v2, u, vt)
  else (v1, v2, None, None).

(** src/svd.rs:77-156: one iteration k of the sweep; state ((vec.0, vec.1), st). *)
Definition svd_sweep_step (is_upper : bool) (start n : nat) (k : nat) (s : N * N * svd_state)
  : res (bool * (N * N * svd_state)) :=
  let '(x, y, st) := s in
  let* n1_ := usub n 1 in
  let* m12 := (if k =?n n1_ then Ret (n0 N) else at1 (so st) (k + 1)) in
  let* dk := at1 (sd st) k in
  let* ok := at1 (so st) k in
  let* dk1 := at1 (sd st) (k + 1) in
  let subm := Mat 2 3 [[dk; ok; n0 N]; [n0 N; dk1; m12]] in
  match cancel_y x y with
  | Some (rot1, norm1) =>
      let* s01 := slice subm 0 2 0 2 in
      let* s01 := unwrap (rotate_rows (inverse rot1) s01) in
      let subm := put subm 0 0 s01 in
      let* off := (if start <?n k then let* k1 := usub k 1 in atm1 (so st) k1 norm1
                   else Ret (so st)) in
      let* v1 := at2 subm 0 0 in
      let* v2 := at2 subm 1 0 in
      let* (subm, rot2, norm2) :=
        (match cancel_y v1 v2 with
         | Some (rot, norm) =>
             let* s12 := slice subm 0 2 1 3 in
             let* s12 := unwrap (rotate_cols rot s12) in
             Ret (put subm 0 1 s12, Some rot, norm)
         | None => Ret (subm, None, v1)
         end) in
      let* subm := atm2 subm 0 0 norm2 in
      let* vt := (if is_upper then rot_vt rot1 (sv st) k
                  else match rot2 with
                       | Some rot2 => rot_vt rot2 (sv st) k
                       | None => Ret (sv st)
                       end) in
      let* u := (if negb is_upper then rot_u (inverse rot1) (su st) k
                 else match rot2 with
                      | Some rot2 => rot_u (inverse rot2) (su st) k
                      | None => Ret (su st)
                      end) in
      let* s00 := at2 subm 0 0 in
      let* s11 := at2 subm 1 1 in
      let* s01 := at2 subm 0 1 in
      let* s12 := at2 subm 1 2 in
      let* s02 := at2 subm 0 2 in
      let* d := atm1 (sd st) k s00 in
      let* d := atm1 d (k + 1) s11 in
      let* off := atm1 off k s01 in
      let* off := (if negb (k =?n n1_) then atm1 off (k + 1) s12 else Ret off) in
      Ret (true, (s01, s02, SS d off u vt))
  | None => Ret (false, (x, y, st))
  end.

(** src/svd.rs:58-156: the [subdim > 2] branch *)
Definition svd_big (is_upper : bool) (start end_ : nat) (st : svd_state) : res svd_state :=
  let* m := usub end_ 1 in
  let n := end_ in
  let* dm := at1 (sd st) m in
  let* dn := at1 (sd st) n in
  let* fm := at1 (so st) m in
  let* m1 := usub m 1 in
  let* fm1 := at1 (so st) m1 in
  let tmm := dm * dm + fm1 * fm1 in
  let tmn := dm * fm in
  let tnn := dn * dn + fm * fm in
  let shift := wilkinson_shift tmm tnn tmn in
  let* ds := at1 (sd st) start in
  let* os := at1 (so st) start in
  let* (_, st) := for_brk (n - start) start (svd_sweep_step is_upper start n)
                    ((ds * ds - shift, ds * os), st) in
  Ret st.

(** src/svd.rs:157-194: the [subdim == 2] branch *)
Definition svd_two (is_upper compute_u compute_v : bool) (start : nat) (st : svd_state)
  : res svd_state :=
  let* d0 := at1 (sd st) start in
  let* o := at1 (so st) start in
  let* d1 := at1 (sd st) (start + 1) in
  let '(s1, s2, u2, v2) :=
    compute_2x2_uptrig_svd d0 o d1
      (compute_u && is_upper || compute_v && negb is_upper)
      (compute_v && is_upper || compute_u && negb is_upper) in
  let* d := atm1 (sd st) start s1 in
  let* d := atm1 d (start + 1) s2 in
  let* off := atm1 (so st) start (n0 N) in
  let '(rot_u_, rot_v_) := if is_upper then (u2, v2) else (v2, u2) in
  let* u := (match su st with
             | None => Ret None
             | Some u => let* g := unwrap_opt rot_u_ in rot_u g (Some u) start
             end) in
  let* vt := (match sv st with
              | None => Ret None
              | Some vt => let* g := unwrap_opt rot_v_ in rot_vt (inverse g) (Some vt) start
              end) in
  Ret (SS d off u vt).

(** src/svd.rs:55-208: the main loop, on fuel *)
Fixpoint svd_loop (fuel : nat) (is_upper compute_u compute_v : bool) (eps : N)
    (start end_ : nat) (st : svd_state) : res svd_state :=
  if end_ =?n start then Ret st
  else
    match fuel with
    | 0 => OutOfFuel
    | S fuel =>
        let* d := usub end_ start in
        let subdim := S d in
        let* (st, e) :=
          (if 2 <?n subdim then let* st := svd_big is_upper start end_ st in Ret (st, end_)
           else if subdim =?n 2 then
             let* st := svd_two is_upper compute_u compute_v start st in
             let* e := usub end_ 1 in
             Ret (st, e)
           else Ret (st, end_)) in
        let* (s', e', st) := svd_delimit is_upper e eps st in
        svd_loop fuel is_upper compute_u compute_v eps s' e' st
    end.

(** src/svd.rs:213-221: making the singular values positive.
    [u.column_mut(i).mul_assign(-A::zero())] multiplies column i of u by minus zero. *)
Definition svd_fix_signs (dim : nat) (diag : vec) (u : option mtx) : res (vec * option mtx) :=
  for_ dim 0 (fun i s =>
    let '(diag, u) := (s : vec * option mtx) in
    let* val := idx1 diag i in
    if nis_neg N val then
      let* diag := set1 diag i (- val) in
      let* u := (match u with
                 | None => Ret None
                 | Some u =>
                     let* c := column u i in
                     Ret (Some (put_col u 0 i (vmap (fun x => x * (- n0 N)) c)))
                 end) in
      Ret (diag, u)
    else Ret (diag, u)) (diag, u).

(** src/svd.rs:17-224, [svd] *)
Definition svd_eps (fuel : nat) (matrix : mtx) (compute_u compute_v : bool) (eps : N)
  : res (option mtx * vec * option mtx) :=
  if (nr matrix =?n 0) || (nc matrix =?n 0) then Err EmptyMatrix
  else
    let dim := Nat.min (nr matrix) (nc matrix) in
    let amax := abs_max matrix in
    let matrix := scale_down matrix amax in
    let* bd := bidiagonal matrix in
    let is_upper := upper_diag bd in
    let* u := (if compute_u then let* u := generate_u bd in Ret (Some u) else Ret None) in
    let* vt := (if compute_v then let* v := generate_vt bd in Ret (Some v) else Ret None) in
    let '(diag, off) := bi_into_diagonals bd in
    let* d1 := usub dim 1 in
    let* (start, end_, st) := svd_delimit is_upper d1 eps (SS diag off u vt) in
    let* st := svd_loop fuel is_upper compute_u compute_v eps start end_ st in
    let diag := vmap (fun x => x * amax) (sd st) in
    let* (diag, u) := svd_fix_signs dim diag (su st) in
    Ret (u, diag, sv st).

(** src/svd.rs:435-442, 466-478, [svd_into] / [svd]: eps = A::epsilon() * 5 *)
Definition svd (fuel : nat) (m : mtx) (calc_u calc_vt : bool)
  : res (option mtx * vec * option mtx) :=
  svd_eps fuel m calc_u calc_vt (nepsilon N * nofQ N 5%Z 1%positive).

(** src/svd.rs:502-528, [SvdSort::sort_svd]. [apply_ordering(arr, ax, idx)]: for Axis(1) the
    columns are permuted, for Axis(0) the rows (through the transpose). *)
Definition sort_svd (r : option mtx * vec * option mtx) (order : Order)
  : res (option mtx * vec * option mtx) :=
  let '(u, s, vt) := r in
  let* value_idx := sort_idx s order in
  let ix := map fst value_idx in
  let* u := (match u with
             | None => Ret None
             | Some u => let* o := assign_cols u (zeros (nr u) (nc u)) ix in Ret (Some o)
             end) in
  let* vt := (match vt with
              | None => Ret None
              | Some v =>
                  let t := transpose v in
                  let* o := assign_cols t (zeros (nr t) (nc t)) ix in
                  Ret (Some (transpose o))
              end) in
  Ret (u, map snd value_idx, vt).

End MSvd.
Arguments svd_state N : clear implicits.
