(** * C72-C74: the building blocks: Givens rotations (givens.rs), Householder reflections (householder.rs),
    the closed forms for 2x2 matrices (eigh.rs, svd.rs) *)
From Coq Require Import Reals List Arith Lia Lra Bool ZArith.
From Coq.Floats Require Import SpecFloat.
From Flocq Require Import Core BinarySingleNaN.
From Verif Require Import Scalar Arr MBase MDirect MDecomp MEigh MSvd Inst Hoare Spec SpecF SpecH RLin PTri PHouse PRefl PGivens PEighR PRound PHouseF PCholG PTrdF PApx PGivF PSvdR Ex.
Import ListNotations.
Local Open Scope R_scope.

(** ** Specification *)
(** the matrix of a rotation: [[c, -s], [s, c]] *)
Definition rotm (g : givens RN) : M := fun i j =>
  if Nat.eqb i j then rc g else if Nat.eqb i 0 then - rs g else rs g.
Definition vec2 (x y : R) : nat -> R := fun i => if Nat.eqb i 0 then x else y.
Definition mapply (n : nat) (A : M) (x : nat -> R) : nat -> R := fun i => Rsum n (fun k => A i k * x k).
Definition unit_rot (g : givens RN) : Prop := orthogonal 2 (rotm g).

Lemma unit_rot_eq (g : givens RN) : rc g * rc g + rs g * rs g = 1 <-> unit_rot g.
Proof.
  unfold unit_rot, orthogonal, mmul, mtr, rotm, mid, meq. split.
  - intros h. split; intros [|[|i]] [|[|j]] hi hj; try lia; cbn; lra.
  - intros (h & _). specialize (h 0%nat 0%nat ltac:(lia) ltac:(lia)). cbn in h. lra.
Qed.

(** ** C72 *)
(** [cancel_y]: no rotation exactly when y is zero already; otherwise an orthogonal matrix taking (x, y)
    to (r, 0) with r the length of (x, y) *)
Theorem C72_cancel_y (x y : R) :
  match @cancel_y RN x y with
  | Some (g, r) => y <> 0 /\ unit_rot g /\ r = sqrt (x * x + y * y) /\ 0 < r /\
      mapply 2 (rotm g) (vec2 x y) 0 = r /\ mapply 2 (rotm g) (vec2 x y) 1 = 0
  | None => y = 0
  end.
Proof.
  pose proof (cancel_y_real x y) as h. destruct (@cancel_y RN x y) as [[g r]|]; auto.
  destruct h as (h1 & h2 & h3 & h4 & h5 & h6). split; auto. split; [apply unit_rot_eq; auto|].
  split; [rewrite <- h3; symmetry; apply sqrt_square; lra|]. split; auto.
  split; unfold mapply, rotm, vec2; cbn; lra.
Qed.
Print Assumptions C72_cancel_y.

Theorem C72_cancel_x (x y : R) :
  match @cancel_x RN x y with
  | Some (g, r) => x <> 0 /\ unit_rot g /\ r = sqrt (x * x + y * y) /\ 0 < r /\
      mapply 2 (rotm g) (vec2 x y) 0 = 0 /\ mapply 2 (rotm g) (vec2 x y) 1 = r
  | None => x = 0
  end.
Proof.
  pose proof (cancel_x_real x y) as h. destruct (@cancel_x RN x y) as [[g r]|]; auto.
  destruct h as (h1 & h2 & h3 & h4 & h5 & h6). split; auto. split; [apply unit_rot_eq; auto|].
  split; [rewrite <- h3; symmetry; apply sqrt_square; lra|]. split; auto.
  split; unfold mapply, rotm, vec2; cbn; lra.
Qed.
Print Assumptions C72_cancel_x.

(** [new] normalises (c, s), the identity for (0, 0); [try_new] refuses norms up to eps *)
Theorem C72_new (c s : R) : let '(g, r) := @givens_new RN c s in
  unit_rot g /\ r = sqrt (c * c + s * s) /\ r * rc g = c /\ r * rs g = s /\ (c = 0 -> s = 0 -> rotm g =[2, 2]= mid).
Proof.
  pose proof (givens_new_real c s) as h. destruct (@givens_new RN c s) as [g r] eqn:e. destruct h as (h1 & h2 & h3 & h4 & h5).
  split; [apply unit_rot_eq; auto|]. split; [rewrite <- h2; symmetry; apply sqrt_square; lra|]. split; [lra|]. split; [lra|].
  intros e1 e2. subst c s. unfold givens_new, try_new in e. change (nhypot RN (rc g * r) (rs g * r)) with (sqrt (rc g * r * (rc g * r) + rs g * r * (rs g * r))) in e.
  rewrite e1, e2 in e. replace (0 * 0 + 0 * 0) with 0 in e by ring. rewrite sqrt_0 in e. change (nlt RN (n0 RN) 0) with (Rltb 0 0) in e.
  destruct (Rltb_spec 0 0); [lra|]. inversion e; subst. unfold identity, rotm, mid. intros [|[|i]] [|[|j]] hi hj; try lia; cbn; rn; lra.
Qed.
Print Assumptions C72_new.
Theorem C72_try_new (c s eps : R) : 0 <= eps ->
  match @try_new RN c s eps with
  | Some (g, r) => eps < r /\ unit_rot g /\ r = sqrt (c * c + s * s) /\ r * rc g = c /\ r * rs g = s
  | None => sqrt (c * c + s * s) <= eps
  end.
Proof.
  intros he. pose proof (try_new_real c s eps he) as h. destruct (@try_new RN c s eps) as [[g r]|]; auto.
  destruct h as (h1 & h2 & h3 & h4 & h5). split; auto. split; [apply unit_rot_eq; auto|]. split; [rewrite <- h2; symmetry; apply sqrt_square; lra|]. split; lra.
Qed.
Print Assumptions C72_try_new.
Theorem C72_inverse (g : givens RN) : rotm (MBase.inverse g) =[2, 2]= mtr (rotm g) /\ (unit_rot g -> unit_rot (MBase.inverse g)).
Proof.
  split.
  - intros [|[|i]] [|[|j]] hi hj; try lia; unfold rotm, mtr, MBase.inverse; cbn; rn; lra.
  - intros h. apply unit_rot_eq in h. apply unit_rot_eq. unfold MBase.inverse. cbn. rn. lra.
Qed.
Print Assumptions C72_inverse.

(** [rotate_rows] is lhs * self, [rotate_cols] is self * rhs; the only failure is a wrong dimension *)
Theorem C72_rotate_rows (g : givens RN) (m : mat RN) :
  match rotate_rows g m with
  | Ret m' => nc m = 2%nat /\ nr m' = nr m /\ nc m' = 2%nat /\ ent m' =[nr m, 2]= mmul 2 (ent m) (rotm g)
  | Err e => nc m <> 2%nat /\ e = WrongColumns 2 (nc m)
  | _ => False
  end.
Proof.
  pose proof (rotate_rows_class g m) as hc. destruct (rotate_rows g m) as [m'|e| | |] eqn:er; auto.
  destruct hc as (h1 & h2 & h3). do 3 (split; [auto|]).
  pose proof (rotate_rows_ok g m h1) as hp. rewrite er in hp. destruct hp as (_ & _ & hp).
  intros i [|[|j]] hi hj; try lia; destruct (hp i hi) as (e1 & e2); unfold ent, mmul, rotm; cbn [Rsum Nat.eqb].
  - rewrite e1. rn. lra.
  - rewrite e2. rn. lra.
Qed.
Print Assumptions C72_rotate_rows.
Theorem C72_rotate_cols (g : givens RN) (m : mat RN) :
  match rotate_cols g m with
  | Ret m' => nr m = 2%nat /\ nr m' = 2%nat /\ nc m' = nc m /\ ent m' =[2, nc m]= mmul 2 (rotm g) (ent m)
  | Err e => nr m <> 2%nat /\ e = WrongRows 2 (nr m)
  | _ => False
  end.
Proof.
  pose proof (rotate_cols_class g m) as hc. destruct (rotate_cols g m) as [m'|e| | |] eqn:er; auto.
  destruct hc as (h1 & h2 & h3). do 3 (split; [auto|]).
  pose proof (rotate_cols_ok g m h1) as hp. rewrite er in hp. destruct hp as (_ & _ & hp).
  intros [|[|i]] j hi hj; try lia; destruct (hp j hj) as (e1 & e2); unfold ent, mmul, rotm; cbn [Rsum Nat.eqb].
  - rewrite e1. rn. lra.
  - rewrite e2. rn. lra.
Qed.
Print Assumptions C72_rotate_cols.

(** binary64, for every [hypot] within one ulp: c, s are within 6 u of the exact cosine and sine and the norm is relatively accurate,
    when the operands are at most 2^500 and their norm at least 2^-1000 *)
Theorem C72_cancel_y_binary64 h (x y : FN) : hyp_ulp h -> fvalid x -> ffin x -> fvalid y -> ffin y ->
  Rabs (fr x) <= bpow radix2 500 -> Rabs (fr y) <= bpow radix2 500 -> bpow radix2 (-1000) <= sqrt (fr x * fr x + fr y * fr y) ->
  let r0 := sqrt (fr x * fr x + fr y * fr y) in
  match cancel_y (N:=FNh h) x y with
  | None => fr y = 0
  | Some (g, r) => fr y <> 0 /\ ffin (rc g) /\ ffin (rs g) /\ ffin r /\
      Rabs (fr (rc g) - fr x / r0) <= 6 * uro /\ Rabs (fr (rs g) - - fr y / r0) <= 6 * uro /\ Rabs (fr r - r0) <= 3 * uro * r0
  end.
Proof.
  intros hu vx fx vy fy bx by_ hr. cbv zeta. set (r0 := sqrt (fr x * fr x + fr y * fr y)) in *.
  unfold cancel_y. change (nis_zero (FNh h) y) with (nis_zero FN y). destruct (nis_zero FN y) eqn:ez; cbn [negb].
  - apply zero_fr; auto.
  - pose proof (nonzero_fr y (conj vy fy) ez) as y0. split; auto. change (nhypot (FNh h) x y) with (h x y).
    destruct hu as (h1 & _). destruct (h1 x y vx fx vy fy bx by_) as (r1 & r2 & r3). fold r0 in r3.
    assert (hp : 0 < r0) by (apply hyp_pos; auto).
    assert (he : 2 * eta <= uro * r0).
    { apply Rle_trans with (uro * bpow radix2 (-1000)); [|apply Rmult_le_compat_l; [left; apply uro_pos|auto]].
      rewrite uro_bpow. unfold eta. rewrite <- bpow_plus. change 2 with (bpow radix2 1). rewrite <- bpow_plus. apply bpow_le. lia. }
    assert (r3' : Rabs (fr (h x y) - r0) <= 3 * uro * r0) by lra.
    assert (le1 : Rabs (fr x) <= r0) by (apply Rabs_le_of_sq; [lra|]; unfold r0; rewrite hyp_sq; pose proof (Rle_0_sqr (fr y)) as q; unfold Rsqr in q; lra).
    assert (le2 : Rabs (fr y) <= r0) by (apply Rabs_le_of_sq; [lra|]; unfold r0; rewrite hyp_sq; pose proof (Rle_0_sqr (fr x)) as q; unfold Rsqr in q; lra).
    assert (q1 : apx (ndiv FN x (h x y)) (fr x / r0) 1 6) by (apply quot_apx; auto; split; auto).
    assert (q2 : apx (ndiv FN (nopp FN y) (h x y)) (- fr y / r0) 1 6).
    { apply quot_apx; auto. { apply fokx_opp; split; auto. } { split; auto. } { apply fr_opp. } rewrite Rabs_Ropp. auto. }
    cbn [rc rs]. change (ndiv (FNh h)) with (ndiv FN). change (nopp (FNh h)) with (nopp FN).
    destruct q1 as [(_ & o1) _ _ _ o2], q2 as [(_ & p1) _ _ _ p2]. repeat split; auto; lra.
Qed.
Print Assumptions C72_cancel_y_binary64.

(** (3, 4) over the reals and in binary64 *)
Definition givens_is (o : option (givens FN * FN)) (c s r : FN) : bool :=
  match o with Some (g, x) => SFeqb (rc g) c && SFeqb (rs g) s && SFeqb x r | None => false end.
Example C72_run : givens_is (cancel_y (N:=FN) (f_of_Z 3) (f_of_Z 4)) (nofQ FN 3 5) (nofQ FN (-4) 5) (f_of_Z 5) &&
  givens_is (cancel_x (N:=FN) (f_of_Z 3) (f_of_Z 4)) (nofQ FN 4 5) (nofQ FN 3 5) (f_of_Z 5) &&
  match cancel_y (N:=FN) (f_of_Z 3) (f_of_Z 0) with None => true | Some _ => false end = true.
Proof. vm_compute. reflexivity. Qed.
Lemma C72_some (x y : R) : y <> 0 -> exists g r, @cancel_y RN x y = Some (g, r) /\ r = sqrt (x * x + y * y) /\ mapply 2 (rotm g) (vec2 x y) 0 = r.
Proof.
  intros hy. pose proof (C72_cancel_y x y) as h. destruct (@cancel_y RN x y) as [[g r]|]; [|contradiction].
  exists g, r. destruct h as (_ & _ & e & _ & h & _). auto.
Qed.
Example C72_nonvacuous : exists g r, @cancel_y RN 3 4 = Some (g, r) /\ r = 5 /\ mapply 2 (rotm g) (vec2 3 4) 0 = r.
Proof.
  destruct (C72_some 3 4 ltac:(lra)) as (g & r & h1 & h2 & h3). exists g, r. split; [exact h1|]. split; [|exact h3].
  rewrite h2. replace (3 * 3 + 4 * 4) with (5 * 5) by ring. apply sqrt_square. lra.
Qed.

(** ** C73 *)
(** [reflection_axis_mut]: a unit axis whose mirror image of the column is signed_norm * e_0; the signed norm is minus the sign of the
    first component times the length of the column; None exactly for the zero column, which is left as it is *)
Theorem C73_reflection_axis (c : list RN) :
  match reflection_axis_mut c with
  | Ret (v, o) => (0 < length c)%nat /\ length v = length c /\
      match o with
      | None => (forall i, (i < length c)%nat -> vent c i = 0) /\ (forall i, (i < length c)%nat -> vent v i = 0)
      | Some x => (exists i, (i < length c)%nat /\ vent c i <> 0) /\
          x = - ((if Rltb (vent c 0) 0 then -1 else 1) * sqrt (vnorm2 (length c) (vent c))) /\
          vdot (length c) (vent v) (vent v) = 1 /\
          forall i, (i < length c)%nat -> mirror (length c) (vent v) 0 (vent c) i = if Nat.eqb i 0 then x else 0
      end
  | Panicked => length c = 0%nat
  | _ => False
  end.
Proof.
  destruct (Nat.eq_dec (length c) 0) as [e0|ne].
  - destruct c; [|discriminate e0]. reflexivity.
  - assert (hl : (0 < length c)%nat) by lia. pose proof (reflection_axis_real c hl) as hp. cbv zeta in hp.
    destruct (reflection_axis_mut c) as [[v o]|e| | |] eqn:er; try (exfalso; exact hp).
    destruct hp as (p1 & p2). cbn [fst snd] in p1, p2. do 2 (split; [auto|]).
    assert (hx : forall x, o = Some x -> x = - ((if Rltb (vent c 0) 0 then -1 else 1) * sqrt (vnorm2 (length c) (vent c)))).
    { intros x ->. unfold reflection_axis_mut in er. rewrite dot1_R in er by auto. cbn [bind] in er.
      destruct (Nat.ltb_spec 0 (length c)); [|lia]. cbn [bind] in er. destruct (negb _) in er; inversion er; subst. reflexivity. }
    destruct o as [x|]; auto. destruct p2 as (q1 & q2 & q3). specialize (hx x eq_refl). split; [|split; [auto|split; [auto|]]].
    + destruct (Req_dec (vnorm2 (length c) (vent c)) 0) as [z|nz].
      * exfalso. apply q1. rewrite hx, z, sqrt_0. match goal with |- @eq _ ?a ?b => change (@eq R a b) end. ring.
      * clear - nz. unfold vnorm2 in nz. revert nz. generalize (length c) as n. induction n as [|n IH]; cbn; [lra|]. intros h.
        destruct (Req_dec (vent c n) 0) as [z|z].
        -- rewrite z in h. destruct IH as (i & hi & hh); [lra|]. exists i. split; [lia|auto].
        -- exists n. split; [lia|auto].
    + intros i hi. specialize (q3 i hi). unfold mirror, vdot. rewrite Rminus_0_r.
      pose proof (sgn_sq x) as s2. pose proof (sgn_mul_abs x) as s3.
      replace (vent c i - 2 * Rsum (length c) (fun i0 => vent v i0 * vent c i0) * vent v i)
        with (sgn x * (sgn x * (vent c i - 2 * (vent v i * Rsum (length c) (fun l => vent v l * vent c l))))).
      2:{ rewrite <- Rmult_assoc, s2. ring. }
      rewrite q3. destruct (Nat.eqb_spec i 0); [|ring]. rewrite <- s3, <- Rmult_assoc, s2. ring.
Qed.
Print Assumptions C73_reflection_axis.

(** the matrix sign * (I - 2 v v^T) acting on the rows from k on, v read from column i of the array *)
Definition refl_of (k : nat) (sg : R) (v : nat -> R) : M := fun p q =>
  if Nat.ltb p k then mid p q else sg * (mid p q - 2 * (v p * v q)).
Definition stored_axis (k : nat) (m : mat RN) (i : nat) : nat -> R := fun p => if Nat.ltb p k then 0 else ent m p i.
(** [clear_column m i s] returns |x| = length of column i from row i + s down, and multiplies the columns right of i by an orthogonal
    matrix P that acts on the rows from i + s on and takes column i to (unchanged, |x|, 0, ..., 0); the axis of P is stored in column i,
    every other entry is untouched *)
Theorem C73_clear_column (m : mat RN) (i s : nat) : (i + s < nr m)%nat -> (i < nc m)%nat ->
  exists m' x, clear_column m i s = Ret (m', x) /\ nr m' = nr m /\ nc m' = nc m /\
    let P := refl_of (i + s) (if Rltb x 0 then -1 else 1) (stored_axis (i + s) m' i) in
    orthogonal (nr m) P /\
    (forall p q, (p < nr m)%nat -> (q < nc m)%nat -> (q < i)%nat \/ (q = i /\ p < i + s)%nat -> ent m' p q = ent m p q) /\
    (forall p q, (p < nr m)%nat -> (q < nc m)%nat -> (i < q)%nat -> ent m' p q = mmul (nr m) P (ent m) p q) /\
    (forall p, (p < nr m)%nat -> mmul (nr m) P (ent m) p i = if Nat.ltb p (i + s) then ent m p i else if Nat.eqb p (i + s) then Rabs x else 0).
Proof.
  intros h1 h2. destruct (wp_ret _ _ (clear_column_real m i s h1 h2)) as ([m' x] & e & g1 & g2 & g3 & g4 & g5 & g6). cbn [fst snd] in *.
  exists m', x. do 3 (split; [auto|]). cbv zeta. split; [|split; [|split]].
  - exact (hh_orthogonal _ _ _ _ g3).
  - exact g4.
  - exact g5.
  - exact g6.
Qed.
Print Assumptions C73_clear_column.

(** [clear_row] is [clear_column] of the transposed matrix *)
Theorem C73_clear_row (m : mat RN) (i s : nat) : (i + s < nc m)%nat -> (i < nr m)%nat ->
  exists m' x, clear_row m i s = Ret (m', x) /\ nr m' = nr m /\ nc m' = nc m /\
    let P := refl_of (i + s) (if Rltb x 0 then -1 else 1) (fun q => if Nat.ltb q (i + s) then 0 else ent m' i q) in
    orthogonal (nc m) P /\
    (forall p q, (p < nr m)%nat -> (q < nc m)%nat -> (p < i)%nat \/ (p = i /\ q < i + s)%nat -> ent m' p q = ent m p q) /\
    (forall p q, (p < nr m)%nat -> (q < nc m)%nat -> (i < p)%nat -> ent m' p q = mmul (nc m) (ent m) (mtr P) p q) /\
    (forall q, (q < nc m)%nat -> mmul (nc m) (ent m) (mtr P) i q = if Nat.ltb q (i + s) then ent m i q else if Nat.eqb q (i + s) then Rabs x else 0).
Proof.
  intros h1 h2. destruct (C73_clear_column (transpose m) i s) as (t & x & e & g1 & g2 & g3); [dims; auto|dims; auto|].
  cbv zeta in g3. rewrite nr_transpose, nc_transpose in *. destruct g3 as (p1 & p2 & p3 & p4).
  unfold clear_row. rewrite e. cbn [bind]. exists (transpose t), x. split; [reflexivity|]. dims. do 2 (split; [auto|]). cbv zeta.
  assert (et : forall p q, (p < nc m)%nat -> (q < nr m)%nat -> ent t p q = ent (transpose t) q p).
  { intros p q hp hq. unfold ent. rewrite get_transpose by lia. reflexivity. }
  assert (em : forall p q, (p < nc m)%nat -> (q < nr m)%nat -> ent (transpose m) p q = ent m q p).
  { intros p q hp hq. unfold ent. rewrite get_transpose by lia. reflexivity. }
  set (P1 := refl_of (i + s) (if Rltb x 0 then -1 else 1) (stored_axis (i + s) t i)) in *.
  set (P2 := refl_of _ _ _).
  assert (eP : P2 =[nc m, nc m]= P1).
  { intros p q hp hq. unfold P1, P2, refl_of, stored_axis. rewrite !(et _ i) by auto. reflexivity. }
  assert (hmul : forall p q, (p < nr m)%nat -> (q < nc m)%nat -> mmul (nc m) (ent m) (mtr P2) p q = mmul (nc m) P1 (ent (transpose m)) q p).
  { intros p q hp hq. unfold mmul, mtr. apply Rsum_ext. intros k hk. rewrite eP, em by auto. ring. }
  split; [|split; [|split]].
  - destruct p1 as (o1 & o2). split; intros p q hp hq.
    + rewrite <- (o1 p q hp hq). unfold mmul, mtr. apply Rsum_ext. intros k hk. rewrite !eP by auto. reflexivity.
    + rewrite <- (o2 p q hp hq). unfold mmul, mtr. apply Rsum_ext. intros k hk. rewrite !eP by auto. reflexivity.
  - intros p q hp hq hor. rewrite <- et, p2, em by auto. reflexivity.
  - intros p q hp hq hip. rewrite <- et, p3, hmul by auto. reflexivity.
  - intros q hq. rewrite hmul by auto. rewrite p4 by auto. destruct (Nat.ltb q (i + s)); [apply em; auto|reflexivity].
Qed.
Print Assumptions C73_clear_row.

(** [assemble_q] multiplies out the reflections stored by successive calls of [clear_column], for any signs d; the result has orthonormal columns *)
Theorem C73_assemble_q (m : mat RN) (s : nat) (d : nat -> R) : (s <= Nat.min (nr m) (nc m))%nat ->
  let n := nr m in let k := (Nat.min (nr m) (nc m) - s)%nat in
  let P := fun i => refl_of (i + s) (if Rltb (d i) 0 then -1 else 1) (stored_axis (i + s) m i) in
  exists q, assemble_q m s (fun i => Ret (d i)) = Ret q /\ nr q = n /\ nc q = Nat.min (nr m) (nc m) /\
    ent q =[n, nc q]= fold_left (mmul n) (map P (seq 0 k)) mid /\
    ((forall i, (i < k)%nat -> vdot n (stored_axis (i + s) m i) (stored_axis (i + s) m i) = 1 \/ forall p, (p < n)%nat -> stored_axis (i + s) m i p = 0) ->
     orthonormal_cols n (nc q) (ent q)).
Proof.
  intros hs n k P. destruct (wp_ret _ _ (assemble_q_real m s (fun i => Ret (d i)) d hs (fun i _ => eq_refl))) as (q & e & g1 & g2 & g3).
  exists q. do 3 (split; [auto|]). change (fun i => hh (i + s) (sgn (d i)) (axis_of (i + s) m i)) with P in g3. fold n k in g3.
  assert (hf : forall j, fold_left (mmul n) (map P (seq 0 j)) mid = hprod n P j).
  { induction j as [|j IH]; [reflexivity|]. rewrite seq_S, map_app, fold_left_app, IH. reflexivity. }
  split.
  - rewrite g2, hf. exact g3.
  - intros hu. assert (ho : orthogonal n (hprod n P k)).
    { apply hprod_orthogonal. intros i hi. apply hh_orthogonal. constructor.
      - intros p hp. apply axis_of_zero; auto.
      - apply sgn_sq.
      - exact (hu i hi). }
    rewrite g2. intros a b ha hb. assert (hn : (Nat.min (nr m) (nc m) <= n)%nat) by (unfold n; lia). destruct ho as (ho & _). rewrite <- (ho a b) by lia. unfold mmul, mtr. apply Rsum_ext. intros l hl. rewrite !g3 by auto. reflexivity.
Qed.
Print Assumptions C73_assemble_q.

(** (3, 4): axis (8, 4) / sqrt 80, signed norm -5 *)
Example C73_nonvacuous : exists v, reflection_axis_mut (N:=RN) [3; 4] = Ret (v, Some (-5)) /\ mirror 2 (vent v) 0 (vent [3; 4]) 0 = -5 /\ mirror 2 (vent v) 0 (vent [3; 4]) 1 = 0.
Proof.
  pose proof (C73_reflection_axis [3; 4]) as h. destruct (reflection_axis_mut (N:=RN) [3; 4]) as [[v o]|e| | |]; try contradiction; [|discriminate].
  destruct h as (_ & _ & h). destruct o as [x|].
  2:{ destruct h as (h & _). specialize (h 0%nat ltac:(cbn; lia)). cbn in h. lra. }
  destruct h as (_ & hx & _ & hm). exists v.
  assert (ex : x = -5). { rewrite hx. unfold vnorm2, vent. cbn. destruct (Rltb_spec 3 0); [lra|]. replace (0 + 3 * 3 + 4 * 4) with (5 * 5) by ring. rewrite sqrt_square by lra. match goal with |- @eq _ ?a ?b => change (@eq R a b) end. ring. }
  rewrite ex in *. split; [reflexivity|]. split; [exact (hm 0%nat ltac:(cbn; lia))|exact (hm 1%nat ltac:(cbn; lia))].
Qed.
Example C73_run : match clear_column (fmat 2 [[3; 1]; [4; 2]]%Z) 0 0 with
  | Ret (m, x) => SFeqb x (f_of_Z (-5)) && SFleb (SFabs (nsub FN (get m 0 1) (nofQ FN 11 5))) (nmul FN (f_of_Z 4) (nepsilon FN)) | _ => false end = true.
Proof. vm_compute. reflexivity. Qed.

(** ** C74 *)
(** lambda is an eigenvalue of [[h00, h01], [h10, h11]] *)
Definition eig2x2 (h00 h10 h01 h11 lambda : R) : Prop := (h00 - lambda) * (h11 - lambda) - h01 * h10 = 0.
(** [compute_2x2_eigvals]: the eigenvalues, larger first, of any 2x2 matrix whose eigenvalues are real; None when they are not *)
Theorem C74_eigvals (h00 h10 h01 h11 : R) :
  match compute_2x2_eigvals (N:=RN) h00 h10 h01 h11 with
  | Some (e1, e2) => e2 <= e1 /\ e1 + e2 = h00 + h11 /\ e1 * e2 = h00 * h11 - h01 * h10 /\ forall l, eig2x2 h00 h10 h01 h11 l <-> l = e1 \/ l = e2
  | None => forall l, ~ eig2x2 h00 h10 h01 h11 l
  end.
Proof.
  unfold compute_2x2_eigvals. rewrite nhalf_R. rn. change (nle RN) with Rleb. change (n0 RN) with 0. change (nsqrt RN) with sqrt.
  set (v := (h00 - h11) * / 2). set (D := h10 * h01 + v * v). unfold eig2x2. destruct (Rleb_spec 0 D) as [hd|hd].
  - pose proof (sqrt_pos D) as p. pose proof (sqrt_sqrt D hd) as q. set (r := sqrt D) in *. unfold D, v in q. clearbody r.
    assert (hr : r * r = h10 * h01 + (h00 - h11) * (h00 - h11) * / 4) by lra.
    split; [lra|]. split; [lra|]. split; [nra|]. intros l. split.
    + intros h. assert (z : (l - ((h00 + h11) * / 2 + r)) * (l - ((h00 + h11) * / 2 - r)) = 0) by nra.
      apply Rmult_integral in z. destruct z; [left|right]; lra.
    + intros [-> | ->]; nra.
  - intros l h. unfold D, v in hd. pose proof (Rle_0_sqr (l - (h00 + h11) * / 2)) as q. unfold Rsqr in q. nra.
Qed.
Print Assumptions C74_eigvals.

(** [wilkinson_shift] is C50_wilkinson_shift. [compute_2x2_uptrig_svd] on the matrices [svd] passes to it (both diagonal entries and the
    off-diagonal one non-zero, signs removed): U diag(s1, s2) V^T with rotations U, V, positive s1, s2, and the same numbers whatever the flags *)
Theorem C74_uptrig_svd (a b d : R) : 0 < a -> b <> 0 -> 0 < d ->
  exists s1 s2 gu gv, 0 < s1 /\ 0 < s2 /\ unit_rot gu /\ unit_rot gv /\
    (forall fu fv, compute_2x2_uptrig_svd (N:=RN) a b d fu fv = (s1, s2, if fu then Some gu else None, if fv then Some gv else None)) /\
    (fun i j : nat => if Nat.eqb i 0 then (if Nat.eqb j 0 then a else b) else (if Nat.eqb j 0 then 0 else d))
      =[2, 2]= mmul 2 (rotm gu) (mmul 2 (mdiag (vec2 s1 s2)) (mtr (rotm gv))).
Proof.
  intros ha hb hd. destruct (uptrig_real a b d ha hb hd) as (s1 & s2 & gu & gv & p1 & p2 & hf & u1 & u2 & q1 & q2 & q3 & q4).
  exists s1, s2, gu, gv. do 2 (split; [auto|]). do 2 (split; [apply unit_rot_eq; auto|]). split; [auto|].
  unfold mmul, rotm, mdiag, vec2, mtr. set (cu := rc gu) in *. set (su := rs gu) in *. set (cv := rc gv) in *. set (sv := rs gv) in *. clearbody cu su cv sv. clear hf.
  intros [|[|i]] [|[|j]] hi hj; try lia; cbn.
  - replace a with (a * (cv * cv + sv * sv)) at 1 by (rewrite u2; ring).
    replace (a * (cv * cv + sv * sv)) with ((a * cv + b * sv) * cv - (b * cv - a * sv) * sv) by ring. rewrite q1, q3. ring.
  - replace b with (b * (cv * cv + sv * sv)) at 1 by (rewrite u2; ring).
    replace (b * (cv * cv + sv * sv)) with ((a * cv + b * sv) * sv + (b * cv - a * sv) * cv) by ring. rewrite q1, q3. ring.
  - replace 0 with ((d * sv) * cv - (d * cv) * sv) at 1 by ring. rewrite q2, q4. ring.
  - replace d with (d * (cv * cv + sv * sv)) at 1 by (rewrite u2; ring).
    replace (d * (cv * cv + sv * sv)) with ((d * sv) * sv + (d * cv) * cv) by ring. rewrite q2, q4. ring.
Qed.
Print Assumptions C74_uptrig_svd.
Example C74_run : match compute_2x2_eigvals (N:=FN) (f_of_Z 6) (f_of_Z 2) (f_of_Z (-1)) (f_of_Z 3) with
  | Some (a, b) => SFeqb a (f_of_Z 5) && SFeqb b (f_of_Z 4) | None => false end &&
  match compute_2x2_eigvals (N:=FN) (f_of_Z (-2)) (f_of_Z 3) (f_of_Z (-3)) (f_of_Z (-2)) with None => true | Some _ => false end = true.
Proof. vm_compute. reflexivity. Qed.
Example C74_nonvacuous : compute_2x2_eigvals (N:=RN) 6 2 (-1) 3 <> None /\ 0 < 1 /\ 2 <> 0 /\ 0 < 3.
Proof.
  split; [|lra]. intros h. pose proof (C74_eigvals 6 2 (-1) 3) as g. rewrite h in g. apply (g 5). unfold eig2x2. ring.
Qed.
