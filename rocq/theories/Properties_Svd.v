(** * Properties C24-C27: svd.rs *)
From Coq Require Import Reals List Arith Lia Lra ZArith QArith.
From Coq.Floats Require Import SpecFloat.
From Verif Require Import Scalar Arr MBase MDirect MDecomp MEigh MSvd Inst Hoare Spec Ex RLin PEigh PSvd PSvdR.
Import ListNotations.
Local Open Scope R_scope.

(** (U, s, Vt) is a thin singular value decomposition of the r x c matrix A up to an absolute error *)
Definition thin_svd (r c : nat) (A U : M) (s : nat -> R) (Vt : M) (err : R) : Prop :=
  let d := Nat.min r c in
  orthonormal_cols r d U /\ orthonormal_cols c d (mtr Vt) /\ (forall j, (j < d)%nat -> 0 <= s j) /\
  frob r c (msub A (mmul d U (mmul d (mdiag s) Vt))) <= err.

(** C24, exact arithmetic, any number of iterations.  The error comes from the entries that the iteration
    declares to be zero; the code uses the tolerance 5 * 2^-52. *)
Theorem C24_reproduces fuel (a : mat RN) u s vt : svd fuel a true true = Ret (u, s, vt) ->
  exists U Vt, u = Some U /\ vt = Some Vt /\
    nr U = nr a /\ nc U = Nat.min (nr a) (nc a) /\ length s = Nat.min (nr a) (nc a) /\
    nr Vt = Nat.min (nr a) (nc a) /\ nc Vt = nc a /\
    thin_svd (nr a) (nc a) (ent a) (ent U) (vent s) (ent Vt)
      (INR (Nat.min (nr a) (nc a) - 1) * (10 * / IZR (2 ^ 52) * frob (nr a) (nc a) (ent a))).
Proof.
  unfold svd. intros h. pose proof (svd_class fuel a true true (nmul RN (nepsilon RN) (nofQ RN 5 1))) as hc.
  rewrite h in hc. destruct hc as (h1 & h2 & h3 & h4 & h5). cbn [fst snd] in *.
  assert (e0 : nmul RN (nepsilon RN) (nofQ RN 5 1) = 5 * / IZR (2 ^ 52)).
  { change (/ IZR (2 ^ 52) * (IZR 5 / IZR 1) = 5 * / IZR (2 ^ 52)). unfold Rdiv. rewrite Rinv_1. ring. }
  assert (p : 0 < / IZR (2 ^ 52)) by (apply Rinv_0_lt_compat, IZR_lt; reflexivity).
  pose proof (svd_real fuel a (nmul RN (nepsilon RN) (nofQ RN 5 1)) ltac:(rewrite e0; lra) h1 h2) as hr.
  unfold post in hr. rewrite h in hr. destruct hr as (U & s' & Vt & e & hs). injection e as -> -> ->.
  exists U, Vt. rewrite e0 in hs. destruct h4 as (_ & ? & ?), h5 as (_ & ? & ?).
  repeat (split; [auto; fail|]). destruct hs as (k1 & k2 & k3 & k4). split; [|split; [|split]]; auto.
  replace (10 * / IZR (2 ^ 52)) with (2 * (5 * / IZR (2 ^ 52))) by ring. exact k4.
Qed.
Print Assumptions C24_reproduces.

(** The same for every tolerance; with tolerance 0 the decomposition is exact. *)
Theorem C24_tolerance fuel (a : mat RN) (eps : R) u s vt : 0 <= eps -> svd_eps fuel a true true eps = Ret (u, s, vt) ->
  exists U Vt, u = Some U /\ vt = Some Vt /\
    thin_svd (nr a) (nc a) (ent a) (ent U) (vent s) (ent Vt)
      (INR (Nat.min (nr a) (nc a) - 1) * (2 * eps * frob (nr a) (nc a) (ent a))).
Proof.
  intros he h. pose proof (svd_class fuel a true true eps) as hc.
  rewrite h in hc. destruct hc as (h1 & h2 & _).
  pose proof (svd_real fuel a eps he h1 h2) as hr.
  unfold post in hr. rewrite h in hr. destruct hr as (U & s' & Vt & e & hs). injection e as -> -> ->. eauto.
Qed.
Print Assumptions C24_tolerance.

Theorem C24_exact fuel (a : mat RN) u s vt : svd_eps (N:=RN) fuel a true true 0 = Ret (u, s, vt) ->
  exists U Vt, u = Some U /\ vt = Some Vt /\
    thin_svd (nr a) (nc a) (ent a) (ent U) (vent s) (ent Vt) 0 /\
    ent a =[nr a, nc a]= mmul (Nat.min (nr a) (nc a)) (ent U) (mmul (Nat.min (nr a) (nc a)) (mdiag (vent s)) (ent Vt)).
Proof.
  intros h. destruct (C24_tolerance fuel a 0 u s vt (Rle_refl 0) h) as (U & Vt & -> & -> & k1 & k2 & k3 & k4).
  exists U, Vt. split; auto. split; auto.
  assert (e : frob (nr a) (nc a) (msub (ent a) (mmul (Nat.min (nr a) (nc a)) (ent U) (mmul (Nat.min (nr a) (nc a)) (mdiag (vent s)) (ent Vt)))) <= 0)
    by (eapply Rle_trans; [exact k4|]; right; ring).
  split; [repeat split; auto|]. intros i j hi hj.
  apply Rle_antisym in e; [|apply sqrt_pos]. symmetry in e.
  assert (e2 := sqrt_eq_0 _ (frob2_nonneg _ _ _) e). pose proof (frob2_0_inv _ _ _ e2 i j hi hj) as e3. unfold msub in e3. lra.
Qed.
Print Assumptions C24_exact.

Example C24_nonvacuous : exists x y, svd 1 (rmat 2 [[3;4];[0;5]]%Z) true true = Ret x /\
  svd_eps (N:=RN) 1 (rmat 2 [[3;4];[0;5]]%Z) true true 0 = Ret y.
Proof.
  destruct (svd_small (rmat 2 [[3;4];[0;5]]%Z) true true (nmul RN (nepsilon RN) (nofQ RN 5 1))) as (x & e); simpl; auto.
  destruct (svd_small (rmat 2 [[3;4];[0;5]]%Z) true true (0 : RN)) as (y & e'); simpl; auto. exists x, y. split; [exact e|exact e'].
Qed.
Example C24_run :
  (let* (x, vt) := svd 10 (fmat 2 [[3;0];[0;-4]]%Z) true true in let '(u, s) := x in
   Ret (option_map (fun u => map (map fq) (rows u)) u, map fq s, option_map (fun u => map (map fq) (rows u)) vt))%res =
  Ret (Some (map (map fq) (map (map f_of_Z) [[1;0];[0;-1]]%Z)), map fq (map f_of_Z [3;4]%Z), Some (map (map fq) (map (map f_of_Z) [[1;0];[0;1]]%Z))).
Proof. vm_compute. reflexivity. Qed.

(** In binary64 the claim fails badly, even with an error of 1/8 instead of O(eps).  Witness:
    A = [0.1, 2^-50, 0; 0, 0.7, 0; 0, 0, 1] gives the singular values 0.1036, 0.7251, 1 and rotates the first two
    columns by about 0.19 radian.  In [compute_2x2_uptrig_svd] the right vector is built from
    v1^2 - m11^2, which is pure rounding noise here, against m11 * m12, which is smaller than the noise. *)
Definition c24_a : mat FN :=
  Mat 3 3 [[nofQ FN 1 10; fpow2 (-50); n0 FN]; [n0 FN; nofQ FN 7 10; n0 FN]; [n0 FN; n0 FN; n1 FN]].
(** Exact rational value of entry (i, j) of U diag(s) Vt *)
Definition fprod (u : mat FN) (s : list FN) (vt : mat FN) (i j : nat) : Q :=
  fold_left (fun x k => (x + fq (get u i k) * fq (vget s k) * fq (get vt k j))%Q) (seq 0 (nc u)) 0%Q.
Theorem C24_binary64_refuted : exists (a : mat FN) u s vt,
  (forall i j, (i < 3)%nat -> (j < 3)%nat -> (0 <= fq (get a i j) <= 1)%Q) /\
  svd 50 a true true = Ret (Some u, s, Some vt) /\
  exists i j, (i < nr a)%nat /\ (j < nc a)%nat /\ ((1 # 8) < fprod u s vt i j - fq (get a i j) \/ (1 # 8) < fq (get a i j) - fprod u s vt i j)%Q.
Proof.
  exists c24_a. destruct (svd 50 c24_a true true) as [[[[u|] s] [vt|]]| | | |] eqn:e; try (vm_compute in e; discriminate).
  exists u, s, vt. split; [|split].
  - intros i j hi hj. destruct i as [|[|[|i]]]; try lia; destruct j as [|[|[|j]]]; try lia; (split; vm_compute; discriminate).
  - reflexivity.
  - vm_compute in e. injection e as <- <- <-. exists 0%nat, 1%nat.
    split; [simpl; lia|]. split; [simpl; lia|]. left. vm_compute. reflexivity.
Qed.
Print Assumptions C24_binary64_refuted.

(** C25.  [same_run fu fv] compares a run that computes everything with a run with the flags fu, fv: both end
    the same way, with the same singular values and the same vectors, each vector being returned iff its flag is set. *)
Definition keep {A} (f : bool) (x : option A) : option A := if f then x else None.
Definition same_run {N : Num} (fu fv : bool) (o1 o2 : res (option (mat N) * list N * option (mat N))) : Prop :=
  match o1, o2 with
  | Ret (u, s, vt), Ret (u', s', vt') =>
      (exists U Vt, u = Some U /\ vt = Some Vt) /\ u' = keep fu u /\ s' = s /\ vt' = keep fv vt
  | Err e, Err e' => e = e'
  | OutOfFuel, OutOfFuel => True
  | _, _ => False
  end.
Lemma same_run_of {N : Num} fuel (a : mat N) fu fv eps :
  sim (fun x y => y = (omsk fu (fst (fst x)), snd (fst x), omsk fv (snd x)))
    (svd_eps fuel a true true eps) (svd_eps fuel a fu fv eps) ->
  same_run fu fv (svd_eps fuel a true true eps) (svd_eps fuel a fu fv eps).
Proof.
  intros h. pose proof (svd_class fuel a true true eps) as hc. unfold sim, same_run in *.
  destruct (svd_eps fuel a true true eps) as [[[u s] vt]| | | |], (svd_eps fuel a fu fv eps) as [[[u' s'] vt']| | | |]; try tauto.
  cbn [fst snd] in h. injection h as -> -> ->. destruct hc as (_ & _ & _ & h4 & h5). cbn [fst snd] in *.
  destruct u as [U|], vt as [Vt|]; try discriminate. split; eauto.
Qed.

(** Exact arithmetic, all four flag combinations *)
Theorem C25_flags fuel (a : mat RN) fu fv : same_run fu fv (svd fuel a true true) (svd fuel a fu fv).
Proof.
  apply same_run_of, svd_flags_real. change (0 <= / IZR (2 ^ 52) * (IZR 5 / IZR 1)). unfold Rdiv. rewrite Rinv_1.
  assert (p : 0 < / IZR (2 ^ 52)) by (apply Rinv_0_lt_compat, IZR_lt; reflexivity). lra.
Qed.
Print Assumptions C25_flags.

(** Any arithmetic (including binary64), as soon as one flag is set *)
Theorem C25_flags_any (N : Num) fuel (a : mat N) fu fv : fu || fv = true ->
  same_run fu fv (svd fuel a true true) (svd fuel a fu fv).
Proof. intros h. apply same_run_of, svd_flags. exact h. Qed.
Print Assumptions C25_flags_any.

(** The runs compared are real ones *)
Example C25_nonvacuous : exists x, svd 1 (rmat 2 [[3;4];[0;5];[1;1]]%Z) true true = Ret x.
Proof. apply svd_small; simpl; auto. Qed.
Example C25_run : let a := fmat 2 [[1;1];[0;1];[2;0]]%Z in
  (let* (x, vt) := svd 20 a true false in Ret (match fst x with Some u => nr u | None => 0%nat end, length (snd x), vt))%res
    = Ret (3%nat, 2%nat, None) /\
  (let* (x, vt) := svd 20 a false true in let* (y, _) := svd 20 a true true in
   Ret (fst x, forallb (fun p : FN * FN => SFeqb (fst p) (snd p)) (combine (snd x) (snd y)), match vt with Some v => nc v | None => 0%nat end))%res
    = Ret (None, true, 2%nat).
Proof. split; vm_compute; reflexivity. Qed.

(** In binary64 the fourth combination can differ, and not only in the last bit: on the matrix of
    C24_binary64_refuted the second singular value is 0.7251 with vectors and 0.7 without. *)
Theorem C25_binary64_refuted : exists (a : mat FN) u s vt s',
  svd 50 a true true = Ret (Some u, s, Some vt) /\ svd 50 a false false = Ret (None, s', None) /\
  exists j, (j < length s)%nat /\ ((1 # 40) < fq (vget s j) - fq (vget s' j))%Q.
Proof.
  exists c24_a. destruct (svd 50 c24_a true true) as [[[[u|] s] [vt|]]| | | |] eqn:e; try (vm_compute in e; discriminate).
  vm_compute in e. injection e as <- <- <-.
  destruct (svd 50 c24_a false false) as [[[[u'|] s'] [vt'|]]| | | |] eqn:e'; try (vm_compute in e'; discriminate).
  eexists _, _, _, s'. split; [reflexivity|]. split; [reflexivity|]. exists 1%nat.
  vm_compute in e'. injection e' as <-. split; [simpl; lia|]. vm_compute. reflexivity.
Qed.
Print Assumptions C25_binary64_refuted.

(** C26: outcomes for any arithmetic, shape, entries and number of iterations. *)
Definition svd_outcomes {N : Num} (m : mat N) (cu cv : bool) (o : res (option (mat N) * list N * option (mat N))) : Prop :=
  match o with
  | Ret (u, s, vt) => (1 <= nr m)%nat /\ (1 <= nc m)%nat /\ length s = Nat.min (nr m) (nc m) /\
      match u with Some U => cu = true /\ nr U = nr m /\ nc U = Nat.min (nr m) (nc m) | None => cu = false end /\
      match vt with Some V => cv = true /\ nr V = Nat.min (nr m) (nc m) /\ nc V = nc m | None => cv = false end
  | Err e => e = EmptyMatrix /\ (nr m = 0%nat \/ nc m = 0%nat)
  | OutOfFuel => (2 <= nr m)%nat /\ (2 <= nc m)%nat
  | Panicked | OutOfBounds => False
  end.
Theorem C26_outcomes (N : Num) fuel (m : mat N) cu cv : svd_outcomes m cu cv (svd fuel m cu cv).
Proof.
  pose proof (svd_class fuel m cu cv (nmul N (nepsilon N) (nofQ N 5%Z 1%positive))) as h. unfold svd_outcomes, svd.
  destruct (svd_eps fuel m cu cv _) as [[[u s] vt]| | | |]; auto. lia.
Qed.
Print Assumptions C26_outcomes.
(** EmptyMatrix exactly on the empty matrices *)
Theorem C26_empty (N : Num) fuel (m : mat N) cu cv : svd fuel m cu cv = Err EmptyMatrix <-> nr m = 0%nat \/ nc m = 0%nat.
Proof.
  split.
  - intros h. pose proof (C26_outcomes N fuel m cu cv) as hc. rewrite h in hc. apply hc.
  - intros [h|h]; unfold svd, svd_eps; rewrite h; [reflexivity|]. destruct (nr m =? 0)%nat; reflexivity.
Qed.
Print Assumptions C26_empty.
(** Up to two rows or columns one iteration is enough, whatever the entries *)
Theorem C26_small_terminates (N : Num) (m : mat N) cu cv : (1 <= nr m)%nat -> (1 <= nc m)%nat ->
  (Nat.min (nr m) (nc m) <= 2)%nat -> exists x, svd 1 m cu cv = Ret x.
Proof. intros. apply svd_small; auto. Qed.
Print Assumptions C26_small_terminates.
Example C26_run :
  (let* (x, vt) := svd 5 (Mat 2 3 [[fnan; f_of_Z 1; f_of_Z 0]; [f_of_Z 1; S754_infinity false; fnan]]) true true in
   Ret (length (snd x), match vt with Some v => nc v | None => 0%nat end))%res = Ret (2%nat, 3%nat) /\
  svd 5 (fmat 0 [[]]) true true = Err EmptyMatrix /\
  svd 0 (fmat 3 [[1;2;3];[4;5;6];[7;8;10]]%Z) true false = OutOfFuel.
Proof. split; [|split]; vm_compute; reflexivity. Qed.

(** C27.  Full claim: when a negative singular value is made positive,
      U' diag(|d|) Vt = U diag(d) Vt and U' has orthonormal columns.
    False: the column is multiplied by minus zero (src/svd.rs:218), not by minus one. *)
Theorem C27_refuted : exists (d : list RN) (u : mat RN) d' u',
  nr u = 1%nat /\ nc u = 1%nat /\ orthonormal_cols 1 1 (ent u) /\
  svd_fix_signs (N:=RN) 1 d (Some u) = Ret (d', Some u') /\
  mmul 1 (ent u') (mdiag (vent d')) 0%nat 0%nat <> mmul 1 (ent u) (mdiag (vent d)) 0%nat 0%nat /\
  ~ orthonormal_cols 1 1 (ent u').
Proof.
  exists [-1], (rmat 1 [[1]]%Z). 
  destruct (fix_signs_breaks 1 [-1] (rmat 1 [[1]]%Z) 0) as (d' & u' & e & h1 & h2 & h3); simpl; auto; [change (-1 < 0); lra|].
  exists d', u'. split; auto. split; auto. split.
  - intros i j hi hj. assert (i = 0%nat) by lia. assert (j = 0%nat) by lia. subst. unfold mmul, mtr, ent, mid, rmat. simpl.
    change (0 + 1 * 1 = 1). lra.
  - split; [exact e|]. split; [|exact h3]. unfold mmul. simpl Rsum. rewrite h2 by lia.
    change (0 + 0 * mdiag (vent d') 0%nat 0%nat <> 0 + 1 * -1). lra.
Qed.
Print Assumptions C27_refuted.

(** It is wrong for every input that reaches the branch with a negative value *)
Theorem C27_always_refuted r (d : list RN) (u : mat RN) j : nr u = r -> nc u = length d -> (j < length d)%nat -> vent d j < 0 ->
  exists d' u', svd_fix_signs (N:=RN) (length d) d (Some u) = Ret (d', Some u') /\ vent d' j = - vent d j /\
    (forall i, (i < r)%nat -> ent u' i j = 0) /\ ~ orthonormal_cols r (length d) (ent u').
Proof. exact (fix_signs_breaks r d u j). Qed.
Print Assumptions C27_always_refuted.

(** The branch is reachable in binary64: on this upper bidiagonal matrix svd(true, true) returns a matrix U
    whose last column is zero. *)
Definition c27_a : mat FN :=
  Mat 5 5 [[fpow2 (-41); fpow2 (-1); n0 FN; n0 FN; n0 FN];
           [n0 FN; fpow2 (-45); nofQ FN 7 64; n0 FN; n0 FN];
           [n0 FN; n0 FN; n1 FN; fpow2 (-18); n0 FN];
           [n0 FN; n0 FN; n0 FN; nofQ FN 3 8; fpow2 (-18)];
           [n0 FN; n0 FN; n0 FN; n0 FN; fpow2 (-48)]].
Theorem C27_binary64_refuted : exists (a : mat FN) u s vt,
  (forall i j, (i < 5)%nat -> (j < 5)%nat -> (0 <= fq (get a i j) <= 1)%Q) /\
  svd 100 a true true = Ret (Some u, s, Some vt) /\ nr u = 5%nat /\ nc u = 5%nat /\
  forall i, (i < 5)%nat -> (fq (get u i 4) == 0)%Q.
Proof.
  exists c27_a. destruct (svd 100 c27_a true true) as [[[[u|] s] [vt|]]| | | |] eqn:e; try (vm_compute in e; discriminate).
  exists u, s, vt. split; [|split; [reflexivity|]].
  - intros i j hi hj. destruct i as [|[|[|[|[|i]]]]]; try lia; destruct j as [|[|[|[|[|j]]]]]; try lia; (split; vm_compute; discriminate).
  - vm_compute in e. injection e as <- <- <-. split; [reflexivity|]. split; [reflexivity|].
    intros i hi. destruct i as [|[|[|[|[|i]]]]]; try lia; vm_compute; reflexivity.
Qed.
Print Assumptions C27_binary64_refuted.

(** What remains true: without negative value nothing changes (missing: the negative case, refuted above).
    In exact arithmetic the branch is not reached with a negative value (used in C24). *)
Theorem C27_identity_partial n (d : list RN) (u : option (mat RN)) : (n <= length d)%nat ->
  (forall j, (j < n)%nat -> 0 <= vent d j) -> svd_fix_signs (N:=RN) n d u = Ret (d, u).
Proof. intros h1 h2. destruct (wp_ret _ _ (fix_signs_real n d u h1 h2)) as (x & e & ->). exact e. Qed.
Print Assumptions C27_identity_partial.
Example C27_nonvacuous : (forall j, (j < 2)%nat -> 0 <= vent [3; 0] j) /\ vent [3; -1] 1 < 0 /\
  nc (rmat 2 [[1;0];[0;1]]%Z) = length [3; -1].
Proof.
  split; [|split; [change (-1 < 0); lra|reflexivity]].
  intros j hj. destruct j as [|[|j]]; try lia; [change (0 <= 3)|change (0 <= 0)]; lra.
Qed.
