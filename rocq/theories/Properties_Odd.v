(** * C81: the direct solvers are odd in the right-hand side, bit for bit, and homogeneous over the reals *)
From Coq Require Import Reals List Arith Lia Bool ZArith.
From Coq.Floats Require Import SpecFloat.
From Verif Require Import Scalar Arr MBase MDirect Inst Inst32 Hoare PTri PTriF PChol PHouse PQR PCols PLin Ex.
Import ListNotations.

(** ** Specification *)
(** [y] is [x] with the other sign; the sign of a zero is left open (a sum that cancels is +0 for both signs) *)
Definition opposite (x y : spec_float) : Prop :=
  match x, y with
  | S754_zero _, S754_zero _ => True
  | S754_infinity s, S754_infinity t => t = negb s
  | S754_nan, S754_nan => True
  | S754_finite s m e, S754_finite t m' e' => t = negb s /\ m' = m /\ e' = e
  | _, _ => False
  end.
(** Two calls have corresponding outcomes for column [j]: the same error, or results with the same number of rows
    whose columns [j] are related entry by entry. *)
Definition related_outcome {N : Num} (L : N -> N -> Prop) (j : nat) (r r' : res (mat N)) : Prop :=
  match r, r' with
  | Ret x, Ret x' => nr x = nr x' /\ j < nc x /\ j < nc x' /\ forall i, i < nr x -> L (get x i j) (get x' i j)
  | Err e, Err e' => e = e'
  | Panicked, Panicked | OutOfBounds, OutOfBounds | OutOfFuel, OutOfFuel => True
  | _, _ => False
  end.
(** Every direct solver, called with [b] and with [b'], has corresponding outcomes for column [j]. *)
Definition solvers_related {N : Num} (L : N -> N -> Prop) (j : nat) (a b b' : mat N) : Prop :=
  (forall u, related_outcome L j (solve_triangular a b u) (solve_triangular a b' u)) /\
  related_outcome L j (solvec a b) (solvec a b') /\
  related_outcome L j (least_squares a b) (least_squares a b') /\
  (forall d, qr_into a = Ret d -> related_outcome L j (qr_solve d b) (qr_solve d b') /\
                                  related_outcome L j (qr_solve_tr d b) (qr_solve_tr d b')).

(** ** The operations *)
Section Opp.
Variables p e : Z.
Lemma aux_opp s m x l : opposite (binary_round_aux p e s m x l) (binary_round_aux p e (negb s) m x l).
Proof.
  unfold binary_round_aux. destruct (shr_fexp p e m x l) as (mrs & x'). cbn zeta. destruct (shr_fexp p e _ x' loc_Exact) as (mrs2 & x2).
  destruct (shr_m mrs2); cbn; auto. destruct (Zle_bool _ _); cbn; auto.
Qed.
Lemma normalize_opp m x : opposite (binary_normalize p e m x false) (binary_normalize p e (- m) x false).
Proof. destruct m; cbn [Z.opp binary_normalize]; [exact I| |]; unfold binary_round; destruct (shl_align _ _ _); [apply (aux_opp false)|apply (aux_opp true)]. Qed.
Lemma opposite_add x x' y y' : opposite x x' -> opposite y y' -> opposite (SFadd p e x y) (SFadd p e x' y').
Proof.
  destruct x as [s|s| |s m z], x' as [s'|s'| |s' m' z']; cbn [opposite]; try contradiction; intros hx;
  destruct y as [t|t| |t n w], y' as [t'|t'| |t' n' w']; cbn [opposite]; try contradiction; intros hy; cbn [SFadd];
  repeat match goal with h : _ /\ _ |- _ => destruct h end; subst; cbn [opposite]; auto.
  - destruct (Bool.eqb _ _), (Bool.eqb _ _); exact I.
  - destruct s, t; cbn; auto.
  - replace (cond_Zopp (negb s) _ + cond_Zopp (negb t) _)%Z with
      (- (cond_Zopp s (Z.pos (fst (shl_align m z (Z.min z w)))) + cond_Zopp t (Z.pos (fst (shl_align n w (Z.min z w))))))%Z.
    + apply normalize_opp.
    + destruct s, t; cbn [negb cond_Zopp]; lia.
Qed.
Lemma opposite_opp x x' : opposite x x' -> opposite (SFopp x) (SFopp x').
Proof. destruct x, x'; cbn; try contradiction; intros h; repeat match goal with h : _ /\ _ |- _ => destruct h end; subst; auto. Qed.
Lemma opposite_sub0 x x' : opposite x x' -> opposite (SFsub p e x (S754_zero false)) (SFsub p e x' (S754_zero false)).
Proof.
  destruct x, x'; cbn [opposite]; try contradiction; intros h; repeat match goal with h : _ /\ _ |- _ => destruct h end; subst; cbn; auto.
  destruct s, s0; cbn; auto.
Qed.
Lemma opposite_mul_r x x' a : opposite x x' -> opposite (SFmul p e x a) (SFmul p e x' a).
Proof.
  destruct x, x'; cbn [opposite]; try contradiction; intros h; repeat match goal with h : _ /\ _ |- _ => destruct h end; subst;
  destruct a; cbn [SFmul opposite]; auto; rewrite ?negb_xorb_l; auto.
  rewrite <- negb_xorb_l. apply aux_opp.
Qed.
Lemma opposite_mul_l x x' a : opposite x x' -> opposite (SFmul p e a x) (SFmul p e a x').
Proof.
  destruct x, x'; cbn [opposite]; try contradiction; intros h; repeat match goal with h : _ /\ _ |- _ => destruct h end; subst;
  destruct a; cbn [SFmul opposite]; auto; rewrite ?negb_xorb_r; auto.
  rewrite <- negb_xorb_r. apply aux_opp.
Qed.
Lemma opposite_div x x' a : opposite x x' -> opposite (SFdiv p e x a) (SFdiv p e x' a).
Proof.
  destruct x, x'; cbn [opposite]; try contradiction; intros h; repeat match goal with h : _ /\ _ |- _ => destruct h end; subst;
  destruct a; cbn [SFdiv opposite]; auto; rewrite ?negb_xorb_l; auto.
  destruct (SFdiv_core_binary _ _ _ _ _ _) as ((? & ?) & ?). rewrite <- negb_xorb_l. apply aux_opp.
Qed.
End Opp.
Lemma lin_FN : lin_ok FN opposite.
Proof.
  split; intros; first [apply opposite_add | apply opposite_sub0 | apply opposite_mul_r | apply opposite_mul_l | apply opposite_div | apply opposite_opp | exact I]; auto.
Qed.
Lemma lin_FN32 : lin_ok FN32 opposite.
Proof.
  split; intros; first [apply opposite_add | apply opposite_sub0 | apply opposite_mul_r | apply opposite_mul_l | apply opposite_div | apply opposite_opp | exact I]; auto.
Qed.
Lemma lin_RN (c : R) : lin_ok RN (fun x y => y = (c * x)%R).
Proof.
  split.
  - change (0 = c * 0)%R. ring.
  - intros x x' y y' -> ->. change (c * x + c * y = c * (x + y))%R. ring.
  - intros x x' ->. change (c * x - 0 = c * (x - 0))%R. ring.
  - intros x x' a ->. change (c * x * a = c * (x * a))%R. ring.
  - intros x x' a ->. change (a * (c * x) = c * (a * x))%R. ring.
  - intros x x' ->. change (- (c * x) = c * - x)%R. ring.
  - intros x x' a ->. change (c * x / a = c * (x / a))%R. unfold Rdiv. ring.
Qed.

Lemma all_related {N : Num} (L : N -> N -> Prop) (hL : lin_ok N L) (a b b' : mat N) j :
  nr b = nr b' -> j < nc b -> j < nc b' -> (forall i, i < nr b -> L (get b i j) (get b' i j)) ->
  solvers_related L j a b b'.
Proof.
  intros h1 h2 h3 h4. assert (hs : @rel_col N L j j b b') by (repeat split; auto).
  assert (ho : forall r r', sim (@rel_col N L j j) r r' -> related_outcome L j r r') by (intros r r'; destruct r, r'; cbn; auto).
  repeat apply conj; intros; try apply conj; apply ho.
  - apply triangular_rel; auto.
  - apply solvec_rel; auto.
  - apply least_squares_rel; auto.
  - apply qr_solve_rel; auto. pose proof (qr_class a) as hc. rewrite H in hc. apply hc.
  - apply qr_solve_tr_rel; auto. pose proof (qr_class a) as hc. rewrite H in hc. apply hc.
Qed.

(** ** Theorems *)
(** binary64: a right-hand side with the opposite signs gives the solution with the opposite signs, with no rounding
    difference, also through overflow, underflow and NaN; an error is the same error. *)
Theorem C81_binary64 (a b b' : mat FN) j :
  nr b = nr b' -> j < nc b -> j < nc b' -> (forall i, i < nr b -> opposite (get b i j) (get b' i j)) ->
  solvers_related (N:=FN) opposite j a b b'.
Proof. apply (all_related (N:=FN) opposite lin_FN). Qed.
Print Assumptions C81_binary64.

(** binary32, in the same way *)
Theorem C81_binary32 (a b b' : mat FN32) j :
  nr b = nr b' -> j < nc b -> j < nc b' -> (forall i, i < nr b -> opposite (get b i j) (get b' i j)) ->
  solvers_related (N:=FN32) opposite j a b b'.
Proof. apply (all_related (N:=FN32) opposite lin_FN32). Qed.
Print Assumptions C81_binary32.

(** Exact arithmetic: [c] times the right-hand side gives [c] times the solution, for every [c], zero included. *)
Theorem C81_exact (c : R) (a b b' : mat RN) j :
  nr b = nr b' -> j < nc b -> j < nc b' -> (forall i, i < nr b -> get b' i j = (c * get b i j)%R) ->
  solvers_related (N:=RN) (fun x y => y = (c * x)%R) j a b b'.
Proof. apply (all_related (N:=RN) _ (lin_RN c)). Qed.
Print Assumptions C81_exact.

(** ** Homogeneity fails in binary64 for other factors, three for instance *)
Definition fget (r : res (mat FN)) : spec_float := match r with Ret x => get x 0 0 | _ => S754_nan end.
Definition three (x : spec_float) : spec_float := nmul FN (f_of_Z 3) x.
Theorem C81_binary64_factor_refuted : exists a b b' : mat FN,
  nr b = 1 /\ nr b' = 1 /\ get b' 0 0 = three (get b 0 0) /\
  SFeqb (fget (solve_triangular a b' Upper)) (three (fget (solve_triangular a b Upper))) = false /\
  SFleb (f_of_Z 0) (fget (solve_triangular a b Upper)) = true.
Proof.
  exists (fmat 1 [[5]]%Z), (fmat 1 [[1]]%Z), (fmat 1 [[3]]%Z).
  split; [reflexivity|]. split; [reflexivity|]. repeat split; vm_compute; reflexivity.
Qed.
Print Assumptions C81_binary64_factor_refuted.

(** ** Examples *)
Definition opposite_b (x y : spec_float) : bool := SFeqb y (SFopp x) && negb (SFeqb x (f_of_Z 0)).
Definition outcomes_opposite (r r' : res (mat FN)) : bool :=
  match r, r' with Ret x, Ret x' => (1 <? nr x) && forallb (fun i => opposite_b (get x i 0) (get x' i 0)) (seq 0 (nr x)) | _, _ => false end.
Definition a81 : mat FN := fmat 3 [[4; 1; 2]; [1; 5; 3]; [2; 3; 7]]%Z.
Definition b81 : mat FN := fmat 1 [[1]; [-5]; [3]]%Z.
Definition b81' : mat FN := fmat 1 [[-1]; [5]; [-3]]%Z.
Example C81_hypothesis : forallb (fun i => opposite_b (get b81 i 0) (get b81' i 0)) [0; 1; 2]%nat = true.
Proof. vm_compute. reflexivity. Qed.
Example C81_nonzero_answers :
  forallb (fun f : mat FN -> res (mat FN) => outcomes_opposite (f b81) (f b81'))
    [ (fun b => solve_triangular a81 b Upper); (fun b => solve_triangular a81 b Lower); (fun b => solvec a81 b);
      (fun b => least_squares a81 b); (fun b => let* d := qr_into a81 in qr_solve_tr d b) ] = true.
Proof. vm_compute. reflexivity. Qed.
(** A zero keeps its sign open: with right-hand sides 1 and -1 in both rows the first entry of the solution is +0 in both calls *)
Example C81_zero_sign :
  match solve_triangular (fmat 2 [[1; 1]; [0; 1]]%Z) (fmat 1 [[1]; [1]]%Z) Upper,
        solve_triangular (fmat 2 [[1; 1]; [0; 1]]%Z) (fmat 1 [[-1]; [-1]]%Z) Upper with
  | Ret x, Ret y => match get x 0 0, get y 0 0 with S754_zero false, S754_zero false => true | _, _ => false end
  | _, _ => false
  end = true.
Proof. vm_compute. reflexivity. Qed.
