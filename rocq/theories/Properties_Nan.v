(** * Property C71: a NaN in the input is never lost (binary64)

    A call given a NaN either fails or returns a result that shows it: no function turns a matrix
    with a NaN into finite, plausible numbers. [FNh h] is the binary64 instance of the model with
    the libm function [hypot] replaced by [h] (SpecH.v); the direct solvers do not call [hypot]. *)
From Coq Require Import Reals List Arith Lia Bool ZArith.
From Coq.Floats Require Import SpecFloat.
From Verif Require Import Scalar Arr MBase MDirect MDecomp MEigh MSvd Inst Hoare Spec SpecH Ex PTri PTriF PCholF PQR PNan PNanD PNanE PNanS.
Import ListNotations.

(** ** Triangular systems: the NaN reaches every unknown computed after it *)
Theorem C71_solve_upper (a b x : mat FN) i k p : solve_triangular a b Upper = Ret x -> (i < nr a)%nat -> (k < nc b)%nat -> (p <= i)%nat ->
  get b i k = S754_nan \/ (exists j, (i <= j < nr a)%nat /\ get a i j = S754_nan) -> get x p k = S754_nan.
Proof.
  intros e hi hk hp h. apply (solve_triangular_nan a b x Upper k i p e hk hi); [lia| |cbn; lia].
  destruct h as [h|(j & hj & h)]; [left; exact h|right]. exists j. split; [lia|]. split; [cbn; lia|exact h].
Qed.
Print Assumptions C71_solve_upper.
Theorem C71_solve_lower (a b x : mat FN) i k p : solve_triangular a b Lower = Ret x -> (k < nc b)%nat -> (i <= p < nr a)%nat ->
  get b i k = S754_nan \/ (exists j, (j <= i)%nat /\ get a i j = S754_nan) -> get x p k = S754_nan.
Proof.
  intros e hk hp h. apply (solve_triangular_nan a b x Lower k i p e hk); [lia|lia| |cbn; lia].
  destruct h as [h|(j & hj & h)]; [left; exact h|right]. exists j. split; [lia|]. split; [cbn; lia|exact h].
Qed.
Print Assumptions C71_solve_lower.

(** ** Cholesky: a NaN in the part that is read reaches the diagonal, from its row on *)
Theorem C71_cholesky (a l : mat FN) i j p : cholesky a = Ret l -> (j <= i)%nat -> (i <= p < nr a)%nat -> get a i j = S754_nan ->
  get l i j = S754_nan /\ get l p p = S754_nan.
Proof.
  intros e hj hp hn. unfold cholesky in e. apply bind_ret in e as (l0 & hc & ht). destruct (cholesky_dirty_exact a l0 hc) as [sq hex]. pose proof hex as (d1 & d2 & _).
  destruct (wp_ret _ _ (triangular_inplace_ok l0 Lower ltac:(lia))) as (l' & e' & _ & _ & _ & g4). rewrite ht in e'. injection e' as <-.
  destruct (chol_nan a l0 (nr a) i j hex ltac:(lia) hn) as (h1 & h2). split.
  - rewrite g4 by (simpl; lia). exact h1.
  - rewrite g4 by (simpl; lia). apply h2. lia.
Qed.
Print Assumptions C71_cholesky.
Theorem C71_solvec (a b x : mat FN) k : solvec a b = Ret x -> (k < nc b)%nat ->
  (exists i j, (j <= i < nr a)%nat /\ get a i j = S754_nan) \/ (exists i, (i < nr a)%nat /\ get b i k = S754_nan) ->
  forall p, (p < nr x)%nat -> get x p k = S754_nan.
Proof. intros e hk h p hp. destruct (solvec_nan a b x k e hk h) as (h1 & _ & h2). apply h2. lia. Qed.
Print Assumptions C71_solvec.
Theorem C71_invc (a x : mat FN) i j : invc a = Ret x -> (j <= i < nr a)%nat -> get a i j = S754_nan ->
  forall p q, (p < nr x)%nat -> (q < nc x)%nat -> get x p q = S754_nan.
Proof.
  intros e hi hn p q hp hq. unfold invc in e.
  destruct (solvec_nan a (eye (nr a)) x 0 e ltac:(cbn; lia)) as (_ & h1 & _); [left; exists i, j; auto|].
  apply (C71_solvec a (eye (nr a)) x q e); [rewrite <- h1; exact hq| |exact hp]. left. exists i, j. auto.
Qed.
Print Assumptions C71_invc.

(** ** QR: the diagonal of R shows the NaN from its column on, or the matrix is reported singular *)
Theorem C71_qr (a : mat FN) (d : qrdecomp FN) i j : qr_into a = Ret d -> (i < nr a)%nat -> (j < nc a)%nat -> get a i j = S754_nan ->
  is_invertible d = false \/ forall q, (j <= q < nc a)%nat -> vget (qdiag d) q = S754_nan.
Proof.
  intros e hi hj hn.
  assert (ht : (nc a <= nr a)%nat). { unfold qr_into in e. destruct (Nat.ltb_spec (nr a) (nc a)); [discriminate|lia]. }
  pose proof (qr_class a) as hw. rewrite e in hw. pose proof (qr_nan a i j ht hi hj hn) as h. rewrite e in h. cbn [post] in h. destruct h as [h|h]; [left|right; exact h].
  apply (zdiag_inv d (nc a) h). destruct hw as (_ & _ & h2 & _ & h3). lia.
Qed.
Print Assumptions C71_qr.
Theorem C71_qr_solve (a b x : mat FN) (d : qrdecomp FN) k : qr_into a = Ret d -> qr_solve d b = Ret x -> (k < nc b)%nat ->
  (exists i j, (i < nr a)%nat /\ (j < nc a)%nat /\ get a i j = S754_nan) \/ (exists i, (i < nr a)%nat /\ get b i k = S754_nan) ->
  forall p, (p < nr x)%nat -> get x p k = S754_nan.
Proof. intros e1 e2 hk h p hp. destruct (qr_solve_nan a b x d k e1 e2 hk h) as (h1 & _ & h2). apply h2. lia. Qed.
Print Assumptions C71_qr_solve.
Theorem C71_inverse (a x : mat FN) (d : qrdecomp FN) i j : qr_into a = Ret d -> qr_inverse d = Ret x -> (i < nr a)%nat -> (j < nc a)%nat -> get a i j = S754_nan ->
  forall p q, (p < nr x)%nat -> (q < nc x)%nat -> get x p q = S754_nan.
Proof. intros e1 e2 hi hj h p q hp hq. destruct (inverse_nan a x d i j e1 e2 hi hj h) as (h1 & h2 & h3). apply h3; lia. Qed.
Print Assumptions C71_inverse.
Theorem C71_least_squares (a b x : mat FN) k : least_squares a b = Ret x -> (k < nc b)%nat ->
  (exists i j, (i < nr a)%nat /\ (j < nc a)%nat /\ get a i j = S754_nan) \/ (exists i, (i < nr a)%nat /\ get b i k = S754_nan) ->
  forall p, (p < nr x)%nat -> get x p k = S754_nan.
Proof. intros e hk h p hp. destruct (least_squares_nan a b x k e hk h) as (h1 & _ & h2). apply h2. lia. Qed.
Print Assumptions C71_least_squares.

(** ** Norms *)
Theorem C71_norms (v : list FN) : In (S754_nan : FN) v -> norm_l1 v = S754_nan /\ norm_l2 v = S754_nan.
Proof. apply norms_nan. Qed.
Print Assumptions C71_norms.
(** norm_max (src/norm.rs:33-35) does lose a NaN: [f64::max] returns its other argument *)
Theorem C71_norm_max_refuted : exists v : list FN, In (S754_nan : FN) v /\ norm_max v = f_of_Z 2.
Proof. exists [f_of_Z (-2); S754_nan; f_of_Z 1]. split; [right; left; reflexivity|vm_compute; reflexivity]. Qed.
Print Assumptions C71_norm_max_refuted.

(** ** Decompositions: a NaN or an infinity in the part that is read *)
Definition non_finite (x : spec_float) : Prop := match x with S754_nan | S754_infinity _ => True | _ => False end.
Lemma non_finite_nonfinite x : non_finite x -> nonfinite x.
Proof. intros h. unfold nonfinite. destruct x; cbn in h; try contradiction; [right; eauto|left; auto]. Qed.
Lemma scaled_nan h (m : mat (FNh h)) i j : (i < nr m)%nat -> (j < nc m)%nat -> non_finite (get m i j) -> get (scale_down (N:=FNh h) m (abs_max (N:=FNh h) m)) i j = S754_nan.
Proof. intros hi hj hx. exact (scale_nan m i j hi hj (non_finite_nonfinite _ hx)). Qed.

Theorem C71_eigvalsh h fuel (m : mat (FNh h)) vals i j : eigvalsh (N:=FNh h) fuel m = Ret vals -> (j <= i < nr m)%nat -> non_finite (get m i j) ->
  exists k, (k < length vals)%nat /\ vget vals k = S754_nan.
Proof.
  intros e hi hx. unfold eigvalsh in e. apply bind_ret in e as ([v w] & es & e). injection e as <-.
  assert (sq : nr m = nc m). { unfold symmetric_eig, check_square in es. destruct (Nat.eqb_spec (nr m) (nc m)); [auto|discriminate]. }
  apply (symmetric_eig_z (N:=FNh h) S754_nan (nan_absorbing h) fuel m false (nepsilon (FNh h)) v w i j sq hi); [|exact es].
  apply scaled_nan; [lia|lia|exact hx].
Qed.
Print Assumptions C71_eigvalsh.
Theorem C71_eigh h fuel (m : mat (FNh h)) vals vecs i j : eigh (N:=FNh h) fuel m = Ret (vals, vecs) -> (j <= i < nr m)%nat -> non_finite (get m i j) ->
  exists k, (k < length vals)%nat /\ vget vals k = S754_nan.
Proof.
  intros e hi hx. unfold eigh in e. apply bind_ret in e as ([v w] & es & e). apply bind_ret in e as (w' & _ & e). injection e as <- _.
  assert (sq : nr m = nc m). { unfold symmetric_eig, check_square in es. destruct (Nat.eqb_spec (nr m) (nc m)); [auto|discriminate]. }
  apply (symmetric_eig_z (N:=FNh h) S754_nan (nan_absorbing h) fuel m true (nepsilon (FNh h)) v w i j sq hi); [|exact es].
  apply scaled_nan; [lia|lia|exact hx].
Qed.
Print Assumptions C71_eigh.

(** What is asked of [hypot]: it does not make a NaN or an infinity finite *)
Definition hypot_strict (h : spec_float -> spec_float -> spec_float) : Prop := forall x y, non_finite x \/ non_finite y -> non_finite (h x y).
Lemma f_hypot_strict : hypot_strict f_hypot.
Proof.
  intros x y [h|h]; [destruct x as [?|?| |? ? ?]; try contradiction; destruct y|destruct y as [?|?| |? ? ?]; try contradiction; destruct x]; exact I.
Qed.
Lemma nf_infectious h : hypot_strict h -> infectious (FNh h) non_finite (nmul (FNh h) (nepsilon (FNh h)) (nofQ (FNh h) 5%Z 1%positive)).
Proof.
  intros hh. split.
  1-7: intros [[|]|[|]| |[|] m e] y hx; cbn in hx; try contradiction; destruct y as [[|]|[|]| |[|] m' e']; try contradiction; exact I.
  1-2: intros [?|?| |? ? ?] hx; cbn in hx; try contradiction; exact I.
  - intros x y hx. apply hh. left. exact hx.
  - intros x y hx. apply hh. right. exact hx.
  - intros [?|[|]| |? ? ?] hx; cbn in hx; try contradiction; reflexivity.
  - intros [?|[|]| |? ? ?] hx; cbn in hx; try contradiction; vm_compute; reflexivity.
Qed.
Theorem C71_svd h fuel (m : mat (FNh h)) cu cv u s vt i j : hypot_strict h -> svd (N:=FNh h) fuel m cu cv = Ret (u, s, vt) ->
  (i < nr m)%nat -> (j < nc m)%nat -> non_finite (get m i j) -> exists k, (k < length s)%nat /\ non_finite (vget s k).
Proof.
  intros hh e hi hj hx. unfold svd in e.
  apply (svd_eps_bad (N:=FNh h) non_finite _ (nf_infectious h hh) S754_nan (nan_absorbing h) I fuel m cu cv u s vt i j hi hj); [|exact e].
  apply scaled_nan; auto.
Qed.
Print Assumptions C71_svd.

(** ** Runs *)
Definition z_ (n : Z) : FN := f_of_Z n.
Definition c71_a : mat FN := Mat 3 3 [[z_ 4; z_ 1; z_ 0]; [z_ 1; S754_nan; z_ 1]; [z_ 0; z_ 1; z_ 5]].
Definition c71_b : mat FN := Mat 3 1 [[z_ 1]; [z_ 2]; [z_ 3]].
Example C71_upper_run : (let* x := solve_triangular c71_a c71_b Upper in Ret (rows x))%res =
  Ret [[S754_nan]; [S754_nan]; [ndiv FN (z_ 3) (z_ 5)]].
Proof. vm_compute. reflexivity. Qed.
(** the Cholesky pivot test [val <= 0] is false for a NaN, so the matrix is accepted *)
Example C71_cholesky_run : (let* l := cholesky c71_a in Ret (get l 0 0, get l 1 1, get l 2 2))%res = Ret (z_ 2, S754_nan, S754_nan).
Proof. vm_compute. reflexivity. Qed.
Example C71_solvec_run : (let* x := solvec c71_a c71_b in Ret (rows x))%res = Ret [[S754_nan]; [S754_nan]; [S754_nan]].
Proof. vm_compute. reflexivity. Qed.
Example C71_qr_run : (let* d := qr_into c71_a in Ret (is_invertible d, vget (qdiag d) 1, vget (qdiag d) 2))%res = Ret (true, S754_nan, S754_nan).
Proof. vm_compute. reflexivity. Qed.
Example C71_least_squares_run : (let* x := least_squares c71_a c71_b in Ret (rows x))%res = Ret [[S754_nan]; [S754_nan]; [S754_nan]].
Proof. vm_compute. reflexivity. Qed.
Example C71_eigvalsh_run : (let* v := eigvalsh 10 c71_a in Ret (vget v 2))%res = Ret S754_nan.
Proof. vm_compute. reflexivity. Qed.
(** a 2 by 2 and a 3 by 1 matrix on which the singular value decomposition returns *)
Definition c71_c : mat FN := Mat 2 2 [[z_ 1; z_ 0]; [z_ 0; S754_infinity true]].
Definition c71_d : mat FN := Mat 3 1 [[z_ 1]; [S754_nan]; [z_ 2]].
Example C71_svd_run : (let* (p, vt) := svd 5 c71_c true true in Ret (snd p))%res = Ret [S754_nan; S754_nan] /\
  (let* (p, vt) := svd 5 c71_d false false in Ret (snd p))%res = Ret [S754_nan].
Proof. split; vm_compute; reflexivity. Qed.
Example C71_nonvacuous : get c71_a 1 1 = S754_nan /\ non_finite (get c71_c 1 1) /\ hypot_strict f_hypot.
Proof. split; [reflexivity|]. split; [exact I|exact f_hypot_strict]. Qed.
