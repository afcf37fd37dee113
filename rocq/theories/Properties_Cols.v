(** * C75: the columns of a right-hand side are solved independently of each other, bit for bit *)
From Coq Require Import Reals List Arith Lia Bool ZArith.
From Coq.Floats Require Import SpecFloat.
From Verif Require Import Scalar Arr MBase MDirect Inst Hoare PTri PTriF PChol PHouse PQR PCols Ex.
Import ListNotations.

(** ** Specification *)
(** Two calls have the same outcome for column [j] of the first and column [j'] of the second: the same
    error, or results whose columns [j] and [j'] have the same entries, as scalars of the semantics [N]
    (in binary64: the same bits, up to NaN payloads). Neither call leaves the bounds of an array or panics
    unless the other one does. *)
Definition same_outcome {N : Num} (j j' : nat) (r r' : res (mat N)) : Prop :=
  match r, r' with
  | Ret x, Ret x' => nr x = nr x' /\ j < nc x /\ j' < nc x' /\ forall i, i < nr x -> get x i j = get x' i j'
  | Err e, Err e' => e = e'
  | Panicked, Panicked | OutOfBounds, OutOfBounds | OutOfFuel, OutOfFuel => True
  | _, _ => False
  end.
(** column [j] alone, as a matrix with one column *)
Definition column {N : Num} (b : mat N) (j : nat) : mat N := mk (nr b) 1 (fun i _ => get b i j).
(** unit vector [j] of length [n], as a matrix with one column *)
Definition unit_col {N : Num} (n j : nat) : mat N := mk n 1 (fun i _ => if Nat.eqb i j then n1 N else n0 N).

Section C75.
Context {N : Num}.

Lemma sim_outcome (j j' : nat) (r r' : res (mat N)) : sim (same_col j j') r r' -> same_outcome j j' r r'.
Proof. destruct r, r'; cbn; auto. Qed.
Lemma column_same (b : mat N) j : j < nc b -> same_col j 0 b (column b j).
Proof. intros h. unfold column. split; [reflexivity|]. split; [cbn; auto|]. split; [cbn; auto|]. intros i hi. cbn in hi. now rewrite get_mk by auto. Qed.
Lemma unit_same n j : j < n -> same_col (N:=N) j 0 (eye n) (unit_col n j).
Proof. intros h. unfold unit_col, eye. split; [reflexivity|]. split; [cbn; auto|]. split; [cbn; auto|]. intros i hi. cbn in hi. now rewrite !get_mk by auto. Qed.

(** Two right-hand sides with a common column (whatever their other columns and whatever their number of
    columns) give solutions with that column in common. *)
Theorem C75_common_column (a b b' : mat N) (d : qrdecomp N) (m : mat N) u (j j' : nat) :
  nr b = nr b' -> j < nc b -> j' < nc b' -> (forall i, i < nr b -> get b i j = get b' i j') ->
  same_outcome j j' (solve_triangular a b u) (solve_triangular a b' u) /\
  same_outcome j j' (solvec a b) (solvec a b') /\
  same_outcome j j' (least_squares a b) (least_squares a b') /\
  (qr_into m = Ret d -> same_outcome j j' (qr_solve d b) (qr_solve d b')) /\
  (qr_into m = Ret d -> same_outcome j j' (qr_solve_tr d b) (qr_solve_tr d b')).
Proof.
  intros h1 h2 h3 h4. assert (hs : same_col j j' b b') by (repeat split; auto).
  assert (hw : qr_into m = Ret d -> qr_wf d) by (intros e; pose proof (qr_class m) as hc; rewrite e in hc; apply hc).
  repeat split; intros; apply sim_outcome.
  - apply triangular_cols; auto.
  - apply solvec_cols; auto.
  - apply least_squares_cols; auto.
  - apply qr_solve_cols; auto.
  - apply qr_solve_tr_cols; auto.
Qed.

(** Column [j] of a solution is the solution for column [j] on its own. *)
Theorem C75_one_column (a b : mat N) (d : qrdecomp N) (m : mat N) u (j : nat) : j < nc b ->
  same_outcome j 0 (solve_triangular a b u) (solve_triangular a (column b j) u) /\
  same_outcome j 0 (solvec a b) (solvec a (column b j)) /\
  same_outcome j 0 (least_squares a b) (least_squares a (column b j)) /\
  (qr_into m = Ret d -> same_outcome j 0 (qr_solve d b) (qr_solve d (column b j))) /\
  (qr_into m = Ret d -> same_outcome j 0 (qr_solve_tr d b) (qr_solve_tr d (column b j))).
Proof. intros h. destruct (column_same b j h) as (h1 & h2 & h3 & h4). apply C75_common_column; auto. Qed.

(** Column [j] of an inverse is the solution for unit vector [j]. *)
Theorem C75_inverse (a : mat N) (d : qrdecomp N) (j : nat) :
  (j < nr a -> same_outcome j 0 (invc a) (solvec a (unit_col (nr a) j))) /\
  (qr_into a = Ret d -> nr a = nc a -> j < nr a ->
     same_outcome j 0 (qr_inverse d) (qr_solve d (unit_col (nr a) j))).
Proof.
  split; intros.
  - apply sim_outcome. unfold invc. apply solvec_cols, unit_same; auto.
  - apply sim_outcome. pose proof (qr_class a) as hc. rewrite H in hc. destruct hc as (c1 & c2 & c3 & c4).
    unfold qr_inverse, check_square. rewrite c2, c3, H0. rewrite Nat.eqb_refl. cbn [negb bind]. destruct c4 as (c4 & c5).
    rewrite c5, c3, <- H0. apply qr_solve_cols; [split; auto|]. apply unit_same; auto.
Qed.
End C75.
Print Assumptions C75_common_column.
Print Assumptions C75_one_column.
Print Assumptions C75_inverse.

(** ** Examples (binary64): a NaN column beside a finite one *)
Definition fcols (b : list (list (option Z))) (c : nat) : mat FN :=
  Mat (length b) c (map (map (fun o => match o with Some z => f_of_Z z | None => fnan end)) b).
Definition b75 : mat FN := fcols [[Some 1; None; Some 2]; [Some 5; Some 7; None]; [Some (-3); Some 11; Some 4]]%Z 3.
Definition a75 : mat FN := fmat 3 [[4; 1; 2]; [1; 5; 3]; [2; 3; 6]]%Z.
Definition col_finite (r : res (mat FN)) (j : nat) : bool :=
  match r with
  | Ret x => (0 <? nr x) && forallb (fun i => match get x i j with S754_finite _ _ _ | S754_zero _ => true | _ => false end) (seq 0 (nr x))
  | _ => false
  end.
Definition cols_equal (r r' : res (mat FN)) (j j' : nat) : bool :=
  match r, r' with
  | Ret x, Ret x' => (nr x =? nr x') && forallb (fun i => SFeqb (get x i j) (get x' i j')) (seq 0 (nr x))
  | _, _ => false
  end.
(** column 0 is finite and the one solved alone; column 1 of the same call is NaN *)
Example C75_nan_beside :
  forallb (fun f : mat FN -> res (mat FN) =>
    col_finite (f b75) 0 && negb (col_finite (f b75) 1) && cols_equal (f b75) (f (column b75 0)) 0 0)
    [ (fun b => solve_triangular a75 b Upper); (fun b => solve_triangular a75 b Lower); (fun b => solvec a75 b);
      (fun b => least_squares a75 b);
      (fun b => least_squares (fmat 2 [[1; 2]; [3; 4]; [5; 7]]%Z) b);
      (fun b => let* d := qr_into a75 in qr_solve_tr d b) ] = true.
Proof. vm_compute. reflexivity. Qed.
(** an inverse column, and a call refused for both right-hand sides *)
Example C75_inverse_example :
  forallb (fun j => col_finite (invc a75) j && cols_equal (invc a75) (solvec a75 (unit_col 3 j)) j 0 &&
    cols_equal (let* d := qr_into a75 in qr_inverse d) (let* d := qr_into a75 in qr_solve d (unit_col 3 j)) j 0) [0; 1; 2]%nat &&
  match solvec (fmat 2 [[1; 2]; [2; 1]]%Z) (fmat 2 [[1; 2]; [3; 4]]%Z),
        solvec (fmat 2 [[1; 2]; [2; 1]]%Z) (column (fmat 2 [[1; 2]; [3; 4]]%Z) 1) with
  | Err e, Err e' => match e, e' with NotPositiveDefinite, NotPositiveDefinite => true | _, _ => false end
  | _, _ => false
  end = true.
Proof. vm_compute. reflexivity. Qed.
