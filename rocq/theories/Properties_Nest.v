(** * C82: factors and solutions of a leading (or trailing) block are blocks of the factors and solutions, bit for bit *)
From Coq Require Import Reals List Arith Lia Bool ZArith.
From Coq.Floats Require Import SpecFloat.
From Verif Require Import Scalar Arr MBase MDirect Inst Inst32 Hoare PTri PTriF PChol PHouse PQR PNest Ex.
Import ListNotations.

(** ** Specification *)
(** rows [r0 ..] and columns [c0 ..] of [a], [r] rows and [c] columns *)
Definition block {N : Num} (a : mat N) (r0 c0 r c : nat) : mat N := mk r c (fun i j => get a (r0 + i) (c0 + j)).
(** [x] has the shape r x c and the entries of [y] from row [r0] and column [c0] on *)
Definition is_block {N : Num} (x : mat N) (r0 c0 r c : nat) (y : mat N) : Prop :=
  nr x = r /\ nc x = c /\ forall i j, i < r -> j < c -> get x i j = get y (r0 + i) (c0 + j).

Section C82.
Context {N : Num}.

(** If Cholesky succeeds on [a], it succeeds on every leading block of [a], and the factor of the block is the
    leading block of the factor. *)
Theorem C82_cholesky (a l : mat N) k : k <= nr a -> cholesky a = Ret l ->
  exists l', cholesky (block a 0 0 k k) = Ret l' /\ is_block l' 0 0 k k l.
Proof.
  intros hk e. destruct (cholesky_lead a (block a 0 0 k k) l) as (l' & e' & h1 & h2 & h3); auto.
  - intros p q hp hq. cbn in hp. unfold block. now rewrite get_mk by lia.
  - exists l'. split; auto. split; auto. split; auto. intros i j hi hj. symmetry. apply h3; auto.
Qed.

(** A leading block that is refused makes the whole matrix refused. *)
Theorem C82_cholesky_fails (a : mat N) k : k <= nr a -> nr a = nc a ->
  cholesky (block a 0 0 k k) = Err NotPositiveDefinite -> cholesky a = Err NotPositiveDefinite.
Proof.
  intros hk sq e. pose proof (C82_cholesky a) as hl. unfold cholesky in *. pose proof (cholesky_class a) as hc. pose proof (cholesky_dirty_shape a) as hd.
  unfold cholesky_dirty in *. destruct (cholesky_inplace_dirty a) as [m o]. cbn [fst snd] in hc, hd.
  destruct o as [u|x| | |]; cbn [bind] in *; try contradiction.
  - destruct hd as (h2 & h3). destruct (wp_ret _ _ (triangular_inplace_ok m Lower ltac:(lia))) as (l & el & _). exfalso.
    destruct (hl l k hk el) as (l' & e' & _). congruence.
  - destruct x; try reflexivity; exfalso; intuition congruence.
Qed.

(** Substitution: the solution of the leading rows of a lower triangular system, and of the trailing rows of an
    upper triangular one, is that part of the solution. *)
Theorem C82_forward (a b x : mat N) k : k <= nr a -> solve_triangular a b Lower = Ret x ->
  exists x', solve_triangular (block a 0 0 k k) (block b 0 0 k (nc b)) Lower = Ret x' /\ is_block x' 0 0 k (nc b) x.
Proof.
  intros hk e. destruct (triangular_corner a b (block a 0 0 k k) (block b 0 0 k (nc b)) x Lower) as (x' & e' & h1 & h2 & h3); auto.
  - intros p q hp hq. cbn in hp, hq. unfold block. now rewrite get_mk by lia.
  - intros p q hp hq. cbn in hp. unfold block. now rewrite get_mk by lia.
  - exists x'. split; auto. split; auto.
Qed.
Theorem C82_backward (a b x : mat N) k : k <= nr a -> solve_triangular a b Upper = Ret x ->
  exists x', solve_triangular (block a (nr a - k) (nr a - k) k k) (block b (nr a - k) 0 k (nc b)) Upper = Ret x' /\
    is_block x' (nr a - k) 0 k (nc b) x.
Proof.
  intros hk e. destruct (triangular_corner a b (block a (nr a - k) (nr a - k) k k) (block b (nr a - k) 0 k (nc b)) x Upper) as (x' & e' & h1 & h2 & h3); auto.
  - intros p q hp hq. cbn in hp, hq. unfold block. now rewrite get_mk by lia.
  - intros p q hp hq. cbn in hp. unfold block. now rewrite get_mk by lia.
  - exists x'. split; auto. split; auto.
Qed.

(** QR of the leading columns: the leading columns of Q and the leading block of R. *)
Theorem C82_qr (a q r : mat N) d k : k <= nc a -> qr_into a = Ret d -> qr_into_decomp d = Ret (q, r) ->
  exists d' q' r', qr_into (block a 0 0 (nr a) k) = Ret d' /\ qr_into_decomp d' = Ret (q', r') /\
    is_block q' 0 0 (nr a) k q /\ is_block r' 0 0 k k r.
Proof.
  intros hk e er. set (a' := block a 0 0 (nr a) k).
  destruct (qr_lead a a' d) as (d' & e' & h1 & h2 & h3 & h4 & h5); auto.
  { intros p j hp hj. cbn in hj. unfold a', block. now rewrite get_mk by auto. }
  change (nc a') with k in *.
  assert (hw : qr_wf d /\ nr (qr d) = nr a /\ nc (qr d) = nc a).
  { pose proof (qr_class a) as hc. rewrite e in hc. tauto. }
  assert (hw' : qr_wf d') by (pose proof (qr_class a') as hc; rewrite e' in hc; tauto).
  destruct hw as (hw & w1 & w2). unfold qr_into_decomp in er |- *.
  destruct (qr_generate_q d) as [q0| | | |] eqn:eq0; try discriminate. cbn [bind] in er.
  destruct (wp_ret _ _ (r_exact d hw)) as (r0 & er0 & r1 & r2 & r3). rewrite er0 in er. cbn [bind] in er. injection er as <- <-.
  destruct (q_lead d d' q0) as (q' & eq' & hq); auto; try congruence; try lia.
  { intros. rewrite h4 by lia. reflexivity. } { intros. rewrite h5 by lia. reflexivity. }
  destruct (wp_ret _ _ (r_exact d' hw')) as (r' & er' & s1 & s2 & s3).
  destruct (wp_ret _ _ (qr_generate_q_safe d' hw')) as (q'' & eq'' & t1 & t2). assert (q'' = q') as -> by congruence.
  exists d', q', r'. split; auto. rewrite eq'. cbn [bind]. rewrite er'. cbn [bind]. split; auto. split.
  - split; [lia|]. split; [lia|]. intros i j hi hj. apply hq; lia.
  - split; [lia|]. split; [lia|]. intros i j hi hj. cbn [Nat.add]. rewrite s3, r3 by lia. destruct (Nat.eqb_spec i j).
    + rewrite h5 by lia. reflexivity.
    + destruct (Nat.ltb_spec i j); auto. apply h4; [|lia]. destruct hw'. lia.
Qed.
End C82.
Print Assumptions C82_cholesky.
Print Assumptions C82_cholesky_fails.
Print Assumptions C82_forward.
Print Assumptions C82_backward.
Print Assumptions C82_qr.

(** ** Examples (binary64): leading blocks whose factors are not exact *)
Definition blocks_equal (x y : mat FN) (r0 : nat) : bool :=
  (0 <? nr x) && forallb (fun i => forallb (fun j => SFeqb (get x i j) (get y (r0 + i) j)) (seq 0 (nc x))) (seq 0 (nr x)).
Definition a82 : mat FN := fmat 3 [[4; 1; 2]; [1; 5; 3]; [2; 3; 7]]%Z.
Definition b82 : mat FN := fmat 2 [[1; 3]; [-5; 2]; [3; 10]]%Z.
Example C82_cholesky_example :
  match cholesky a82, cholesky (block a82 0 0 2 2) with Ret l, Ret l' => blocks_equal l' l 0 && (nr l' =? 2) | _, _ => false end = true.
Proof. vm_compute. reflexivity. Qed.
Example C82_triangular_example :
  match solve_triangular a82 b82 Lower, solve_triangular (block a82 0 0 2 2) (block b82 0 0 2 2) Lower,
        solve_triangular a82 b82 Upper, solve_triangular (block a82 1 1 2 2) (block b82 1 0 2 2) Upper with
  | Ret x, Ret x', Ret y, Ret y' => blocks_equal x' x 0 && blocks_equal y' y 1
  | _, _, _, _ => false
  end = true.
Proof. vm_compute. reflexivity. Qed.
Example C82_qr_example :
  match bind (qr_into (fmat 3 [[1; 2; 3]; [4; 5; 6]; [7; 8; 10]; [2; 1; 1]]%Z)) qr_into_decomp,
        bind (qr_into (fmat 2 [[1; 2]; [4; 5]; [7; 8]; [2; 1]]%Z)) qr_into_decomp with
  | Ret (q, r), Ret (q', r') => blocks_equal q' q 0 && blocks_equal r' r 0 && (nc q' =? 2) && (nc q =? 3)
  | _, _ => false
  end = true.
Proof. vm_compute. reflexivity. Qed.
(** a leading block that is not positive definite *)
Example C82_refused :
  match cholesky (block (fmat 3 [[1; 2; 0]; [2; 1; 0]; [0; 0; 5]]%Z) 0 0 2 2) with Err NotPositiveDefinite => true | _ => false end = true.
Proof. vm_compute. reflexivity. Qed.

(** ** What does not nest: the solution of the leading rows of an upper triangular system is another one *)
Theorem C82_backward_leading_refuted : exists a b : mat FN,
  match solve_triangular a b Upper, solve_triangular (block a 0 0 1 1) (block b 0 0 1 1) Upper with
  | Ret x, Ret x' => SFeqb (get x' 0 0) (get x 0 0) = false /\ SFleb (f_of_Z 0) (get x 0 0) = true /\ SFleb (f_of_Z 0) (get x' 0 0) = true
  | _, _ => False
  end.
Proof. exists (fmat 2 [[1; 1]; [0; 1]]%Z), (fmat 1 [[3]; [1]]%Z). vm_compute. auto. Qed.
Print Assumptions C82_backward_leading_refuted.
