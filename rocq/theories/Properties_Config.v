(** * C77: what is configured on TruncatedEig and TruncatedSvd is what LOBPCG runs with *)
From Coq Require Import Reals List Arith Lia Bool ZArith.
From Coq.Floats Require Import SpecFloat.
From Verif Require Import Scalar Arr MBase MDirect MEigh MLobpcg Inst Hoare PLob Ex.
Import ListNotations.
Local Open Scope nat_scope.
Open Scope res_scope.

(** ** Specification *)
Section Spec.
Context {N : Num} {G : Type} (draw : G -> N * G).
(** state of the generator after [k] draws, and the value of draw number [k] (the first one is number 0) *)
Definition after (k : nat) (g : G) : G := Nat.iter k (fun g => snd (draw g)) g.
Definition nth_draw (k : nat) (g : G) : N := fst (draw (after k g)).
(** [x] is an r x c block filled row by row with successive draws *)
Definition drawn (r c : nat) (g : G) (x : mat N) : Prop :=
  nr x = r /\ nc x = c /\ forall i j, i < r -> j < c -> get x i j = nth_draw (i * c + j) g.
(** a setting: the value given, or the default *)
Definition setting {A} (o : option A) (d : A) : A := match o with Some a => a | None => d end.
(** a builder method called, or not *)
Definition build {A T} (o : option A) (f : T -> A -> T) (t : T) : T := match o with Some a => f t a | None => t end.
End Spec.

Section C77.
Context {N : Num} {G : Type} (draw : G -> N * G).
Notation mtx := (mat N).
Notation teig := (truncated_eig (N:=N) (G:=G)).
Notation tsvd := (truncated_svd (N:=N) (G:=G)).

Lemma after_S k g : after draw (S k) g = after draw k (snd (draw g)).
Proof. unfold after. induction k; [reflexivity|]. change (snd (draw (Nat.iter (S k) (fun g => snd (draw g)) g)) = snd (draw (Nat.iter k (fun g => snd (draw g)) (snd (draw g))))). now rewrite IHk. Qed.
Lemma draws_spec n : forall g, length (fst (draws draw n g)) = n /\ snd (draws draw n g) = after draw n g /\
  forall k, k < n -> vget (fst (draws draw n g)) k = nth_draw draw k g.
Proof.
  induction n as [|n IH]; intros g. { cbn. repeat split; auto; lia. }
  cbn [draws]. destruct (draw g) as [v g1] eqn:ed. destruct (IH g1) as (h1 & h2 & h3).
  destruct (draws draw n g1) as [l g2] eqn:el. cbn [fst snd] in *. split; [cbn [length]; lia|].
  split. { rewrite after_S, ed. cbn [snd]. exact h2. }
  intros [|k] hk. { unfold nth_draw, after. cbn. now rewrite ed. }
  unfold nth_draw. rewrite after_S, ed. cbn [snd]. fold (nth_draw draw k g1). rewrite <- (h3 k) by lia. reflexivity.
Qed.

(** The start block is filled row by row with successive draws, and nothing else is drawn *)
Theorem C77_start_block r c g : drawn draw r c g (fst (random draw r c g)) /\ snd (random draw r c g) = after draw (r * c) g.
Proof.
  unfold random. destruct (draws_spec (r * c) g) as (h1 & h2 & h3). destruct (draws draw (r * c) g) as [l g']. cbn [fst snd] in *.
  split; auto. split; [reflexivity|]. split; [reflexivity|]. intros i j hi hj. rewrite get_mk by auto. apply h3. nia.
Qed.

(** A preconditioner given as a matrix [p] replaces a block [y] by the product p y; another shape is a panic *)
Theorem C77_preconditioner (p y : mtx) :
  match precond_fn (Some p) y with
  | Ret z => dot2 p y = Ret z /\ nr p = nr y /\ nc p = nr y
  | Panicked => nr p <> nr y \/ nc p <> nr y
  | _ => False
  end.
Proof.
  cbn [precond_fn]. unfold dot2. destruct (Nat.eqb_spec (nc p) (nr y)) as [e|e]; cbn [bind nr nc mk]; auto.
  destruct (Nat.eqb_spec (nr p) (nr y)); cbn [andb]; auto. rewrite Nat.eqb_refl. auto.
Qed.

(** A solver object built with any of the four builder methods, called or not, runs LOBPCG once, with the product with the
    problem as operator and exactly the settings given; the defaults are precision 1e-5, twice as many iterations as rows,
    no constraints and no preconditioner. The only change to the object is the state of the generator: rows * num draws. *)
Theorem C77_teig fuel (problem : mtx) order (g : G) (precision : option N) (maxiter : option nat) (constraints preconditioner : option mtx) num : 0 < num ->
  let t := build preconditioner te_precondition_with (build constraints te_orthogonal_to
           (build maxiter te_set_maxiter (build precision te_set_precision (te_new problem order g)))) in
  exists x t', drawn draw (nr problem) num g x /\
    te_decompose draw fuel t num =
      (let* r := lobpcg fuel (fun y => dot2 problem y) x
                   (match preconditioner with Some p => precond_fn (Some p) | None => fun y => Ret y end) constraints
                   (setting precision (nofQ N 1 100000)) (setting maxiter (2 * nr problem)) order in Ret (r, t'))%res /\
    te_rng t' = after draw (nr problem * num) g /\ te_order t' = order /\ te_problem t' = problem /\
    te_constraints t' = constraints /\ te_precond t' = preconditioner /\
    te_precision t' = setting precision (nofQ N 1 100000) /\ te_maxiter t' = setting maxiter (2 * nr problem).
Proof.
  intros hn t. destruct (C77_start_block (nr problem) num g) as (h1 & h2).
  exists (fst (random draw (nr problem) num g)), (te_set_rng t (after draw (nr problem * num) g)).
  rewrite <- h2. split; auto. rewrite (Nat.mul_comm 2).
  unfold te_decompose. destruct (Nat.eqb_spec num 0); [lia|].
  destruct precision, maxiter, constraints, preconditioner; cbn [t build setting te_new te_set_precision te_set_maxiter te_orthogonal_to
    te_precondition_with te_set_rng te_order te_problem te_constraints te_precond te_precision te_maxiter te_rng];
  destruct (random draw (nr problem) num g); cbn [fst snd]; repeat split; reflexivity.
Qed.

(** The order in which the builder methods are called does not matter, and of two calls of the same one the last counts *)
Theorem C77_builders (t : teig) p p' m m' c c' q q' :
  te_set_precision (te_set_precision t p) p' = te_set_precision t p' /\
  te_set_maxiter (te_set_maxiter t m) m' = te_set_maxiter t m' /\
  te_orthogonal_to (te_orthogonal_to t c) c' = te_orthogonal_to t c' /\
  te_precondition_with (te_precondition_with t q) q' = te_precondition_with t q' /\
  te_set_precision (te_set_maxiter t m) p = te_set_maxiter (te_set_precision t p) m /\
  te_set_precision (te_orthogonal_to t c) p = te_orthogonal_to (te_set_precision t p) c /\
  te_set_precision (te_precondition_with t q) p = te_precondition_with (te_set_precision t p) q /\
  te_set_maxiter (te_orthogonal_to t c) m = te_orthogonal_to (te_set_maxiter t m) c /\
  te_set_maxiter (te_precondition_with t q) m = te_precondition_with (te_set_maxiter t m) q /\
  te_orthogonal_to (te_precondition_with t q) c = te_precondition_with (te_orthogonal_to t c) q.
Proof. repeat split; reflexivity. Qed.

(** TruncatedSvd: the same, with the Gram operator of the smaller side, the square of the precision, no preconditioner and no
    constraints. Rows is what counts for the default number of iterations, also when the matrix is wide. *)
Theorem C77_tsvd fuel (problem : mtx) order (g : G) (precision : option N) (maxiter : option nat) num : 0 < num ->
  let t := build maxiter ts_set_maxiter (build precision ts_set_precision (ts_new problem order g)) in
  let p := setting precision (nofQ N 1 100000) in
  exists x op, drawn draw (Nat.min (nr problem) (nc problem)) num g x /\
    (forall y, op y = if nc problem <? nr problem then (let* z := dot2 problem y in dot2 (transpose problem) z)%res
                      else (let* z := dot2 (transpose problem) y in dot2 problem z)%res) /\
    ts_decompose draw fuel t num =
      (let* r := lobpcg fuel op x (fun y => Ret y) None (nmul N p p) (setting maxiter (2 * nr problem)) order in
       match r with
       | LOk l | LErr _ (Some l) => Ret (TSR (eigvals l) (eigvecs l) problem order (nc problem <? nr problem))
       | LErr e None => Err e
       end)%res.
Proof.
  intros hn t p. destruct (C77_start_block (Nat.min (nr problem) (nc problem)) num g) as (h1 & h2).
  exists (fst (random draw (Nat.min (nr problem) (nc problem)) num g)),
    (if nc problem <? nr problem then fun y => (let* z := dot2 problem y in dot2 (transpose problem) z)%res
     else fun y => (let* z := dot2 (transpose problem) y in dot2 problem z)%res).
  split; auto. split. { intros y. destruct (nc problem <? nr problem); reflexivity. }
  rewrite (Nat.mul_comm 2). unfold ts_decompose. destruct (Nat.eqb_spec num 0); [lia|].
  destruct precision, maxiter; cbn [t p build setting ts_new ts_set_precision ts_set_maxiter ts_order ts_problem ts_precision ts_maxiter ts_rng];
  destruct (random draw (Nat.min (nr problem) (nc problem)) num g); cbn [fst snd]; reflexivity.
Qed.
Theorem C77_svd_builders (t : tsvd) p p' m m' :
  ts_set_precision (ts_set_precision t p) p' = ts_set_precision t p' /\
  ts_set_maxiter (ts_set_maxiter t m) m' = ts_set_maxiter t m' /\
  ts_set_precision (ts_set_maxiter t m) p = ts_set_maxiter (ts_set_precision t p) m.
Proof. repeat split; reflexivity. Qed.

(** ** The explicit Gram matrices are always used *)
Lemma body_flag fuel a m yc size_x order (r ld : mtx) rn cbs (st : lstate N) st' e : l_flag st = true ->
  lob_body fuel a m yc size_x order r ld rn cbs st = Ret (st', e) -> l_flag st' = true.
Proof.
  intros hf h.
  assert (hw : weak (lob_body fuel a m yc size_x order r ld rn cbs st) (fun '(s, _) => l_flag s = true) (fun _ => True)).
  { unfold lob_body. cbv zeta.
    repeat (apply weak_bind; eapply weak_mono; [apply weak_true| |auto]; intros ? _).
    apply weak_catch. eapply weak_mono; [apply weak_true| |intros; exact hf]. intros [? ?] _. rewrite hf, orb_true_r.
    repeat (apply weak_bind; eapply weak_mono; [apply weak_true| |auto]; intros ? _; repeat match goal with |- context [let '(_, _) := ?x in _] => destruct x end).
    match goal with |- context [match ?x with inl _ => _ | inr _ => _ end] => destruct x as [?|[? ?]] end; [reflexivity|].
    apply weak_bind; eapply weak_mono; [apply weak_true| |auto]; intros [[[? ?] ?] ?] _. reflexivity. }
  exact (weak_inv _ _ _ _ hw h).
Qed.
Lemma loop_flag fuel a m yc tol size_x order iter : forall (st : lstate N) st' e, l_flag st = true ->
  lob_loop fuel a m yc tol size_x order iter st = Ret (st', e) -> l_flag st' = true.
Proof.
  induction iter as [|iter IH]; intros st st' e hf h; cbn [lob_loop] in h; apply bind_ret in h;
    destruct h as ([[[r rn] ld] s1] & hm & h);
    (assert (hs : l_flag s1 = true);
     [unfold lob_measure in hm; repeat (apply bind_ret in hm; destruct hm as (? & _ & hm)); injection hm as <- <- <- <-; exact hf|]).
  - injection h as <- _. exact hs.
  - match type of h with context [if ?b then _ else _] => destruct b end. { injection h as <- _. exact hs. }
    apply bind_ret in h. destruct h as ([s2 e2] & hb & h).
    apply body_flag in hb; [|exact hs]. destruct e2. { injection h as <- _. exact hb. } exact (IH _ _ _ hb h).
Qed.

(** In every run, for every operator and every scalar type: [explicit_gram_flag] (line 191) starts as true and is only ever
    or-ed (line 273), so it is still true at the end; the branches without explicit Gram matrices (lines 292-299 and 333-335)
    are never taken and the thresholds of lines 264-269 have no effect *)
Theorem C77_explicit_gram fuel a (x : mtx) m y tol maxiter order r st :
  lobpcg_trace fuel a x m y tol maxiter order = Ret (r, Some st) -> l_flag st = true.
Proof.
  intros h.
  assert (hw : weak (lobpcg_trace fuel a x m y tol maxiter order)
                 (fun '(_, o) => match o with Some s => l_flag s = true | None => True end) (fun _ => True)).
  { unfold lobpcg_trace. cbv zeta. destruct (nr x <? nc x); [exact I|].
    apply weak_bind. eapply weak_mono; [apply weak_true| |auto]. intros [x1 yc] _.
    apply weak_catch. eapply weak_mono; [apply weak_true| |intros; exact I]. intros [x2 ?] _.
    do 2 (apply weak_bind; eapply weak_mono; [apply weak_true| |auto]; intros ? _).
    apply weak_catch. eapply weak_mono; [apply weak_true| |intros; exact I]. intros [lam eb] _.
    do 2 (apply weak_bind; eapply weak_mono; [apply weak_true| |auto]; intros ? _).
    apply weak_bind.
    match goal with |- weak ?l _ _ => destruct l as [[s1 e1]| | | |] eqn:el end; try exact I.
    apply loop_flag in el; [|reflexivity]. cbn [weak].
    destruct (l_best s1) as [[[? ?] ?]|]; cbn; [|exact I]. destruct e1; exact el. }
  pose proof (weak_inv _ _ _ _ hw h) as hh. exact hh.
Qed.
End C77.
Print Assumptions C77_start_block.
Print Assumptions C77_preconditioner.
Print Assumptions C77_teig.
Print Assumptions C77_builders.
Print Assumptions C77_tsvd.
Print Assumptions C77_svd_builders.
Print Assumptions C77_explicit_gram.

(** ** Examples, in binary64 *)
(** a generator that counts 1, 2, 3, ... *)
Definition counting (z : Z) : FN * Z := (f_of_Z z, (z + 1)%Z).
(** the start block for 2 pairs of a 3 x 3 problem *)
Example C77_block : let x := fst (random (N:=FN) counting 3 2 1%Z) in
  map (fun i => map (fun j => SFeqb (get x i j) (f_of_Z (Z.of_nat (2 * i + j + 1)))) [0; 1]) [0; 1; 2]
    = [[true; true]; [true; true]; [true; true]] /\ snd (random (N:=FN) counting 3 2 1%Z) = 7%Z.
Proof. vm_compute. auto. Qed.
(** number of eigenpairs and number of draws of a run *)
Definition outcome (r : res (lres FN * truncated_eig (N:=FN) (G:=Z))) : option (bool * nat * Z) :=
  match r with
  | Ret (LOk out, t) => Some (true, length (eigvals out), (te_rng t - 1)%Z)
  | Ret (LErr _ (Some out), t) => Some (false, length (eigvals out), (te_rng t - 1)%Z)
  | _ => None
  end.
Definition p3 := fmat 3 [[3;0;0];[0;2;0];[0;0;1]]%Z.
(** with a preconditioner and a constraint, and a preconditioner of the wrong shape *)
Example C77_run :
  outcome (te_decompose counting 100 (build (Some p3) te_precondition_with (build (Some (fmat 1 [[0];[0];[1]]%Z)) te_orthogonal_to
    (build (Some 7) te_set_maxiter (build (Some (nofQ FN 1 1000)) te_set_precision (te_new p3 Largest 1%Z))))) 1) = Some (true, 1, 3%Z) /\
  match te_decompose counting 100 (te_precondition_with (te_new p3 Largest 1%Z) (fmat 2 [[1;0];[0;1]]%Z)) 1 with Panicked => true | _ => false end = true.
Proof. split; vm_compute; reflexivity. Qed.
(** one iteration, and the flag at its end *)
Example C77_flag :
  match lobpcg_trace (N:=FN) 100 (fun y => dot2 p3 y) (fst (random counting 3 1 1%Z)) (fun y => Ret y) None (nofQ FN 1 100000) 1 Largest with
  | Ret (_, Some st) => Some (l_flag st, l_calls st) | _ => None end = Some (true, 2).
Proof. vm_compute. reflexivity. Qed.
