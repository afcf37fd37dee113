(** * Properties C19-C23: eigh.rs *)
From Coq Require Import Reals List Arith Lia Lra ZArith QArith.
From Coq.Floats Require Import SpecFloat.
From Verif Require Import Scalar Arr MBase MDirect MDecomp MEigh Inst Hoare Spec Ex RLin PTrid PGivens PEigh PFloat PEighR.
Import ListNotations.
Local Open Scope R_scope.

(** C19: orthogonal eigenvector matrix, n eigenvalues; exact arithmetic, any fuel. *)
Theorem C19_orthogonal fuel (a : mat RN) vals q : nr a = nc a -> symmetric (nr a) (ent a) ->
  eigh fuel a = Ret (vals, q) ->
  length vals = nr a /\ nr q = nr a /\ nc q = nr a /\ orthogonal (nr a) (ent q).
Proof.
  intros sq hs h. destruct (eigh_pairs_spec fuel a vals q sq hs h) as (h1 & h2 & h3 & h4 & _). auto.
Qed.
Print Assumptions C19_orthogonal.

(** The premise [eigh fuel a = Ret _] holds for every square matrix up to 2x2 *)
Example C19_nonvacuous : let a := rmat 2 [[2;3];[3;-1]]%Z in
  nr a = nc a /\ symmetric (nr a) (ent a) /\ exists vals q, eigh 1 a = Ret (vals, q).
Proof.
  simpl nr. simpl nc. split; [reflexivity|]. split.
  - intros i j hi hj. unfold mtr. destruct i as [|[|i]], j as [|[|j]]; try lia; reflexivity.
  - destruct (eigh_small (rmat 2 [[2;3];[3;-1]]%Z) (eig2_total_real _)) as ([v q] & e); simpl; auto. eauto.
Qed.
Example C19_run :
  (let* (v, q) := eigh 10 (fmat 3 [[5;0;0];[0;-3;0];[0;0;2]]%Z) in Ret (map fq v, map (map fq) (rows q)))%res =
  Ret (map fq (map f_of_Z [5;-3;2]%Z), map (map fq) (map (map f_of_Z) [[1;0;0];[0;1;0];[0;0;1]]%Z)).
Proof. vm_compute. reflexivity. Qed.

(** C20: the values are the exact eigenvalues of a nearby symmetric matrix. *)
Theorem C20_backward_stable fuel (a : mat RN) vals q : nr a = nc a -> symmetric (nr a) (ent a) ->
  eigh fuel a = Ret (vals, q) ->
  exists S, symmetric (nr a) S /\ has_spectrum (nr a) S (vent vals) /\
    frob (nr a) (nr a) (msub (ent a) S) <= INR (nr a - 1) * (2 * / IZR (2 ^ 52) * frob (nr a) (nr a) (ent a)).
Proof. exact (eigh_values_spec fuel a vals q). Qed.
Print Assumptions C20_backward_stable.

Theorem C20_eigvalsh fuel (a : mat RN) vals : nr a = nc a -> symmetric (nr a) (ent a) ->
  eigvalsh fuel a = Ret vals ->
  exists S, symmetric (nr a) S /\ has_spectrum (nr a) S (vent vals) /\
    frob (nr a) (nr a) (msub (ent a) S) <= INR (nr a - 1) * (2 * / IZR (2 ^ 52) * frob (nr a) (nr a) (ent a)).
Proof.
  intros sq hs h. rewrite eigvalsh_eigh in h.
  destruct (eigh fuel a) as [[v q]| | | |] eqn:e; try discriminate. injection h as ->.
  exact (eigh_values_spec fuel a vals q sq hs e).
Qed.
Print Assumptions C20_eigvalsh.

Example C20_nonvacuous : let a := rmat 2 [[2;3];[3;-1]]%Z in
  nr a = nc a /\ symmetric (nr a) (ent a) /\ (exists vals q, eigh 1 a = Ret (vals, q)) /\ exists vals, eigvalsh 1 a = Ret vals.
Proof.
  destruct C19_nonvacuous as (h1 & h2 & v & q & e). split; [|split; [|split]]; auto; [eauto|].
  cbv zeta. rewrite eigvalsh_eigh, e. simpl. eauto.
Qed.

(** C21: the full claim pairs column j with eigenvalue j:
      forall j, eig_resid n A Q j (vals j) <= O(n eps ||A||_F).
    It is false (C21_refuted): in the 2x2 branch the rotation is skipped when it is below eps while the
    eigenvalues are still written in decreasing order.  Proved: the pairing up to a permutation, and the
    full claim for tolerance 0. *)
Theorem C21_pairs_partial fuel (a : mat RN) vals q : nr a = nc a -> symmetric (nr a) (ent a) ->
  eigh fuel a = Ret (vals, q) ->
  exists sg, perm_of (nr a) sg /\ forall j, (j < nr a)%nat ->
    eig_resid (nr a) (ent a) (ent q) (sg j) (vent vals j) <=
    INR (nr a - 1) * (2 * / IZR (2 ^ 52) * frob (nr a) (nr a) (ent a)).
Proof.
  intros sq hs h. destruct (eigh_pairs_spec fuel a vals q sq hs h) as (_ & _ & _ & _ & h5). exact h5.
Qed.
Print Assumptions C21_pairs_partial.

Theorem C21_exact_partial fuel (a : mat RN) vals q : nr a = nc a -> symmetric (nr a) (ent a) ->
  symmetric_eig (N:=RN) fuel a true 0 = Ret (vals, Some q) ->
  orthogonal (nr a) (ent q) /\
  mmul (nr a) (ent a) (ent q) =[nr a, nr a]= mmul (nr a) (ent q) (mdiag (vent vals)).
Proof. exact (symmetric_eig_exact fuel a vals q). Qed.
Print Assumptions C21_exact_partial.

Example C21_nonvacuous : let a := rmat 2 [[2;3];[3;-1]]%Z in
  nr a = nc a /\ symmetric (nr a) (ent a) /\ (exists vals q, eigh 1 a = Ret (vals, q)) /\
  exists vals q, symmetric_eig (N:=RN) 1 a true 0 = Ret (vals, Some q).
Proof.
  destruct C19_nonvacuous as (h1 & h2 & h3). split; [|split; [|split]]; auto.
  destruct (symmetric_eig_small (rmat 2 [[2;3];[3;-1]]%Z) true 0 (eig2_total_real _)) as ([v q] & e); simpl; auto.
  pose proof (symmetric_eig_class 1 (rmat 2 [[2;3];[3;-1]]%Z) true 0 (eig2_total_real _)) as hc.
  cbv zeta. rewrite e in *. destruct q; [eauto|]. destruct hc as (_ & _ & hc). discriminate.
Qed.

(** Residual of the j-th pair, row i, in exact rational arithmetic on the binary64 values *)
Definition fresid (a : mat FN) (vals : list FN) (q : mat FN) (i j : nat) : Q :=
  (fold_left (fun s k => s + fq (get a i k) * fq (get q k j)) (seq 0 (nc a)) 0 - fq (vget vals j) * fq (get q i j))%Q.

(** Witness: a = [1, 0, 0; 0, 0, 2^-53; 0, 2^-53, 1/10].  The values come out as 1, 1/10, 0 but the
    eigenvector matrix is the identity, so column 1 is paired with 1/10 although A e_1 is almost 0. *)
Definition c21_a : mat FN :=
  Mat 3 3 [[f_of_Z 1; f_of_Z 0; f_of_Z 0];
           [f_of_Z 0; f_of_Z 0; fpow2 (-53)];
           [f_of_Z 0; fpow2 (-53); SFdiv prec emax (f_of_Z 1) (f_of_Z 10)]].
Theorem C21_refuted : exists (a : mat FN) vals q, nr a = 3%nat /\ nc a = 3%nat /\
  (forall i j, (i < 3)%nat -> (j < 3)%nat -> get a i j = get a j i /\ (0 <= fq (get a i j) <= 1)%Q) /\
  eigh 100 a = Ret (vals, q) /\ exists i j, (i < 3)%nat /\ (j < 3)%nat /\ ((9 # 100) < - fresid a vals q i j)%Q.
Proof.
  exists c21_a. destruct (eigh 100 c21_a) as [[vals q]| | | |] eqn:e.
  2-5: vm_compute in e; discriminate.
  exists vals, q. split; [reflexivity|]. split; [reflexivity|]. split.
  - intros i j hi hj. destruct i as [|[|[|i]]]; try lia; destruct j as [|[|[|j]]]; try lia;
    (split; [reflexivity|split; vm_compute; discriminate]).
  - split; [reflexivity|]. exists 1%nat, 1%nat. split; [lia|]. split; [lia|].
    vm_compute in e. injection e as <- <-. vm_compute. reflexivity.
Qed.
Print Assumptions C21_refuted.

(** C22: the eigenvector flag has no influence, for any scalar semantics. *)
Theorem C22_eigvalsh_eigh (N : Num) fuel (m : mat N) :
  eigvalsh fuel m = (let* (vals, _) := eigh fuel m in Ret vals)%res.
Proof. exact (eigvalsh_eigh fuel m). Qed.
Print Assumptions C22_eigvalsh_eigh.
Definition c22_a : mat FN := fmat 3 [[2;1;0];[1;3;1];[0;1;5]]%Z.
Example C22_run :
  (let* v := eigvalsh 100 c22_a in Ret (length v))%res = Ret 3%nat /\
  (let* v := eigvalsh 100 c22_a in let* (v', _) := eigh 100 c22_a in
   Ret (forallb (fun p : T FN * T FN => SFeqb (fst p) (snd p)) (combine v v')))%res = Ret true /\
  eigvalsh 100 (fmat 2 [[1;2]]%Z) = Err (NotSquare 1 2).
Proof. split; [|split]; vm_compute; reflexivity. Qed.

(** C23: outcomes on every input, including NaN and infinities. *)
Definition eigh_outcomes {N : Num} (m : mat N) (o : res (list N * mat N)) : Prop :=
  match o with
  | Ret (vals, q) => nr m = nc m /\ length vals = nr m /\ nr q = nr m /\ nc q = nr m
  | Err e => nr m <> nc m /\ e = NotSquare (nr m) (nc m)
  | OutOfFuel => nr m = nc m /\ (2 <= nr m)%nat
  | Panicked | OutOfBounds => False
  end.
Definition eigvalsh_outcomes {N : Num} (m : mat N) (o : res (list N)) : Prop :=
  match o with
  | Ret vals => nr m = nc m /\ length vals = nr m
  | Err e => nr m <> nc m /\ e = NotSquare (nr m) (nc m)
  | OutOfFuel => nr m = nc m /\ (2 <= nr m)%nat
  | Panicked | OutOfBounds => False
  end.
Theorem C23_eigh_float fuel (m : mat FN) : eigh_outcomes m (eigh fuel m).
Proof.
  pose proof (eigh_class fuel m eig2_total_float) as h. unfold eigh_outcomes.
  destruct (eigh fuel m) as [[v q]| | | |]; exact h.
Qed.
Print Assumptions C23_eigh_float.
Theorem C23_eigh_real fuel (m : mat RN) : eigh_outcomes m (eigh fuel m).
Proof.
  pose proof (eigh_class fuel m (eig2_total_real _)) as h. unfold eigh_outcomes.
  destruct (eigh fuel m) as [[v q]| | | |]; exact h.
Qed.
Print Assumptions C23_eigh_real.
Theorem C23_eigvalsh_float fuel (m : mat FN) : eigvalsh_outcomes m (eigvalsh fuel m).
Proof.
  pose proof (eigvalsh_class fuel m eig2_total_float) as h. unfold eigvalsh_outcomes.
  destruct (eigvalsh fuel m); exact h.
Qed.
Print Assumptions C23_eigvalsh_float.
Theorem C23_eigvalsh_real fuel (m : mat RN) : eigvalsh_outcomes m (eigvalsh fuel m).
Proof.
  pose proof (eigvalsh_class fuel m (eig2_total_real _)) as h. unfold eigvalsh_outcomes.
  destruct (eigvalsh fuel m); exact h.
Qed.
Print Assumptions C23_eigvalsh_real.
(** Up to 2x2 one iteration is enough, whatever the entries *)
Theorem C23_small_terminates (m : mat FN) : nr m = nc m -> (nr m <= 2)%nat -> exists r, eigh 1 m = Ret r.
Proof. exact (eigh_small m eig2_total_float). Qed.
Print Assumptions C23_small_terminates.
Example C23_run :
  (let* (v, q) := eigh 5 (Mat 2 2 [[fnan; f_of_Z 1]; [f_of_Z 1; S754_infinity false]]) in Ret (length v, nr q))%res = Ret (2%nat, 2%nat) /\
  eigh 5 (fmat 2 [[1;2]]%Z) = Err (NotSquare 1 2) /\
  eigh 0 (fmat 3 [[1;2;3];[2;5;6];[3;6;9]]%Z) = OutOfFuel.
Proof. split; [|split]; vm_compute; reflexivity. Qed.
