(** * Properties C17-C18: tridiagonal.rs and bidiagonal.rs *)
From Coq Require Import Reals List Arith Lia Lra ZArith.
From Verif Require Import Scalar Arr MBase MDirect MDecomp Inst Hoare Spec Ex RLin PTri PHouse PQR PTrid PBid.
Import ListNotations.
Local Open Scope R_scope.

(** C17: a symmetric A is Q T Q^T with Q orthogonal and T symmetric tridiagonal. *)
Theorem C17_tridiagonal (a : mat RN) : nr a = nc a -> (1 <= nr a)%nat -> symmetric (nr a) (ent a) ->
  exists d q t, sym_tridiagonal a = Ret d /\ tri_generate_q d = Ret q /\ tri_into_matrix d = Ret t /\
    nr q = nr a /\ nc q = nr a /\ nr t = nr a /\ nc t = nr a /\
    orthogonal (nr a) (ent q) /\ symmetric (nr a) (ent t) /\
    (forall i j, (i < nr a)%nat -> (j < nr a)%nat -> (i + 1 < j \/ j + 1 < i)%nat -> ent t i j = 0) /\
    (forall i, (i + 1 < nr a)%nat -> 0 <= ent t i (i + 1)%nat) /\
    mmul (nr a) (ent q) (mmul (nr a) (ent t) (mtr (ent q))) =[nr a, nr a]= ent a.
Proof. exact (tridiagonal_spec a). Qed.
Print Assumptions C17_tridiagonal.

(** into_diagonals returns the diagonals of into_tridiag_matrix, for any scalar semantics *)
Theorem C17_into_diagonals (N : Num) (a : mat N) (d : tridecomp N) : sym_tridiagonal a = Ret d ->
  exists t, tri_into_matrix d = Ret t /\ nr t = nr a /\ nc t = nr a /\
    let '(dg, off) := tri_into_diagonals d in
    length dg = nr a /\ length off = (nr a - 1)%nat /\
    (forall i, (i < nr a)%nat -> vget dg i = get t i i) /\
    (forall i, (i + 1 < nr a)%nat -> vget off i = get t i (i + 1)%nat /\ vget off i = get t (i + 1)%nat i).
Proof. exact (tridiag_diagonals a d). Qed.
Print Assumptions C17_into_diagonals.

Theorem C17_errors (N : Num) (a : mat N) :
  match sym_tridiagonal a with
  | Ret d => nr a = nc a /\ (1 <= nr a)%nat /\ nr (diag_matrix d) = nr a /\ nc (diag_matrix d) = nr a /\
             length (off_diagonal d) = (nr a - 1)%nat
  | Err (NotSquare r c) => nr a <> nc a /\ r = nr a /\ c = nc a
  | Err EmptyMatrix => nr a = 0%nat /\ nc a = 0%nat
  | _ => False
  end.
Proof. exact (sym_tridiagonal_class a). Qed.
Print Assumptions C17_errors.

Example C17_nonvacuous : let a := rmat 3 [[2;3;4];[3;1;5];[4;5;0]]%Z in
  nr a = nc a /\ (1 <= nr a)%nat /\ symmetric (nr a) (ent a).
Proof.
  simpl. split; auto. split; [lia|]. intros [|[|[|i]]] [|[|[|j]]] hi hj; try lia;
  unfold ent, mtr, get; simpl; reflexivity.
Qed.
Example C17_run :
  (let* d := sym_tridiagonal (fmat 3 [[2;3;4];[3;1;0];[4;0;1]]%Z) in
   Ret (vget (fst (tri_into_diagonals d)) 0, vget (snd (tri_into_diagonals d)) 0))%res = Ret (f_of_Z 2, f_of_Z 5) /\
  (let* d := sym_tridiagonal (fmat 1 [[1];[2]]%Z) in Ret (off_diagonal d))%res = Err (NotSquare 2 1) /\
  (let* d := sym_tridiagonal (fmat 0 []) in Ret (off_diagonal d))%res = Err EmptyMatrix.
Proof. split; [|split]; vm_compute; reflexivity. Qed.

(** C18: A = U B Vt with orthonormal columns of U and rows of Vt and B bidiagonal. *)
Theorem C18_bidiagonal (a : mat RN) : (1 <= nr a)%nat -> (1 <= nc a)%nat ->
  let r := nr a in let c := nc a in let d := Nat.min r c in
  exists b u bm vt, bidiagonal a = Ret b /\ generate_u b = Ret u /\ into_b b = Ret bm /\ generate_vt b = Ret vt /\
    nr u = r /\ nc u = d /\ nr bm = d /\ nc bm = d /\ nr vt = d /\ nc vt = c /\
    orthonormal_cols r d (ent u) /\ orthonormal_cols c d (mtr (ent vt)) /\
    mmul d (ent u) (mmul d (ent bm) (ent vt)) =[r, c]= ent a /\
    upper_diag b = Nat.leb c r /\
    (forall i j, (i < d)%nat -> (j < d)%nat -> i <> j ->
       (if Nat.leb c r then j <> (i + 1)%nat else i <> (j + 1)%nat) -> ent bm i j = 0) /\
    (forall i j, (i < d)%nat -> (j < d)%nat -> 0 <= ent bm i j).
Proof. exact (bidiagonal_spec a). Qed.
Print Assumptions C18_bidiagonal.

(** into_diagonals returns the diagonals of into_b, for any scalar semantics *)
Theorem C18_into_diagonals (N : Num) (a : mat N) (b : bidecomp N) : bidiagonal a = Ret b ->
  let d := Nat.min (nr a) (nc a) in
  exists bm, into_b b = Ret bm /\ nr bm = d /\ nc bm = d /\
    let '(dg, off) := bi_into_diagonals b in
    length dg = d /\ length off = (d - 1)%nat /\
    (forall i, (i < d)%nat -> vget dg i = get bm i i) /\
    (forall i, (i + 1 < d)%nat -> vget off i = if upper_diag b then get bm i (i + 1)%nat else get bm (i + 1)%nat i).
Proof. exact (bidiag_diagonals a b). Qed.
Print Assumptions C18_into_diagonals.

Theorem C18_errors (N : Num) (a : mat N) :
  match bidiagonal a with
  | Ret b => (1 <= Nat.min (nr a) (nc a))%nat /\ upper_diag b = Nat.leb (nc a) (nr a)
  | Err e => e = EmptyMatrix /\ (nr a = 0 \/ nc a = 0)%nat
  | _ => False
  end.
Proof.
  pose proof (bidiagonal_class a) as h. destruct (bidiagonal a); auto.
  destruct h as (h & wf). split; auto. apply wf.
Qed.
Print Assumptions C18_errors.

Example C18_nonvacuous : let a := rmat 2 [[2;3];[3;1];[4;5]]%Z in (1 <= nr a)%nat /\ (1 <= nc a)%nat.
Proof. simpl. lia. Qed.
Example C18_run :
  (let* b := bidiagonal (fmat 2 [[3;0];[4;0];[0;2]]%Z) in let* m := into_b b in
   Ret (upper_diag b, rows m))%res = Ret (true, map (map f_of_Z) [[5;0];[0;2]]%Z) /\
  (let* b := bidiagonal (fmat 2 [[3;4]]%Z) in let* m := into_b b in
   Ret (upper_diag b, rows m))%res = Ret (false, map (map f_of_Z) [[5]]%Z) /\
  (let* b := bidiagonal (fmat 2 []) in Ret (upper_diag b))%res = Err EmptyMatrix.
Proof. split; [|split]; vm_compute; reflexivity. Qed.
