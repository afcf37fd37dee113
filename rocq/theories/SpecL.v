(** * Specification vocabulary for block methods *)
From Coq Require Import Reals List Arith.
From Verif Require Import Scalar Arr MEigh Inst Spec.
Local Open Scope R_scope.

(** The block [X Y], X having k columns; the columns of X with the given indices; the indices of the
    true entries of a mask *)
Definition mcat (k : nat) (X Y : M) : M := fun i j => if Nat.ltb j k then X i j else Y i (j - k)%nat.
Definition colsel (idx : list nat) (X : M) : M := fun i j => X i (nth j idx 0%nat).
Definition active_idx (mask : list bool) : list nat := filter (fun j => nth j mask false) (seq 0 (length mask)).
(** Q has orthonormal columns and W = Q L^T with L lower triangular with positive diagonal: Q is the
    result of orthonormalizing the c columns of W in their order *)
Definition gram_schmidt (n c : nat) (W Q : M) : Prop :=
  orthonormal_cols n c Q /\ exists L, lower_tri c c L /\ (forall i, (i < c)%nat -> 0 < L i i) /\ W =[n, c]= mmul c Q (mtr L).

(** ** The LOBPCG iteration on the problem A x = lambda x in dimension n, with blocks of k vectors *)
Section Lobpcg.
Context (n k : nat) (A : M).
(** A X - X diag(lam) *)
Definition residual (X : M) (lam : nat -> R) : M := msub (mmul n A X) (mmul k X (mdiag lam)).
(** The basis [X R P] with k + q + pc columns *)
Definition basis (q : nat) (X R P : M) : M := mcat (k + q) (mcat k X R) P.

(** [prec q W0 W]: preconditioning (and constraining) the n x q block W0 gives W.
    [eig s G B lam V]: the k wanted eigenvalues lam and vectors V (s x k) of the pencil (G, B) of size s. *)
Context (prec : nat -> M -> M -> Prop) (eig : nat -> M -> M -> (nat -> R) -> M -> Prop).

(** One iteration from (lam, X), previous directions prev, active columns idx, to (lam', X'), new directions P':
    the residuals of the active columns are preconditioned, orthogonalized against X and orthonormalized (R);
    the active previous directions, if independent, are orthonormalized (P); the new block is the Rayleigh-Ritz
    approximation in the span of S = [X R P] *)
Definition lob_step (prev : option M) (idx : list nat) (lam : nat -> R) (X : M) (lam' : nat -> R) (X' P' : M) : Prop :=
  let q := length idx in
  exists (W R P V : M) (pc : nat),
    prec q (colsel idx (residual X lam)) W /\
    gram_schmidt n q (msub W (mmul k X (mmul n (mtr X) W))) R /\
    match prev with
    | None => pc = 0%nat
    | Some P0 => (injective n q (colsel idx P0) -> pc = q /\ gram_schmidt n q (colsel idx P0) P) /\
                 (~ injective n q (colsel idx P0) -> pc = 0%nat)
    end /\
    let s := (k + q + pc)%nat in let S := basis q X R P in
    eig s (mmul n (mtr S) (mmul n A S)) (mmul n (mtr S) S) lam' V /\
    X' =[n, k]= mmul s S V /\ P' =[n, k]= msub X' (mmul k X V).

(** A sequence of iterates (lam, X) with the active columns of each step *)
Fixpoint lob_chain (prev : option M) (cur : (nat -> R) * M) (rest : list (list nat * ((nat -> R) * M))) : Prop :=
  match rest with
  | nil => True
  | (idx, nxt) :: rest' => exists P', lob_step prev idx (fst cur) (snd cur) (fst nxt) (snd nxt) P' /\
      lob_chain (Some P') nxt rest'
  end.
End Lobpcg.

(** ** Eigensolvers *)
(** How far the columns of Q, paired in order with the numbers v, are from diagonalizing A: |Q^T A Q - diag v|_F *)
Definition pair_err (n : nat) (A Q : M) (v : nat -> R) : R :=
  frob n n (msub (mmul n (mtr Q) (mmul n A Q)) (mdiag v)).

(** The regularisation 1e-10f32 of generalized_eig; the columns of Q divided by the roots of the regularised v *)
Definition lit : R := IZR 14411519 / IZR 144115188075855872.
Definition whiten (Q : M) (v : nat -> R) : M := fun i j => Q i j * / sqrt (Rmax (v j) lit).
(** The two dense eigenproblems behind the pencil (G, B) of size s: b = B, with pairs (vb, qb), and G in the whitened
    coordinates, a' = T^T G T with T = whiten qb vb, with pairs (va, qa) *)
Definition pencil_runs (fuel s : nat) (G B : M) (b : mat RN) (vb : list RN) (qb : mat RN) (a' : mat RN) (va : list RN) (qa : mat RN) : Prop :=
  nr b = s /\ nc b = s /\ ent b =[s, s]= B /\ eigh fuel b = Ret (vb, qb) /\
  nr a' = s /\ nc a' = s /\
  ent a' =[s, s]= mmul s (mtr (whiten (ent qb) (vent vb))) (mmul s G (whiten (ent qb) (vent vb))) /\
  eigh fuel a' = Ret (va, qa).

(** v is listed in the given order; b is at least as far in the given order as a, up to the error e *)
Definition ordered (order : Order) (n : nat) (v : nat -> R) : Prop :=
  forall i j, (i <= j)%nat -> (j < n)%nat -> match order with Largest => v j <= v i | Smallest => v i <= v j end.
Definition gains (order : Order) (a b e : R) : Prop :=
  match order with Largest => a <= b + e | Smallest => b <= a + e end.
