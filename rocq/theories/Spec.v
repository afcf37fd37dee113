(** * Specification vocabulary

    Small, independent definitions used to state the properties.  Nothing here refers to the model
    of the algorithms; [Arr.mat] is only used as the data type of matrices, read with [get], [UPLO] and [Order]
    as selectors of the API. *)
From Coq Require Import Reals List Arith Lia.
From Verif Require Import Scalar Arr MDirect MEigh Inst.
Import ListNotations.
Local Open Scope R_scope.

(** Real matrices as entry functions; the dimensions are given where they matter. *)
Definition M := nat -> nat -> R.

(** [Rsum n f] = f 0 + ... + f (n-1) *)
Fixpoint Rsum (n : nat) (f : nat -> R) : R :=
  match n with
  | O => 0
  | S k => Rsum k f + f k
  end.

(** Product with inner dimension n, transpose, identity, equality of r x c blocks *)
Definition mmul (n : nat) (A B : M) : M := fun i j => Rsum n (fun k => A i k * B k j).
Definition mtr (A : M) : M := fun i j => A j i.
Definition mid : M := fun i j => if Nat.eqb i j then 1 else 0.
Definition meq (r c : nat) (A B : M) : Prop :=
  forall i j, (i < r)%nat -> (j < c)%nat -> A i j = B i j.
Notation "A =[ r , c ]= B" := (meq r c A B) (at level 70, r at level 60, c at level 60).

Definition madd (A B : M) : M := fun i j => A i j + B i j.
Definition msub (A B : M) : M := fun i j => A i j - B i j.
Definition mscal (s : R) (A : M) : M := fun i j => s * A i j.
(** diagonal matrix *)
Definition mdiag (d : nat -> R) : M := fun i j => if Nat.eqb i j then d i else 0.

(** The r x c matrix [Q] has orthonormal columns: Q^T Q = I *)
Definition orthonormal_cols (r c : nat) (Q : M) : Prop := mmul r (mtr Q) Q =[c, c]= mid.
(** Square orthogonal: Q^T Q = I and Q Q^T = I *)
Definition orthogonal (n : nat) (Q : M) : Prop :=
  mmul n (mtr Q) Q =[n, n]= mid /\ mmul n Q (mtr Q) =[n, n]= mid.

Definition symmetric (n : nat) (A : M) : Prop := A =[n, n]= mtr A.
Definition upper_tri (r c : nat) (A : M) : Prop :=
  forall i j, (i < r)%nat -> (j < c)%nat -> (j < i)%nat -> A i j = 0.
Definition lower_tri (r c : nat) (A : M) : Prop :=
  forall i j, (i < r)%nat -> (j < c)%nat -> (i < j)%nat -> A i j = 0.

(** Position (i, j) lies strictly outside the requested triangle; the requested triangle of A
    (diagonal included), zero elsewhere *)
Definition outside (u : UPLO) (i j : nat) : Prop :=
  match u with Upper => (j < i)%nat | Lower => (i < j)%nat end.
Definition tri_of (u : UPLO) (A : M) : M := fun i j =>
  match u with
  | Upper => if Nat.ltb j i then 0 else A i j
  | Lower => if Nat.ltb i j then 0 else A i j
  end.

(** The symmetric matrix described by the lower triangle of A (A itself when A is symmetric) *)
Definition sym_of_lower (A : M) : M := fun i j => if Nat.leb j i then A i j else A j i.

(** Quadratic form and positive definiteness *)
Definition qform (n : nat) (A : M) (x : nat -> R) : R :=
  Rsum n (fun i => Rsum n (fun j => x i * A i j * x j)).
Definition nonzero_vec (n : nat) (x : nat -> R) : Prop := exists i, (i < n)%nat /\ x i <> 0.
Definition posdef (n : nat) (A : M) : Prop :=
  forall x, nonzero_vec n x -> 0 < qform n A x.

(** Trivial kernel: A x = 0 only for x = 0 (full column rank) *)
Definition injective (r c : nat) (A : M) : Prop :=
  forall x, (forall i, (i < r)%nat -> Rsum c (fun j => A i j * x j) = 0) ->
            forall j, (j < c)%nat -> x j = 0.

(** Squared Frobenius norm and Frobenius norm *)
Definition frob2 (r c : nat) (A : M) : R := Rsum r (fun i => Rsum c (fun j => A i j * A i j)).
Definition frob (r c : nat) (A : M) : R := sqrt (frob2 r c A).

(** Squared Euclidean norm of a vector *)
Definition vnorm2 (n : nat) (x : nat -> R) : R := Rsum n (fun i => x i * x i).

(** A real matrix stored in an array, read as an entry function *)
Definition ent (m : mat RN) : M := fun i j => @get RN m i j.
Definition vent (v : list RN) : nat -> R := fun i => @vget RN v i.

(** Square matrix *)
Definition square {A} (m : mat A) : Prop := nr m = nc m.

(** Squared residual of the linear system A x = b, for one right-hand side *)
Definition resid2 (n c : nat) (A : M) (b x : nat -> R) : R :=
  vnorm2 n (fun i => Rsum c (fun j => A i j * x j) - b i).

(** Mirror image of x across the plane { y | v . y = b } with unit normal v *)
Definition vdot (n : nat) (u v : nat -> R) : R := Rsum n (fun i => u i * v i).
Definition mirror (n : nat) (v : nat -> R) (b : R) (x : nat -> R) : nat -> R :=
  fun i => x i - 2 * (vdot n v x - b) * v i.

(** S has the orthonormal eigendecomposition with eigenvalues v (with multiplicity, in some order) *)
Definition has_spectrum (n : nat) (S : M) (v : nat -> R) : Prop :=
  exists W, orthogonal n W /\ S =[n, n]= mmul n W (mmul n (mdiag v) (mtr W)).
(** sg permutes the indices 0..n-1 *)
Definition perm_of (n : nat) (sg : nat -> nat) : Prop :=
  (forall i, (i < n)%nat -> (sg i < n)%nat) /\
  (forall i j, (i < n)%nat -> (j < n)%nat -> sg i = sg j -> i = j).
(** Euclidean distance of A x from lambda x, x being column c of Q *)
Definition eig_resid (n : nat) (A Q : M) (c : nat) (lambda : R) : R :=
  frob n 1 (fun i _ => mmul n A Q i c - lambda * Q i c).

(** Ordered scalars: [nan] are the values not comparable to anything (including themselves); the others are totally preordered *)
Record num_order (N : Num) (nan : N -> Prop) : Prop := {
  no_dec : forall a, nan a \/ ~ nan a;
  no_nan : forall a b : N, nan a \/ nan b -> nlt N a b = false /\ neq N a b = false;
  no_tot : forall a b : N, ~ nan a -> ~ nan b ->
    (nlt N a b = true /\ nlt N b a = false /\ neq N a b = false) \/
    (nlt N a b = false /\ nlt N b a = false /\ neq N a b = true) \/
    (nlt N a b = false /\ nlt N b a = true /\ neq N a b = false);
  no_sym : forall a b : N, neq N a b = neq N b a;
  no_trans : forall a b c : N, ~ nan a -> ~ nan b -> ~ nan c -> nlt N b a = false -> nlt N c b = false -> nlt N c a = false
}.

(** [before order a b]: a comes strictly before b in the given order *)
Definition before {N : Num} (order : Order) (a b : N) : bool :=
  match order with Smallest => nlt N a b | Largest => nlt N b a end.

(** v' lists the n first entries of v in the given order, entry k coming from position sg k; equal values
    keep their relative position *)
Definition sorted_by {N : Num} (order : Order) (n : nat) (v v' : list N) (sg : nat -> nat) : Prop :=
  length v' = n /\ perm_of n sg /\ (forall k, (k < n)%nat -> vget v' k = vget v (sg k)) /\
  (forall k l, (k < l)%nat -> (l < n)%nat -> before order (vget v' l) (vget v' k) = false) /\
  (forall k l, (k < l)%nat -> (l < n)%nat -> before order (vget v' k) (vget v' l) = false -> (sg k < sg l)%nat).

(** b is the first element of l whose score is smallest: strictly better than everything before it, and
    nothing after it is strictly better *)
Definition first_best {N : Num} {A} (score : A -> N) (l : list A) (b : A) : Prop :=
  exists l1 l2, l = l1 ++ b :: l2 /\ (forall x, In x l1 -> nlt N (score b) (score x) = true) /\
    (forall x, In x l2 -> nlt N (score x) (score b) = false).

(** The columns of a matrix, in order *)
Definition columns {N : Num} (m : mat N) : list (list N) :=
  map (fun j => map (fun i => get m i j) (seq 0 (nr m))) (seq 0 (nc m)).
Definition opt_columns {N : Num} (m : option (mat N)) : list (list N) :=
  match m with Some m => columns m | None => [] end.

(** [chunks s r items r']: with r eigenpairs left and step size s, the items delivered are either nothing or a
    block of exactly min(s, r) eigenvalues and as many vectors, which are then no longer left; r' are left at the end *)
Fixpoint chunks {N : Num} (s r : nat) (items : list (option (list N * mat N))) (r' : nat) : Prop :=
  match items with
  | [] => r' = r
  | None :: l => chunks s r l r'
  | Some (vals, vecs) :: l =>
      (0 < r)%nat /\ length vals = Nat.min s r /\ nc vecs = Nat.min s r /\ chunks s (r - Nat.min s r) l r'
  end.
(** Number of eigenvalues delivered, and the vectors delivered, in order *)
Definition total {N : Num} (items : list (option (list N * mat N))) : nat :=
  list_sum (map (fun o => match o with Some (vals, _) => length vals | None => 0%nat end) items).
Definition delivered {N : Num} (items : list (option (list N * mat N))) : list (list N) :=
  concat (map (fun o => match o with Some (_, vecs) => columns vecs | None => [] end) items).
