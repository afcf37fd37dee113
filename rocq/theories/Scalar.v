(** * Scalars, outcomes and loops

    The crate is generic in [A: NdFloat] (f32 or f64).  The model is generic in a record [Num] of
    the scalar operations the code uses; see DESIGN.md section 1 for the instances. *)
From Coq Require Import List Arith Lia Bool ZArith.
Import ListNotations.

(** Operations of [NdFloat]/[num_traits::Float] used anywhere in /repo/src. *)
Record Num := MkNum {
  T :> Type;
  n0 : T;                      (* A::zero() *)
  n1 : T;                      (* A::one() *)
  nadd : T -> T -> T;
  nsub : T -> T -> T;
  nmul : T -> T -> T;
  ndiv : T -> T -> T;
  nopp : T -> T;               (* unary minus *)
  nabs : T -> T;               (* Float::abs *)
  nsqrt : T -> T;              (* Float::sqrt *)
  nsignum : T -> T;            (* Float::signum: +1 for +0.0, -1 for -0.0, NaN for NaN *)
  nhypot : T -> T -> T;        (* Float::hypot *)
  nmax : T -> T -> T;          (* Float::max: ignores a NaN operand *)
  nis_zero : T -> bool;        (* Zero::is_zero *)
  nle : T -> T -> bool;        (* <= : false on NaN *)
  nlt : T -> T -> bool;        (* <  : false on NaN *)
  neq : T -> T -> bool;        (* == : false on NaN *)
  nis_neg : T -> bool;         (* Float::is_sign_negative *)
  nepsilon : T;                (* A::epsilon() *)
  nneg_inf : T;                (* A::neg_infinity() *)
  nofQ : Z -> positive -> T    (* A::from(literal), the literal as an exact fraction *)
}.

Declare Scope num_scope.
Delimit Scope num_scope with num.
Notation "x + y" := (nadd _ x y) : num_scope.
Notation "x - y" := (nsub _ x y) : num_scope.
Notation "x * y" := (nmul _ x y) : num_scope.
Notation "x / y" := (ndiv _ x y) : num_scope.
Notation "- x" := (nopp _ x) : num_scope.
Notation "x <=? y" := (nle _ x y) : num_scope.
Notation "x <? y" := (nlt _ x y) : num_scope.
Notation "x =? y" := (neq _ x y) : num_scope.

(** [A::from(2.0)], [A::from(0.5)] etc. *)
Definition ntwo {N : Num} : N := nofQ N 2 1.
Definition nhalf {N : Num} : N := nofQ N 1 2.

(** [a.partial_cmp(b)]: None iff the operands are unordered (a NaN is involved). *)
Definition ncmp {N : Num} (a b : N) : option comparison :=
  if nlt N a b then Some Lt
  else if nlt N b a then Some Gt
  else if neq N a b then Some Eq
  else None.

(** ** Outcomes *)

(** src/lib.rs:33-60, [LinalgError]. [Shape(ShapeError)] is never constructed by the modelled
    code (only by [?] on ndarray constructors, none of which is used fallibly) and is omitted. *)
Inductive lerr :=
| NotSquare (rows cols : nat)
| NotThin (rows cols : nat)
| NotPositiveDefinite
| NonInvertible
| EmptyMatrix
| WrongColumns (expected actual : nat)
| WrongRows (expected actual : nat).

(** Outcome of running a function of the crate.
    - [Ret]: normal return, [Ok] for functions returning [Result];
    - [Err]: [Err(LinalgError)];
    - [Panicked]: a Rust panic (unwrap/expect on None, bad slice, usize underflow, assert);
    - [OutOfBounds]: an out-of-range access through src/index.rs [at]/[atm]: a panic in debug
      builds, undefined behaviour in release builds;
    - [OutOfFuel]: a [while]/[loop] has not finished within the given fuel. *)
Inductive res (A : Type) :=
| Ret (a : A)
| Err (e : lerr)
| Panicked
| OutOfBounds
| OutOfFuel.
Arguments Ret {A} a.
Arguments Err {A} e.
Arguments Panicked {A}.
Arguments OutOfBounds {A}.
Arguments OutOfFuel {A}.

Definition bind {A B} (m : res A) (f : A -> res B) : res B :=
  match m with
  | Ret a => f a
  | Err e => Err e
  | Panicked => Panicked
  | OutOfBounds => OutOfBounds
  | OutOfFuel => OutOfFuel
  end.

Declare Scope res_scope.
Delimit Scope res_scope with res.
Notation "'let*' x ':=' m 'in' k" := (bind m (fun x => k))
  (at level 200, x pattern, m at level 100, k at level 200, right associativity) : res_scope.
Open Scope res_scope.

(** [r.unwrap()] on a [Result]: an error becomes a panic. *)
Definition unwrap {A} (m : res A) : res A :=
  match m with Err _ => Panicked | x => x end.

(** [o.unwrap()] on an [Option]. *)
Definition unwrap_opt {A} (o : option A) : res A :=
  match o with Some a => Ret a | None => Panicked end.

(** usize subtraction: underflow panics (debug) / wraps and then fails (release). *)
Definition usub (a b : nat) : res nat := if b <=? a then Ret (a - b) else Panicked.

(** [for i in lo..lo+cnt { s = body(i, s)? }] *)
Fixpoint for_ {S} (cnt lo : nat) (body : nat -> S -> res S) (s : S) : res S :=
  match cnt with
  | 0 => Ret s
  | Datatypes.S c => let* s' := body lo s in for_ c (Datatypes.S lo) body s'
  end.

(** [for i in (0..n).rev() { s = body(i, s)? }] *)
Fixpoint for_rev {S} (n : nat) (body : nat -> S -> res S) (s : S) : res S :=
  match n with
  | 0 => Ret s
  | Datatypes.S k => let* s' := body k s in for_rev k body s'
  end.

(** [for i in lo..lo+cnt] whose body may [break]: the body returns [(true, s)] to go on and
    [(false, s)] to break with state [s]. *)
Fixpoint for_brk {S} (cnt lo : nat) (body : nat -> S -> res (bool * S)) (s : S) : res S :=
  match cnt with
  | 0 => Ret s
  | Datatypes.S c =>
      let* (go, s') := body lo s in
      if go : bool then for_brk c (Datatypes.S lo) body s' else Ret s'
  end.

(** [for i in (0..n).rev()] whose body may [break]. *)
Fixpoint for_rev_brk {S} (n : nat) (body : nat -> S -> res (bool * S)) (s : S) : res S :=
  match n with
  | 0 => Ret s
  | Datatypes.S k =>
      let* (go, s') := body k s in
      if go : bool then for_rev_brk k body s' else Ret s'
  end.
