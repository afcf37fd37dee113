(** * The tests of src/lobpcg, run on the model

    These tests start from pseudo-random matrices. The generator is rand_xoshiro 0.6 [Xoshiro256Plus], seeded with
    [seed_from_u64] (four outputs of SplitMix64), and [rng.gen::<f64>()] is [(next_u64() >> 11) * 2^-53];
    they are transcribed from the published algorithm (Blackman and Vigna), the crates themselves are not in the repository.
    Like Tests.v this is evidence that the model behaves like the code, not part of any theorem.
    Not run: test_eigsolver_constructed (50 x 50), test_truncated_svd_random (50 x 10) and test_marchenko_pastur (1000 x 500), because of their size.
    test_eigsolver_diag (lobpcg on diag(1..20), three largest and three smallest) and test_truncated_eig (the iterator on diag(1..20)) also pass
    on the model, but are not kept here: vm_compute takes 59 s and 11 s, and coqchk, which evaluates without the virtual machine, about twenty times as long. *)
From Coq Require Import List Arith Bool ZArith.
From Coq.Floats Require Import SpecFloat.
From Verif Require Import Scalar Arr MBase MDirect MDecomp MEigh MSvd MLobpcg Inst Ex Tests.
Import ListNotations.
Open Scope res_scope.

Definition w64 (x : Z) : Z := (x mod 2 ^ 64)%Z.
(** SplitMix64: the new state and the output *)
Definition splitmix (x : Z) : Z * Z :=
  let x := w64 (x + 11400714819323198485) in
  let z := w64 (Z.lxor x (Z.shiftr x 30) * 13787848793156543929) in
  let z := w64 (Z.lxor z (Z.shiftr z 27) * 10723151780598845931) in
  (x, Z.lxor z (Z.shiftr z 31)).
Definition xostate : Type := Z * Z * Z * Z.
Definition seed_from_u64 (x : Z) : xostate :=
  let '(x, a) := splitmix x in let '(x, b) := splitmix x in let '(x, c) := splitmix x in let '(_, e) := splitmix x in (a, b, c, e).
Definition rotl (x k : Z) : Z := w64 (Z.lor (Z.shiftl x k) (Z.shiftr x (64 - k))).
Definition next_u64 (s : xostate) : Z * xostate :=
  let '(s0, s1, s2, s3) := s in
  let r := w64 (s0 + s3) in
  let t := w64 (Z.shiftl s1 17) in
  let s2 := Z.lxor s2 s0 in let s3 := Z.lxor s3 s1 in let s1 := Z.lxor s1 s2 in let s0 := Z.lxor s0 s3 in
  (r, (s0, s1, Z.lxor s2 t, rotl s3 45)).
Definition gen_f64 (s : xostate) : FN * xostate := let '(r, s) := next_u64 s in (fl (Z.shiftr r 11) (-53), s).
(** SplitMix64 from 1477776061723855037 as in the tests of rand_xoshiro *)
Example splitmix_vector : let '(x, a) := splitmix 1477776061723855037 in let '(x, b) := splitmix x in let '(_, c) := splitmix x in
  (a, b, c) = (1985237415132408290, 2979275885539914483, 13511426838097143398)%Z.
Proof. vm_compute. reflexivity. Qed.
(** Xoshiro256Plus from the state (1, 2, 3, 4) as in the tests of rand_xoshiro *)
Example xoshiro_vector : let '(a, s) := next_u64 (1, 2, 3, 4)%Z in let '(b, s) := next_u64 s in let '(c, s) := next_u64 s in let '(e, _) := next_u64 s in
  (a, b, c, e) = (5, 211106232532999, 211106635186183, 9223759065350669058)%Z.
Proof. vm_compute. reflexivity. Qed.

Definition rnd (r c : nat) : mat FN := fst (random gen_f64 r c (seed_from_u64 3)).
Definition times (k : FN) (m : mat FN) : mat FN := mk (nr m) (nc m) (fun i j => nmul FN (get m i j) k).
Definition mabs (m : mat FN) : mat FN := mk (nr m) (nc m) (fun i j => nabs FN (get m i j)).

(** ** src/lobpcg/algorithm.rs *)
Example algorithm_test_sorted_eigen : passes (
  let m := times (d (10) 0) (rnd 10 10) in let* m := dot2 (transpose m) m in
  let* (v, w) := sorted_eig 200 m None 10 Largest in let* p := dot2 w (from_diag v) in let* r := dot2 p (transpose w) in Ret (mclose (d (1) 5) m r)) = true.
Proof. vm_compute. reflexivity. Qed.
Example algorithm_test_masking : passes (
  let m := times (d (10) 0) (rnd 10 5) in let* k := ndarray_mask m [true; true; false; true; false] in
  Ret (vclose (d (1) 12) (vmk 10 (fun i => get k i 2)) (vmk 10 (fun i => get m i 3)))) = true.
Proof. vm_compute. reflexivity. Qed.
Example algorithm_test_orthonormalize : passes (
  let m := times (d (10) 0) (rnd 10 10) in let* (n, l) := orthonormalize m in let* i := dot2 n (transpose n) in let* d_ := qr_into m in let* r := qr_into_r d_ in
  Ret (mclose (d (1) 2) i (eye 10) && mclose (d (1) 2) (mabs r) (mabs (transpose l)))) = true.
Proof. vm_compute. reflexivity. Qed.
Example algorithm_test_generalized_eigenvalue : passes (
  let m := times (d (1) 0) (rnd 10 10) in let* m := dot2 (transpose m) m in let* d_ := qr_into m in let* i := qr_inverse d_ in
  let* (v, _) := sorted_eig 200 m (Some m) 10 Largest in let* (v1, _) := sorted_eig 200 m (Some (eye 10)) 10 Largest in let* (v2, _) := sorted_eig 200 (eye 10) (Some i) 10 Largest in
  Ret (vclose (d (1) 4) v (repeat (d (1) 0) 10) && vclose (d (1) 5) v1 v2)) = true.
Proof. vm_compute. reflexivity. Qed.
Definition lob_of (r : lres FN) : res (lobpcg_out FN) := match r with LOk l | LErr _ (Some l) => Ret l | _ => Panicked end.
Definition diag_to (n : nat) : mat FN := from_diag (vmk n (fun i => f_of_Z (Z.of_nat i + 1) : FN)).
Example algorithm_test_eigsolver_constrained : passes (
  let y := mk 10 2 (fun i j => if i =? j then ((d (1) 0) : FN) else (d (0) 0)) in
  let* r := lobpcg 200 (fun y => dot2 (diag_to 10) y) (rnd 10 1) (fun y => Ret y) (Some y) (d (1) 10) 50 Smallest in let* l := lob_of r in
  Ret (forallb (fun x => negb (nlt FN (d (1) 2) x)) (rnorm l) && vclose (d (1) 6) (eigvals l) [(d (3) 0)] &&
       vclose (d (1) 5) (vmk 10 (fun i => nabs FN (get (eigvecs l) i 0))) [(d (0) 0); (d (0) 0); (d (1) 0); (d (0) 0); (d (0) 0); (d (0) 0); (d (0) 0); (d (0) 0); (d (0) 0); (d (0) 0)])) = true.
Proof. vm_compute. reflexivity. Qed.

(** ** src/lobpcg/svd.rs *)
Example svd_test_truncated_svd : passes (
  let t := TS Largest ((Mat 2 3 [[(d (3) 0); (d (2) 0); (d (2) 0)]; [(d (2) 0); (d (3) 0); (d (-2) 0)]])) (d (1) 5) 10 (seed_from_u64 42) in
  let* r := ts_decompose gen_f64 200 t 2 in let* (p, _) := ts_values_vectors (d (1000000) 0) r in let (_, s) := p in
  Ret (vclose (d (1) 5) s [(d (50) 1); (d (30) 1)])) = true.
Proof. vm_compute. reflexivity. Qed.
