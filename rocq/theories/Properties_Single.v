(** * C80: the code at f32 *)
From Coq Require Import List Arith Lia Bool ZArith.
From Coq.Floats Require Import SpecFloat.
From Verif Require Import Scalar Arr MBase MDirect MDecomp MEigh MSvd MLobpcg Inst Inst32 Hoare Spec PSort PFloat PDiag Properties_Sort Ex.
Import ListNotations.
Local Open Scope nat_scope.
Local Open Scope res_scope.

(** ** Specification *)
Definition single_zero (x : FN32) : Prop := exists s, x = S754_zero s.
Definition single_finite (x : FN32) : Prop := match x with S754_zero _ | S754_finite _ _ _ => True | _ => False end.
Definition single_nan (x : FN32) : Prop := x = S754_nan.
Definition diagonal_s (n : nat) (a : mat FN32) : Prop := nr a = n /\ nc a = n /\
  (forall i, i < n -> single_finite (get a i i)) /\ forall i j, i < n -> j < n -> i <> j -> single_zero (get a i j).

(** ** Order: sorting works and panics exactly as at f64 *)
Theorem C80_ordered : num_order FN32 single_nan.
Proof. destruct num_order_F as [h1 h2 h3 h4 h5]. constructor; assumption. Qed.
Print Assumptions C80_ordered.
Theorem C80_sorts order (v : list FN32) (m : mat FN32) : length v <= nc m -> 2 <= length v ->
  ((forall x, In x v -> x <> S754_nan) -> exists v' m' sg, sort_eig v m order = Ret (v', m') /\ sort_vals v order = Ret v' /\ sorted_by order (length v) v v' sg /\
     nr m' = nr m /\ nc m' = nc m /\ forall i k, i < nr m -> k < length v -> get m' i k = get m i (sg k)) /\
  ((exists x, In x v /\ x = S754_nan) <-> sort_eig v m order = Panicked).
Proof.
  intros h1 h2. split.
  - intros h. apply (C28_sorts FN32 single_nan C80_ordered order v m h1). auto.
  - apply (C28_panics_iff_nan FN32 single_nan C80_ordered order v m h1 h2).
Qed.
Print Assumptions C80_sorts.

(** ** Zeros *)
Lemma add_nonneg32 x y : nonneg x -> nonneg y -> nonneg (SFadd prec32 emax32 x y).
Proof.
  destruct x as [s|s| |s m e], y as [s'|s'| |s' m' e']; intros h h'; cbn [nonneg] in h, h'; try tauto; subst; auto.
  - simpl. destruct (Bool.eqb s s'); simpl; auto.
  - simpl. auto.
  - simpl. apply signed_nonneg, binary_round_signed.
Qed.
Definition nn32 (x : spec_float) : Prop := x = S754_nan \/ nonneg x.
Lemma nn32_abs x : nn32 (SFabs x).
Proof. destruct x; [right|right|left|right]; cbn; auto. Qed.
Lemma nn32_add x y : nn32 x -> nn32 y -> nn32 (SFadd prec32 emax32 x y).
Proof. intros [->|hx]; [left; reflexivity|]. intros [->|hy]; [left; destruct x; reflexivity|]. right. apply add_nonneg32; auto. Qed.
Lemma nn32_eps x : nn32 x -> nn32 (SFmul prec32 emax32 (nepsilon FN32) x).
Proof.
  intros [->|hx]; [left; reflexivity|]. set (e := nepsilon FN32).
  assert (he : exists m k, e = S754_finite false m k) by (vm_compute; eauto). destruct he as (m & k & ->).
  destruct x as [s|s| |s m' k']; cbn in hx; try tauto; subst; cbn [SFmul xorb]; try (right; cbn; auto; fail).
  right. apply signed_nonneg, binary_round_aux_signed. lia.
Qed.
Lemma nn32_lt x s : nn32 x -> SFltb x (S754_zero s) = false.
Proof. intros [->|h]; [reflexivity|]. destruct x as [t|t| |t m e]; cbn in h; try tauto; subst; destruct s; reflexivity. Qed.
Lemma zeros_32 : zeros_ok FN32 single_zero.
Proof.
  split.
  - exists false. reflexivity.
  - intros x y (s & ->) (t & ->). destruct s, t; eexists; reflexivity.
  - intros x (s & ->). destruct s; eexists; reflexivity.
  - intros x y (s & ->) (t & ->). destruct s, t; eexists; reflexivity.
  - intros x (s & ->). destruct s; eexists; vm_compute; reflexivity.
  - intros x (s & ->). destruct s; eexists; vm_compute; reflexivity.
  - intros x (s & ->). destruct s; eexists; vm_compute; reflexivity.
  - intros x (s & ->). destruct s; eexists; reflexivity.
  - intros x (s & ->). destruct s; eexists; reflexivity.
  - intros x y (s & ->) (t & ->). destruct s, t; eexists; vm_compute; reflexivity.
  - intros x (s & ->). destruct s; reflexivity.
  - intros x a b (s & ->). apply nn32_lt, nn32_eps, nn32_add; apply nn32_abs.
  - intros x (s & ->). destruct s; reflexivity.
  - intros x (s & ->). destruct s; reflexivity.
  - reflexivity.
  - vm_compute. reflexivity.
Qed.

(** ** The largest entry *)
Lemma fmax_in (x y : FN32) : nmax FN32 x y = x \/ nmax FN32 x y = y.
Proof. change (nmax FN32 x y) with (f_max x y). unfold f_max. destruct (f_is_nan x), (f_is_nan y), (SFltb x y); auto. Qed.
Lemma fold_max_in (l : list FN32) : forall x, let m := fold_left (fun a b => nmax FN32 a b) l x in m = x \/ In m l.
Proof.
  induction l as [|y l IH]; intros x; cbn [fold_left]; [left; reflexivity|]. cbv zeta in *. destruct (IH (nmax FN32 x y)) as [e|h]; [|right; right; auto].
  rewrite e. destruct (fmax_in x y) as [->| ->]; [left; auto|right; left; auto].
Qed.
Lemma abs_max_in (a : mat FN32) : (forall x, In x (elems a) -> single_finite x) -> elems a <> [] ->
  exists x, In x (elems a) /\ abs_max a = SFabs x.
Proof.
  intros h hn. unfold abs_max. destruct (elems a) as [|y l]; [congruence|]. cbn [map fold_left].
  assert (e : nmax FN32 (nneg_inf FN32) (nabs FN32 y) = SFabs y).
  { specialize (h y (or_introl eq_refl)). destruct y; cbn in h; try tauto; reflexivity. }
  rewrite e. destruct (fold_max_in (map (nabs FN32) l) (SFabs y)) as [k|k]; cbv zeta in k.
  - exists y. split; [left; auto|exact k].
  - apply in_map_iff in k. destruct k as (x & k1 & k2). exists x. split; [right; auto|]. symmetry. exact k1.
Qed.

(** ** Diagonal matrices at f32: no iteration, the eigenvectors are exactly the identity, and each value is the diagonal entry
    divided by one of them, and multiplied by it again *)
Theorem C80_diagonal n fuel (a : mat FN32) : diagonal_s n a -> 1 <= n ->
  exists m vals w, eigh fuel a = Ret (vals, w) /\ eigvalsh fuel a = Ret vals /\ length vals = n /\ nr w = n /\ nc w = n /\
    (forall i j, i < n -> j < n -> get w i j = if i =? j then n1 FN32 else n0 FN32) /\ single_finite m /\
    forall i, i < n -> if SFeqb m (S754_zero false) then vget vals i = nmul FN32 (get a i i) m else vget vals i = nmul FN32 (ndiv FN32 (get a i i) m) m.
Proof.
  intros (e1 & e2 & hd & hz) hn. set (m := abs_max a).
  assert (hf : forall i j, i < n -> j < n -> single_finite (get a i j)).
  { intros i j hi hj. destruct (Nat.eq_dec i j) as [->|ne]; auto. destruct (hz i j hi hj ne) as (s & ->). exact I. }
  assert (hin : forall x : FN32, In x (elems a) <-> exists i j, i < n /\ j < n /\ x = get a i j).
  { intros x. unfold elems. rewrite in_flat_map. rewrite e1, e2. setoid_rewrite in_map_iff. setoid_rewrite in_seq. split.
    - intros (i & hi & j & <- & hj). exists i, j. repeat split; lia.
    - intros (i & j & hi & hj & ->). exists i. split; [lia|]. exists j. split; auto. lia. }
  destruct (abs_max_in a) as (x & hx & em).
  { intros x hx. apply hin in hx. destruct hx as (i & j & hi & hj & ->). auto. }
  { intros e. assert (hh : In (get a 0 0) (elems a)) by (apply hin; exists 0, 0; repeat split; lia). rewrite e in hh. destruct hh. }
  fold m in em. apply hin in hx. destruct hx as (p & q & hp & hq & ->). specialize (hf p q hp hq).
  assert (hm : single_finite m) by (rewrite em; destruct (get a p q); cbn in *; auto).
  assert (hl : low0 (N := FN32) (Z := single_zero) n (scale_down a m)).
  { intros i j hj hi. unfold scale_down. destruct (negb _) eqn:eq.
    - rewrite get_mmap by lia. destruct (hz i j) as (s & ->); try lia. destruct m as [t|t| |t pm pe]; cbn in hm; try tauto; [destruct t; discriminate eq|]. eexists. reflexivity.
    - apply hz; lia. }
  destruct (wp_ret _ _ (symeig_zero zeros_32 n fuel a true e1 e2 hn hl)) as ([vals q0] & ev & v1 & v2 & w & -> & w1 & w2 & w3).
  destruct (wp_ret _ _ (symeig_zero zeros_32 n fuel a false e1 e2 hn hl)) as ([vals' q1] & ev' & v1' & v2' & ->).
  assert (vals' = vals) as ->.
  { apply (nth_ext _ _ (n0 FN32) (n0 FN32)); [congruence|]. intros i hi. rewrite v1' in hi. specialize (v2 i hi). specialize (v2' i hi). unfold vget in v2, v2'. congruence. }
  exists m, vals, w. unfold eigh, eigvalsh. rewrite ev, ev'. repeat split; auto. intros i hi. rewrite v2 by auto. fold m. unfold scale_down.
  change (neq FN32 m (n0 FN32)) with (SFeqb m (S754_zero false)). destruct (SFeqb m (S754_zero false)); cbn [negb]; [reflexivity|]. rewrite get_mmap by lia. reflexivity.
Qed.
Print Assumptions C80_diagonal.

(** ** LOBPCG: the f32 branch of src/lobpcg/algorithm.rs:264-269 *)
Theorem C80_threshold : @max_rnorm_float FN32 = g_of_Z 1 /\ @max_rnorm_float FN = nofQ FN 1 100000000.
Proof. split; vm_compute; reflexivity. Qed.
Print Assumptions C80_threshold.

(** ** Underflow at f32 (C58): eigvalsh of [[1, t]; [t, 1]] with t near 4.6e-23 returns a value above 2; so such entries need not be as small as at f64 *)
Definition tiny_single : FN32 := S754_finite false 14480000 (-98).
Theorem C80_underflow_refuted : exists (a : mat FN32) vals, nr a = 2 /\ nc a = 2 /\ get a 0 0 = g_of_Z 1 /\ get a 1 1 = g_of_Z 1 /\ get a 0 1 = tiny_single /\ get a 1 0 = tiny_single /\ valid_binary prec32 emax32 tiny_single = true /\ eigvalsh 100 a = Ret vals /\ SFltb (g_of_Z 2) (vget vals 1) = true.
Proof.
  set (a := Mat 2 2 [[g_of_Z 1; tiny_single]; [tiny_single; g_of_Z 1]] : mat FN32). exists a.
  assert (h : match eigvalsh 100 a with Ret v => SFltb (g_of_Z 2) (vget v 1) | _ => false end = true) by (vm_compute; reflexivity).
  destruct (eigvalsh 100 a) as [v| | | |]; try discriminate h. exists v. repeat split; auto.
Qed.
Print Assumptions C80_underflow_refuted.

(** ** Examples *)
Definition gmat (c : nat) (l : list (list Z)) : mat FN32 := Mat (length l) c (map (map g_of_Z) l).
Example C80_diag_ok : diagonal_s 3 (gmat 3 [[49; 0; 0]; [0; 3; 0]; [0; 0; -7]]%Z).
Proof.
  split; [reflexivity|]. split; [reflexivity|]. split.
  - intros [|[|[|i]]] hi; try lia; exact I.
  - intros [|[|[|i]]] [|[|[|j]]] hi hj ne; try lia; exists false; reflexivity.
Qed.
Example C80_run :
  cholesky (gmat 2 [[4;2];[2;5]]%Z) = Ret (gmat 2 [[2;0];[1;2]]%Z) /\
  solvec (gmat 2 [[4;2];[2;5]]%Z) (gmat 1 [[8];[12]]%Z) = Ret (gmat 1 [[1];[2]]%Z) /\
  cholesky (gmat 2 [[1;2];[2;1]]%Z) = Err NotPositiveDefinite.
Proof. vm_compute. auto. Qed.
(** 16777217 = 2^24 + 1 is not a single: the matrix [[2^24, 2^24]; [2^24, 2^24 + 1]] is positive definite, accepted at f64, singular and rejected at f32 *)
Example C80_differs :
  match cholesky (fmat 2 [[16777216; 16777216]; [16777216; 16777217]]%Z) with Ret _ => true | _ => false end = true /\
  cholesky (gmat 2 [[16777216; 16777216]; [16777216; 16777217]]%Z) = Err NotPositiveDefinite.
Proof. vm_compute. auto. Qed.

(** ** The f32 tests of the crate (tests/eigh.rs:59-65, tests/svd.rs:69-75, tests/cholesky.rs:87-95), run on this instance *)
Definition g (m : Z) (k : nat) : FN32 := SFdiv prec32 emax32 (g_of_Z m) (g_of_Z (10 ^ Z.of_nat k)).
Definition gclose (eps : FN32) (u v : list FN32) : bool :=
  (length u =? length v) && forallb (fun p => SFleb (SFabs (nsub FN32 (fst p) (snd p))) eps) (combine u v).
Definition gpasses (m : res bool) : bool := match m with Ret b => b | _ => false end.
Example eigh_f32 : gpasses (let* v := eigvalsh 100 (gmat 3 [[1; -5; 7]; [-5; 2; -9]; [7; -9; 3]]%Z) in
  Ret (gclose (g 1 5) v [g 1628378 5; g (-341558) 5; g (-686819) 5])) = true.
Proof. vm_compute. reflexivity. Qed.
Example svd_f32 : gpasses (let* (u, s, vt) := svd 100 (gmat 2 [[3; 0]; [0; -2]]%Z) true true in
  match u, vt with
  | Some u, Some vt => Ret (gclose (g 1 7) s [g 3 0; g 2 0] && gclose (g 1 7) (elems u) [g 1 0; g 0 0; g 0 0; g (-1) 0] && gclose (g 1 7) (elems vt) [g 1 0; g 0 0; g 0 0; g 1 0])
  | _, _ => Ret false
  end) = true.
Proof. vm_compute. reflexivity. Qed.
Example cholesky_f32 : gpasses (
  let a := gmat 3 [[25; 15; -5]; [15; 18; 0]; [-5; 0; 11]]%Z in
  let* l := cholesky a in let* p := dot2 l (transpose l) in
  Ret (gclose (g 1 7) (elems l) (elems (gmat 3 [[5; 0; 0]; [3; 3; 0]; [-1; 1; 3]]%Z)) && gclose (g 1 7) (elems p) (elems a))) = true.
Proof. vm_compute. reflexivity. Qed.
