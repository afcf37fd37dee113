(** * Linear algebra over the reals, for the entry-function matrices of Spec.v *)
From Coq Require Import Reals List Arith Lia Lra Bool Psatz.
From Coq Require Import Setoid Morphisms.
From Verif Require Import Scalar Arr Inst Hoare Spec.
Local Open Scope R_scope.

Lemma sqn x : 0 <= x * x.
Proof. apply Rle_0_sqr. Qed.

(** ** Sums *)
Lemma Rsum_ext n f g : (forall i, (i < n)%nat -> f i = g i) -> Rsum n f = Rsum n g.
Proof. intros h. induction n; simpl; [auto|]. rewrite IHn, h; auto. Qed.
Lemma Rsum_0 n f : (forall i, (i < n)%nat -> f i = 0) -> Rsum n f = 0.
Proof. intros h. induction n; simpl; [auto|]. rewrite IHn, h; auto. lra. Qed.
Lemma Rsum_plus n f g : Rsum n (fun i => f i + g i) = Rsum n f + Rsum n g.
Proof. induction n; simpl; [lra|]. rewrite IHn. lra. Qed.
Lemma Rsum_minus n f g : Rsum n (fun i => f i - g i) = Rsum n f - Rsum n g.
Proof. induction n; simpl; [lra|]. rewrite IHn. lra. Qed.
Lemma Rsum_opp n f : Rsum n (fun i => - f i) = - Rsum n f.
Proof. induction n; simpl; [lra|]. rewrite IHn. lra. Qed.
Lemma Rsum_scal_l n c f : Rsum n (fun i => c * f i) = c * Rsum n f.
Proof. induction n; simpl; [lra|]. rewrite IHn. lra. Qed.
Lemma Rsum_scal_r n c f : Rsum n (fun i => f i * c) = Rsum n f * c.
Proof. induction n; simpl; [lra|]. rewrite IHn. lra. Qed.
Lemma Rsum_swap n m f :
  Rsum n (fun i => Rsum m (fun j => f i j)) = Rsum m (fun j => Rsum n (fun i => f i j)).
Proof.
  induction n; simpl.
  - symmetry. apply Rsum_0. auto.
  - rewrite IHn, <- Rsum_plus. reflexivity.
Qed.
Lemma Rsum_single n k f :
  (k < n)%nat -> (forall i, (i < n)%nat -> i <> k -> f i = 0) -> Rsum n f = f k.
Proof.
  intros hk h. induction n; [lia|]. simpl. destruct (Nat.eq_dec k n) as [->|ne].
  - rewrite Rsum_0; [lra|]. intros; apply h; lia.
  - rewrite IHn, (h n); try lia; [lra|]. intros; apply h; lia.
Qed.
Lemma Rsum_delta n k (f : nat -> R) :
  (k < n)%nat -> Rsum n (fun i => (if Nat.eqb i k then 1 else 0) * f i) = f k.
Proof.
  intros. rewrite (Rsum_single n k); auto.
  - rewrite Nat.eqb_refl. lra.
  - intros. bd. lra.
Qed.
Lemma Rsum_nonneg n f : (forall i, (i < n)%nat -> 0 <= f i) -> 0 <= Rsum n f.
Proof. intros h. induction n; simpl; [lra|]. pose proof (h n). assert (0 <= Rsum n f) by auto. lra || (assert (0 <= f n) by (apply h; lia); lra). Qed.
Lemma Rsum_le n f g : (forall i, (i < n)%nat -> f i <= g i) -> Rsum n f <= Rsum n g.
Proof.
  intros h. induction n; simpl; [lra|].
  assert (f n <= g n) by (apply h; lia). assert (Rsum n f <= Rsum n g) by auto. lra.
Qed.
Lemma Rsum_split n m f : Rsum (n + m) f = Rsum n f + Rsum m (fun i => f (n + i)%nat).
Proof.
  induction m; simpl.
  - rewrite Nat.add_0_r. lra.
  - rewrite Nat.add_succ_r. simpl. rewrite IHm. lra.
Qed.
Lemma Rsum_S_l n f : Rsum (S n) f = f O + Rsum n (fun i => f (S i)).
Proof. change (S n) with (1 + n)%nat. rewrite Rsum_split. simpl. lra. Qed.
Lemma Rsum_term_le n f k : (forall i, (i < n)%nat -> 0 <= f i) -> (k < n)%nat -> f k <= Rsum n f.
Proof.
  intros h hk. induction n; [lia|]. simpl.
  assert (0 <= f n) by (apply h; lia).
  destruct (Nat.eq_dec k n) as [->|].
  - assert (0 <= Rsum n f) by (apply Rsum_nonneg; auto). lra.
  - assert (f k <= Rsum n f) by (apply IHn; auto; lia). lra.
Qed.
Lemma Rsum_sq_0 n f : Rsum n (fun i => f i * f i) = 0 -> forall i, (i < n)%nat -> f i = 0.
Proof.
  intros h i hi.
  assert (f i * f i <= 0) by (rewrite <- h; apply (Rsum_term_le n (fun i => f i * f i));
                              auto; intros; nra).
  nra.
Qed.
Lemma Rsum_if_lt n m f : (m <= n)%nat ->
  Rsum n (fun i => if Nat.ltb i m then f i else 0) = Rsum m f.
Proof.
  intros. replace n with (m + (n - m))%nat by lia. rewrite Rsum_split.
  rewrite (Rsum_0 (n - m)); [|intros; bd; lra].
  rewrite Rplus_0_r. apply Rsum_ext. intros. bd. auto.
Qed.
Lemma Rsum_if_ge n m f : (m <= n)%nat ->
  Rsum n (fun i => if Nat.leb m i then f i else 0) = Rsum (n - m) (fun i => f (m + i)%nat).
Proof.
  intros. replace n with (m + (n - m))%nat at 1 by lia. rewrite Rsum_split.
  rewrite (Rsum_0 m); [|intros; bd; lra].
  rewrite Rplus_0_l. apply Rsum_ext. intros. bd. auto.
Qed.
Lemma Rsum_const n c : Rsum n (fun _ => c) = INR n * c.
Proof. induction n; [simpl; lra|]. rewrite S_INR. simpl Rsum. rewrite IHn. lra. Qed.
Lemma Rsum_abs n f : Rabs (Rsum n f) <= Rsum n (fun i => Rabs (f i)).
Proof.
  induction n; simpl; [rewrite Rabs_R0; lra|].
  eapply Rle_trans; [apply Rabs_triang|]. lra.
Qed.
(** Two distinguished indices *)
Lemma Rsum_two n p q f : (p < n)%nat -> (q < n)%nat -> p <> q ->
  (forall i, (i < n)%nat -> i <> p -> i <> q -> f i = 0) -> Rsum n f = f p + f q.
Proof.
  intros hp hq ne h.
  rewrite (Rsum_ext n f (fun i => (if Nat.eqb i p then 1 else 0) * f p
                               + (if Nat.eqb i q then 1 else 0) * f q)).
  - rewrite Rsum_plus. rewrite (Rsum_delta n p (fun _ => f p)), (Rsum_delta n q (fun _ => f q)); auto.
  - intros i hi. bd; subst; try lia; try lra. rewrite h; auto; lra.
Qed.

(** Cauchy-Schwarz *)
Lemma Rsum_CS n f g :
  Rsum n (fun i => f i * g i) * Rsum n (fun i => f i * g i)
  <= Rsum n (fun i => f i * f i) * Rsum n (fun i => g i * g i).
Proof.
  set (a := Rsum n (fun i => f i * f i)). set (b := Rsum n (fun i => f i * g i)).
  set (c := Rsum n (fun i => g i * g i)).
  assert (hq : forall t s, 0 <= t * t * a - 2 * (t * s) * b + s * s * c).
  { intros t s. unfold a, b, c.
    rewrite <- !Rsum_scal_l, <- Rsum_minus, <- Rsum_plus.
    apply Rsum_nonneg. intros.
    replace (t * t * (f i * f i) - 2 * (t * s) * (f i * g i) + s * s * (g i * g i))
      with ((t * f i - s * g i) * (t * f i - s * g i)) by ring.
    apply sqn. }
  assert (0 <= a) by (apply Rsum_nonneg; intros; nra).
  assert (0 <= c) by (apply Rsum_nonneg; intros; nra).
  destruct (Req_dec c 0) as [hc|hc].
  - pose proof (hq 1 (b * (a + 1))). pose proof (hq 1 b). rewrite hc in *.
    destruct (Req_dec b 0) as [->|hb]; [lra|].
    pose proof (hq 1 ((a + 1) / b)).
    assert (hh : 2 * (1 * ((a + 1) / b)) * b = 2 * (a + 1)) by (field; auto). nra.
  - pose proof (hq c b). assert (0 < c) by lra.
    assert (hh : 0 <= c * (a * c - b * b)) by nra.
    assert (0 <= a * c - b * b).
    { apply Rmult_le_reg_l with c; auto. lra. }
    lra.
Qed.

(** ** Matrices *)
Lemma meq_refl r c A : A =[r, c]= A. Proof. intros i j _ _. auto. Qed.
Lemma meq_sym r c A B : A =[r, c]= B -> B =[r, c]= A.
Proof. intros h i j hi hj. symmetry. auto. Qed.
Lemma meq_trans r c A B C : A =[r, c]= B -> B =[r, c]= C -> A =[r, c]= C.
Proof. intros h g i j hi hj. rewrite h; auto. Qed.
#[export] Instance meq_equiv r c : Equivalence (meq r c).
Proof.
  constructor; [exact (meq_refl r c)|exact (meq_sym r c)|exact (meq_trans r c)].
Qed.
#[export] Instance mmul_proper r n c : Proper (meq r n ==> meq n c ==> meq r c) (mmul n).
Proof.
  intros A A' hA B B' hB i j hi hj. unfold mmul. apply Rsum_ext. intros. rewrite hA, hB; auto.
Qed.
#[export] Instance mtr_proper r c : Proper (meq r c ==> meq c r) mtr.
Proof. intros A A' hA i j hi hj. unfold mtr. auto. Qed.
#[export] Instance madd_proper r c : Proper (meq r c ==> meq r c ==> meq r c) madd.
Proof. intros A A' hA B B' hB i j hi hj. unfold madd. rewrite hA, hB; auto. Qed.
#[export] Instance msub_proper r c : Proper (meq r c ==> meq r c ==> meq r c) msub.
Proof. intros A A' hA B B' hB i j hi hj. unfold msub. rewrite hA, hB; auto. Qed.
#[export] Instance mscal_proper r c : Proper (eq ==> meq r c ==> meq r c) mscal.
Proof. intros s s' -> A A' hA i j hi hj. unfold mscal. rewrite hA; auto. Qed.

Lemma mmul_assoc r n m c A B C : mmul m (mmul n A B) C =[r, c]= mmul n A (mmul m B C).
Proof.
  intros i j hi hj. unfold mmul.
  rewrite (Rsum_ext m _ (fun k => Rsum n (fun l => A i l * B l k * C k j)))
    by (intros; now rewrite Rsum_scal_r).
  rewrite Rsum_swap. apply Rsum_ext. intros l hl.
  rewrite <- Rsum_scal_l. apply Rsum_ext. intros. lra.
Qed.
Lemma mmul_1_l n c A : mmul n mid A =[n, c]= A.
Proof.
  intros i j hi hj. unfold mmul, mid.
  rewrite (Rsum_single n i); auto.
  - rewrite Nat.eqb_refl. lra.
  - intros. bd. lra.
Qed.
Lemma mmul_1_r r n A : mmul n A mid =[r, n]= A.
Proof.
  intros i j hi hj. unfold mmul, mid.
  rewrite (Rsum_single n j); auto.
  - rewrite Nat.eqb_refl. lra.
  - intros. bd. lra.
Qed.
Lemma mtr_mmul r n c A B : mtr (mmul n A B) =[c, r]= mmul n (mtr B) (mtr A).
Proof. intros i j hi hj. unfold mtr, mmul. apply Rsum_ext. intros. lra. Qed.
Lemma mtr_mtr r c A : mtr (mtr A) =[r, c]= A. Proof. intros i j _ _. reflexivity. Qed.
Lemma mtr_mid n : mtr mid =[n, n]= mid.
Proof. intros i j _ _. unfold mtr, mid. bd; auto; lia. Qed.
Lemma mmul_add_l r n c A B C : mmul n (madd A B) C =[r, c]= madd (mmul n A C) (mmul n B C).
Proof.
  intros i j hi hj. unfold mmul, madd. rewrite <- Rsum_plus. apply Rsum_ext. intros. lra.
Qed.
Lemma mmul_add_r r n c A B C : mmul n A (madd B C) =[r, c]= madd (mmul n A B) (mmul n A C).
Proof.
  intros i j hi hj. unfold mmul, madd. rewrite <- Rsum_plus. apply Rsum_ext. intros. lra.
Qed.
Lemma mmul_sub_l r n c A B C : mmul n (msub A B) C =[r, c]= msub (mmul n A C) (mmul n B C).
Proof.
  intros i j hi hj. unfold mmul, msub. rewrite <- Rsum_minus. apply Rsum_ext. intros. lra.
Qed.
Lemma mmul_sub_r r n c A B C : mmul n A (msub B C) =[r, c]= msub (mmul n A B) (mmul n A C).
Proof.
  intros i j hi hj. unfold mmul, msub. rewrite <- Rsum_minus. apply Rsum_ext. intros. lra.
Qed.
Lemma mmul_scal_l r n c s A B : mmul n (mscal s A) B =[r, c]= mscal s (mmul n A B).
Proof. intros i j hi hj. unfold mmul, mscal. rewrite <- Rsum_scal_l. apply Rsum_ext. intros. lra. Qed.
Lemma mmul_scal_r r n c s A B : mmul n A (mscal s B) =[r, c]= mscal s (mmul n A B).
Proof. intros i j hi hj. unfold mmul, mscal. rewrite <- Rsum_scal_l. apply Rsum_ext. intros. lra. Qed.
Lemma meq_sub r c r' c' A B : (r' <= r)%nat -> (c' <= c)%nat -> A =[r, c]= B -> A =[r', c']= B.
Proof. intros h1 h2 h i j hi hj. apply h; lia. Qed.

(** Orthogonal matrices *)
Lemma orthogonal_mid n : orthogonal n mid.
Proof. split; rewrite mtr_mid; apply mmul_1_l. Qed.
Lemma orthogonal_mul n P Q : orthogonal n P -> orthogonal n Q -> orthogonal n (mmul n P Q).
Proof.
  intros [p1 p2] [q1 q2]. split.
  - rewrite (mtr_mmul n n n P Q), (mmul_assoc n n n n (mtr Q)), <- (mmul_assoc n n n n (mtr P)).
    rewrite p1, mmul_1_l. exact q1.
  - rewrite (mtr_mmul n n n P Q), (mmul_assoc n n n n P), <- (mmul_assoc n n n n Q).
    rewrite q2, mmul_1_l. exact p2.
Qed.
Lemma orthogonal_mtr n Q : orthogonal n Q -> orthogonal n (mtr Q).
Proof. intros [q1 q2]. split; rewrite (mtr_mtr n n Q); auto. Qed.
Lemma orthogonal_proper n P Q : P =[n, n]= Q -> orthogonal n P -> orthogonal n Q.
Proof. intros h [p1 p2]. split; rewrite <- h; auto. Qed.

(** A left inverse is unique / cancellation by an invertible matrix *)
Lemma mmul_cancel_l n c P Pi X Y :
  mmul n Pi P =[n, n]= mid -> mmul n P X =[n, c]= mmul n P Y -> X =[n, c]= Y.
Proof.
  intros h e. rewrite <- (mmul_1_l n c X), <- (mmul_1_l n c Y), <- h.
  rewrite !(mmul_assoc n n n c). rewrite e. reflexivity.
Qed.

(** ** Frobenius norm *)
Lemma frob2_nonneg r c A : 0 <= frob2 r c A.
Proof. apply Rsum_nonneg. intros. apply Rsum_nonneg. intros. nra. Qed.
Lemma frob2_ext r c A B : A =[r, c]= B -> frob2 r c A = frob2 r c B.
Proof. intros h. apply Rsum_ext. intros. apply Rsum_ext. intros. now rewrite h. Qed.
#[export] Instance frob2_proper r c : Proper (meq r c ==> eq) (frob2 r c).
Proof. intros A B h. now apply frob2_ext. Qed.
#[export] Instance frob_proper r c : Proper (meq r c ==> eq) (frob r c).
Proof. intros A B h. unfold frob. now rewrite h. Qed.
Lemma frob2_tr r c A : frob2 r c (mtr A) = frob2 c r A.
Proof. unfold frob2, mtr. apply Rsum_swap. Qed.
(** trace form: frob2 A = tr (A^T A) *)
Lemma frob2_trace r c A : frob2 r c A = Rsum c (fun j => mmul r (mtr A) A j j).
Proof. unfold frob2, mmul, mtr. rewrite Rsum_swap. reflexivity. Qed.
Lemma frob2_orth_l r c Q A : mmul r (mtr Q) Q =[r, r]= mid -> frob2 r c (mmul r Q A) = frob2 r c A.
Proof.
  intros h. rewrite !frob2_trace. apply Rsum_ext. intros j hj.
  assert (e : mmul r (mtr (mmul r Q A)) (mmul r Q A) =[c, c]= mmul r (mtr A) A).
  { rewrite (mtr_mmul r r c Q A), (mmul_assoc c r r c), <- (mmul_assoc r r r c (mtr Q)), h, mmul_1_l.
    reflexivity. }
  apply e; auto.
Qed.
Lemma frob2_orth_r r c Q A : mmul c Q (mtr Q) =[c, c]= mid -> frob2 r c (mmul c A Q) = frob2 r c A.
Proof.
  intros h. rewrite <- (frob2_tr c r (mmul c A Q)), (mtr_mmul r c c A Q).
  rewrite frob2_orth_l; [apply frob2_tr|]. rewrite (mtr_mtr c c Q). exact h.
Qed.
Lemma frob_nonneg r c A : 0 <= frob r c A. Proof. apply sqrt_pos. Qed.
Lemma frob_sq r c A : frob r c A * frob r c A = frob2 r c A.
Proof. unfold frob. apply sqrt_sqrt. apply frob2_nonneg. Qed.

(** Frobenius inner product and its Cauchy-Schwarz inequality *)
Definition finner (r c : nat) (A B : M) : R := Rsum r (fun i => Rsum c (fun j => A i j * B i j)).
Lemma finner_CS r c A B : finner r c A B * finner r c A B <= frob2 r c A * frob2 r c B.
Proof.
  set (a := frob2 r c A). set (b := finner r c A B). set (d := frob2 r c B).
  assert (hq : forall t s, 0 <= t * t * a - 2 * (t * s) * b + s * s * d).
  { intros t s. unfold a, b, d, finner, frob2.
    rewrite <- !Rsum_scal_l, <- Rsum_minus, <- Rsum_plus.
    apply Rsum_nonneg. intros.
    rewrite <- !Rsum_scal_l, <- Rsum_minus, <- Rsum_plus.
    apply Rsum_nonneg. intros j hj.
    replace (t * t * (A i j * A i j) - 2 * (t * s) * (A i j * B i j) + s * s * (B i j * B i j))
      with ((t * A i j - s * B i j) * (t * A i j - s * B i j)) by ring.
    apply sqn. }
  assert (0 <= a) by apply frob2_nonneg.
  assert (0 <= d) by apply frob2_nonneg.
  destruct (Req_dec d 0) as [hc|hc].
  - destruct (Req_dec b 0) as [->|hb]; [nra|].
    pose proof (hq 1 ((a + 1) / b)). rewrite hc in *.
    assert (hh : 2 * (1 * ((a + 1) / b)) * b = 2 * (a + 1)) by (field; auto). nra.
  - pose proof (hq d b). assert (0 < d) by lra.
    assert (hh : 0 <= d * (a * d - b * b)) by nra.
    assert (0 <= a * d - b * b).
    { apply Rmult_le_reg_l with d; auto. lra. }
    lra.
Qed.
Lemma frob_triangle r c A B : frob r c (madd A B) <= frob r c A + frob r c B.
Proof.
  pose proof (frob_nonneg r c A). pose proof (frob_nonneg r c B).
  apply Rsqr_incr_0_var; [|lra]. unfold Rsqr.
  rewrite frob_sq.
  assert (e : frob2 r c (madd A B) = frob2 r c A + 2 * finner r c A B + frob2 r c B).
  { unfold frob2, finner, madd. rewrite <- Rsum_scal_l, <- !Rsum_plus. apply Rsum_ext. intros.
    rewrite <- Rsum_scal_l, <- !Rsum_plus. apply Rsum_ext. intros. lra. }
  rewrite e.
  assert (finner r c A B <= frob r c A * frob r c B).
  { apply Rsqr_incr_0_var; [|nra]. unfold Rsqr.
    pose proof (finner_CS r c A B). rewrite <- (frob_sq r c A), <- (frob_sq r c B) in H1. lra. }
  rewrite <- (frob_sq r c A), <- (frob_sq r c B). lra.
Qed.
Lemma frob_scal r c s A : frob r c (mscal s A) = Rabs s * frob r c A.
Proof.
  unfold frob. rewrite <- sqrt_Rsqr_abs, <- sqrt_mult; [|apply Rle_0_sqr|apply frob2_nonneg].
  f_equal. unfold frob2, mscal, Rsqr. rewrite <- Rsum_scal_l. apply Rsum_ext. intros.
  rewrite <- Rsum_scal_l. apply Rsum_ext. intros. lra.
Qed.
Lemma frob_zero r c A : (forall i j, (i < r)%nat -> (j < c)%nat -> A i j = 0) -> frob r c A = 0.
Proof.
  intros h. unfold frob. replace (frob2 r c A) with 0; [apply sqrt_0|].
  symmetry. apply Rsum_0. intros. apply Rsum_0. intros. rewrite h; auto. lra.
Qed.
Lemma frob2_entry_le r c A i j : (i < r)%nat -> (j < c)%nat -> A i j * A i j <= frob2 r c A.
Proof.
  intros hi hj. eapply Rle_trans.
  2: apply (Rsum_term_le r (fun i => Rsum c (fun j => A i j * A i j)) i); auto.
  - apply (Rsum_term_le c (fun j => A i j * A i j)); auto. intros; nra.
  - intros. apply Rsum_nonneg. intros; nra.
Qed.
Lemma frob_entry_le r c A i j : (i < r)%nat -> (j < c)%nat -> Rabs (A i j) <= frob r c A.
Proof.
  intros hi hj. unfold frob. rewrite <- sqrt_Rsqr_abs. apply sqrt_le_1_alt.
  apply frob2_entry_le; auto.
Qed.
Lemma frob2_0_inv r c A : frob2 r c A = 0 -> forall i j, (i < r)%nat -> (j < c)%nat -> A i j = 0.
Proof.
  intros h i j hi hj. pose proof (frob2_entry_le r c A i j hi hj). nra.
Qed.

(** ** The model's real instance *)
Lemma sumn_R n (f : nat -> RN) : @sumn RN n f = Rsum n f.
Proof. induction n; simpl; [reflexivity|]. now rewrite IHn. Qed.

(** Replace the fields of [RN] by the operations on R *)
Ltac rn :=
  change (@eq (T RN)) with (@eq R) in *;
  change (n0 RN) with 0%R in *; change (n1 RN) with 1%R in *;
  change (nadd RN) with Rplus in *; change (nsub RN) with Rminus in *;
  change (nmul RN) with Rmult in *; change (ndiv RN) with Rdiv in *;
  change (nopp RN) with Ropp in *; change (nabs RN) with Rabs in *;
  change (nsqrt RN) with sqrt in *; change (nmax RN) with Rmax in *;
  change (nle RN) with Rleb in *; change (nlt RN) with Rltb in *;
  change (neq RN) with Reqb in *;
  repeat change (nis_zero RN ?x) with (Reqb x 0) in *;
  repeat change (nis_neg RN ?x) with (Rltb x 0) in *;
  repeat change (nsignum RN ?x) with (if Rltb x 0 then (-1)%R else 1%R) in *;
  repeat change (nhypot RN ?x ?y) with (sqrt (x * x + y * y)) in *.

Lemma Rltb_spec x y : reflect (x < y) (Rltb x y).
Proof. unfold Rltb. destruct (Rlt_dec x y); constructor; auto. Qed.
Lemma Rleb_spec x y : reflect (x <= y) (Rleb x y).
Proof. unfold Rleb. destruct (Rle_dec x y); constructor; auto. Qed.
Lemma Reqb_spec x y : reflect (x = y) (Reqb x y).
Proof. unfold Reqb. destruct (Req_EM_T x y); constructor; auto. Qed.
Lemma ntwo_R : @ntwo RN = 2. Proof. change (@ntwo RN) with (2 / 1). lra. Qed.
Lemma nhalf_R : @nhalf RN = / 2. Proof. change (@nhalf RN) with (1 / 2). lra. Qed.
