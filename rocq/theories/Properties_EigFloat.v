(** * Property C62: the eigenvalues computed in binary64 are backward stable

    [FNh h] is the binary64 instance of the model with the libm function [hypot] replaced by [h]
    (SpecH.v); [FN] is the case of a correctly rounded one. *)
From Coq Require Import Reals List Arith Lia Lra Bool ZArith QArith Qreals.
From Coq.Floats Require Import SpecFloat.
From Flocq Require Import Core BinarySingleNaN.
From Verif Require Import Scalar Arr MBase MDirect MDecomp MEigh Inst Hoare Spec SpecF SpecH Ex RLin PEighR PRound PTriF PHouseF PQRF PQRG PTrdF PApx PEigF PEigG PEigS
  Properties_Rounding Properties_QRFloat Properties_TridFloat.
Import ListNotations.
Local Open Scope R_scope.

(** The relative error: the tridiagonalisation (C59), and about 640 n roundings per iteration *)
Definition eig_eps (n fuel : nat) : R := 3 * rel_trd n + 8000 * (INR fuel + 1) * (INR n + 1) * uro.
(** An exactly symmetric matrix of finite numbers; dimension and number of iterations are such that
    the error bound makes sense *)
Definition eig_input (n fuel : nat) (a : mat FN) : Prop :=
  nr a = n /\ nc a = n /\ (1 <= n)%nat /\
  (forall i j, (i < n)%nat -> (j < n)%nat -> fvalid (get a i j) /\ ffin (get a i j)) /\ symmetric n (frm a) /\
  rel_trd n <= 1 /\ 640 * (INR fuel + 1) * (INR n + 1) * uro <= / 2.
(** The tridiagonal form of the scaled matrix has no off-diagonal entry in the underflow range *)
Definition eig_clean (n : nat) (a : mat FN) : Prop :=
  forall d t, sym_tridiagonal (scale_down a (abs_max a)) = Ret d -> tri_into_matrix d = Ret t -> trd_clean n t.
(** all finite *)
Definition vfin (v : list FN) : Prop := forall x, In x v -> ffin x.
(** [V diag(vals) V^T] is within b of A for an orthogonal V: the vals are exactly the eigenvalues of
    a matrix within b of A *)
Definition spectrum_near (n : nat) (A : M) (vals : nat -> R) (b : R) : Prop :=
  exists V, orthogonal n V /\ frob n n (msub A (mmul n V (mmul n (mdiag vals) (mtr V)))) <= b.

Lemma guarded_either h x y : guarded h x y = S754_nan \/ guarded h x y = h x y.
Proof. unfold guarded. destruct (SFltb _ _); auto. Qed.

Lemma guarded_eps h x y : guarded h x y = S754_nan -> nlt FN (nepsilon FN) (h x y) = false.
Proof.
  unfold guarded. destruct (SFltb _ _) eqn:e; [intros _|intros ->; reflexivity]. revert e. generalize (h x y). intros z.
  change (nlt FN (nepsilon FN) z) with (SFltb (nepsilon FN) z).
  assert (ee : exists m, nepsilon FN = S754_finite false m (-104)) by (eexists; vm_compute; reflexivity). destruct ee as (m0 & ->).
  assert (eg : exists m, SpecFloat.binary_round prec emax false 1 (-1000) = S754_finite false m (-1052)) by (eexists; vm_compute; reflexivity). destruct eg as (m1 & ->).
  unfold SFltb. destruct z as [b|b| |b m k]; try destruct b; try discriminate; try reflexivity.
  unfold SFcompare. destruct (Z.compare_spec k (-1052)) as [hk|hk|hk]; try discriminate;
  destruct (Z.compare_spec (-104) k) as [hk'|hk'|hk']; try reflexivity; exfalso; lia.
Qed.

(** C62.  For every [hypot] that is accurate to one ulp: if eigvalsh returns finite values and no
    [hypot] result is below 2^-1000 -- expressed by running it with [guarded h], which returns NaN
    instead of such a result, and asking for finite values -- then the unguarded eigvalsh returns the
    same values, and they are exactly the eigenvalues of a matrix whose distance to A is at most
    eig_eps n fuel times the norm of A (plus n 2^-1075). *)
Theorem C62_eigvalsh_backward_stable (h : spec_float -> spec_float -> spec_float) (n fuel : nat) (a : mat FN) (vals : list FN) :
  hyp_ulp h -> eig_input n fuel a -> eig_clean n a ->
  eigvalsh (N:=FNh (guarded h)) fuel a = Ret vals -> vfin vals ->
  eigvalsh (N:=FNh h) fuel a = Ret vals /\ length vals = n /\
  spectrum_near n (frm a) (frv vals) (eig_eps n fuel * frob n n (frm a) + INR n * eta).
Proof.
  intros hu (h1 & h2 & h3 & h4 & h5 & h6 & h7) hcl hrun hfin.
  assert (er : 650 * (INR n * INR n) * gam (2 * n + 20) = rel_trd n) by (unfold rel_trd; ring).
  destruct (eigvalsh_sim (guarded h) h (guarded_either h) (guarded_eps h) n fuel a vals h1 h2 h3 hrun) as (hl & hs).
  split; [|split; auto].
  - apply hs. intros x hx ex. specialize (hfin x hx). rewrite ex in hfin. discriminate hfin.
  - destruct (eigvalsh_core _ _ _ _ hrun) as (q & hrun'). destruct (symeig_f (guarded h) n fuel false a vals q) as ((V & hV & hb) & _); auto.
    + apply guarded_good; auto.
    + lra.
    + lra.
    + discriminate.
    + intros k hk. apply hfin. apply nth_In. exact (eq_ind_r (fun z => (k < z)%nat) hk hl).
    + exists V. split; auto. eapply Rle_trans; [exact hb|]. right. unfold eigf_eps, eig_eps. rewrite er. reflexivity.
Qed.
Print Assumptions C62_eigvalsh_backward_stable.

(** The same for the instance [FN] with the correctly rounded [hypot], for eigvalsh and for the values
    of eigh. *)
Theorem C62_binary64 (n fuel : nat) (a : mat FN) (vals : list FN) :
  eig_input n fuel a -> eig_clean n a -> eigvalsh (N:=FNh (guarded f_hypot)) fuel a = Ret vals -> vfin vals ->
  eigvalsh fuel a = Ret vals /\ (forall v q, eigh fuel a = Ret (v, q) -> v = vals) /\
  spectrum_near n (frm a) (frv vals) (eig_eps n fuel * frob n n (frm a) + INR n * eta).
Proof.
  intros hin hcl hrun hfin. destruct (C62_eigvalsh_backward_stable f_hypot n fuel a vals f_hypot_ulp hin hcl hrun hfin) as (e & _ & hs).
  change (eigvalsh fuel a = Ret vals) in e. split; auto. split; auto.
  intros v q ev. rewrite PEigh.eigvalsh_eigh, ev in e. injection e as <-. reflexivity.
Qed.
Print Assumptions C62_binary64.

Lemma argmin n (f : nat -> R) : (0 < n)%nat -> exists k, (k < n)%nat /\ forall i, (i < n)%nat -> f k <= f i.
Proof.
  induction n as [|n IH]; intros hn; [lia|]. destruct n as [|n]; [exists 0%nat; split; [lia|]; intros i hi; replace i with 0%nat by lia; lra|].
  destruct IH as (k & hk & h); [lia|]. destruct (Rle_dec (f k) (f (S n))) as [hl|hl].
  - exists k. split; [lia|]. intros i hi. destruct (Nat.eq_dec i (S n)) as [->|]; [auto|apply h; lia].
  - exists (S n). split; [lia|]. intros i hi. destruct (Nat.eq_dec i (S n)) as [->|]; [lra|]. specialize (h i ltac:(lia)). lra.
Qed.
(** What that means for the individual values: every computed value has a unit vector x with
    ||A x - lam x|| <= b, and every exact eigenvalue of A is within b of a computed value. *)
Theorem C62_values (n : nat) (A : M) (vals : nat -> R) (b : R) : spectrum_near n A vals b ->
  (forall k, (k < n)%nat -> exists x : nat -> R, Rsum n (fun i => x i * x i) = 1 /\
     sqrt (Rsum n (fun i => (Rsum n (fun j => A i j * x j) - vals k * x i) ^ 2)) <= b) /\
  (forall (lam : R) (x : nat -> R), (forall i, (i < n)%nat -> Rsum n (fun j => A i j * x j) = lam * x i) -> 0 < Rsum n (fun i => x i * x i) ->
     exists k, (k < n)%nat /\ Rabs (lam - vals k) <= b).
Proof.
  intros (V & hV & hb). set (D := mdiag vals) in *. set (E := msub A (mmul n V (mmul n D (mtr V)))) in *.
  pose proof hV as (v1 & v2).
  assert (eA : forall x i, (i < n)%nat -> Rsum n (fun j => A i j * x j) = Rsum n (fun j => mmul n V (mmul n D (mtr V)) i j * x j) + Rsum n (fun j => E i j * x j)).
  { intros x i hi. rewrite <- Rsum_plus. apply Rsum_ext. intros j hj. unfold E, msub. ring. }
  split.
  - intros k hk. exists (fun i => V i k). split.
    + specialize (v1 k k hk hk). unfold mmul, mtr, mid in v1. rewrite Nat.eqb_refl in v1. exact v1.
    + assert (ev : mmul n (mmul n V (mmul n D (mtr V))) V =[n, n]= mmul n V D).
      { rewrite (mmul_assoc n n n n V). rewrite (mmul_assoc n n n n D). rewrite v1, mmul_1_r. reflexivity. }
      assert (er : forall i, (i < n)%nat -> Rsum n (fun j => A i j * V j k) - vals k * V i k = Rsum n (fun j => E i j * V j k)).
      { intros i hi. rewrite (eA (fun j => V j k) i hi). pose proof (ev i k hi hk) as e1. unfold mmul at 1 in e1. cbv beta. rewrite e1.
        assert (e2 : mmul n V D i k = V i k * vals k) by (unfold mmul, D, mdiag; rewrite (Rsum_single n k); auto; [rewrite Nat.eqb_refl; ring|intros l hl hne; destruct (Nat.eqb_spec l k); [congruence|ring]]). rewrite e2. ring. }
      rewrite (Rsum_ext n _ (fun i => Rsum n (fun j => E i j * V j k) * Rsum n (fun j => E i j * V j k))) by (intros i hi; rewrite er by auto; ring).
      rewrite <- (vn_sq n (fun i => Rsum n (fun j => E i j * V j k))), sqrt_square by apply vn_nonneg.
      eapply Rle_trans; [apply vn_mv|]. assert (e1 : vn n (fun j => V j k) = 1).
      { apply vn_unit. specialize (v1 k k hk hk). unfold mmul, mtr, mid in v1. rewrite Nat.eqb_refl in v1. exact v1. }
      rewrite e1, Rmult_1_r. exact hb.
  - intros lam x hx hpos.
    assert (hn : (0 < n)%nat) by (destruct n; [simpl in hpos; lra|lia]).
    destruct (argmin n (fun k => Rabs (lam - vals k)) hn) as (k & hk & hmin). exists k. split; auto. set (mu := Rabs (lam - vals k)) in *.
    set (y := fun i => Rsum n (fun l => mtr V i l * x l)).
    assert (hy : vn n y = vn n x) by (apply PQRS.vn_hx; apply orth_tr; auto).
    assert (hvx : 0 < vn n x).
    { destruct (Rle_lt_or_eq_dec 0 (vn n x) (vn_nonneg n x)) as [|e]; auto. exfalso. rewrite <- (vn_sq n x), <- e in hpos. lra. }
    (* V^T E x = (lam - D) y *)
    assert (hr : forall i, (i < n)%nat -> Rsum n (fun l => mtr V i l * Rsum n (fun j => E l j * x j)) = (lam - vals i) * y i).
    { intros i hi. rewrite (Rsum_ext n _ (fun l => mtr V i l * (lam * x l) - mtr V i l * Rsum n (fun j => mmul n V (mmul n D (mtr V)) l j * x j))).
      2:{ intros l hl. rewrite <- (hx l hl), (eA x l hl). ring. }
      rewrite Rsum_minus. rewrite (Rsum_ext n (fun l => mtr V i l * (lam * x l)) (fun l => lam * (mtr V i l * x l))) by (intros; ring). rewrite Rsum_scal_l. fold (y i).
      assert (ec : mmul n (mtr V) (mmul n (mmul n V (mmul n D (mtr V))) (colm x)) =[n, 1]= mmul n D (mmul n (mtr V) (colm x))).
      { rewrite (mmul_assoc n n n 1 V). rewrite (mmul_assoc n n n 1 D). rewrite <- (mmul_assoc n n n 1 (mtr V) V). rewrite v1, mmul_1_l. reflexivity. }
      specialize (ec i 0%nat hi ltac:(lia)). unfold mmul at 1 2 in ec. unfold colm at 1 in ec. rewrite ec.
      unfold mmul at 1. unfold D, mdiag. rewrite (Rsum_single n i); auto; [|intros l hl hne; destruct (Nat.eqb_spec i l); [congruence|ring]].
      rewrite Nat.eqb_refl. unfold mmul, colm. fold (y i). ring. }
    assert (hn1 : vn n (fun i => (lam - vals i) * y i) <= b * vn n x).
    { rewrite (vn_ext n _ (fun i => Rsum n (fun l => mtr V i l * Rsum n (fun j => E l j * x j)))) by (intros i hi; symmetry; apply hr; auto).
      rewrite (PQRS.vn_hx n (mtr V) (fun l => Rsum n (fun j => E l j * x j)) (orth_tr n V hV)).
      eapply Rle_trans; [apply vn_mv|]. apply Rmult_le_compat_r; auto; lra. }
    assert (hb0 : 0 <= b) by (eapply Rle_trans; [apply frob_nonneg|exact hb]).
    apply Rmult_le_reg_r with (vn n x); auto. eapply Rle_trans; [|exact hn1]. rewrite <- hy.
    assert (hmu : 0 <= mu) by apply Rabs_pos.
    apply Rsqr_incr_0_var; [|apply vn_nonneg]. unfold Rsqr. rewrite (vn_sq n (fun i => _)).
    replace (mu * vn n y * (mu * vn n y)) with (mu * mu * (vn n y * vn n y)) by ring. rewrite (vn_sq n y), <- Rsum_scal_l. apply Rsum_le.
    intros i hi. replace ((lam - vals i) * y i * ((lam - vals i) * y i)) with ((lam - vals i) * (lam - vals i) * (y i * y i)) by ring.
    apply Rmult_le_compat_r; [apply Rle_0_sqr|]. rewrite <- (Rabs_sq (lam - vals i)). specialize (hmin i hi). cbv beta in hmin. apply Rmult_le_compat; auto.
Qed.
Print Assumptions C62_values.

(** The size conditions hold for n up to 10000 and 10^8 iterations; for n <= 100 and up to 1000
    iterations the constant eig_eps is below 10^-6. *)
Theorem C62_constants (n fuel : nat) :
  (INR n <= 10000 -> INR fuel <= 100000000 -> rel_trd n <= 1 /\ 640 * (INR fuel + 1) * (INR n + 1) * uro <= / 2) /\
  (INR n <= 100 -> INR fuel <= 1000 -> eig_eps n fuel <= / 900000).
Proof.
  pose proof (pos_INR n) as h0. pose proof (pos_INR fuel) as h0'. pose proof uro_pos as hu.
  assert (hv : uro * 9007199254740992 = 1) by (unfold uro; change (2 ^ 53)%Z with 9007199254740992%Z; lra).
  assert (hp : forall p q, INR n <= p -> INR fuel <= q -> (INR fuel + 1) * (INR n + 1) * uro <= (q + 1) * (p + 1) * uro).
  { intros p q hp hq. apply Rmult_le_compat_r; [lra|]. apply Rmult_le_compat; lra. }
  split.
  - intros h1 h2. split; [apply C59_constants; auto|]. specialize (hp _ _ h1 h2). lra.
  - intros h1 h2. specialize (hp _ _ h1 h2). unfold eig_eps.
    assert (hk : INR (2 * n + 20) <= 220). { rewrite plus_INR, mult_INR. assert (e2 : INR 2 = 2) by (simpl; lra). assert (e20 : INR 20 = 20) by (simpl; lra). rewrite e2, e20. lra. }
    assert (hku : INR (2 * n + 20) * uro <= 220 * uro) by (apply Rmult_le_compat_r; lra).
    destruct (proj1 (C59_constants n) ltac:(lra)) as (_ & hr).
    assert (h3 : INR n ^ 2 <= 100 ^ 2) by (apply pow_incr; lra). pose proof (pow2_ge_0 (INR n)). pose proof (pos_INR (2 * n + 20)).
    assert (1300 * INR n ^ 2 * (INR (2 * n + 20) * uro) <= 1300 * 100 ^ 2 * (220 * uro)) by (apply Rmult_le_compat; [lra|apply Rmult_le_pos; lra|lra|auto]).
    lra.
Qed.
Print Assumptions C62_constants.

(** ** Example: a 4x4 matrix (the one of C59) *)
Definition eig_checkb (h : spec_float -> spec_float -> spec_float) (fuel : nat) (a : mat FN) (f : list FN -> bool) : bool :=
  match eigvalsh (N:=FNh h) fuel a with Ret v => f v | _ => false end.
Lemma eig_checkb_ok h fuel a f : eig_checkb h fuel a f = true -> exists v : list FN, eigvalsh (N:=FNh h) fuel a = Ret v /\ f v = true.
Proof. unfold eig_checkb. destruct (eigvalsh (N:=FNh h) fuel a) as [v| | | |]; try discriminate. intros e. exists v. split; [reflexivity|exact e]. Qed.
Definition vfinb (v : list FN) : bool := forallb is_finite_SF v.
Lemma vfinb_ok v : vfinb v = true -> vfin v.
Proof. unfold vfinb. rewrite forallb_forall. auto. Qed.
Lemma trd_a_eig : eig_input 4 100 trd_a /\ eig_clean 4 trd_a.
Proof.
  destruct trd_a_input as (h1 & h2 & h3 & h4 & h5 & h6 & _). split.
  - repeat (split; [assumption|]). apply C62_constants; simpl; lra.
  - intros d t e1 e2. destruct (trd_checkb_ok (scale_down trd_a (abs_max trd_a)) (fun q t => trd_cleanb 4 t)) as (d' & q' & t' & g1 & _ & g2 & g3); [vm_compute; reflexivity|].
    rewrite e1 in g1. injection g1 as <-. rewrite e2 in g2. injection g2 as <-. apply trd_cleanb_ok. exact g3.
Qed.
Example C62_example : eig_input 4 100 trd_a /\ eig_clean 4 trd_a /\ exists vals,
  eigvalsh (N:=FNh (guarded f_hypot)) 100 trd_a = Ret vals /\ vfin vals /\
  (fq (vget vals 0) + fq (vget vals 1) + fq (vget vals 2) + fq (vget vals 3) <= 11 + (1 # 1000000000000))%Q /\ ~ (fq (vget vals 0) * fq (vget vals 1) * fq (vget vals 2) * fq (vget vals 3) == 22)%Q /\
  spectrum_near 4 (frm trd_a) (frv vals) (eig_eps 4 100 * frob 4 4 (frm trd_a) + INR 4 * eta).
Proof.
  destruct trd_a_eig as (hi & hc). split; auto. split; auto.
  destruct (eig_checkb_ok (guarded f_hypot) 100 trd_a (fun v => vfinb v && Qle_bool (fq (vget v 0) + fq (vget v 1) + fq (vget v 2) + fq (vget v 3)) (11 + (1 # 1000000000000)) && negb (Qeq_bool (fq (vget v 0) * fq (vget v 1) * fq (vget v 2) * fq (vget v 3)) 22))) as (v & e & hv); [vm_compute; reflexivity|].
  apply andb_prop in hv as (hv & g2). apply andb_prop in hv as (hv & g1). exists v. split; auto. apply vfinb_ok in hv. split; auto.
  split; [apply Qle_bool_iff; exact g1|]. split; [apply Qeq_bool_neq; apply negb_true_iff; exact g2|].
  apply (C62_binary64 4 100 trd_a v hi hc e hv).
Qed.
