(** * Property C67: which systems the solvers accept in binary64 *)
From Coq Require Import Reals List Arith Lia Lra Psatz Bool ZArith QArith.
From Coq.Floats Require Import SpecFloat.
From Flocq Require Import Core BinarySingleNaN.
From Verif Require Import Scalar Arr MBase MDirect Inst Hoare Spec SpecF Ex RLin PRound PTri PTriF PChol PCholF PCholG PQR PHouseF PTrdF PQRF PQRG PFwd PFwdF PWeyl
  Properties_Rounding Properties_QR Properties_QRFloat Properties_QRSolveF Properties_CholFloat Properties_Forward.
Import ListNotations.
Local Open Scope R_scope.

Lemma zero_abs (x : FN) : nis_zero FN x = true -> fr (nabs FN x) = 0.
Proof. intros h. destruct x as [s|s| |s m e]; [reflexivity|destruct s; discriminate h|discriminate h|destruct s; discriminate h]. Qed.
Lemma fr_zero_iff (x : FN) : ffin x -> fr x = 0 -> nis_zero FN x = true.
Proof. destruct x as [s|s| |s m e]; try discriminate; [reflexivity|]. intros _ h. exfalso. unfold fr, SF2R in h. apply Float_prop.eq_0_F2R in h. destruct s; discriminate. Qed.

(** A triangle with a zero on the diagonal kills a nonzero vector *)
Lemma tri_null c (R0 : M) k : (k < c)%nat -> upper_tri c c R0 -> R0 k k = 0 ->
  exists z, (exists j, (j < c)%nat /\ z j <> 0) /\ forall i, (i < c)%nat -> Rsum c (fun j => R0 i j * z j) = 0.
Proof.
  intros hk hu h0. destruct (null_vec k R0) as (t & (j & hj & ht) & hs).
  exists (fun j => if Nat.ltb j (S k) then t j else 0). split.
  - exists j. split; [lia|]. destruct (Nat.ltb_spec j (S k)); [auto|lia].
  - intros i hi. rewrite (Rsum_ext c _ (fun j => if Nat.ltb j (S k) then R0 i j * t j else 0)) by (intros j' hj'; destruct (Nat.ltb j' (S k)); ring).
    rewrite Rsum_if_lt by lia. destruct (Nat.lt_ge_cases i k) as [h|h]; [apply hs; auto|].
    apply Rsum_0. intros j' hj'. destruct (Nat.eq_dec j' k) as [->|]; [destruct (Nat.eq_dec i k) as [->|]; [rewrite h0; ring|]|]; rewrite hu by lia; ring.
Qed.

(** ** C67.  A matrix with a left inverse P is accepted as invertible if its distance to the computed
    factorisation is less than 1/|P|; then solve, solve_tr and inverse return a result. *)
Theorem C67_qr_accepts (a : mat FN) d q r (P : M) :
  mvalid a -> qr_into a = Ret d -> qr_into_decomp d = Ret (q, r) ->
  let n := nr a in let c := nc a in let A := frm a in qr_clean n c q r ->
  mmul n P A =[c, c]= mid -> frob c n P * (rel_qr n c * frob n c A + INR c * abs_qr n c) < 1 ->
  is_invertible d = true /\
  (forall b, nr b = n -> exists x, qr_solve d b = Ret x) /\
  (forall b, nr b = c -> exists x, qr_solve_tr d b = Ret x) /\
  (n = c -> exists x, qr_inverse d = Ret x).
Proof.
  intros va e ed n c A hcl hP hsm.
  destruct (C54_qr_backward_stable a d q r va e ed hcl) as (_ & Q & hQ & h1 & _). fold n c A in hQ, h1.
  pose proof (qr_class a) as s. rewrite e in s. destruct s as (s0 & s1 & s2 & s3 & s4).
  assert (er : qr_into_r d = Ret r).
  { unfold qr_into_decomp in ed. destruct (qr_generate_q d) as [q'| | | |]; try discriminate. cbn [bind] in ed.
    destruct (qr_into_r d) as [r'| | | |]; try discriminate. cbn [bind] in ed. injection ed as _ ->. reflexivity. }
  destruct (into_r_outcome d r ltac:(split; lia) er) as (r1 & r2 & r3). rewrite s2 in r1, r2, r3. fold c in r1, r2, r3.
  assert (hi : is_invertible d = true).
  { unfold is_invertible. destruct (forallb (fun f => negb (nis_zero FN f)) (qdiag d)) eqn:ef; auto. exfalso.
    assert (hz : exists k, (k < c)%nat /\ nis_zero FN (vget (qdiag d) k) = true).
    { destruct (existsb (fun k => nis_zero FN (vget (qdiag d) k)) (seq 0 c)) eqn:ex.
      - apply existsb_exists in ex. destruct ex as (k & hk & hz). apply in_seq in hk. exists k. split; [lia|auto].
      - enough (forallb (fun f => negb (nis_zero FN f)) (qdiag d) = true) by congruence. apply forallb_forall. intros x hx.
        destruct (In_nth _ _ (n0 FN) hx) as (k & hk & hkx). destruct (nis_zero FN x) eqn:hzx; auto. exfalso.
        assert (existsb (fun k => nis_zero FN (vget (qdiag d) k)) (seq 0 c) = true); [|congruence]. apply existsb_exists. exists k. split; [apply in_seq; unfold c; lia|].
        unfold vget. cbn in hkx. rewrite hkx. exact hzx. }
    destruct hz as (k & hk & hz).
    assert (h0 : frm r k k = 0) by (unfold frm; rewrite r3 by auto; rewrite Nat.eqb_refl; apply zero_abs; auto).
    assert (hu : upper_tri c c (frm r)) by (intros i j hi hj hij; unfold frm; rewrite r3 by auto; bd; reflexivity).
    destruct (tri_null c (frm r) k hk hu h0) as (z & (j0 & hj0 & hz0) & hRz).
    set (D := msub A (mmul c Q (frm r))).
    assert (hD : frob n c D <= rel_qr n c * frob n c A + INR c * abs_qr n c).
    { rewrite <- !frob_cols. apply vn_bound; [apply gam_nonneg|apply abs_qr_nonneg|]. intros j hj. rewrite !Rabs_pos_eq by apply sqrt_pos. apply h1; auto. }
    assert (hAz : forall i, (i < n)%nat -> Rsum c (fun j => A i j * z j) = Rsum c (fun j => D i j * z j)).
    { intros i hi. unfold D, msub. rewrite (Rsum_ext c (fun j => (A i j - mmul c Q (frm r) i j) * z j) (fun j => A i j * z j - mmul c Q (frm r) i j * z j)) by (intros; ring).
      rewrite Rsum_minus. enough (Rsum c (fun j => mmul c Q (frm r) i j * z j) = 0) by lra.
      unfold mmul. rewrite (Rsum_ext c _ (fun j => Rsum c (fun l => Q i l * (frm r l j * z j)))) by (intros; rewrite <- Rsum_scal_r; apply Rsum_ext; intros; ring).
      rewrite Rsum_swap. apply Rsum_0. intros l hl. rewrite Rsum_scal_l, hRz by auto. ring. }
    assert (hPz : forall i, (i < c)%nat -> z i = Rsum n (fun l => P i l * Rsum c (fun j => D l j * z j))).
    { intros i hi. rewrite <- (Rsum_ext n (fun l => P i l * Rsum c (fun j => A l j * z j))) by (intros; f_equal; apply hAz; auto).
      rewrite (Rsum_ext n _ (fun k => Rsum c (fun l => P i k * A k l * z l))) by (intros; rewrite <- Rsum_scal_l; apply Rsum_ext; intros; ring).
      rewrite Rsum_swap. rewrite (Rsum_ext c _ (fun l => mid i l * z l)).
      - unfold mid. rewrite (Rsum_single c i); auto; [rewrite Nat.eqb_refl; ring|]. intros l hl hn. destruct (Nat.eqb_spec i l); [congruence|ring].
      - intros l hl. rewrite Rsum_scal_r. f_equal. exact (hP i l hi hl). }
    assert (hn : vn c z <= frob c n P * (frob n c D * vn c z)).
    { rewrite (vn_ext c z _ hPz) at 1. eapply Rle_trans; [apply vn_mv|]. apply Rmult_le_compat_l; [apply frob_nonneg|]. apply vn_mv. }
    assert (hz1 : 0 < vn c z) by (pose proof (vn_entry c z j0 hj0); pose proof (Rabs_pos_lt _ hz0); lra).
    pose proof (Rmult_le_compat_l _ _ _ (frob_nonneg c n P) hD) as q1.
    assert (frob c n P * (frob n c D * vn c z) < 1 * vn c z); [|lra]. rewrite <- Rmult_assoc. apply Rmult_lt_compat_r; lra. }
  split; auto. split; [|split].
  - intros b hb. pose proof (C15_solve_class FN a b d e) as hc. destruct (qr_solve d b) as [x|er'| | |]; [exists x; auto|destruct er'|..]; exfalso; try tauto; destruct hc; try congruence; fold n in H; lia.
  - intros b hb. pose proof (C15_solve_tr_class FN a b d e) as hc. destruct (qr_solve_tr d b) as [x|er'| | |]; [exists x; auto|destruct er'|..]; exfalso; try tauto; destruct hc; try congruence; fold c in H; lia.
  - intros hnc. pose proof (C15_inverse_class FN a d e) as hc. destruct (qr_inverse d) as [x|er'| | |]; [exists x; auto|destruct er'|..]; exfalso; try tauto; destruct hc as (hc1 & hc2); try congruence.
Qed.
Print Assumptions C67_qr_accepts.

(** ** solvec and invc return a result on every matrix that C57 accepts *)
Theorem C67_solvec_accepts (a : mat FN) : chol_input a ->
  let n := nr a in let A := sym_of_lower (frm a) in
  (forall x, (INR n + 4) * chol_err n * quad_diag n A x <= quad_form n A x) ->
  (forall b, nr b = n -> exists x, solvec a b = Ret x /\ nr x = n /\ nc x = nc b) /\ exists x, invc a = Ret x /\ nr x = n /\ nc x = n.
Proof.
  intros (sq & va & fin & rng) n A pd.
  assert (hs : forall b, nr b = n -> exists x, solvec a b = Ret x /\ nr x = n /\ nc x = nc b).
  { intros b hb. destruct (cholesky_dirty_accepts a sq va) as (l & e & _); auto; [intros p hp; rewrite symdiag; apply rng; exact hp|].
    destruct (cholesky_dirty_exact a l e) as (_ & (d1 & d2 & _)).
    unfold solvec. rewrite e. cbn [bind].
    pose proof (solve_triangular_class l b Lower) as h1. destruct (solve_triangular l b Lower) as [y|er| | |]; [|destruct er|..]; cbn [bind] in *; try tauto; try (exfalso; lia).
    destruct h1 as (_ & _ & y1 & y2).
    pose proof (solve_triangular_class (transpose l) y Upper) as h2. assert (t1 : nr (transpose l) = nc l) by reflexivity. assert (t2 : nc (transpose l) = nr l) by reflexivity. rewrite t1, t2 in h2.
    destruct (solve_triangular (transpose l) y Upper) as [x|er| | |]; [|destruct er|..]; try tauto; try (exfalso; lia). exists x. split; auto. lia. }
  split; auto. destruct (hs (eye (nr a)) eq_refl) as (x & h1 & h2 & h3). exists x. auto.
Qed.
Print Assumptions C67_solvec_accepts.

(** ** Conversely: is a singular matrix rejected?  Not in binary64: is_invertible asks for an exact zero.
    [[1, 1], [1, 1]] is accepted, and inverse returns finite numbers. *)
Definition ones : mat FN := fmat 2 [[1; 1]; [1; 1]]%Z.
Definition sing_checkb : bool := match qr_into ones with Ret d => is_invertible d && match qr_inverse d with Ret x => mokb x && (nr x =? 2)%nat && (nc x =? 2)%nat | _ => false end | _ => false end.
Lemma sing_checkb_ok : sing_checkb = true -> exists d x, qr_into ones = Ret d /\ is_invertible d = true /\ qr_inverse d = Ret x /\ mokb x = true /\ nr x = 2%nat /\ nc x = 2%nat.
Proof.
  unfold sing_checkb. destruct (qr_into ones) as [d| | | |]; try discriminate. destruct (is_invertible d) eqn:e1; try discriminate. cbn [andb].
  destruct (qr_inverse d) as [x| | | |] eqn:e2; try discriminate. rewrite !andb_true_iff. intros ((h1 & h2) & h3). apply Nat.eqb_eq in h2, h3. exists d, x. auto 10.
Qed.
Theorem C67_rejects_singular_refuted : exists (a : mat FN) d x, mokb a = true /\ nr a = 2%nat /\ nc a = 2%nat /\
  (fq (get a 0 0) * fq (get a 1 1) - fq (get a 0 1) * fq (get a 1 0) == 0)%Q /\ ~ injective 2 2 (frm a) /\
  qr_into a = Ret d /\ is_invertible d = true /\ qr_inverse d = Ret x /\ (forall i k, (i < 2)%nat -> (k < 2)%nat -> ffin (get x i k)).
Proof.
  destruct (sing_checkb_ok ltac:(vm_compute; reflexivity)) as (d & x & h1 & h2 & h3 & h4 & h5 & h6).
  exists ones, d, x. split; [vm_compute; reflexivity|]. split; [reflexivity|]. split; [reflexivity|]. split; [vm_compute; reflexivity|].
  split; [|split; [exact h1|split; [exact h2|split; [exact h3|apply fw_fin; auto]]]].
  intros hj. specialize (hj (fun i => if Nat.eqb i 0 then 1 else -1)).
  assert (1 = 0); [|lra]. apply (hj ltac:(intros i hi; destruct i as [|[|]]; try lia; cbn [Rsum Nat.eqb];
    [change (frm ones 0%nat 0%nat) with (fr (f_of_Z 1)); change (frm ones 0%nat 1%nat) with (fr (f_of_Z 1))
    |change (frm ones 1%nat 0%nat) with (fr (f_of_Z 1)); change (frm ones 1%nat 1%nat) with (fr (f_of_Z 1))]; lra) 0%nat). lia.
Qed.
Print Assumptions C67_rejects_singular_refuted.

(** What remains true: the answer to a singular system that has no solution is huge.  If w A = 0 for a
    unit vector w, the computed x satisfies  |x| err >= |w . b| - err0. *)
Theorem C67_singular_is_huge (a b x : mat FN) d k (w : nat -> R) :
  mvalid a -> mvalid b -> qr_into a = Ret d -> qr_solve d b = Ret x ->
  let n := nr a in let A := frm a in nc a = n -> (0 < n)%nat -> (k < nc b)%nat -> diag_clean n n d ->
  (forall i, (i < n)%nat -> ffin (get x i k)) ->
  vnorm n w = 1 -> (forall j, (j < n)%nat -> Rsum n (fun i => w i * A i j) = 0) ->
  Rabs (Rsum n (fun i => w i * frm b i k)) <= fwd_qr n n A * vnorm n (fun i => frm x i k) + fwd_rhs n n (fun i => frm b i k).
Proof.
  intros va vb eq es n A hc hp hk hcl hx hw hwA.
  pose proof (C55_qr_solve_backward_stable a b x d k va vb eq es) as H. cbv zeta in H. fold n in H. rewrite hc in H.
  destruct (H hp hk hcl hx) as (_ & _ & At & bt & h1 & h2 & _ & _ & h3). fold A in h1.
  destruct (residual_of n A At (fun i => frm b i k) bt (fun i => frm x i k) (fwd_qr n n A) (fwd_rhs n n (fun i => frm b i k))) as (r & r1 & r2).
  - intros i hi. apply h3; auto.
  - apply cols_frob; auto.
  - rewrite <- vnorm_vn. exact h2.
  - assert (e0 : Rsum n (fun i => w i * frm b i k) = - Rsum n (fun i => w i * r i)).
    { enough (Rsum n (fun i => w i * frm b i k) + Rsum n (fun i => w i * r i) = 0) by lra. rewrite <- Rsum_plus.
      rewrite (Rsum_ext n _ (fun i => Rsum n (fun j => w i * A i j * frm x j k))).
      - rewrite Rsum_swap. apply Rsum_0. intros j hj. rewrite Rsum_scal_r, hwA by auto. ring.
      - intros i hi. rewrite <- Rmult_plus_distr_l, <- (r1 i hi), <- Rsum_scal_l. apply Rsum_ext. intros; ring. }
    rewrite e0, Rabs_Ropp. eapply Rle_trans; [apply vn_dot|]. rewrite vnorm_vn in hw. rewrite hw, Rmult_1_l, vnorm_vn. exact r2.
Qed.
Print Assumptions C67_singular_is_huge.

(** ** Examples *)
Definition acc_checkb (a : mat FN) (n c : nat) : bool := match qr_into a with Ret d => match qr_into_decomp d with Ret (q, r) => cleanb n c q r | _ => false end | _ => false end.
Lemma acc_checkb_ok a n c : acc_checkb a n c = true -> exists d q r, qr_into a = Ret d /\ qr_into_decomp d = Ret (q, r) /\ qr_clean n c q r.
Proof.
  unfold acc_checkb. destruct (qr_into a) as [d| | | |]; try discriminate. destruct (qr_into_decomp d) as [(q, r)| | | |] eqn:e; try discriminate.
  intros h. exists d, q, r. split; auto. split; auto. apply cleanb_ok; auto.
Qed.
Lemma frob_le_of r c A b : 0 <= b -> frob2 r c A <= b * b -> frob r c A <= b.
Proof. intros hb h. unfold frob. rewrite <- (sqrt_square b hb). apply sqrt_le_1_alt. exact h. Qed.
Example C67_accepts_example : mvalid fw_a /\ mmul 2 fw_G (frm fw_a) =[2, 2]= mid /\
  (exists d q r, qr_into fw_a = Ret d /\ qr_into_decomp d = Ret (q, r) /\ qr_clean 2 2 q r) /\
  frob 2 2 fw_G * (rel_qr 2 2 * frob 2 2 (frm fw_a) + INR 2 * abs_qr 2 2) < 1.
Proof.
  split; [apply fw_valid; vm_compute; reflexivity|]. split; [exact (proj1 fw_inv)|]. split; [apply acc_checkb_ok; vm_compute; reflexivity|].
  assert (h : forall i j, (i < 2)%nat -> (j < 2)%nat -> frm fw_a i j = if Nat.eqb i j then 2 else 1).
  { intros i j hi hj. destruct i as [|[|]], j as [|[|]]; try lia; first [exact fr_f2 | exact fr_f1]. }
  assert (g1 : frob 2 2 fw_G <= 2) by (apply frob_le_of; [lra|]; unfold frob2, fw_G; cbn [Rsum Nat.eqb]; lra).
  assert (g2 : frob 2 2 (frm fw_a) <= 4) by (apply frob_le_of; [lra|]; unfold frob2; cbn [Rsum]; rewrite !h by lia; cbn [Nat.eqb]; lra).
  assert (eu : INR (2 * (10 * 2 + 70)) = 180) by (change (2 * (10 * 2 + 70))%nat with 180%nat; rewrite INR_IZR_INZ; reflexivity).
  assert (hu : uro <= / 1000000) by (unfold uro; apply Rinv_le; [lra|]; apply IZR_le; discriminate). pose proof uro_pos.
  destruct (C54_constants 2 2) as ((c1 & c2) & c3 & c4); [rewrite eu; lra|]. rewrite eu in c2. change (INR 2) with (1 + 1) in *.
  assert (hb : bpow radix2 (-506) <= / 1024) by (apply Rle_trans with (bpow radix2 (-10)); [apply bpow_le; lia|]; cbn; lra).
  pose proof (frob_nonneg 2 2 fw_G). pose proof (frob_nonneg 2 2 (frm fw_a)).
  assert (hx : rel_qr 2 2 * frob 2 2 (frm fw_a) <= / 100).
  { apply Rle_trans with (/ 1000 * 4); [apply Rmult_le_compat; lra|lra]. }
  assert (hy : 0 <= rel_qr 2 2 * frob 2 2 (frm fw_a)) by (apply Rmult_le_pos; auto).
  apply Rle_lt_trans with (2 * (/ 4)); [|lra]. apply Rmult_le_compat; lra.
Qed.

(** a singular matrix that is accepted, with a right-hand side outside its range *)
Definition sg_a : mat FN := fmat 2 [[4; 20]; [-3; -15]]%Z.
Definition sg_b : mat FN := fmat 1 [[1]; [0]]%Z.
Definition sg_w : nat -> R := fun i => if Nat.eqb i 0 then 3 / 5 else 4 / 5.
Example C67_huge_example : mvalid sg_a /\ mvalid sg_b /\
  (exists d x, qr_into sg_a = Ret d /\ qr_solve d sg_b = Ret x /\ diag_clean 2 2 d /\ forall i, (i < 2)%nat -> ffin (get x i 0)) /\
  vnorm 2 sg_w = 1 /\ (forall j, (j < 2)%nat -> Rsum 2 (fun i => sg_w i * frm sg_a i j) = 0) /\ Rsum 2 (fun i => sg_w i * frm sg_b i 0%nat) = 3 / 5.
Proof.
  split; [apply fw_valid; vm_compute; reflexivity|]. split; [apply fw_valid; vm_compute; reflexivity|]. split; [|split; [|split]].
  - destruct (solve_checkb_ok sg_a sg_b 2 2 qr_solve (fun x => (nr x =? 2)%nat && (nc x =? 1)%nat)) as (d & x & h1 & h2 & h3 & h4 & h5); [vm_compute; reflexivity|].
    rewrite andb_true_iff in h5. destruct h5 as (h5 & h6). apply Nat.eqb_eq in h5, h6. exists d, x. split; [exact h1|]. split; [exact h2|]. split; [exact h3|]. intros i hi. apply (fw_fin x 2 1); auto.
  - unfold vnorm, sg_w. cbn [Rsum Nat.eqb]. replace (0 + 3 / 5 * (3 / 5) + 4 / 5 * (4 / 5)) with 1 by lra. apply sqrt_1.
  - assert (v1 : frm sg_a 0%nat 0%nat = 4) by (change (fr (f_of_Z 4) = 4); unfold fr; cbn; unfold F2R; cbn; lra).
    assert (v2 : frm sg_a 0%nat 1%nat = 20) by (change (fr (f_of_Z 20) = 20); unfold fr; cbn; unfold F2R; cbn; lra).
    assert (v3 : frm sg_a 1%nat 0%nat = -3) by (change (fr (f_of_Z (-3)) = -3); unfold fr; cbn; unfold F2R; cbn; lra).
    assert (v4 : frm sg_a 1%nat 1%nat = -15) by (change (fr (f_of_Z (-15)) = -15); unfold fr; cbn; unfold F2R; cbn; lra).
    intros j hj. unfold sg_w. cbn [Rsum Nat.eqb]. destruct j as [|[|]]; try lia; rewrite ?v1, ?v2, ?v3, ?v4; lra.
  - unfold sg_w. cbn [Rsum Nat.eqb]. change (frm sg_b 0%nat 0%nat) with (fr (f_of_Z 1)). change (frm sg_b 1%nat 0%nat) with 0. rewrite fr_f1. lra.
Qed.
