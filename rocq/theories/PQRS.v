(** * Solving with the QR decomposition in floating point *)
From Coq Require Import Reals List Arith Lia Lra Bool ZArith Setoid Morphisms.
From Coq.Floats Require Import SpecFloat.
From Flocq Require Import Core BinarySingleNaN.
From Verif Require Import Scalar Arr MBase MDirect Inst Hoare Spec SpecF RLin PTri PChol PHouse PQR PRound PTriF PCholF PNormF PHouseF PQRF PQRG.
Import ListNotations.
Local Open Scope R_scope.
Local Notation U k := ((1 + uro) ^ k).

(** ** One reflection applied to one column of full length *)
Lemma app_step n k (v y y' : nat -> FN) sg (W : nat -> R) : fits n -> (k < n)%nat ->
  reflector n k (fr sg) W -> unitf sg ->
  (forall p, (k <= p < n)%nat -> fvalid (v p) /\ ffin (v p)) ->
  vn (n - k) (fun p => fr (v (k + p)%nat) - W (k + p)%nat) <= gam (2 * (n - k) + 15) ->
  (forall p, (p < n)%nat -> fvalid (y p)) ->
  (forall p, (p < k)%nat -> y' p = y p) ->
  (forall p, (k <= p < n)%nat -> y' p = nmul FN (afl (n - k) (fun l => v (k + l)%nat) (fun l => y (k + l)%nat) (p - k)) sg) ->
  (exists p, (k <= p < n)%nat /\ ffin (y' p)) ->
  (forall p, (k <= p < n)%nat -> ffin (y p)) /\
  vn n (fun p => if Nat.ltb p k then 0 else if is_finite_SF (y' p) then fr (y' p) - mmul n (hh k (fr sg) W) (colm (fun l => fr (y l))) p 0%nat else 0) <= gam (10 * n + 70) * vn n (fun l => fr (y l)) + omega.
Proof.
  intros hn hk [r1 r2 r3] hu hv hw hy e1 e2 hf.
  assert (hfull : forall p, (p < n)%nat -> W p = wfull k (fun l => W (k + l)%nat) p).
  { intros p hp. unfold wfull. destruct (Nat.ltb_spec p k); auto. f_equal. lia. }
  set (yy := fun l => y (k + l)%nat) in *. set (vv := fun l => v (k + l)%nat) in *.
  destruct (apply_some n (n - k) vv yy (fun l => W (k + l)%nat) sg) as (g1 & g2); auto.
  - lia.
  - intros l hl. apply hv. lia.
  - intros l hl. apply hy. lia.
  - destruct r3 as [r3|r3]; [left|right].
    + rewrite <- r3. rewrite (Rsum_ext n (fun i => W i * W i) (fun i => wfull k (fun l => W (k + l)%nat) i * W i)) by (intros p hp; rewrite (hfull p) at 1 by auto; reflexivity).
      rewrite wfull_sum by lia. reflexivity.
    + intros l hl. apply r3. lia.
  - destruct hf as (p & hp & hf). exists (p - k)%nat. split; [lia|]. rewrite e2 in hf by lia. exact hf.
  - split.
    + intros p hp. replace p with (k + (p - k))%nat by lia. apply g1. lia.
    + assert (eh : forall p, (p < n)%nat -> mmul n (hh k (fr sg) W) (colm (fun l => fr (y l))) p 0%nat = happ n k (fr sg) W (fun l => fr (y l)) p) by (intros p hp; rewrite (hh_apply n 1) by auto; reflexivity).
      rewrite (vn_ext n _ (fun p => if Nat.ltb p k then 0 else if is_finite_SF (y' p) then fr (y' p) - happ n k (fr sg) W (fun l => fr (y l)) p else 0)) by (intros p hp; rewrite eh by auto; reflexivity).
      rewrite (vn_shift n k); [|lia|intros p hp; bd; reflexivity].
      eapply Rle_trans; [right; apply (vn_ext (n - k) _ (fun p => if is_finite_SF (nmul FN (afl (n - k) vv yy p) sg) then fr (nmul FN (afl (n - k) vv yy p) sg) - fr sg * mirr (n - k) (fun l => W (k + l)%nat) (fun l => fr (yy l)) p else 0))|].
      * intros p hp. destruct (Nat.ltb_spec (k + p) k); [lia|]. rewrite e2 by lia. replace (k + p - k)%nat with p by lia.
        destruct (is_finite_SF (nmul FN (afl (n - k) vv yy p) sg)); auto. f_equal.
        -- unfold yy. rewrite <- (happ_mirr n k _ (fun l => W (k + l)%nat) (fun l => fr (y l)) p) by lia.
           unfold happ. rewrite (hfull (k + p)%nat) by lia. rewrite (Rsum_ext n (fun l => W l * fr (y l)) (fun l => wfull k (fun l => W (k + l)%nat) l * fr (y l))) by (intros l hl; rewrite <- hfull by auto; reflexivity). reflexivity.
      * eapply Rle_trans; [exact g2|]. pose proof (omega_eta n (n - k) hn ltac:(lia)) as hom. pose proof zeta_pos as hz. unfold omega.
        assert (gam (10 * (n - k) + 70) * vn (n - k) (fun l => fr (yy l)) <= gam (10 * n + 70) * vn n (fun l => fr (y l))); [|lra].
        apply Rmult_le_compat; [apply gam_nonneg|apply vn_nonneg|apply gam_mono; lia|]. apply (vn_tail n k (fun l => fr (y l))). lia.
Qed.

(** ** What qt_mul computes, for any scalars *)
Lemma qt_trace {N : Num} (d : qrdecomp N) (b t : mat N) : (nc (qr d) <= nr (qr d))%nat -> length (qdiag d) = nc (qr d) -> nr b = nr (qr d) ->
  qt_mul d b = Ret t ->
  let n := nr (qr d) in let c := nc (qr d) in
  exists ss : nat -> mat N, ss O = b /\ ss c = t /\ (forall k, (k <= c)%nat -> nr (ss k) = n /\ nc (ss k) = nc b) /\
    forall k, (k < c)%nat -> forall p j, (p < n)%nat -> (j < nc b)%nat -> get (ss (S k)) p j =
      if Nat.ltb p k then get (ss k) p j else
      nmul N (refl_entry (fun l => get (qr d) (k + l)%nat k) (n0 N) (n - k) (fun l b => get (ss k) (k + l)%nat b) (p - k) j) (nsignum N (vget (qdiag d) k)).
Proof.
  intros hle hl hb e n c. unfold qt_mul in e. fold c in e.
  destruct (for_trace _ _ _ _ _ e) as (ss & h1 & h2 & h3). exists ss. split; auto. split; auto. cbn [Nat.add] in h3.
  assert (hs : forall k, (k < c)%nat -> nr (ss k) = n -> nc (ss k) = nc b -> nr (ss (S k)) = n /\ nc (ss (S k)) = nc b /\
    forall p j, (p < n)%nat -> (j < nc b)%nat -> get (ss (S k)) p j =
      if Nat.ltb p k then get (ss k) p j else
      nmul N (refl_entry (fun l => get (qr d) (k + l)%nat k) (n0 N) (n - k) (fun l b => get (ss k) (k + l)%nat b) (p - k) j) (nsignum N (vget (qdiag d) k))).
  { intros k hk g1 g2. specialize (h3 k hk). cbv beta in h3. set (q1 := ss k) in *.
    refine (post_inv _ (fun r => nr r = n /\ nc r = nc b /\ forall p j, (p < n)%nat -> (j < nc b)%nat -> get r p j = _) noE False _ _ h3).
    step1. apply post_col_from; try (fold n; fold c; lia). step1. apply post_slice; try lia.
    step1. eapply post_mono; [apply reflect_cols_ok; simpl; dims; fold n; lia|].
    intros y (y1 & y2 & y3). dims. cbn [axis bias] in y3. rewrite g1, g2 in *. unfold idx1. rewrite hl. destruct (Nat.ltb_spec k (nc (qr d))); [|fold c in H; lia]. cbn [bind]. apply post_ret. dims.
    split; auto. split; auto. intros p j hp hj. rewrite get_put by lia. dims. rewrite y1, y2.
    destruct (Nat.ltb_spec p k); [bd; auto|]. bd. rewrite get_mscale by lia. rewrite Nat.sub_0_r. f_equal.
    rewrite y3 by lia. unfold refl_entry. rewrite get_mk by lia. rewrite vget_vmk by (fold n; lia).
    cbn [Nat.add]. fold n. f_equal. f_equal. f_equal. f_equal. apply sumn_ext. intros l hl'. rewrite vget_vmk by (fold n; lia). rewrite get_mk by lia. reflexivity. }
  assert (hd : forall k, (k <= c)%nat -> nr (ss k) = n /\ nc (ss k) = nc b).
  { induction k; intros hk; [rewrite h1; auto|]. destruct (IHk ltac:(lia)). destruct (hs k ltac:(lia)) as (g1 & g2 & _); auto. }
  split; auto. intros k hk. destruct (hd k ltac:(lia)). apply hs; auto.
Qed.

(** ** qt_mul in floating point *)
Lemma qt_float (a b t : mat FN) d (W : nat -> nat -> R) k : let n := nr a in let c := nc a in
  fits n -> (c <= n)%nat -> nr (qr d) = n -> nc (qr d) = c -> length (qdiag d) = c -> nr b = n -> mvalid b ->
  (forall i, (i < c)%nat -> reflector n i (sgf (vget (qdiag d) i)) (W i)) ->
  (forall i, (i < c)%nat -> unitf (nsignum FN (vget (qdiag d) i)) /\
     (forall p, (i <= p < n)%nat -> fvalid (get (qr d) p i) /\ ffin (get (qr d) p i)) /\
     vn (n - i) (fun p => frm (qr d) (i + p)%nat i - W i (i + p)%nat) <= gam (2 * (n - i) + 15)) ->
  qt_mul d b = Ret t -> (k < nc b)%nat -> (0 < c)%nat -> (forall p, (p < c)%nat -> ffin (get t p k)) ->
  (forall p, (p < n)%nat -> ffin (get b p k)) /\ exists tv, (forall p, (p < c)%nat -> tv p = frm t p k) /\
  vn n (fun p => frm b p k - mmul n (hprod n (refs d W) c) (colm tv) p 0%nat) <=
    qr_gam n c * vn n (fun p => frm b p k) + qr_abs n c.
Proof.
  intros n c hn hle d1 d2 d3 hb vb href hax e hk hc0 hf.
  destruct (qt_trace d b t ltac:(lia) ltac:(lia) ltac:(lia) e) as (ss & s1 & s2 & s3 & s4). rewrite d1, d2 in *.
  assert (hv : forall i, (i <= c)%nat -> forall p, (p < n)%nat -> fvalid (get (ss i) p k)).
  { induction i; intros hi p hp; [rewrite s1; apply vb; lia|]. rewrite s4 by lia. destruct (Nat.ltb_spec p i); [apply IHi; lia|].
    apply fvalid_mul; [|apply sig_valid]. destruct (hax i ltac:(lia)) as (_ & hva & _).
    apply (afl_valid (n - i) (fun l => get (qr d) (i + l)%nat i) (fun l => get (ss i) (i + l)%nat k)); [lia|intros; apply hva; lia|intros; apply IHi; lia]. }
  (* a finished row *)
  assert (hrow : forall r i p, (i + r <= c)%nat -> (p < i)%nat -> (p < n)%nat -> get (ss (i + r)%nat) p k = get (ss i) p k).
  { induction r; intros i p h1 h2 h3; [now rewrite Nat.add_0_r|]. rewrite Nat.add_succ_r, s4 by lia. bd. apply IHr; lia. }
  assert (hdone : forall i p, (i <= c)%nat -> (p < i)%nat -> get (ss i) p k = get t p k).
  { intros i p hi hp. rewrite <- s2. replace c with (i + (c - i))%nat by lia. symmetry. apply hrow; lia. }
  assert (hst : forall i, (i < c)%nat -> (forall p, (p < n)%nat -> ffin (get (ss i) p k)) /\
    vn n (fun p => if Nat.ltb p i then 0 else if is_finite_SF (get (ss (S i)) p k) then fr (get (ss (S i)) p k) - mmul n (refs d W i) (colm (fun l => fr (get (ss i) l k))) p 0%nat else 0) <= gam (10 * n + 70) * vn n (fun l => fr (get (ss i) l k)) + omega).
  { intros i hi. destruct (hax i hi) as (hu & hva & hw).
    destruct (app_step n i (fun p => get (qr d) p i) (fun p => get (ss i) p k) (fun p => get (ss (S i)) p k) (nsignum FN (vget (qdiag d) i)) (W i)) as (g1 & g3); auto.
    - lia.
    - apply (href i hi).
    - apply hv. lia.
    - intros p hp. rewrite s4 by lia. bd. reflexivity.
    - intros p hp. rewrite s4 by lia. bd. reflexivity.
    - exists i. split; [lia|]. rewrite hdone by lia. apply hf. auto.
    - split; [|exact g3]. intros p hp. destruct (le_lt_dec i p) as [l|l]; [apply g1; lia|]. rewrite hdone by lia. apply hf. lia. }
  split; [intros p hp; rewrite <- s1; apply (hst O); lia|].
  set (X := fun i p => if Nat.eqb i c then (if is_finite_SF (get t p k) then frm t p k else mmul n (refs d W (c - 1)%nat) (colm (fun l => fr (get (ss (c - 1)%nat) l k))) p 0%nat) else fr (get (ss i) p k)).
  assert (hX : forall i p, (i < c)%nat -> X i p = fr (get (ss i) p k)) by (intros i p hi; unfold X; bd; reflexivity).
  assert (hfin : forall p, (p < n)%nat -> (p < c)%nat -> is_finite_SF (get t p k) = true) by (intros p _ hp; apply (hf p hp)).
  exists (X c). split.
  { intros p hp. unfold X. rewrite Nat.eqb_refl, hfin by lia. reflexivity. }
  destruct (accum n (refs d W) X (U (10 * n + 70)) omega c) as (_ & g).
  - apply pow_u_ge1.
  - apply Rlt_le, omega_pos.
  - intros i hi. apply hh_orthogonal. apply href. auto.
  - intros i hi. apply hh_invol. apply href. auto.
  - intros i hi. change (U (10 * n + 70) - 1) with (gam (10 * n + 70)). destruct (hst i hi) as (h1 & h2). rewrite (vn_ext n (X i) (fun l => fr (get (ss i) l k))) by (intros; apply hX; auto).
    eapply Rle_trans; [|exact h2]. right. apply vn_ext. intros p hp.
    assert (eX : mmul n (refs d W i) (colm (X i)) p 0%nat = mmul n (refs d W i) (colm (fun l => fr (get (ss i) l k))) p 0%nat) by (unfold mmul, colm; apply Rsum_ext; intros; rewrite hX by auto; reflexivity).
    rewrite eX. destruct (Nat.ltb_spec p i) as [l|l].
    + assert (e1 : X (S i) p = fr (get (ss i) p k)).
      { unfold X. destruct (Nat.eqb_spec (S i) c).
        - rewrite hfin by lia. unfold frm. rewrite <- (hdone i p) by lia. reflexivity.
        - rewrite s4 by lia. bd. reflexivity. }
      rewrite e1. unfold refs. rewrite (hh_apply n 1 i) by (first [lia|apply (hh_zero _ _ _ _ (href i hi))]). bd. unfold colm. ring.
    + unfold X. destruct (Nat.eqb_spec (S i) c) as [ec|ec].
      * rewrite ec, s2. replace (c - 1)%nat with i by lia. destruct (is_finite_SF (get t p k)); [reflexivity|ring].
      * destruct (hst (S i) ltac:(lia)) as (h3 & _). rewrite (h3 p hp). reflexivity.
  - rewrite <- pow_mult, (Nat.mul_comm (10 * n + 70) c) in g.
    replace ((1 + uro) ^ (c * (10 * n + 70))) with (1 + qr_gam n c) in g by (unfold qr_gam, gam; ring).
    replace (1 + qr_gam n c - 1) with (qr_gam n c) in g by ring.
    assert (e0 : forall p, X O p = frm b p k) by (intros p; rewrite hX by auto; rewrite s1; reflexivity).
    rewrite (vn_ext n (X O) (fun p => frm b p k)) in g by (intros; apply e0). eapply Rle_trans; [|exact g]. right. apply vn_ext. intros p hp. rewrite e0. reflexivity.
Qed.

(** ** Least squares *)
Lemma clear_valid_x (m m' : mat FN) i x : (i < nr m)%nat -> (i < nc m)%nat -> mvalid m -> clear_column m i 0 = Ret (m', x) -> fvalid x.
Proof.
  intros hi hic hv e.
  destruct (clear_column_outcome m i 0 m' x ltac:(rewrite Nat.add_0_r; auto) hic e) as (v & o & er & lv & ex & _).
  rewrite Nat.add_0_r in *. set (col := vmk (nr m - i) (fun p => get m (i + p)%nat i)) in *.
  assert (vc : vvalid col) by (intros p hp; unfold col in *; rewrite length_vmk in hp; rewrite vget_vmk by auto; apply hv; lia).
  assert (hl : (0 < length col)%nat) by (unfold col; rewrite length_vmk; lia).
  rewrite axis_outcome in er by auto. cbv zeta in er. destruct (ax_valid col vc hl) as (v1 & v2 & v3 & v4). subst x.
  destruct (negb (nis_zero FN (ax_nn col))); injection er as <- <-; [apply fvalid_opp; auto|apply fvalid_0].
Qed.
Lemma vn_trunc n c f : (c <= n)%nat -> vn n (fun l => if Nat.ltb l c then f l else 0) = vn c f.
Proof.
  intros h. apply Rsqr_inj; try apply vn_nonneg. unfold Rsqr. rewrite !vn_sq. rewrite <- (Rsum_if_lt n c (fun l => f l * f l)) by auto.
  apply Rsum_ext. intros l hl. destruct (Nat.ltb l c); ring.
Qed.
Lemma huge_pos : 0 <= huge. Proof. apply bpow_ge_0. Qed.
Lemma gam_half n c : fits n -> (c <= n)%nat -> gam c <= / 2.
Proof.
  intros h hc. pose proof uro_pos as hu. unfold fits in h. apply le_INR in hc. pose proof (pos_INR c) as h0.
  assert (h1 : INR c * uro <= / 64) by nra. eapply Rle_trans; [apply gam_usual; lra|].
  apply Rmult_le_reg_r with (1 - INR c * uro); [lra|]. unfold Rdiv. rewrite Rmult_assoc, Rinv_l by lra. lra.
Qed.
Lemma small_eta n c x : fits n -> (c <= n)%nat -> Rabs x <= huge -> (1 + uro) ^ c * (INR c + Rabs x) * eta <= omega.
Proof.
  intros hn hc hx. pose proof (gam_half n c hn hc) as g. unfold gam in g. pose proof (pow_u_ge1 c) as g1. pose proof (Rabs_pos x).
  pose proof (omega_eta n c hn hc) as h1. pose proof eta_pos. pose proof (pos_INR c).
  assert (h2 : huge * eta <= zeta * / 4).
  { unfold huge, eta, zeta. replace (/ 4) with (bpow radix2 (-2)) by (simpl; lra). rewrite <- !bpow_plus. apply bpow_le. discriminate. }
  pose proof zeta_pos as hz. unfold omega.
  assert (h3 : (INR c + Rabs x) * eta <= zeta) by nra.
  rewrite Rmult_assoc. assert (0 <= (INR c + Rabs x) * eta) by (apply Rmult_le_pos; lra). nra.
Qed.

Lemma vn_hx n H (x : nat -> R) : orthogonal n H -> vn n (fun p => Rsum n (fun l => H p l * x l)) = vn n x.
Proof. intros h. apply (vn_orth n H x h). Qed.

Lemma qr_solve_float (a b x : mat FN) d k : let n := nr a in let c := nc a in
  mvalid a -> mvalid b -> qr_into a = Ret d -> qr_solve d b = Ret x -> fits n -> (k < nc b)%nat -> (0 < c)%nat ->
  (forall i, (i < c)%nat -> diag_ok (vget (qdiag d) i)) ->
  (forall i, (i < c)%nat -> ffin (get x i k)) ->
  (forall i j, (i < n)%nat -> (j < c)%nat -> ffin (get a i j)) /\ (forall i, (i < n)%nat -> ffin (get b i k)) /\
  exists (At : M) (bt : nat -> R),
    (forall j, (j < c)%nat -> vn n (fun i => At i j - frm a i j) <= gam (c * (10 * n + 70) + c) * vn n (fun i => frm a i j) + 2 * qr_abs n c) /\
    vn n (fun i => bt i - frm b i k) <= qr_gam n c * vn n (fun i => frm b i k) + 2 * qr_abs n c /\
    injective n c At /\
    (forall j, (j < c)%nat -> Rsum n (fun i => At i j * (Rsum c (fun l => At i l * frm x l k) - bt i)) = 0) /\
    (n = c -> forall i, (i < n)%nat -> Rsum c (fun l => At i l * frm x l k) = bt i).
Proof.
  intros n c va vb e es hn hk hc0 hd hx.
  destruct (qr_trace a d va e) as (hle & d1 & d2 & d3 & ms & m1 & m2 & m3 & m4). fold n c in hle, d1, d2, d3, m2, m3, m4.
  assert (vq : mvalid (qr d)) by (rewrite <- m2; apply (m3 c); lia).
  pose proof (qr_solve_class_a a b d e) as hcl. rewrite es in hcl. destruct hcl as (hb & hinv & x1 & x2).
  unfold qr_solve in es. rewrite d1, hb in es. fold n in es. rewrite Nat.eqb_refl, hinv in es. cbn [negb] in es.
  destruct (qt_mul d b) as [t| | | |] eqn:et; try discriminate. cbn [bind] in es. rewrite d2 in es.
  destruct (qt_trace d b t ltac:(lia) ltac:(lia) ltac:(lia) et) as (ss & s1 & s2 & s3 & s4). rewrite ?d2 in s2. rewrite ?d1, ?d2 in s3. rewrite ?d1, ?d2 in s4.
  destruct (s3 c ltac:(lia)) as (t1 & t2). rewrite s2 in t1, t2.
  assert (sl : forall (m : mat FN) r2 c2, (r2 <= nr m)%nat -> (c2 <= nc m)%nat -> slice m 0 r2 0 c2 = Ret (mk r2 c2 (fun i j => get m i j))).
  { intros m r2 c2 h1 h2. unfold slice. destruct (Nat.leb_spec r2 (nr m)); [|lia]. destruct (Nat.leb_spec c2 (nc m)); [|lia].
    cbn [Nat.leb andb]. rewrite !Nat.sub_0_r. reflexivity. }
  rewrite sl in es by lia. cbn [bind] in es. rewrite sl in es by lia. cbn [bind] in es. rewrite t2 in es.
  set (r := mk c c (fun i j => get (qr d) i j)) in *. set (tb := mk c (nc b) (fun i j => get t i j)) in *.
  assert (vt : mvalid t).
  { intros p j hp hj. rewrite t1 in hp. rewrite t2 in hj. rewrite <- s2.
    assert (hv : forall i, (i <= c)%nat -> forall p, (p < n)%nat -> fvalid (get (ss i) p j)).
    { induction i; intros hi p' hp'; [rewrite s1; apply vb; lia|]. rewrite s4 by lia. destruct (Nat.ltb_spec p' i); [apply IHi; lia|].
      apply fvalid_mul; [|apply sig_valid].
      apply (afl_valid (n - i) (fun l => get (qr d) (i + l)%nat i) (fun l => get (ss i) (i + l)%nat j)); [lia|intros; apply vq; lia|intros; apply IHi; lia]. }
    apply hv; lia. }
  assert (hdv : forall i, (i < c)%nat -> fvalid (vget (qdiag d) i)).
  { intros i hi. pose proof (m4 i hi) as g. destruct (m3 i ltac:(lia)) as (g1 & g2 & g3). refine (clear_valid_x (ms i) (ms (S i)) i _ _ _ g1 g); lia. }
  destruct (system_backward r tb x Upper (fun i => let* y := at1 (qdiag d) i in Ret (nabs FN y)) (fun i => nabs FN (vget (qdiag d) i)) k) as (vx & b1 & b2 & D & ee & b3 & b4 & b5).
  - reflexivity.
  - reflexivity.
  - intros i j hi hj. unfold r in hi, hj. rewrite nr_mk in hi. rewrite nc_mk in hj. unfold r. rewrite get_mk by lia. apply vq; lia.
  - intros i j hi hj. unfold tb in hi, hj. rewrite nr_mk in hi. rewrite nc_mk in hj. unfold tb. rewrite get_mk by lia. apply vt; lia.
  - intros i hi. unfold r in hi. rewrite nr_mk in hi. unfold at1. rewrite d3. bd. reflexivity.
  - intros i hi. unfold r in hi. rewrite nr_mk in hi. split; [apply fvalid_abs; auto|apply ffin_abs; apply hd; auto].
  - exact es.
  - unfold tb. rewrite nc_mk. exact hk.
  - intros i hi. unfold r in hi. rewrite nr_mk in hi. auto.
  - unfold r in b1, b2, b3, b4, b5. rewrite nr_mk in b1, b2, b3, b4, b5. fold r in b1, b2, b3, b4, b5.
    assert (hfin : forall p q, (p < q < c)%nat -> ffin (get (qr d) p q)).
    { intros p q hpq. pose proof (b2 p q ltac:(lia) ltac:(lia) ltac:(cbn; lia) ltac:(lia)) as g. unfold r in g. rewrite get_mk in g by lia. exact g. }
    destruct (qr_float a d va e hn hd hfin) as (W & g1 & g2 & g3 & g4). fold n c in g1, g2, g3, g4.
    assert (hft : forall p, (p < c)%nat -> ffin (get t p k)).
    { intros p l. destruct (b1 p l) as (g & _). unfold tb in g. rewrite get_mk in g by lia. exact g. }
    destruct (qt_float a b t d W k hn hle d1 d2 d3 hb vb g1 g2 et hk hc0 hft) as (hfb & tv & htv & q4). fold n c in q4.
    split; auto. split; auto.
    set (H := hprod n (refs d W) c) in *.
    assert (ho : orthogonal n H) by (apply hprod_orthogonal; intros i hi; apply hh_orthogonal; auto).
    replace ((1 + uro) ^ (c * (10 * n + 70))) with (1 + qr_gam n c) in g4 by (unfold qr_gam, gam; ring).
    fold (qr_gam n c) in g4. change (INR c * (1 + qr_gam n c) * omega) with (qr_abs n c) in g4.
    set (T := tri_part Upper (fun i => fr (nabs FN (vget (qdiag d) i))) (frm r)) in *.
    set (Rt := fun i j => if Nat.ltb i c then T i j * D i j else 0).
    set (tt := fun i => tv i + if Nat.ltb i c then ee i else 0).
    assert (eT : forall i j, (i < c)%nat -> (j < c)%nat -> T i j = rhat d i j).
    { intros i j hi hj. unfold T, tri_part, rhat. destruct (Nat.eqb_spec i j) as [->|ne]; [rewrite fr_abs; bd; reflexivity|].
      destruct (Nat.ltb_spec i j); auto. unfold frm, r. rewrite get_mk by lia. reflexivity. }
    assert (hR0 : forall p q, (q < c)%nat -> (q < p)%nat -> Rt p q = 0).
    { intros p q hq hpq. unfold Rt. destruct (Nat.ltb_spec p c); auto. rewrite eT by auto. unfold rhat. bd. ring. }
    set (At := mmul n H Rt). set (bt := fun i => Rsum n (fun l => H i l * tt l)).
    assert (hsys : mmul c Rt (fun i _ => frm x i k) =[c, 1]= mmul n (mtr H) (fun i _ => bt i)).
    { assert (e1 : mmul n (mtr H) (fun i _ => bt i) =[n, 1]= colm tt).
      { change (fun i _ : nat => bt i) with (mmul n H (colm tt)). rewrite <- (mmul_assoc n n n 1). destruct ho as (o1 & _). rewrite o1. apply mmul_1_l. }
      intros i j hi hj. rewrite e1 by lia. unfold colm, tt. destruct (Nat.ltb_spec i c); [|lia].
      assert (eb : frm tb i k = frm t i k) by (unfold frm, tb; rewrite get_mk by lia; reflexivity). rewrite htv, <- eb by auto.
      rewrite <- b5 by auto. unfold mmul. apply Rsum_ext. intros l hl. unfold Rt. bd. ring. }
    pose proof (gam_half n c hn hle) as hgc. pose proof (gam_nonneg c) as hgc0. destruct (qr_eps_facts n c) as (p1 & p2 & _).
    assert (hcw : INR c * omega <= qr_abs n c).
    { unfold qr_abs. pose proof (pos_INR c). pose proof omega_pos. rewrite Rmult_assoc. apply Rmult_le_compat_l; auto. nra. }
    exists At, bt. split; [|split; [|split; [|split]]].
    + intros j hj. pose proof (g4 j hj) as g5. set (B := vn n (fun p => frm a p j)) in *.
      assert (hRj : vn n (fun l => rhat d l j) <= B + (qr_gam n c * B + qr_abs n c)).
      { rewrite <- (vn_hx n H) by auto. eapply Rle_trans; [right; apply (vn_ext n _ (fun i => frm a i j + -1 * (frm a i j - mmul n H (rhat d) i j))); intros; unfold mmul; ring|].
        eapply Rle_trans; [apply vn_plus|]. rewrite vn_scal, Rabs_left by lra. fold B. lra. }
      eapply Rle_trans; [right; apply (vn_ext n _ (fun i => -1 * (frm a i j - mmul n H (rhat d) i j) + Rsum n (fun l => H i l * (Rt l j - rhat d l j))))|].
      { intros i hi. unfold At, mmul. rewrite (Rsum_ext n (fun l => H i l * (Rt l j - rhat d l j)) (fun l => H i l * Rt l j - H i l * rhat d l j)) by (intros; ring). rewrite Rsum_minus. ring. }
      eapply Rle_trans; [apply vn_plus|]. rewrite vn_scal, Rabs_left by lra. rewrite vn_hx by auto.
      assert (hD : vn n (fun l => Rt l j - rhat d l j) <= gam c * vn n (fun l => rhat d l j)).
      { rewrite <- (Rabs_pos_eq (gam c)) at 1 by auto. rewrite <- vn_scal. apply vn_le. intros l hl. unfold Rt. destruct (Nat.ltb_spec l c) as [l1|l1].
        - rewrite eT by auto. replace (rhat d l j * D l j - rhat d l j) with (rhat d l j * (D l j - 1)) by ring. rewrite !Rabs_mult. rewrite (Rabs_pos_eq (gam c)) by auto.
          rewrite Rmult_comm. apply Rmult_le_compat_r; [apply Rabs_pos|]. apply b3; auto.
        - replace (rhat d l j) with 0 by (unfold rhat; bd; auto). rewrite Rminus_0_r, Rmult_0_r. lra. }
      rewrite <- gam_add. fold (qr_gam n c). assert (gam c * vn n (fun l => rhat d l j) <= gam c * (B + (qr_gam n c * B + qr_abs n c))) by (apply Rmult_le_compat_l; auto).
      assert (gam c * qr_abs n c <= 1 * qr_abs n c) by (apply Rmult_le_compat_r; lra). lra.
    + eapply Rle_trans; [right; apply (vn_ext n _ (fun i => -1 * (frm b i k - mmul n H (colm tv) i 0%nat) + Rsum n (fun l => H i l * (if Nat.ltb l c then ee l else 0))))|].
      { intros i hi. unfold bt, tt, mmul, colm. rewrite (Rsum_ext n _ (fun l => H i l * tv l + H i l * (if Nat.ltb l c then ee l else 0))) by (intros; ring). rewrite Rsum_plus. ring. }
      eapply Rle_trans; [apply vn_plus|]. rewrite vn_scal, Rabs_left by lra. rewrite vn_hx by auto.
      assert (hE : vn n (fun l => if Nat.ltb l c then ee l else 0) <= INR c * omega).
      { rewrite vn_trunc by auto. eapply Rle_trans; [apply (vn_le c ee (fun _ => omega))|].
        - intros l hl. rewrite (Rabs_pos_eq omega) by (apply Rlt_le, omega_pos). eapply Rle_trans; [apply (b4 l hl)|]. apply (small_eta n c _ hn hle).
          rewrite fr_abs, Rabs_Rabsolu. destruct (hd l hl) as (_ & [h0|h0]); [rewrite h0, Rabs_R0; apply huge_pos|apply h0].
        - eapply Rle_trans; [apply vn_const|]. rewrite Rabs_pos_eq by (apply Rlt_le, omega_pos). lra. }
      lra.
    + apply (factor_full_rank n c At H Rt hle ho hR0 ltac:(intros ? ? ? ?; reflexivity)). intros i hi. unfold Rt. bd.
      assert (h1 : T i i <> 0) by (unfold T, tri_part; rewrite Nat.eqb_refl; apply b1; auto).
      assert (h2 : D i i <> 0). { pose proof (b3 i i hi hi) as g. unfold near in g. intros e0. rewrite e0 in g. rewrite Rminus_0_l, Rabs_Ropp, Rabs_R1 in g. lra. }
      apply Rmult_integral_contrapositive. auto.
    + intros j hj. pose proof (factor_normal n c At H Rt hle ho hR0 ltac:(intros ? ? ? ?; reflexivity) 1 (fun i _ => frm x i k) (fun i _ => bt i) hsys) as g.
      exact (g j 0%nat hj ltac:(lia)).
    + intros enc i hi. pose proof (factor_square_solve n c At H Rt ho ltac:(intros ? ? ? ?; reflexivity) 1 (fun i _ => frm x i k) (fun i _ => bt i) enc hsys) as g.
      exact (g i 0%nat hi ltac:(lia)).
Qed.

(** ** Minimum-norm solutions of the transposed system *)
Lemma generate_q_valid (d : qrdecomp FN) q : (nc (qr d) <= nr (qr d))%nat -> length (qdiag d) = nc (qr d) -> mvalid (qr d) ->
  qr_generate_q d = Ret q -> mvalid q /\ nr q = nr (qr d) /\ nc q = nc (qr d).
Proof.
  intros hle hl vq e. set (n := nr (qr d)) in *. set (c := nc (qr d)) in *.
  assert (hidx : forall i, (i < c)%nat -> idx1 (qdiag d) i = Ret (vget (qdiag d) i)).
  { intros i hi. unfold idx1. rewrite hl. destruct (Nat.ltb_spec i c); [reflexivity|lia]. }
  destruct (assemble_trace (qr d) (fun i => idx1 (qdiag d) i) (vget (qdiag d)) q hle hidx e) as (ss & s1 & s2 & s3 & s4). fold n c in s2, s3, s4.
  destruct (s2 O ltac:(lia)) as (z1 & z2). rewrite s1 in z1, z2. split; auto.
  assert (hval : forall t, (t <= c)%nat -> forall p j, (p < n)%nat -> (j < c)%nat -> fvalid (get (ss (c - t)%nat) p j)).
  { induction t; intros ht p j hp hj.
    - rewrite Nat.sub_0_r, s3 by auto. destruct (Nat.eqb p j); reflexivity.
    - set (k := (c - S t)%nat). replace (c - t)%nat with (S k) in IHt by (unfold k; lia). pose proof (IHt ltac:(lia) p j hp hj).
      assert (hk : (k < c)%nat) by (unfold k; lia). rewrite s4 by lia.
      destruct (Nat.ltb_spec p k); auto. destruct (Nat.ltb_spec j k); auto. apply fvalid_mul; [|apply sig_valid].
      apply (afl_valid (n - k) (fun l => get (qr d) (k + l)%nat k) (fun l => get (ss (S k)) (k + l)%nat j)); [lia|intros; apply vq; fold n c; lia|intros; apply IHt; lia]. }
  intros p j hp hj. rewrite <- s1. replace O with (c - c)%nat by lia. apply hval; lia.
Qed.

Lemma qr_solve_tr_float (a b x : mat FN) d k : let n := nr a in let c := nc a in
  mvalid a -> mvalid b -> qr_into a = Ret d -> qr_solve_tr d b = Ret x -> fits n -> (k < nc b)%nat ->
  (forall i, (i < c)%nat -> diag_ok (vget (qdiag d) i)) ->
  (forall i, (i < n)%nat -> ffin (get x i k)) ->
  (forall i j, (i < n)%nat -> (j < c)%nat -> ffin (get a i j)) /\ (forall i, (i < c)%nat -> ffin (get b i k)) /\
  exists (At : M) (bt xt : nat -> R),
    (forall j, (j < c)%nat -> vn n (fun i => At i j - frm a i j) <= gam (c * (10 * n + 70) + c) * vn n (fun i => frm a i j) + 2 * qr_abs n c) /\
    (forall j, (j < c)%nat -> Rabs (bt j - frm b j k) <= omega) /\
    injective n c At /\
    (forall j, (j < c)%nat -> Rsum n (fun i => At i j * xt i) = bt j) /\
    (exists w, forall i, (i < n)%nat -> xt i = Rsum c (fun j => At i j * w j)) /\
    vn n (fun i => frm x i k - xt i) <= sqrt (INR c) * (qr_eps n c + gam (S c) * (1 + qr_eps n c)) * vn n xt + omega.
Proof.
  intros n c va vb e es hn hk hd hx.
  destruct (qr_trace a d va e) as (hle & d1 & d2 & d3 & ms & m1 & m2 & m3 & m4). fold n c in hle, d1, d2, d3, m2, m3, m4.
  assert (vq : mvalid (qr d)) by (rewrite <- m2; apply (m3 c); lia).
  pose proof (qr_solve_tr_class_a a b d e) as hcl. rewrite es in hcl. destruct hcl as (hb & hinv & x1 & x2). fold c in hb.
  unfold qr_solve_tr in es. rewrite d2, hb in es. rewrite Nat.eqb_refl, hinv in es. cbn [negb] in es.
  assert (sl : slice (qr d) 0 c 0 c = Ret (mk c c (fun i j => get (qr d) i j))).
  { unfold slice. destruct (Nat.leb_spec c (nr (qr d))); [|lia]. destruct (Nat.leb_spec c (nc (qr d))); [|lia].
    cbn [Nat.leb andb]. rewrite !Nat.sub_0_r. reflexivity. }
  rewrite sl in es. cbn [bind] in es. set (r := mk c c (fun i j => get (qr d) i j)) in *.
  destruct (solve_triangular_system (transpose r) b Lower _) as [y| | | |] eqn:ey; try discriminate. cbn [bind] in es.
  destruct (qr_generate_q d) as [q| | | |] eqn:eq; try discriminate. cbn [bind] in es.
  destruct (generate_q_valid d q ltac:(lia) ltac:(lia) vq eq) as (vqq & q1 & q2). rewrite d1 in q1. rewrite d2 in q2.
  unfold dot2 in es. rewrite q2 in es. destruct (Nat.eqb_spec c (nr y)) as [ny|]; [|discriminate]. injection es as ex. rewrite q1 in ex.
  assert (hdv : forall i, (i < c)%nat -> fvalid (vget (qdiag d) i)).
  { intros i hi. pose proof (m4 i hi) as g. destruct (m3 i ltac:(lia)) as (g1 & g2 & g3). refine (clear_valid_x (ms i) (ms (S i)) i _ _ _ g1 g); lia. }
  assert (vr : mvalid (transpose r)).
  { intros i j hi hj. unfold r in hi, hj. change (i < c)%nat in hi. change (j < c)%nat in hj. rewrite get_transpose by (unfold r; dims; lia). unfold r. rewrite get_mk by lia. apply vq; lia. }
  assert (hdf : forall i, (i < nr (transpose r))%nat -> (let* y := at1 (qdiag d) i in Ret (nabs FN y)) = Ret (nabs FN (vget (qdiag d) i))).
  { intros i hi. change (i < c)%nat in hi. unfold at1. rewrite d3. bd. reflexivity. }
  assert (hdd : forall i, (i < nr (transpose r))%nat -> fvalid (nabs FN (vget (qdiag d) i)) /\ ffin (nabs FN (vget (qdiag d) i))).
  { intros i hi. change (i < c)%nat in hi. split; [apply fvalid_abs; auto|apply ffin_abs; apply hd; auto]. }
  pose proof (post_inv _ _ _ _ _ (solve_system_exact (transpose r) b Lower _ (fun i => nabs FN (vget (qdiag d) i)) eq_refl hb hdf) ey) as (y1 & y2 & y3).
  assert (vy : mvalid y) by (apply (solution_valid (transpose r) b y Lower (fun i => nabs FN (vget (qdiag d) i))); auto; intros; apply hdd; auto).
  (* the product with Q *)
  assert (hrow : forall i, (i < n)%nat -> (forall l, (l < c)%nat -> ffin (get q i l) /\ ffin (get y l k)) /\
    exists D e, (forall l, (l < c)%nat -> prd (S c) (D l)) /\ Rabs e <= INR c * (1 + uro) ^ c * eta /\
      frm x i k = Rsum c (fun l => frm q i l * frm y l k * D l) + e).
  { intros i hi. pose proof (hx i hi) as g. rewrite <- ex in g. rewrite get_mk in g by lia.
    destruct (dot_prd (fun l => get q i l) (fun l => get y l k) c) as (g1 & D & e0 & g2 & g3 & g4); auto.
    - intros l hl. split; [apply vqq|apply vy]; lia.
    - split; auto. exists D, e0. split; auto. split; auto. unfold frm. rewrite <- ex. rewrite get_mk by lia. exact g4. }
  assert (fq : forall p j, (p < n)%nat -> (j < c)%nat -> ffin (get q p j)) by (intros p j hp hj; apply (hrow p hp); auto).
  assert (fy : forall l, (l < c)%nat -> ffin (get y l k)) by (intros l hl; apply (hrow l ltac:(lia)); auto).
  destruct (system_backward (transpose r) b y Lower _ (fun i => nabs FN (vget (qdiag d) i)) k eq_refl hb vr vb hdf hdd ey hk fy) as (_ & b1 & b2 & D & ee & b3 & b4 & b5).
  change (nr (transpose r)) with c in *.
  assert (hfin : forall p q, (p < q < c)%nat -> ffin (get (qr d) p q)).
  { intros p j hpq. pose proof (b2 j p ltac:(lia) ltac:(lia) ltac:(cbn; lia) ltac:(lia)) as g. rewrite get_transpose in g by (unfold r; dims; lia). unfold r in g. rewrite get_mk in g by lia. exact g. }
  destruct (qr_float a d va e hn hd hfin) as (W & g1 & g2 & g3 & g4). fold n c in g1, g2, g3, g4.
  destruct (q_float a d va e hn W q g1 g2 eq fq) as (_ & _ & _ & q4). fold n c in q4.
  split; auto. split; [intros i hi; apply b1; auto|].
  set (H := hprod n (refs d W) c) in *.
  assert (ho : orthogonal n H) by (apply hprod_orthogonal; intros i hi; apply hh_orthogonal; auto).
  replace ((1 + uro) ^ (c * (10 * n + 70))) with (1 + qr_gam n c) in g4, q4 by (unfold qr_gam, gam; ring).
  fold (qr_gam n c) in g4, q4. change (INR c * (1 + qr_gam n c) * omega) with (qr_abs n c) in g4, q4. fold (qr_eps n c) in q4.
  set (T := tri_part Lower (fun i => fr (nabs FN (vget (qdiag d) i))) (frm (transpose r))) in *.
  set (Rt := fun i j => if Nat.ltb i c then T j i * D j i else 0).
  assert (eT : forall i j, (i < c)%nat -> (j < c)%nat -> T j i = rhat d i j).
  { intros i j hi hj. unfold T, tri_part, rhat. destruct (Nat.eqb_spec j i) as [->|ne]; [rewrite fr_abs; bd; reflexivity|].
    destruct (Nat.ltb_spec i j); [|bd; auto]. unfold frm. rewrite get_transpose by (unfold r; dims; lia). unfold r. rewrite get_mk by lia. reflexivity. }
  assert (hR0 : forall p q, (q < c)%nat -> (q < p)%nat -> Rt p q = 0).
  { intros p j hj hpj. unfold Rt. destruct (Nat.ltb_spec p c); auto. rewrite eT by auto. unfold rhat. bd. ring. }
  set (At := mmul n H Rt). set (yv := fun l => frm y l k). set (xt := fun i => Rsum c (fun l => H i l * yv l)). set (bt := fun j => frm b j k + ee j).
  pose proof (gam_half n c hn hle) as hgc. pose proof (gam_nonneg c) as hgc0. destruct (qr_eps_facts n c) as (p1 & p2 & p3).
  assert (hfull : forall i, (i < c)%nat -> Rt i i <> 0).
  { intros i hi. unfold Rt. bd.
    assert (h1 : T i i <> 0) by (unfold T, tri_part; rewrite Nat.eqb_refl; apply b1; auto).
    assert (h2 : D i i <> 0). { pose proof (b3 i i hi hi) as g. unfold near in g. intros e0. rewrite e0 in g. rewrite Rminus_0_l, Rabs_Ropp, Rabs_R1 in g. lra. }
    apply Rmult_integral_contrapositive. auto. }
  assert (hoc : orthonormal_cols n c H) by (intros i j hi hj; apply (proj1 ho); lia).
  exists At, bt, xt. split; [|split; [|split; [|split; [|split]]]].
  - intros j hj. pose proof (g4 j hj) as g5. set (B := vn n (fun p => frm a p j)) in *.
    assert (hRj : vn n (fun l => rhat d l j) <= B + (qr_gam n c * B + qr_abs n c)).
    { rewrite <- (vn_hx n H) by auto. eapply Rle_trans; [right; apply (vn_ext n _ (fun i => frm a i j + -1 * (frm a i j - mmul n H (rhat d) i j))); intros; unfold mmul; ring|].
      eapply Rle_trans; [apply vn_plus|]. rewrite vn_scal, Rabs_left by lra. fold B. lra. }
    eapply Rle_trans; [right; apply (vn_ext n _ (fun i => -1 * (frm a i j - mmul n H (rhat d) i j) + Rsum n (fun l => H i l * (Rt l j - rhat d l j))))|].
    { intros i hi. unfold At, mmul. rewrite (Rsum_ext n (fun l => H i l * (Rt l j - rhat d l j)) (fun l => H i l * Rt l j - H i l * rhat d l j)) by (intros; ring). rewrite Rsum_minus. ring. }
    eapply Rle_trans; [apply vn_plus|]. rewrite vn_scal, Rabs_left by lra. rewrite vn_hx by auto.
    assert (hD : vn n (fun l => Rt l j - rhat d l j) <= gam c * vn n (fun l => rhat d l j)).
    { rewrite <- (Rabs_pos_eq (gam c)) at 1 by auto. rewrite <- vn_scal. apply vn_le. intros l hl. unfold Rt. destruct (Nat.ltb_spec l c) as [l1|l1].
      - rewrite eT by auto. replace (rhat d l j * D j l - rhat d l j) with (rhat d l j * (D j l - 1)) by ring. rewrite !Rabs_mult. rewrite (Rabs_pos_eq (gam c)) by auto.
        rewrite Rmult_comm. apply Rmult_le_compat_r; [apply Rabs_pos|]. apply b3; auto.
      - replace (rhat d l j) with 0 by (unfold rhat; bd; auto). rewrite Rminus_0_r, Rmult_0_r. lra. }
    rewrite <- gam_add. fold (qr_gam n c). assert (gam c * vn n (fun l => rhat d l j) <= gam c * (B + (qr_gam n c * B + qr_abs n c))) by (apply Rmult_le_compat_l; auto).
    assert (gam c * qr_abs n c <= 1 * qr_abs n c) by (apply Rmult_le_compat_r; lra). lra.
  - intros j hj. unfold bt. replace (frm b j k + ee j - frm b j k) with (ee j) by ring. eapply Rle_trans; [apply (b4 j hj)|]. apply (small_eta n c _ hn hle).
    rewrite fr_abs, Rabs_Rabsolu. destruct (hd j hj) as (_ & [h0|h0]); [rewrite h0, Rabs_R0; apply huge_pos|apply h0].
  - apply (factor_full_rank n c At H Rt hle ho hR0 ltac:(intros ? ? ? ?; reflexivity)). auto.
  - intros j hj.
    assert (hs : mmul c (mtr Rt) (colm yv) =[c, 1]= colm bt).
    { intros i l hi hl. unfold colm at 2. unfold bt. rewrite <- b5 by auto. unfold mmul, mtr. apply Rsum_ext. intros p hp. unfold Rt, colm, yv. bd. ring. }
    pose proof (factor_tr_solve n c At H Rt hle ho hR0 ltac:(intros ? ? ? ?; reflexivity) 1 (colm yv) (colm bt) hs) as g.
    exact (g j 0%nat hj ltac:(lia)).
  - destruct (upper_solvable c Rt yv) as (w & hw); auto.
    { intros i j hi hj h. apply hR0; auto. }
    exists w. intros i hi. unfold xt.
    pose proof (factor_thin n c At H Rt hle hR0 ltac:(intros ? ? ? ?; reflexivity)) as hth.
    assert (eW : mmul c At (colm w) =[n, 1]= mmul c H (mmul c Rt (colm w))) by (rewrite hth, (mmul_assoc n c c 1 H); reflexivity).
    change (Rsum c (fun j => At i j * w j)) with (mmul c At (colm w) i 0%nat). rewrite eW by auto. unfold mmul at 1. apply Rsum_ext. intros l hl. f_equal. symmetry. apply hw; auto.
  - set (Y := vn c yv).
    assert (eY : vn n xt = Y) by (apply vn_ocols; auto). rewrite eY. pose proof (vn_nonneg c yv) as hY0. fold Y in hY0.
    set (E := fun i l => Rabs (frm q i l)).
    assert (hqn : forall l, (l < c)%nat -> vn n (fun i => E i l) <= 1 + qr_eps n c).
    { intros l hl. assert (e1 : vn n (fun i => H i l) = 1).
      { apply vn_unit. change (mmul n (mtr H) H l l = 1). rewrite (hoc l l) by auto. unfold mid. now rewrite Nat.eqb_refl. }
      apply Rle_trans with (vn n (fun i => frm q i l)); [apply vn_le; intros; unfold E; rewrite Rabs_Rabsolu; lra|].
      eapply Rle_trans; [right; apply (vn_ext n _ (fun i => H i l + (frm q i l - H i l))); intros; ring|]. eapply Rle_trans; [apply vn_plus|]. rewrite e1. pose proof (q4 l hl). lra. }
    pose proof (gam_nonneg (S c)) as hg1. pose proof eta_pos as he0. pose proof (pos_INR c) as hc0.
    set (rr := INR c * (1 + uro) ^ c * eta).
    assert (hrr : 0 <= rr) by (unfold rr; pose proof (pow_u_ge1 c); repeat apply Rmult_le_pos; lra).
    apply Rle_trans with (vn n (fun i => Rsum c (fun l => (frm q i l - H i l) * yv l)) + (gam (S c) * vn n (fun i => Rsum c (fun l => E i l * Rabs (yv l))) + INR n * rr)).
    + eapply Rle_trans; [right; apply (vn_ext n _ (fun i => Rsum c (fun l => (frm q i l - H i l) * yv l) + (frm x i k - Rsum c (fun l => frm q i l * yv l))))|].
      { intros i hi. unfold xt. rewrite (Rsum_ext c (fun l => (frm q i l - H i l) * yv l) (fun l => frm q i l * yv l - H i l * yv l)) by (intros; ring). rewrite Rsum_minus. ring. }
      eapply Rle_trans; [apply vn_plus|]. apply Rplus_le_compat_l. apply vn_bound; auto.
      intros i hi. destruct (hrow i hi) as (_ & D' & e' & h1 & h2 & ->).
      replace (Rsum c (fun l => frm q i l * frm y l k * D' l) + e' - Rsum c (fun l => frm q i l * yv l)) with (Rsum c (fun l => frm q i l * yv l * (D' l - 1)) + e').
      2:{ rewrite (Rsum_ext c (fun l => frm q i l * yv l * (D' l - 1)) (fun l => frm q i l * frm y l k * D' l - frm q i l * yv l)) by (intros; unfold yv; ring). rewrite Rsum_minus. ring. }
      eapply Rle_trans; [apply Rabs_triang|]. apply Rplus_le_compat; [|exact h2].
      eapply Rle_trans; [apply Rsum_abs|]. rewrite (Rabs_pos_eq (Rsum c _)).
      2:{ apply Rsum_nonneg. intros l hl. apply Rmult_le_pos; apply Rabs_pos. }
      rewrite <- Rsum_scal_l. apply Rsum_le. intros l hl. rewrite !Rabs_mult. unfold E. rewrite (Rmult_comm (gam (S c))). apply Rmult_le_compat_l; [apply Rmult_le_pos; apply Rabs_pos|].
      apply (prd_near _ _ (h1 l hl)).
    + pose proof (vn_lin n c (fun i l => frm q i l - H i l) yv (qr_eps n c) p3 q4) as v1. cbv beta in v1. fold Y in v1.
      pose proof (vn_lin n c E (fun l => Rabs (yv l)) (1 + qr_eps n c) ltac:(lra) hqn) as v2. cbv beta in v2.
      assert (eYa : vn c (fun l => Rabs (yv l)) = Y).
      { apply Rle_antisym; apply vn_le; intros; rewrite Rabs_Rabsolu; lra. }
      rewrite eYa in v2.
      assert (v3 : INR n * rr <= omega).
      { unfold rr. pose proof (pow_u_ge1 c) as hU1. unfold gam in hgc. pose proof (pos_INR n) as hn0. apply le_INR in hle. unfold fits in hn. pose proof uro_pos as hu. pose proof omega_pos as hom.
        assert (h2 : eta <= uro * uro * omega * / 2).
        { rewrite uro_bpow. unfold eta, omega, zeta. replace (bpow radix2 (-53) * bpow radix2 (-53) * (2 * bpow radix2 (-508)) * / 2) with (bpow radix2 (-53) * bpow radix2 (-53) * bpow radix2 (-508)) by field.
          rewrite <- !bpow_plus. apply bpow_le. discriminate. }
        assert (h4 : 0 <= INR n * uro <= 1) by (split; [apply Rmult_le_pos; lra|nra]).
        assert (h5 : 0 <= INR c * uro <= 1) by (split; [apply Rmult_le_pos; lra|nra]).
        apply Rle_trans with (INR n * (INR c * 2 * (uro * uro * omega * / 2))).
        - apply Rmult_le_compat_l; auto. apply Rmult_le_compat; try lra; [apply Rmult_le_pos; lra|]. apply Rmult_le_compat_l; lra.
        - replace (INR n * (INR c * 2 * (uro * uro * omega * / 2))) with ((INR n * uro) * (INR c * uro) * omega) by field.
          assert ((INR n * uro) * (INR c * uro) <= 1 * 1) by (apply Rmult_le_compat; lra). nra. }
      assert (v4 : gam (S c) * vn n (fun i => Rsum c (fun l => E i l * Rabs (yv l))) <= gam (S c) * ((1 + qr_eps n c) * (sqrt (INR c) * Y))) by (apply Rmult_le_compat_l; auto).
      lra.
Qed.
