(** * bidiagonal.rs in floating point: one reflection, on entry functions *)
From Coq Require Import Reals List Arith Lia Lra Bool ZArith Setoid Morphisms.
From Coq.Floats Require Import SpecFloat.
From Flocq Require Import Core BinarySingleNaN.
From Verif Require Import Scalar Arr MBase MDirect MDecomp Inst Hoare Spec SpecF RLin PTri PHouse PTrid PQR PBid PEighR PRound PTriF PCholF PNormF PHouseF PQRF PQRG PQRS PCholG PTrdF PTrdG PApF PTrdH.
Import ListNotations.
Local Open Scope R_scope.
Local Notation U k := ((1 + uro) ^ k).

Definition ftr {A} (F : nat -> nat -> A) : nat -> nat -> A := fun p q => F q p.
(** What clear_column does to the entries; clear_row is the same on the transposed entries *)
Definition frun {N : Num} (n c : nat) (F F' : nat -> nat -> N) (i k : nat) (x : N) : Prop :=
  exists v o, reflection_axis_mut (vmk (n - k) (fun p => F (k + p)%nat i)) = Ret (v, o) /\ length v = (n - k)%nat /\
    x = match o with Some x => x | None => n0 N end /\
    forall p q, (p < n)%nat -> (q < c)%nat -> F' p q =
      if Nat.ltb p k then F p q else if Nat.ltb q i then F p q else if Nat.eqb q i then vget v (p - k)
      else match o with
           | Some x => nmul N (refl_entry (vget v) (n0 N) (n - k) (fun a b => F (k + a)%nat b) (p - k) q) (nsignum N x)
           | None => F p q
           end.
Lemma clear_column_frun {N : Num} (m : mat N) i s m' x : (i + s < nr m)%nat -> (i < nc m)%nat -> clear_column m i s = Ret (m', x) ->
  nr m' = nr m /\ nc m' = nc m /\ frun (nr m) (nc m) (get m) (get m') i (i + s) x.
Proof.
  intros h1 h2 e. destruct (clear_column_outcome m i s m' x h1 h2 e) as (v & o & q1 & q2 & q3 & q4 & q5 & q6).
  split; auto. split; auto. exists v, o. auto.
Qed.
Lemma clear_row_frun {N : Num} (m : mat N) i s m' x : (i + s < nc m)%nat -> (i < nr m)%nat -> clear_row m i s = Ret (m', x) ->
  nr m' = nr m /\ nc m' = nc m /\ frun (nc m) (nr m) (ftr (get m)) (ftr (get m')) i (i + s) x.
Proof.
  intros h1 h2 e. unfold clear_row in e. destruct (clear_column (transpose m) i s) as [[t y]| | | |] eqn:ec; try discriminate. cbn [bind] in e. injection e as <- <-.
  destruct (clear_column_frun (transpose m) i s t y ltac:(dims; auto) ltac:(dims; auto) ec) as (d1 & d2 & v & o & q1 & q2 & q3 & q4). dims.
  split; auto. split; auto. exists v, o.
  assert (ev : vmk (nc m - (i + s)) (fun p => ftr (get m) (i + s + p)%nat i) = vmk (nc m - (i + s)) (fun p => get (transpose m) (i + s + p)%nat i)).
  { unfold vmk. apply map_ext_in. intros p hp. apply in_seq in hp. unfold ftr. rewrite get_transpose by lia. reflexivity. }
  rewrite ev. split; auto. split; auto. split; auto. intros p q hp hq. unfold ftr at 1. rewrite get_transpose by lia. rewrite q4 by auto.
  unfold ftr, refl_entry. rewrite (get_transpose m p q) by lia. destruct (Nat.ltb_spec p (i + s)); auto. destruct (Nat.ltb_spec q i); auto. destruct (Nat.eqb q i); auto.
  destruct o as [y'|]; auto. rewrite get_transpose by lia. f_equal. f_equal. f_equal. f_equal. f_equal. apply sumn_ext. intros l hl. rewrite get_transpose by lia. reflexivity.
Qed.

(** ** One reflection in binary64 *)
Record fstep (n c : nat) (F F' : nat -> nat -> FN) (i k : nat) (x : FN) (w : nat -> R) : Prop := {
  fs_ref : reflector n k (sgf x) w;
  fs_unit : unitf (nsignum FN x);
  fs_x : fokx x;
  fs_keep : forall p q, (p < n)%nat -> (q < c)%nat -> (p < k \/ q < i)%nat -> F' p q = F p q;
  fs_ok : forall p q, (k <= p < n)%nat -> (i <= q < c)%nat -> fokx (F' p q);
  fs_axis : vn (n - k) (fun p => fr (F' (k + p)%nat i) - w (k + p)%nat) <= gam (2 * (n - k) + 15);
  fs_col : forall q, (i < q < c)%nat ->
    vn (n - k) (fun p => fr (F' (k + p)%nat q) - happ n k (sgf x) w (fun l => fr (F l q)) (k + p)) <= gam (10 * n + 70) * vn (n - k) (fun l => fr (F (k + l)%nat q)) + omega;
  fs_clr : vn (n - k) (fun p => (if Nat.eqb p 0 then Rabs (fr x) else 0) - happ n k (sgf x) w (fun l => fr (F l i)) (k + p)) <= gam (10 * n + 70) * vn (n - k) (fun l => fr (F (k + l)%nat i)) + omega
}.

Lemma frun_fstep n c (F F' : nat -> nat -> FN) i k x : fits n -> (k < n)%nat -> (i < c)%nat -> frun n c F F' i k x ->
  (forall p q, (k <= p < n)%nat -> (i <= q < c)%nat -> fokx (F p q)) ->
  (forall q, (i <= q < c)%nat -> vn (n - k) (fun l => fr (F (k + l)%nat q)) <= 4 * cap) ->
  (fr x = 0 \/ tiny <= Rabs (fr x)) -> exists w, fstep n c F F' i k x w.
Proof.
  intros hn hk hi (v & o & er & lv & ex & h3) hF hN hx. set (cl := vmk (n - k) (fun p => F (k + p)%nat i)) in *.
  assert (lc : length cl = (n - k)%nat) by apply length_vmk.
  assert (gc : forall p, (p < n - k)%nat -> vget cl p = F (k + p)%nat i) by (intros p hp; unfold cl; rewrite vget_vmk by auto; reflexivity).
  assert (vc : vvalid cl) by (intros p hp; rewrite lc in hp; rewrite gc by auto; apply hF; lia).
  assert (fc : forall p, (p < length cl)%nat -> ffin (vget cl p)) by (intros p hp; rewrite lc in hp; rewrite gc by auto; apply hF; lia).
  assert (ec : vn (n - k) (frv cl) = vn (n - k) (fun l => fr (F (k + l)%nat i))) by (apply vn_ext; intros p hp; unfold frv; rewrite gc by auto; reflexivity).
  destruct (axis_fwd n cl v o hn ltac:(lia) vc fc) as (vx & fx & bx); auto.
  { rewrite lc, ec. apply hN. lia. }
  rewrite <- ex in vx, fx, bx.
  assert (dx : diag_ok x) by (split; auto; destruct hx; auto).
  rewrite ex in dx. destruct (step_float n cl v o hn ltac:(lia) vc er dx) as (w & [s1 s2 s3 s4 s5 s6 s7 s8] & so). rewrite lc in *. rewrite <- ex in *.
  set (m := (n - k)%nat) in *. assert (hkn : (k <= n)%nat) by lia.
  pose proof (omega_eta n m hn ltac:(unfold m; lia)) as hom. pose proof zeta_pos as hz.
  assert (hK : forall f, gam (10 * m + 70) * vn m f <= gam (10 * n + 70) * vn m f).
  { intros f. apply Rmult_le_compat_r; [apply vn_nonneg|apply gam_mono; unfold m; lia]. }
  assert (hv2 : vn m (fun p => fr (vget v p)) <= 2).
  { eapply Rle_trans; [right; apply (vn_ext m _ (fun p => (fr (vget v p) - w p) + w p)); intros; ring|]. eapply Rle_trans; [apply vn_plus|].
    pose proof (gam16 n m hn ltac:(unfold m; lia)) as g1. pose proof (gam_mono (2 * m + 15) (2 * m + 20) ltac:(lia)). unfold frv in s8.
    assert (vn m w <= 1). { destruct s6 as [h|h]; [rewrite (vn_unit m w h); lra|]. eapply Rle_trans; [right; apply (vn_ext m w (fun _ => 0)); auto|]. pose proof (vn_const m 0) as g. rewrite Rabs_R0, Rmult_0_r in g. lra. } lra. }
  assert (hcol : forall q, (i < q < c)%nat -> (forall p, (k <= p < n)%nat -> fokx (F' p q)) /\
     vn m (fun p => fr (F' (k + p)%nat q) - happ n k (sgf x) (wfull k w) (fun l => fr (F l q)) (k + p)) <= gam (10 * n + 70) * vn m (fun l => fr (F (k + l)%nat q)) + omega).
  { intros q hq. destruct o as [y|].
    - set (yy := fun a => F (k + a)%nat q).
      assert (eg : forall p, (p < m)%nat -> F' (k + p)%nat q = nmul FN (afl m (vget v) yy p) (nsignum FN y)).
      { intros p hp. rewrite h3 by (unfold m in hp; lia). bd. replace (k + p - k)%nat with p by lia. reflexivity. }
      assert (hyy : forall p, (p < m)%nat -> fokx (yy p)) by (intros p hp; apply hF; unfold m in hp; lia).
      assert (us : unitf (nsignum FN y)) by (rewrite ex in s5; exact s5).
      assert (ff : forall p, (p < m)%nat -> ffin (nmul FN (afl m (vget v) yy p) (nsignum FN y))).
      { apply (apply_fwd n); auto; [unfold m; lia|]. apply hN. lia. }
      destruct (apply_float n m (vget v) yy w (nsignum FN y)) as (g1 & g2); auto.
      + unfold m; lia.
      + intros p hp. apply hyy; auto.
      + split.
        * intros p hp. replace p with (k + (p - k))%nat by lia. rewrite eg by (unfold m; lia). split; [|apply ff; unfold m; lia].
          apply fvalid_mul; [|apply (unitf_fr _ us)]. apply afl_valid; [unfold m; lia|intros; apply s3; auto|intros; apply hyy; auto].
        * eapply Rle_trans; [right; apply (vn_ext m _ (fun p => fr (nmul FN (afl m (vget v) yy p) (nsignum FN y)) - fr (nsignum FN y) * mirr m w (fun l => fr (yy l)) p))|].
          { intros p hp. rewrite happ_mirr by auto. rewrite eg by auto. unfold sgf. rewrite ex. reflexivity. }
          eapply Rle_trans; [exact g2|]. specialize (hK (fun l => fr (yy l))). unfold omega. change (fun l => fr (F (k + l)%nat q)) with (fun l => fr (yy l)). lra.
    - assert (hw : forall p, w p = 0) by auto.
      split. { intros p hp. rewrite h3 by lia. bd. apply hF; lia. }
      eapply Rle_trans; [right; apply (vn_ext m _ (fun _ => 0))|].
      + intros p hp. rewrite h3 by (unfold m in hp; lia). unfold happ, wfull. rewrite ex. change (sgf (n0 FN)) with (fr (f_of_Z 1)). rewrite fr_f1.
        rewrite (Rsum_0 n) by (intros; rewrite hw; destruct (Nat.ltb _ _); ring). bd; ring.
      + pose proof (vn_const m 0) as g. rewrite Rabs_R0, Rmult_0_r in g. pose proof (gam_nonneg (10 * n + 70)). pose proof (vn_nonneg m (fun l => fr (F (k + l)%nat q))). pose proof omega_pos.
        assert (0 <= gam (10 * n + 70) * vn m (fun l => fr (F (k + l)%nat q))) by (apply Rmult_le_pos; auto). lra. }
  assert (ei : forall p, (p < m)%nat -> F' (k + p)%nat i = vget v p).
  { intros p hp. rewrite h3 by (unfold m in hp; lia). bd. f_equal. lia. }
  exists (wfull k w). constructor; auto.
  - split; [intros p hp; unfold wfull; bd; reflexivity| |].
    + destruct (unitf_fr _ s5) as (_ & _ & _ & h). exact h.
    + destruct s6 as [h|h]; [left|right].
      * rewrite wfull_sum by auto. fold m. rewrite <- h. apply Rsum_ext. intros p hp. unfold wfull. bd. replace (k + p - k)%nat with p by lia. reflexivity.
      * intros p hp. unfold wfull. bd; auto. apply h. unfold m. lia.
  - split; auto.
  - intros p q hp hq ho. rewrite h3 by auto. bd; auto.
  - intros p q hp hq. destruct (Nat.eq_dec q i) as [->|]; [|apply hcol; lia].
    replace p with (k + (p - k))%nat by lia. rewrite ei by (unfold m; lia). apply s3. unfold m. lia.
  - fold m. eapply Rle_trans; [|exact s8]. right. apply vn_ext. intros p hp. rewrite ei by auto. unfold frv, wfull. bd. replace (k + p - k)%nat with p by lia. reflexivity.
  - intros q hq. apply hcol; auto.
  - fold m. eapply Rle_trans; [right; apply (vn_ext m _ (fun p => -1 * (sgf x * (frv cl p - 2 * (w p * Rsum m (fun l => w l * frv cl l))) - (if Nat.eqb p 0 then Rabs (fr x) else 0))))|].
    + intros p hp. rewrite happ_mirr by auto. fold m. unfold mirr, frv. rewrite gc by auto.
      rewrite (Rsum_ext m (fun l => w l * fr (vget cl l)) (fun l => w l * fr (F (k + l)%nat i))) by (intros l hl; rewrite gc by auto; reflexivity).
      ring.
    + rewrite vn_scal, Rabs_left by lra. replace (- (-1)) with 1 by ring. rewrite Rmult_1_l. eapply Rle_trans; [exact s7|].
      specialize (hK (fun l => fr (F (k + l)%nat i))). unfold omega. rewrite ec.
      pose proof (gam_mono (m + 3) (10 * m + 70) ltac:(lia)). pose proof (vn_nonneg m (fun l => fr (F (k + l)%nat i))).
      assert (gam (m + 3) * vn m (fun l => fr (F (k + l)%nat i)) <= gam (10 * m + 70) * vn m (fun l => fr (F (k + l)%nat i))) by (apply Rmult_le_compat_r; auto). lra.
Qed.

Lemma frob_vn r c E : frob r c E = vn c (fun q => vn r (fun p => E p q)).
Proof.
  apply Rsqr_inj; [apply frob_nonneg|apply vn_nonneg|]. unfold Rsqr. rewrite vn_sq, frob_sq, <- (frob2_tr c r). unfold frob2. apply Rsum_ext. intros q hq. rewrite vn_sq. reflexivity.
Qed.
Lemma frob_cols_le r c E T g e : 0 <= g -> 0 <= e -> (forall q, (q < c)%nat -> vn r (fun p => E p q) <= g * vn r (fun p => T p q) + e) ->
  frob r c E <= g * frob r c T + INR c * e.
Proof.
  intros hg he h. rewrite !frob_vn. eapply Rle_trans; [apply (vn_bound c _ (fun q => vn r (fun p => T p q)) g e hg he)|lra].
  intros q hq. rewrite !Rabs_pos_eq by apply vn_nonneg. auto.
Qed.

(** T' is the reflected T up to the errors of one step *)
Lemma half_step n c (F F' : nat -> nat -> FN) i k x w (T T' : M) : (k < n)%nat -> (i < c)%nat -> fstep n c F F' i k x w ->
  (forall p q, (p < k)%nat -> (q < c)%nat -> T' p q = T p q) ->
  (forall p q, (k <= p < n)%nat -> (q < i)%nat -> T' p q = 0 /\ T p q = 0) ->
  (forall p q, (k <= p < n)%nat -> (i <= q < c)%nat -> T p q = fr (F p q)) ->
  (forall p q, (k <= p < n)%nat -> (i < q < c)%nat -> T' p q = fr (F' p q)) ->
  (forall p, (k <= p < n)%nat -> T' p i = if Nat.eqb p k then Rabs (fr x) else 0) ->
  frob n c (fun p q => T' p q - mmul n (hh k (sgf x) w) T p q) <= gam (10 * n + 70) * frob n c T + INR c * omega.
Proof.
  intros hk hi [f1 f2 f3 f4 f5 f6 f7 f8] h1 h2 h3 h4 h5. pose proof omega_pos as ho. pose proof (gam_nonneg (10 * n + 70)) as hg.
  apply frob_cols_le; [auto|lra|]. intros q hq. set (t := sgf x) in *. pose proof (hh_zero _ _ _ _ f1) as hw0.
  assert (hap : forall p, (p < n)%nat -> mmul n (hh k t w) T p q = happ n k t w (fun l => T l q) p).
  { intros p hp. rewrite (hh_apply n c k t w T hw0 p q hp hq). unfold happ. reflexivity. }
  rewrite (vn_shift n k); [|lia|intros p hp; rewrite hap by lia; unfold happ; bd; rewrite h1 by auto; ring].
  assert (htail : vn (n - k) (fun l => T (k + l)%nat q) <= vn n (fun p => T p q)) by (apply (vn_tail n k (fun p => T p q)); lia).
  assert (hz : 0 <= gam (10 * n + 70) * vn n (fun p => T p q)) by (apply Rmult_le_pos; auto; apply vn_nonneg).
  destruct (Nat.lt_ge_cases q i) as [lt|ge].
  - eapply Rle_trans; [right; apply (vn_ext _ _ (fun _ => 0))|].
    + intros p hp. rewrite hap by lia. destruct (h2 (k + p)%nat q ltac:(lia) lt) as (-> & e2). unfold happ. bd. rewrite e2.
      rewrite Rsum_0; [ring|]. intros l hl. destruct (Nat.lt_ge_cases l k); [rewrite hw0 by auto; ring|]. destruct (h2 l q ltac:(lia) lt) as (_ & ->). ring.
    + pose proof (vn_const (n - k) 0) as g. rewrite Rabs_R0, Rmult_0_r in g. lra.
  - assert (hsub : forall p, (p < n - k)%nat -> happ n k t w (fun l => T l q) (k + p) = happ n k t w (fun l => fr (F l q)) (k + p)).
    { intros p hp. unfold happ. bd. rewrite h3 by lia. f_equal. f_equal. f_equal. f_equal. apply Rsum_ext. intros l hl. destruct (Nat.lt_ge_cases l k); [rewrite hw0 by auto; ring|]. rewrite h3 by lia. reflexivity. }
    assert (ht : vn (n - k) (fun l => fr (F (k + l)%nat q)) <= vn n (fun p => T p q)).
    { eapply Rle_trans; [|exact htail]. right. apply vn_ext. intros l hl. rewrite h3 by lia. reflexivity. }
    assert (hgt : gam (10 * n + 70) * vn (n - k) (fun l => fr (F (k + l)%nat q)) <= gam (10 * n + 70) * vn n (fun p => T p q)) by (apply Rmult_le_compat_l; auto).
    destruct (Nat.eq_dec q i) as [->|ne].
    + eapply Rle_trans; [right; apply vn_ext; intros p hp; rewrite hap by lia; rewrite hsub by auto; rewrite h5 by lia; replace (Nat.eqb (k + p) k) with (Nat.eqb p 0) by (bd; auto; lia); reflexivity|]. cbv beta. lra.
    + eapply Rle_trans; [right; apply vn_ext; intros p hp; rewrite hap by lia; rewrite hsub by auto; rewrite h4 by lia; reflexivity|]. cbv beta. specialize (f7 q ltac:(lia)). lra.
Qed.

(** ** Accumulation of left and right reflections *)
Lemma frob_lr r c L Rt X : orthogonal r L -> orthogonal c Rt -> frob r c (mmul r L (mmul c X (mtr Rt))) = frob r c X.
Proof.
  intros [l1 l2] [r1 r2]. unfold frob. f_equal. rewrite frob2_orth_l by auto. apply frob2_orth_r. rewrite mtr_mtr. auto.
Qed.
Lemma accum_lr r c (P Q T : nat -> M) (e : R) d :
  (forall k, (k < d)%nat -> orthogonal r (P k) /\ mmul r (P k) (P k) =[r, r]= mid) ->
  (forall k, (k < d)%nat -> orthogonal c (Q k) /\ mmul c (Q k) (Q k) =[c, c]= mid /\ mtr (Q k) =[c, c]= Q k) ->
  (forall k, (k < d)%nat -> frob r c (fun p q => T (S k) p q - mmul r (P k) (mmul c (T k) (Q k)) p q) <= e) ->
  frob r c (fun p q => T O p q - mmul r (hprod r P d) (mmul c (T d) (mtr (hprod c Q d))) p q) <= INR d * e.
Proof.
  induction d as [|d IH]; intros hP hQ he.
  - cbn [hprod]. change (INR 0) with 0. rewrite frob_zero; [lra|]. intros p q hp hq.
    assert (h : mmul r mid (mmul c (T O) (mtr mid)) =[r, c]= T O) by (rewrite mmul_1_l, mtr_mid, mmul_1_r; reflexivity).
    rewrite (h p q hp hq). ring.
  - specialize (IH ltac:(auto) ltac:(auto) ltac:(auto)). specialize (he d ltac:(lia)).
    destruct (hP d ltac:(lia)) as (ho1 & hi1). destruct (hQ d ltac:(lia)) as (ho2 & hi2 & hs2).
    set (E := fun p q => T (S d) p q - mmul r (P d) (mmul c (T d) (Q d)) p q) in *.
    assert (hop : orthogonal r (hprod r P (S d))) by (apply hprod_orthogonal; intros; apply hP; auto).
    assert (hoq : orthogonal c (hprod c Q (S d))) by (apply hprod_orthogonal; intros; apply hQ; auto).
    assert (eT : T (S d) =[r, c]= madd (mmul r (P d) (mmul c (T d) (Q d))) E) by (intros p q hp hq; unfold madd, E; ring).
    assert (e1 : mmul r (hprod r P (S d)) (mmul c (T (S d)) (mtr (hprod c Q (S d)))) =[r, c]=
      madd (mmul r (hprod r P d) (mmul c (T d) (mtr (hprod c Q d)))) (mmul r (hprod r P (S d)) (mmul c E (mtr (hprod c Q (S d)))))).
    { rewrite eT at 1. rewrite (mmul_add_l r c c), (mmul_add_r r r c). apply madd_proper; [|reflexivity]. cbn [hprod].
      rewrite (mtr_mmul c c c (hprod c Q d)), hs2. rewrite (mmul_assoc r r r c (hprod r P d)).
      apply (mmul_proper r r c); [reflexivity|].
      rewrite (mmul_assoc r r c c (P d) (mmul c (T d) (Q d))). rewrite <- (mmul_assoc r r r c (P d) (P d)). rewrite hi1, mmul_1_l.
      rewrite (mmul_assoc r c c c (T d) (Q d)). rewrite <- (mmul_assoc c c c c (Q d) (Q d)). rewrite hi2, mmul_1_l. reflexivity. }
    assert (e2 : (fun p q => T O p q - mmul r (hprod r P (S d)) (mmul c (T (S d)) (mtr (hprod c Q (S d)))) p q) =[r, c]=
      madd (fun p q => T O p q - mmul r (hprod r P d) (mmul c (T d) (mtr (hprod c Q d))) p q) (mscal (-1) (mmul r (hprod r P (S d)) (mmul c E (mtr (hprod c Q (S d))))))).
    { intros p q hp hq. rewrite (e1 p q hp hq). unfold madd, mscal. ring. }
    rewrite (frob_ext r c _ _ e2). eapply Rle_trans; [apply frob_triangle|]. rewrite frob_scal, Rabs_left, frob_lr by (auto; lra). rewrite S_INR. lra.
Qed.
