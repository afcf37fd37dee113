(** * tridiagonal.rs in floating point: one step and the accumulation over the steps *)
From Coq Require Import Reals List Arith Lia Lra Bool ZArith Setoid Morphisms.
From Coq.Floats Require Import SpecFloat.
From Flocq Require Import Core BinarySingleNaN.
From Verif Require Import Scalar Arr MBase MDirect MDecomp Inst Hoare Spec SpecF RLin PTri PHouse PTrid PEighR PRound PTriF PCholF PNormF PHouseF PQRF PQRG PQRS PCholG PTrdF.
Import ListNotations.
Local Open Scope R_scope.
Local Notation U k := ((1 + uro) ^ k).

Open Scope res_scope.
Lemma tridiag_outcome n (m : mat FN) off p i st : nr m = n -> nc m = n -> (i + 1 < n)%nat -> length off = (n - 1)%nat -> length p = (n - 1)%nat ->
  tridiag_step i (m, off, p) = Ret st -> let k := (i + 1)%nat in
  exists v o, reflection_axis_mut (vmk (n - k) (fun l => get m (k + l)%nat i)) = Ret (v, o) /\ length v = (n - k)%nat /\
    snd (fst st) = vupd off i (match o with Some x => x | None => n0 FN end) /\ length (snd st) = (n - 1)%nat /\ nr (fst (fst st)) = n /\ nc (fst (fst st)) = n /\
    forall a b, (a < n)%nat -> (b < n)%nat -> get (fst (fst st)) a b =
      if Nat.ltb a k then get m a b else if Nat.ltb b i then get m a b else if Nat.eqb b i then vget v (a - k)
      else match o with
           | Some _ => blk3 (n - k) (fun a b => get m (k + a)%nat (k + b)%nat) (vget v) (a - k) (b - k)
           | None => get m a b
           end.
Proof.
  intros h1 h2 hi ho hp e k. unfold tridiag_step in e. fold k in e.
  destruct (wp_ret (let* ax := col_from m k i in Ret ax) (fun ax => ax = vmk (nr m - k) (fun p => get m (k + p)%nat i))) as (ax & eax & ->).
  { step1. apply post_col_from; unfold k; try lia. step1. reflexivity. }
  destruct (col_from m k i) as [ax| | | |] eqn:ec; try discriminate. cbn [bind] in eax. injection eax as ->. cbn [bind] in e. rewrite h1 in e.
  set (c := vmk (n - k) (fun p => get m (k + p)%nat i)) in *. assert (lc : length c = (n - k)%nat) by apply length_vmk.
  destruct (wp_ret _ _ (reflection_axis_ok c ltac:(unfold k in *; lia))) as ([v o] & er & hv). cbn [fst] in hv. rewrite er in e. cbn [bind] in e.
  exists v, o. split; auto. split; [lia|]. set (m1 := put_col m k i v) in *. set (x := match o with Some x => x | None => n0 FN end) in *.
  unfold set1 in e. rewrite ho in e. destruct (Nat.ltb_spec i (n - 1)); [|lia]. cbn [bind] in e.
  assert (hm1 : forall p q, (p < n)%nat -> (q < n)%nat -> get m1 p q = if (Nat.leb k p && Nat.eqb q i)%bool then vget v (p - k) else get m p q).
  { intros p0 q hp0 hq. unfold m1. rewrite get_put_col by (rewrite ?h1, ?h2; auto). bd; auto. }
  assert (d1 : nr m1 = n) by (unfold m1; dims; auto). assert (d2 : nc m1 = n) by (unfold m1; dims; auto).
  destruct o as [y|].
  - match type of e with ?t = Ret st => assert (e' : wp t (fun st => snd (fst st) = vupd off i x /\ length (snd st) = (n - 1)%nat /\ nr (fst (fst st)) = n /\ nc (fst (fst st)) = n /\
        forall a b, (a < n)%nat -> (b < n)%nat -> get (fst (fst st)) a b =
          if Nat.ltb a k then get m a b else if Nat.ltb b i then get m a b else if Nat.eqb b i then vget v (a - k)
          else blk3 (n - k) (fun a b => get m (k + a)%nat (k + b)%nat) (vget v) (a - k) (b - k))) end.
    { rewrite d1, d2. step1. apply post_slice; rewrite ?d1, ?d2; try lia. step1. apply post_vfrom; [lia|].
      step1. apply post_gemv0; dims; try (unfold k; lia).
      step1. apply post_dot1; dims; [lia|]. unfold as_col, as_row.
      step1. apply post_gemm1; dims; try lia. 
      step1. apply post_gemm1; dims; try lia. 
      step1. apply post_gemm1; dims; try lia.
      apply post_ret. cbn [fst snd]. split; [reflexivity|]. split; [unfold vput; rewrite length_vmk; auto|].
      dims. rewrite ?d1, ?d2. split; [reflexivity|]. split; [reflexivity|].
      intros a b ha hb. rewrite get_put by (rewrite ?d1, ?d2; auto). dims. rewrite ?d1, ?d2.
      destruct (Nat.ltb_spec a k). { bd; rewrite hm1 by auto; bd; auto. }
      destruct (Nat.ltb_spec b i). { bd; rewrite hm1 by auto; bd; auto. }
      destruct (Nat.eqb_spec b i). { unfold k in *. bd; rewrite hm1 by auto; bd; auto. }
      assert (k <= b)%nat by (unfold k; lia). bd. cbn [andb].
      assert (hvl : forall l, (l < n - k)%nat -> forall j, (j < n - k)%nat -> get m1 (k + l)%nat (k + j)%nat = get m (k + l)%nat (k + j)%nat).
      { intros l hl j hj. rewrite hm1 by lia. unfold k. bd; auto. }
      assert (hpf : forall l, (l < n - k)%nat -> nmul FN ntwo (sumn (n - k) (fun k0 => nmul FN (get (mk (n - k) (n - k) (fun i0 j => get m1 (k + i0)%nat (k + j)%nat)) l k0) (vget v k0))) = pf (n - k) (fun a b => get m (k + a)%nat (k + b)%nat) (vget v) l).
      { intros l hl. unfold pf. f_equal. apply sumn_ext. intros j hj. rewrite get_mk by auto. rewrite hvl by auto. reflexivity. }
      rewrite get_mk by lia. unfold blk3 at 1, updf at 1. f_equal.
      - rewrite get_mk by lia. unfold blk2 at 1, updf at 1. f_equal.
        + rewrite get_mk by lia. unfold blk1, updf. f_equal.
          * rewrite get_mk by lia. rewrite hvl by lia. reflexivity.
          * f_equal. apply sumn_ext. intros j hj. rewrite !get_mk by lia. f_equal. rewrite vget_vmk by lia. apply hpf. lia.
        + f_equal. apply sumn_ext. intros j hj. rewrite !get_mk by lia. f_equal. rewrite vget_vmk by lia. apply hpf. lia.
      - f_equal.
        + unfold alf, dotf. assert (es : sumn (length v) (fun i0 => nmul FN (vget v i0) (vget (vmk (n - k) (fun i1 => nmul FN ntwo (sumn (n - k) (fun k0 => nmul FN (get (mk (n - k) (n - k) (fun i2 j => get m1 (k + i2)%nat (k + j)%nat)) i1 k0) (vget v k0))))) i0)) =
            sumn (n - k) (fun k0 => nmul FN (vget v k0) (pf (n - k) (fun a b => get m (k + a)%nat (k + b)%nat) (vget v) k0))).
          { rewrite hv, lc. apply sumn_ext. intros j hj. rewrite vget_vmk by auto. f_equal. apply hpf. auto. }
          rewrite es. reflexivity.
        + apply sumn_ext. intros j hj. rewrite !get_mk by lia. reflexivity. }
    rewrite e in e'. exact e'.
  - injection e as <-. cbn [fst snd]. split; [reflexivity|]. split; [auto|]. split; [auto|]. split; [auto|].
    intros a b ha hb. rewrite hm1 by auto. bd; auto.
Qed.
Close Scope res_scope.

(** ** The matrix represented after i steps *)
Definition trep (i : nat) (m : mat FN) (off : nat -> R) : M := fun p q =>
  if (Nat.ltb p i || Nat.ltb q i)%bool then
    (if Nat.eqb p q then frm m p p else if Nat.eqb p (q + 1) then Rabs (off q) else if Nat.eqb q (p + 1) then Rabs (off p) else 0)
  else frm m p q.
Definition rs (k : nat) (f : nat -> R) (p : nat) : R := if Nat.leb k p then f p else 0.
Definition rs2 (k : nat) (A : M) : M := fun p q => if (Nat.leb k p && Nat.leb k q)%bool then A p q else 0.
Definition dlta (i q : nat) : R := if Nat.eqb q i then 1 else 0.
Lemma rs_le n k f : vn n (rs k f) <= vn n f.
Proof. apply vn_le. intros p hp. unfold rs. destruct (Nat.leb k p); [lra|rewrite Rabs_R0; apply Rabs_pos]. Qed.
Lemma rs2_le n k A : frob n n (rs2 k A) <= frob n n A.
Proof. apply frob_le. intros p q hp hq. unfold rs2. destruct (_ && _)%bool; [lra|rewrite Rabs_R0; apply Rabs_pos]. Qed.
Lemma vn_dlta n i : (i < n)%nat -> vn n (dlta i) = 1.
Proof.
  intros hi. apply Rsqr_inj; [apply vn_nonneg|lra|]. unfold Rsqr. rewrite vn_sq. rewrite (Rsum_single n i); auto.
  - unfold dlta. rewrite Nat.eqb_refl. ring.
  - intros l hl ne. unfold dlta. bd. ring.
Qed.
Lemma rs_vn n k f : (k <= n)%nat -> vn n (rs k f) = vn (n - k) (fun p => f (k + p)%nat).
Proof. intros hk. rewrite (vn_shift n k) by (auto; intros p hp; unfold rs; bd; auto). apply vn_ext. intros p hp. unfold rs. bd. reflexivity. Qed.
Lemma rs2_frob n k A : (k <= n)%nat -> frob n n (rs2 k A) = frob (n - k) (n - k) (fun a b => A (k + a)%nat (k + b)%nat).
Proof.
  intros hk. unfold frob. f_equal. unfold frob2.
  rewrite (Rsum_ext n _ (fun p => if Nat.leb k p then Rsum n (fun q => rs2 k A p q * rs2 k A p q) else 0)).
  - rewrite Rsum_if_ge by auto. apply Rsum_ext. intros a ha.
    rewrite (Rsum_ext n _ (fun q => if Nat.leb k q then A (k + a)%nat q * A (k + a)%nat q else 0)).
    + rewrite Rsum_if_ge by auto. reflexivity.
    + intros q hq. unfold rs2. bd; cbn [andb]; ring.
  - intros p hp. bd; auto. apply Rsum_0. intros q hq. unfold rs2. bd. cbn [andb]. ring.
Qed.
Lemma happ_le n k s w X : reflector n k s w -> vn n (happ n k s w X) <= vn n X.
Proof.
  intros h. rewrite <- (vn_orth n (hh k s w) X) by (apply hh_orthogonal; auto). right. apply vn_ext. intros p hp.
  rewrite (hh_apply n 1) by (auto; apply (hh_zero _ _ _ _ h)). unfold happ, colm. reflexivity.
Qed.
Lemma frob_tr n A : frob n n (mtr A) = frob n n A.
Proof. unfold frob. rewrite frob2_tr. reflexivity. Qed.
Lemma zeta_g m : zeta <= gam (2 * m + 20) * zfl.
Proof.
  pose proof (gam_ge (2 * m + 20)) as h1. rewrite plus_INR in h1. pose proof (pos_INR (2 * m)). pose proof uro_pos. pose proof zfl_pos.
  assert (INR 20 = 20) by (simpl; lra). assert (0 <= INR (2 * m) * uro) by (apply Rmult_le_pos; lra).
  rewrite H2 in h1. apply Rle_trans with (uro * zfl); [|apply Rmult_le_compat_r; lra].
  rewrite uro_bpow. unfold zeta, zfl. rewrite <- bpow_plus. apply bpow_le. lia.
Qed.

Section TStep.
Variables (n i : nat) (m m' : mat FN) (off : nat -> R) (v : list FN) (o : option FN).
Let k := (i + 1)%nat.
Let x : FN := match o with Some x => x | None => n0 FN end.
Let T := trep i m off.
Let T' := trep (i + 1) m' off.
Let g := gam (2 * n + 20).
Let Nb := frob n n T + zfl.
Let sg := frob n n (fun p q => T p q - T q p).
Hypothesis hn : fits n.
Hypothesis hi : (i + 1 < n)%nat.
Hypothesis h1 : nr m = n.
Hypothesis h2 : nc m = n.
Hypothesis hv : mvalid m.
Hypothesis hf : forall p q, (i <= p < n)%nat -> (i <= q < n)%nat -> ffin (get m p q).
Hypothesis hoff : off i = fr x.
Hypothesis hax : reflection_axis_mut (vmk (n - k) (fun l => get m (k + l)%nat i)) = Ret (v, o).
Hypothesis lv : length v = (n - k)%nat.
Hypothesis h3 : forall a b, (a < n)%nat -> (b < n)%nat -> get m' a b =
      if Nat.ltb a k then get m a b else if Nat.ltb b i then get m a b else if Nat.eqb b i then vget v (a - k)
      else match o with
           | Some _ => blk3 (n - k) (fun a b => get m (k + a)%nat (k + b)%nat) (vget v) (a - k) (b - k)
           | None => get m a b
           end.
Hypothesis d1 : nr m' = n.
Hypothesis d2 : nc m' = n.
Hypothesis hcap : Nb <= cap.
Hypothesis hx : fr x = 0 \/ tiny <= Rabs (fr x).

Let c := vmk (n - k) (fun l => get m (k + l)%nat i).
Lemma T_in p q : (i <= p)%nat -> (i <= q)%nat -> T p q = frm m p q.
Proof. intros. unfold T, trep. destruct (Nat.ltb_spec p i); [lia|]. destruct (Nat.ltb_spec q i); [lia|]. reflexivity. Qed.
Lemma c_vn : vn (n - k) (frv c) <= frob n n T.
Proof.
  assert (hk : (k <= n)%nat) by (unfold k; lia).
  rewrite (vn_ext (n - k) (frv c) (fun p => T (k + p)%nat i)).
  - eapply Rle_trans; [apply (vn_tail n k (fun p => T p i) hk)|]. unfold vn. apply frob_col_le. lia.
  - intros p hp. rewrite T_in by (unfold k; lia). unfold frv, frm, c. rewrite vget_vmk by auto. reflexivity.
Qed.
Lemma blk_le : frob (n - k) (n - k) (fun a b => fr (get m (k + a)%nat (k + b)%nat)) <= frob n n T.
Proof.
  assert (hk : (k <= n)%nat) by (unfold k; lia).
  eapply Rle_trans; [|apply (rs2_le n k T)]. rewrite rs2_frob by auto. right. apply frob_ext. intros a b ha hb. rewrite T_in by (unfold k; lia). reflexivity.
Qed.
Lemma gk : gam (2 * (n - k) + 20) <= g. Proof. apply gam_mono. lia. Qed.

Lemma tstep : exists w : nat -> R,
  reflector n k (sgf x) w /\ unitf (nsignum FN x) /\ fvalid x /\ ffin x /\
  (forall p, (k <= p < n)%nat -> fvalid (get m' p i) /\ ffin (get m' p i)) /\
  vn (n - k) (fun p => frm m' (k + p)%nat i - w (k + p)%nat) <= gam (2 * (n - k) + 15) /\
  mvalid m' /\ (forall p q, (k <= p < n)%nat -> (k <= q < n)%nat -> ffin (get m' p q)) /\
  frob n n (fun p q => T' p q - mmul n (hh k (sgf x) w) (mmul n T (hh k (sgf x) w)) p q) <= 83 * (g * Nb) + 3 * sg /\
  frob n n (fun p q => T' p q - T' q p) <= sg + 160 * (g * Nb).
Proof.
  assert (hk : (k <= n)%nat) by (unfold k; lia). assert (hik : (i < k)%nat) by (unfold k; lia).
  pose proof zfl_pos as hz. pose proof (frob_nonneg n n T) as hN0. pose proof (gam_nonneg (2 * n + 20)) as hg0. fold g in hg0. pose proof gk as hgk. pose proof cap_ge1 as hc1.
  assert (lc : length c = (n - k)%nat) by apply length_vmk.
  assert (gc : forall p, (p < n - k)%nat -> vget c p = get m (k + p)%nat i) by (intros p hp; unfold c; rewrite vget_vmk by auto; reflexivity).
  assert (vc : vvalid c) by (intros p hp; rewrite lc in hp; rewrite gc by auto; apply hv; lia).
  assert (fc : forall p, (p < length c)%nat -> ffin (vget c p)) by (intros p hp; rewrite lc in hp; rewrite gc by auto; apply hf; lia).
  pose proof c_vn as hcv.
  destruct (axis_fwd n c v o hn ltac:(lia) vc fc ltac:(rewrite lc; unfold Nb in hcap; lra) hax) as (vx & fx & bx). fold x in vx, fx, bx.
  assert (hd : diag_ok x) by (split; [exact fx|]; destruct hx; [left; auto|right; split; auto]).
  destruct (step_float n c v o hn ltac:(lia) vc hax hd) as (w0 & [s1 s2 s3 s4 s5 s6 s7 s8] & so). rewrite lc in *. fold x in s4, s5, s7.
  set (W := wfull k w0). set (s := sgf x) in *.
  assert (hss : s * s = 1) by (apply (unitf_fr _ s5)).
  assert (hW0 : forall p, (p < k)%nat -> W p = 0) by (intros p hp; unfold W, wfull; bd; auto).
  assert (hWk : forall p, W (k + p)%nat = w0 p) by (intros p; unfold W, wfull; bd; f_equal; lia).
  assert (href : reflector n k s W).
  { constructor; auto. destruct s6 as [h|h]; [left|right].
    - unfold W at 1. rewrite wfull_sum by auto. rewrite <- h. apply Rsum_ext. intros p hp. rewrite hWk. reflexivity.
    - intros p hp. destruct (le_lt_dec k p) as [l|l]; [|auto]. replace p with (k + (p - k))%nat by lia. rewrite hWk. apply h. lia. }
  assert (hWn : vn n W <= 1) by (apply w_le1; apply (hh_unit _ _ _ _ href)).
  set (Tw := fun p => Rsum n (fun l => W l * T p l)). set (Tu := fun q => Rsum n (fun l => W l * T l q)). set (wTw := Rsum n (fun l => W l * Tw l)).
  set (blkF := fun p q => T p q - 2 * (Tw p * W q) - 2 * (W p * Tw q) + 4 * wTw * (W p * W q)).
  set (EB := fun p q => T' p q - blkF p q).
  assert (hT' : forall p q, (k <= p)%nat -> (k <= q)%nat -> T' p q = frm m' p q).
  { intros p q hp hq. unfold T', trep. fold k. destruct (Nat.ltb_spec p k); [lia|]. destruct (Nat.ltb_spec q k); [lia|]. reflexivity. }
  (* the block *)
  assert (hTw : forall a, (a < n - k)%nat -> Tw (k + a)%nat = Rsum (n - k) (fun l => fr (get m (k + a)%nat (k + l)%nat) * w0 l)).
  { intros a ha. unfold Tw, W. rewrite wfull_sum by auto. apply Rsum_ext. intros l hl. rewrite T_in by (unfold k; lia). unfold frm. ring. }
  assert (hEB : (forall p q, (k <= p < n)%nat -> (k <= q < n)%nat -> fvalid (get m' p q) /\ ffin (get m' p q)) /\ frob n n (rs2 k EB) <= 80 * (g * Nb)).
  { rewrite rs2_frob by auto. destruct o as [y|].
    - destruct (block_float n (n - k) (fun a b => get m (k + a)%nat (k + b)%nat) (vget v) w0) as (b1 & b2); auto; try lia.
      + intros a b ha hb. split; [apply hv; lia|apply hf; lia].
      + eapply Rle_trans; [|exact hcap]. unfold Nb. pose proof blk_le. lra.
      + assert (eg : forall a b, (a < n - k)%nat -> (b < n - k)%nat -> get m' (k + a)%nat (k + b)%nat = blk3 (n - k) (fun a b => get m (k + a)%nat (k + b)%nat) (vget v) a b).
        { intros a b ha hb. rewrite h3 by lia. destruct (Nat.ltb_spec (k + a) k); [lia|]. destruct (Nat.ltb_spec (k + b) i); [lia|]. destruct (Nat.eqb_spec (k + b) i); [lia|]. f_equal; lia. }
        split.
        * intros p q hp hq. replace p with (k + (p - k))%nat by lia. replace q with (k + (q - k))%nat by lia. rewrite eg by lia. apply b1; lia.
        * eapply Rle_trans; [right; apply frob_ext|eapply Rle_trans; [exact b2|]].
          -- intros a b ha hb. unfold EB. rewrite hT' by lia. unfold frm. rewrite eg by auto. f_equal. unfold blkF, blkx. rewrite !hWk, !hTw by auto. rewrite T_in by (unfold k; lia).
             unfold frm. f_equal. f_equal. f_equal. unfold wTw, W. rewrite wfull_sum by auto. apply Rsum_ext. intros l hl. f_equal. apply hTw. auto.
          -- apply Rmult_le_compat_l; [lra|]. apply Rmult_le_compat; [apply gam_nonneg| |exact hgk|unfold Nb; pose proof blk_le; lra].
             pose proof (frob_nonneg (n - k) (n - k) (fun a b => fr (get m (k + a)%nat (k + b)%nat))). lra.
    - assert (hw : forall p, W p = 0). { intros p. unfold W, wfull. destruct (Nat.ltb p k); auto. }
      assert (eg : forall p q, (k <= p < n)%nat -> (k <= q < n)%nat -> get m' p q = get m p q).
      { intros p q hp hq. rewrite h3 by lia. destruct (Nat.ltb_spec p k); [lia|]. destruct (Nat.ltb_spec q i); [lia|]. destruct (Nat.eqb_spec q i); [lia|]. reflexivity. }
      split.
      + intros p q hp hq. rewrite eg by auto. split; [apply hv; lia|apply hf; lia].
      + rewrite frob_zero; [apply Rmult_le_pos; [lra|apply Rmult_le_pos; unfold Nb; lra]|].
        intros a b ha hb. unfold EB, blkF. rewrite hT', T_in, !hw by (unfold k; lia). unfold frm. rewrite eg by lia. ring. }
  destruct hEB as (hfm & hEB).
  exists W. split; [exact href|]. split; [exact s5|]. split; [exact vx|]. split; [exact fx|].
  assert (hcolm : forall p, (k <= p < n)%nat -> get m' p i = vget v (p - k)).
  { intros p hp. rewrite h3 by lia. destruct (Nat.ltb_spec p k); [lia|]. destruct (Nat.ltb_spec i i); [lia|]. rewrite Nat.eqb_refl. reflexivity. }
  split. { intros p hp. rewrite hcolm by auto. apply s3. lia. }
  split. { eapply Rle_trans; [|exact s8]. right. apply vn_ext. intros p hp. unfold frm, frv. rewrite hcolm by lia. rewrite hWk. f_equal. f_equal. f_equal. lia. }
  split.
  { intros p q hp hq. rewrite d1 in hp. rewrite d2 in hq. destruct (le_lt_dec k p) as [l1|l1]; [destruct (le_lt_dec k q) as [l2|l2]|].
    - apply hfm; lia.
    - destruct (Nat.eq_dec q i) as [->|ne]; [rewrite hcolm by auto; apply s3; lia|]. rewrite h3 by auto. destruct (Nat.ltb_spec p k); [lia|]. destruct (Nat.ltb_spec q i); [|unfold k in *; lia]. apply hv; lia.
    - rewrite h3 by auto. destruct (Nat.ltb_spec p k); [|lia]. apply hv; lia. }
  split. { intros p q hp hq. apply hfm; auto. }
  (* finished entries *)
  assert (hrow : forall p q, (p < k)%nat -> (q < k)%nat -> T' p q = T p q).
  { intros p q hp hq. unfold T', T, trep. fold k. destruct (Nat.ltb_spec p k); [|lia]. cbn [orb].
    assert (em : forall p, (p < k)%nat -> frm m' p p = frm m p p). { intros z hz'. unfold frm. rewrite h3 by lia. destruct (Nat.ltb_spec z k); [|lia]. reflexivity. }
    destruct (Nat.ltb_spec p i); [cbn [orb]; rewrite em by auto; reflexivity|]. destruct (Nat.ltb_spec q i); [cbn [orb]; rewrite em by auto; reflexivity|].
    replace q with p by (unfold k in *; lia). rewrite Nat.eqb_refl. cbn [orb]. apply em. auto. }
  assert (hfar : forall p q, (k <= p)%nat -> (q < i)%nat -> T' p q = 0 /\ T p q = 0 /\ T' q p = 0 /\ T q p = 0).
  { intros p q hp hq. unfold T', T, trep. fold k. destruct (Nat.ltb_spec p k); [lia|]. destruct (Nat.ltb_spec q k); [|lia]. destruct (Nat.ltb_spec q i); [|lia]. destruct (Nat.ltb_spec p i); [lia|]. cbn [orb].
    destruct (Nat.eqb_spec p q); [lia|]. destruct (Nat.eqb_spec q p); [lia|]. destruct (Nat.eqb_spec p (q + 1)); [unfold k in *; lia|]. destruct (Nat.eqb_spec q (p + 1)); [lia|]. auto. }
  assert (hcl : forall p, (k <= p)%nat -> T' p i = (if Nat.eqb p k then Rabs (fr x) else 0) /\ T' i p = (if Nat.eqb p k then Rabs (fr x) else 0)).
  { intros p hp. unfold T', trep. fold k. destruct (Nat.ltb_spec p k); [lia|]. destruct (Nat.ltb_spec i k); [|lia]. cbn [orb].
    destruct (Nat.eqb_spec p i); [lia|]. destruct (Nat.eqb_spec i p); [lia|]. fold k. destruct (Nat.eqb_spec i (p + 1)); [lia|]. rewrite hoff. destruct (Nat.eqb_spec p k); auto. }
  assert (hgn : 0 <= g * Nb) by (apply Rmult_le_pos; unfold Nb; lra).
  split.
  - set (dc := fun p => (if Nat.eqb p k then Rabs (fr x) else 0) - happ n k s W (fun l => T l i) p).
    set (ha := happ n k s W (fun l => T l i - T i l)). set (asy := fun q => Tu q - Tw q).
    assert (eY : mmul n T (hh k s W) =[n, n]= (fun p q => if Nat.ltb q k then T p q else s * (T p q - 2 * (W q * Tw p)))) by (apply hh_apply_r; auto).
    assert (ePY : forall p q, (p < n)%nat -> (q < n)%nat -> mmul n (hh k s W) (mmul n T (hh k s W)) p q =
       if Nat.ltb p k then (if Nat.ltb q k then T p q else s * (T p q - 2 * (W q * Tw p)))
       else if Nat.ltb q k then s * (T p q - 2 * (W p * Tu q)) else T p q - 2 * (W q * Tw p) - 2 * (W p * Tu q) + 4 * wTw * (W p * W q)).
    { intros p q hp hq. rewrite (hh_apply n n k s W _ hW0 p q hp hq). destruct (Nat.ltb_spec p k). { rewrite (eY p q hp hq). reflexivity. }
      rewrite (eY p q hp hq). cbv beta. destruct (Nat.ltb_spec q k) as [lq|lq].
      - rewrite (Rsum_ext n _ (fun l => W l * T l q)).
        2:{ intros l hl. rewrite (eY l q hl hq). destruct (Nat.ltb_spec q k); [|lia]. reflexivity. }
        fold (Tu q). reflexivity.
      - rewrite (Rsum_ext n _ (fun l => s * (W l * T l q) - s * (2 * W q) * (W l * Tw l))).
        2:{ intros l hl. rewrite (eY l q hl hq). destruct (Nat.ltb_spec q k); [lia|]. ring. }
        rewrite Rsum_minus, !Rsum_scal_l. fold (Tu q). fold wTw.
        replace (s * (s * (T p q - 2 * (W q * Tw p)) - 2 * (W p * (s * Tu q - s * (2 * W q) * wTw)))) with ((s * s) * (T p q - 2 * (W q * Tw p) - 2 * (W p * Tu q) + 4 * wTw * (W p * W q))) by ring.
        rewrite hss. ring. }
    assert (hdec : (fun p q => T' p q - mmul n (hh k s W) (mmul n T (hh k s W)) p q) =[n, n]=
      madd (madd (fun p q => rs k dc p * dlta i q) (fun p q => dlta i p * (rs k dc q + rs k ha q))) (madd (rs2 k EB) (fun p q => (2 * W p) * rs k asy q))).
    { intros p q hp hq. unfold madd. rewrite ePY by auto. unfold rs, rs2, dlta.
      destruct (Nat.ltb_spec p k) as [lp|lp]; destruct (Nat.ltb_spec q k) as [lq|lq]; destruct (Nat.leb_spec k p); try lia; destruct (Nat.leb_spec k q); try lia; cbn [andb].
      - rewrite hrow, (hW0 p) by auto. ring.
      - rewrite (hW0 p) by auto. destruct (Nat.eqb_spec p i) as [->|ne].
        + destruct (hcl q ltac:(auto)) as (_ & ->). unfold dc, ha, happ. destruct (Nat.ltb_spec q k); [lia|]. 
          rewrite (Rsum_ext n (fun l => W l * (T l i - T i l)) (fun l => W l * T l i - W l * T i l)) by (intros; ring). rewrite Rsum_minus. fold (Tw i). ring.
        + destruct (hfar q p ltac:(auto) ltac:(unfold k in *; lia)) as (_ & _ & -> & ->).
          assert (hz0 : Tw p = 0). { apply Rsum_0. intros l hl. destruct (le_lt_dec k l); [|rewrite hW0 by auto; ring]. destruct (hfar l p ltac:(auto) ltac:(unfold k in *; lia)) as (_ & _ & _ & ->). ring. }
          rewrite hz0. ring.
      - destruct (Nat.eqb_spec p i); [lia|]. destruct (Nat.eqb_spec q i) as [->|ne].
        + destruct (hcl p ltac:(auto)) as (-> & _). unfold dc, happ. destruct (Nat.ltb_spec p k); [lia|]. fold (Tu i). ring.
        + destruct (hfar p q ltac:(auto) ltac:(unfold k in *; lia)) as (-> & -> & _ & _).
          assert (hz0 : Tu q = 0). { apply Rsum_0. intros l hl. destruct (le_lt_dec k l); [|rewrite hW0 by auto; ring]. destruct (hfar l q ltac:(auto) ltac:(unfold k in *; lia)) as (_ & -> & _ & _). ring. }
          rewrite hz0. ring.
      - destruct (Nat.eqb_spec p i); [lia|]. destruct (Nat.eqb_spec q i); [lia|]. unfold EB, blkF, asy. ring. }
    rewrite (frob_ext n n _ _ hdec). eapply Rle_trans; [apply frob_triangle|]. eapply Rle_trans; [apply Rplus_le_compat; apply frob_triangle|]. rewrite !frob_outer, vn_dlta by lia.
    assert (b1 : vn n (rs k dc) <= g * Nb).
    { rewrite rs_vn by auto. eapply Rle_trans; [right; apply (vn_ext (n - k) _ (fun p => -1 * (s * (frv c p - 2 * (w0 p * Rsum (n - k) (fun l => w0 l * frv c l))) - (if Nat.eqb p 0 then Rabs (fr x) else 0))))|].
      - intros p hp. unfold dc, W. rewrite happ_mirr by auto. unfold mirr.
        assert (ec : forall l, (l < n - k)%nat -> T (k + l)%nat i = frv c l). { intros l hl. rewrite T_in by (unfold k; lia). unfold frv, frm. rewrite gc by auto. reflexivity. }
        rewrite ec by auto. rewrite (Rsum_ext (n - k) (fun l => w0 l * T (k + l)%nat i) (fun l => w0 l * frv c l)) by (intros l hl; rewrite ec by auto; reflexivity).
        destruct (Nat.eqb_spec (k + p) k), (Nat.eqb_spec p 0); try lia; ring.
      - rewrite vn_scal, Rabs_left by lra. replace (- (-1)) with 1 by ring. rewrite Rmult_1_l. eapply Rle_trans; [exact s7|].
        assert (gam (n - k + 3) <= g) by (apply gam_mono; lia). pose proof (zeta_g n) as hzg. fold g in hzg. pose proof (vn_nonneg (n - k) (frv c)).
        assert (gam (n - k + 3) * vn (n - k) (frv c) <= g * frob n n T) by (apply Rmult_le_compat; auto; apply gam_nonneg). unfold Nb. lra. }
    assert (b2 : vn n (rs k ha) <= sg).
    { eapply Rle_trans; [apply rs_le|]. unfold ha. eapply Rle_trans; [apply happ_le; auto|]. unfold vn, sg. apply (frob_col_le n n (fun p q => T p q - T q p) i). lia. }
    assert (b3 : vn n (fun q => rs k dc q + rs k ha q) <= g * Nb + sg) by (eapply Rle_trans; [apply vn_plus|]; lra).
    assert (b4 : vn n (fun p => 2 * W p) * vn n (rs k asy) <= 2 * sg).
    { rewrite vn_scal, (Rabs_pos_eq 2) by lra. assert (vn n (rs k asy) <= sg * 1).
      - eapply Rle_trans; [apply rs_le|]. eapply Rle_trans; [right; apply (vn_ext n asy (fun q => Rsum n (fun l => (T l q - T q l) * W l)))|].
        + intros q hq. unfold asy, Tu, Tw. rewrite <- Rsum_minus. apply Rsum_ext. intros. ring.
        + eapply Rle_trans; [apply (vn_mv n n (fun q l => T l q - T q l))|]. apply Rmult_le_compat; [apply frob_nonneg|apply vn_nonneg| |auto].
          unfold sg. rewrite <- (frob_tr n (fun p q => T p q - T q p)). right. apply frob_ext. intros p q hp hq. reflexivity.
      - rewrite Rmult_1_r in H. pose proof (vn_nonneg n W). pose proof (vn_nonneg n (rs k asy)). assert (vn n W * vn n (rs k asy) <= 1 * sg) by (apply Rmult_le_compat; auto). lra. }
    lra.
  - assert (hdec : (fun p q => T' p q - T' q p) =[n, n]= madd (rs2 k (fun p q => T p q - T q p)) (madd (rs2 k EB) (mscal (-1) (mtr (rs2 k EB))))).
    { intros p q hp hq. unfold madd, mscal, mtr, rs2.
      destruct (Nat.leb_spec k p) as [lp|lp]; destruct (Nat.leb_spec k q) as [lq|lq]; cbn [andb].
      - unfold EB, blkF. ring.
      - destruct (Nat.eq_dec q i) as [->|ne].
        + destruct (hcl p lp) as (-> & ->). ring.
        + destruct (hfar p q lp ltac:(unfold k in *; lia)) as (-> & _ & -> & _). ring.
      - destruct (Nat.eq_dec p i) as [->|ne].
        + destruct (hcl q lq) as (-> & ->). ring.
        + destruct (hfar q p lq ltac:(unfold k in *; lia)) as (-> & _ & -> & _). ring.
      - rewrite Rmult_0_r, !Rplus_0_r. unfold T', trep. fold k. destruct (Nat.ltb_spec p k); [|lia]. destruct (Nat.ltb_spec q k); [|lia]. cbn [orb].
        destruct (Nat.eqb_spec p q) as [->|]; [rewrite Nat.eqb_refl; ring|]. destruct (Nat.eqb_spec q p); [lia|].
        destruct (Nat.eqb_spec p (q + 1)), (Nat.eqb_spec q (p + 1)); try lia; ring. }
    rewrite (frob_ext n n _ _ hdec). eapply Rle_trans; [apply frob_triangle|]. eapply Rle_trans; [apply Rplus_le_compat; [apply rs2_le|apply frob_triangle]|].
    rewrite frob_scal, frob_tr, Rabs_left by lra. fold sg. lra.
Qed.
End TStep.
