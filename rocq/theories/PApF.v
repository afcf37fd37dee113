(** * Reflections in floating point: results are finite on inputs of moderate size; assemble_q with any shift *)
From Coq Require Import Reals List Arith Lia Lra Bool ZArith Setoid Morphisms.
From Coq.Floats Require Import SpecFloat.
From Flocq Require Import Core BinarySingleNaN.
From Verif Require Import Scalar Arr MBase MDirect MDecomp Inst Hoare Spec SpecF RLin PTri PHouse PTrid PEighR PRound PTriF PCholF PNormF PHouseF PQRF PQRG PQRS PCholG PTrdF.
Import ListNotations.
Local Open Scope R_scope.
Local Notation U k := ((1 + uro) ^ k).

Lemma gam16 n m : fits n -> (m <= n)%nat -> gam (2 * m + 20) <= / 8.
Proof.
  intros hn hm. pose proof (gam_double (2 * m + 20)) as a1. pose proof (gam_double (2 * (2 * m + 20))) as a2. pose proof (gam_double (2 * (2 * (2 * m + 20)))) as a3.
  pose proof (fits_U n (2 * (2 * (2 * (2 * m + 20)))) hn ltac:(lia)) as a4. rewrite U_gam in a4. lra.
Qed.
Lemma meta1 n m : fits n -> (m <= n)%nat -> INR m * eta <= 1.
Proof.
  intros hn hm. pose proof (zfl_abs1 n m hn hm). pose proof cap_ge1. pose proof eta_pos. pose proof (pos_INR m). pose proof uro_pos. pose proof uro_1024.
  assert (zfl <= 1) by (apply (bpow_le radix2 (-450) 0); lia). pose proof zfl_pos. assert (uro * zfl <= 1) by nra.
  assert (INR m * eta <= INR m * ((1 + 8 * cap) * eta)); [|assert (0 <= INR m * ((1 + 8 * cap) * eta)) by (apply Rmult_le_pos; auto; apply Rmult_le_pos; lra); lra].
  apply Rmult_le_compat_l; auto. rewrite <- (Rmult_1_l eta) at 1. apply Rmult_le_compat_r; lra.
Qed.
Lemma apply_fwd n m (v y : nat -> FN) sg : fits n -> (0 < m <= n)%nat ->
  (forall i, (i < m)%nat -> fokx (v i)) -> (forall i, (i < m)%nat -> fokx (y i)) -> unitf sg ->
  vn m (fun i => fr (v i)) <= 2 -> vn m (fun i => fr (y i)) <= 4 * cap ->
  forall i, (i < m)%nat -> ffin (nmul FN (afl m v y i) sg).
Proof.
  intros hn hm hv hy hsg hV hY i hi.
  pose proof (gam16 n m hn ltac:(lia)) as hg. pose proof (gam_mono (S m) (2 * m + 20) ltac:(lia)) as hg1. pose proof (gam_nonneg (S m)) as hg2. pose proof (meta1 n m hn ltac:(lia)) as hme.
  pose proof cap_ge1 as hc1. pose proof uro_pos as hu. pose proof uro_1024 as hu1. pose proof eta_pos as hep.
  assert (he1 : eta <= 1). { change eta with (bpow radix2 (-1075)). apply (bpow_le radix2 (-1075) 0). discriminate. }
  assert (hcb : 1024 * cap <= bpow radix2 1010 /\ 1024 * cap <= bpow radix2 1023).
  { unfold cap. change 1024 with (bpow radix2 10). rewrite <- bpow_plus. split; apply bpow_le; lia. }
  destruct hcb as (hcb & hcb').
  assert (hB : Rsum m (fun j => Rabs (fr (v j)) * Rabs (fr (y j))) <= 8 * cap).
  { eapply Rle_trans; [apply Rle_abs|]. eapply Rle_trans; [apply (vn_dot m (fun j => Rabs (fr (v j))) (fun j => Rabs (fr (y j))))|]. rewrite !vn_abs.
    replace (8 * cap) with (2 * (4 * cap)) by ring. apply Rmult_le_compat; auto; apply vn_nonneg. }
  destruct (dot_err v y m (8 * cap) hv hy hB ltac:(lra) ltac:(lra) hme) as (f1 & e1).
  set (s := sumn m (fun k => nmul FN (v k) (y k))) in *.
  assert (aS : Rabs (Rsum m (fun j => fr (v j) * fr (y j))) <= 8 * cap).
  { eapply Rle_trans; [apply Rsum_abs|]. eapply Rle_trans; [|exact hB]. apply Rsum_le. intros. rewrite Rabs_mult. lra. }
  assert (as1 : Rabs (fr s) <= 12 * cap).
  { replace (fr s) with ((fr s - Rsum m (fun j => fr (v j) * fr (y j))) + Rsum m (fun j => fr (v j) * fr (y j))) by ring. eapply Rle_trans; [apply Rabs_triang|].
    assert (gam (S m) * (8 * cap) <= / 8 * (8 * cap)) by (apply Rmult_le_compat_r; lra). pose proof (pos_INR m). lra. }
  unfold afl. fold s. destruct f1 as (vs & fs).
  assert (v0 : fvalid (n0 FN)) by reflexivity. assert (f0 : ffin (n0 FN)) by reflexivity. assert (r0 : fr (n0 FN) = 0) by reflexivity.
  set (s1 := nsub FN s (n0 FN)).
  assert (fs1 : ffin s1) by (apply sub_fin; auto; rewrite r0, Rminus_0_r; lra).
  assert (vs1 : fvalid s1) by (apply fvalid_sub; auto).
  destruct (sub_std s (n0 FN) vs v0 fs1) as (_ & _ & dl & hd & es1). apply dlt_u in hd. rewrite r0, Rminus_0_r in es1. fold s1 in es1.
  assert (as2 : Rabs (fr s1) <= 24 * cap).
  { rewrite es1, Rabs_mult. assert (Rabs (1 + dl) <= 2) by (eapply Rle_trans; [apply Rabs_triang|]; rewrite Rabs_R1; lra).
    replace (24 * cap) with ((12 * cap) * 2) by ring. apply Rmult_le_compat; auto; apply Rabs_pos. }
  set (t := nopp FN (ntwo (N := FN))).
  assert (ht : fokx t /\ Rabs (fr t) = 2).
  { unfold t. rewrite two_f. split; [split; reflexivity|]. assert (e0 : nopp FN (f_of_Z 2) = f_of_Z (-2)) by (vm_compute; reflexivity). assert (e : fr (f_of_Z (-2)) = -2) by (unfold fr; cbn; unfold F2R; cbn; lra). rewrite e0, e, Rabs_left; lra. }
  destruct ht as (ht & at').
  destruct (mul_err s1 t (conj vs1 fs1) ht) as (f2 & e2). { rewrite at'. lra. }
  rewrite at' in e2. set (s2 := nmul FN s1 t) in *.
  assert (as3 : Rabs (fr s2) <= 100 * cap).
  { replace (fr s2) with ((fr s2 - fr s1 * fr t) + fr s1 * fr t) by ring. eapply Rle_trans; [apply Rabs_triang|]. rewrite (Rabs_mult (fr s1)), at'.
    assert (uro * (Rabs (fr s1) * 2) <= 1 * (Rabs (fr s1) * 2)) by (apply Rmult_le_compat_r; [pose proof (Rabs_pos (fr s1)); lra|lra]). lra. }
  pose proof (vn_entry m (fun i => fr (v i)) i hi) as avi. cbv beta in avi. pose proof (vn_entry m (fun i => fr (y i)) i hi) as ayi. cbv beta in ayi.
  assert (p1 : Rabs (fr s2) * Rabs (fr (v i)) <= 200 * cap).
  { replace (200 * cap) with ((100 * cap) * 2) by ring. apply Rmult_le_compat; try apply Rabs_pos; lra. }
  destruct (mul_err s2 (v i) f2 (hv i hi) ltac:(lra)) as (f3 & e3). set (s3 := nmul FN s2 (v i)) in *.
  assert (as4 : Rabs (fr s3) <= 401 * cap).
  { replace (fr s3) with ((fr s3 - fr s2 * fr (v i)) + fr s2 * fr (v i)) by ring. eapply Rle_trans; [apply Rabs_triang|]. rewrite (Rabs_mult (fr s2)).
    assert (uro * (Rabs (fr s2) * Rabs (fr (v i))) <= 1 * (200 * cap)) by (apply Rmult_le_compat; try lra; apply Rmult_le_pos; apply Rabs_pos). lra. }
  destruct (add_err (y i) s3 (hy i hi) f3 ltac:(lra)) as ((v4 & f4) & _).
  apply (proj1 (mul_unit _ sg v4 hsg)). exact f4.
Qed.

(** ** assemble_q with a shift *)
Lemma assemble_trace_s {N : Num} (m : mat N) s df (d : nat -> N) q : let n := nr m in let dim := Nat.min (nr m) (nc m) in (s <= dim)%nat ->
  (forall i, (i < dim - s)%nat -> df i = Ret (d i)) -> assemble_q m s df = Ret q ->
  exists ss : nat -> mat N, ss O = q /\ (forall k, (k <= dim - s)%nat -> nr (ss k) = n /\ nc (ss k) = dim) /\
    (forall p j, (p < n)%nat -> (j < dim)%nat -> get (ss (dim - s)%nat) p j = if Nat.eqb p j then n1 N else n0 N) /\
    forall k, (k < dim - s)%nat -> forall p j, (p < n)%nat -> (j < dim)%nat -> get (ss k) p j =
      if Nat.ltb p (k + s) then get (ss (S k)) p j else if Nat.ltb j k then get (ss (S k)) p j else
      nmul N (refl_entry (fun l => get m (k + s + l)%nat k) (n0 N) (n - (k + s)) (fun l b => get (ss (S k)) (k + s + l)%nat b) (p - (k + s)) j) (nsignum N (d k)).
Proof.
  intros n dim hle hd e. unfold assemble_q in e. set (c := nc m) in *. fold n in e. change (Nat.min n c) with dim in e.
  unfold usub in e. destruct (Nat.leb_spec s dim); [|lia]. cbn [bind] in e.
  destruct (for_rev_trace _ _ _ _ e) as (ss & h1 & h2 & h3). exists ss. split; auto.
  assert (hdn : (dim <= n)%nat) by (unfold dim, n; lia). assert (hdc : (dim <= c)%nat) by (unfold dim, c; lia).
  assert (hb : forall k, (k < dim - s)%nat -> nr (ss (S k)) = n -> nc (ss (S k)) = dim -> nr (ss k) = n /\ nc (ss k) = dim /\
     forall p j, (p < n)%nat -> (j < dim)%nat -> get (ss k) p j = if Nat.ltb p (k + s) then get (ss (S k)) p j else if Nat.ltb j k then get (ss (S k)) p j else
      nmul N (refl_entry (fun l => get m (k + s + l)%nat k) (n0 N) (n - (k + s)) (fun l b => get (ss (S k)) (k + s + l)%nat b) (p - (k + s)) j) (nsignum N (d k))).
  { intros k hk g1 g2. specialize (h3 k hk). cbv beta in h3. set (q1 := ss (S k)) in *.
    refine (post_inv _ (fun r => nr r = n /\ nc r = dim /\ forall p j, (p < n)%nat -> (j < dim)%nat -> get r p j = _) noE False _ _ h3).
    step1. apply post_col_from; try (fold n; fold c; lia). step1. apply post_slice; try lia.
    step1. eapply post_mono; [apply reflect_cols_ok; simpl; dims; fold n; lia|].
    intros y (y1 & y2 & y3). dims. cbn [axis bias] in y3. rewrite g1, g2 in *. rewrite hd by auto. cbn [bind]. apply post_ret. dims.
    split; auto. split; auto. intros p j hp hj. rewrite get_put by lia. dims. rewrite y1, y2.
    destruct (Nat.ltb_spec p (k + s)); [bd; auto|]. destruct (Nat.ltb_spec j k); [bd; auto|]. bd. rewrite get_mscale by lia. f_equal.
    rewrite y3 by lia. unfold refl_entry. rewrite get_mk by lia. rewrite vget_vmk by (fold n; lia).
    replace (k + (j - k))%nat with j by lia. fold n. f_equal. f_equal. f_equal. f_equal. apply sumn_ext. intros l hl. rewrite vget_vmk by (fold n; lia). rewrite get_mk by lia.
    replace (k + (j - k))%nat with j by lia. reflexivity. }
  assert (hdim : forall t, (t <= dim - s)%nat -> nr (ss (dim - s - t)%nat) = n /\ nc (ss (dim - s - t)%nat) = dim).
  { induction t; intros ht.
    - rewrite Nat.sub_0_r, h1. destruct (Nat.eqb_spec n c) as [ee|ee]; unfold eye; dims; auto. split; auto. unfold dim. fold n. fold c. lia.
    - destruct (IHt ltac:(lia)) as (g1 & g2). replace (dim - s - t)%nat with (S (dim - s - S t)) in g1, g2 by lia. destruct (hb (dim - s - S t)%nat ltac:(lia) g1 g2) as (g3 & g4 & _). auto. }
  assert (hdim' : forall k, (k <= dim - s)%nat -> nr (ss k) = n /\ nc (ss k) = dim).
  { intros k hk. replace k with (dim - s - (dim - s - k))%nat by lia. apply hdim. lia. }
  split; auto. split.
  - intros p j hp hj. rewrite h1. destruct (Nat.eqb_spec n c) as [enc|enc]; unfold eye; rewrite get_mk by lia; reflexivity.
  - intros k hk. destruct (hdim' (S k) ltac:(lia)). apply hb; auto.
Qed.

Section Asm.
Variables (m q : mat FN) (s : nat) (df : nat -> res FN) (x : nat -> FN) (W : nat -> nat -> R).
Let n := nr m.
Let dim := Nat.min (nr m) (nc m).
Let cnt := (dim - s)%nat.
Let K := (10 * n + 70)%nat.
Let P := fun k => hh (k + s) (sgf (x k)) (W k).
Hypothesis hfit : fits n.
Hypothesis hs : (s <= dim)%nat.
Hypothesis hdf : forall i, (i < cnt)%nat -> df i = Ret (x i).
Hypothesis href : forall k, (k < cnt)%nat -> reflector n (k + s) (sgf (x k)) (W k).
Hypothesis hax : forall k, (k < cnt)%nat -> unitf (nsignum FN (x k)) /\
     (forall p, (k + s <= p < n)%nat -> fvalid (get m p k) /\ ffin (get m p k)) /\
     vn (n - (k + s)) (fun p => frm m (k + s + p)%nat k - W k (k + s + p)%nat) <= gam (2 * (n - (k + s)) + 15).
Hypothesis hsm : gam (cnt * K) + INR cnt * U (cnt * K) * omega <= 1.
Hypothesis hq : assemble_q m s df = Ret q.

Lemma asm_float : nr q = n /\ nc q = dim /\ (forall p j, (p < n)%nat -> (j < dim)%nat -> fvalid (get q p j) /\ ffin (get q p j)) /\
  forall j, (j < dim)%nat -> vn n (fun p => frm q p j - hprod n P cnt p j) <= gam (cnt * K) + INR cnt * U (cnt * K) * omega.
Proof.
  destruct (assemble_trace_s m s df x q hs hdf hq) as (ss & s1 & s2 & s3 & s4). fold n dim in s2, s3, s4. fold cnt in s2, s3, s4.
  assert (hdn : (dim <= n)%nat) by (unfold dim, n; lia).
  assert (ea : forall k p j, (k < cnt)%nat -> (k + s <= p < n)%nat -> (k <= j < dim)%nat ->
    get (ss k) p j = nmul FN (afl (n - (k + s)) (fun l => get m (k + s + l)%nat k) (fun l => get (ss (S k)) (k + s + l)%nat j) (p - (k + s))) (nsignum FN (x k))).
  { intros k p j hk hp hj. rewrite s4 by lia. bd. reflexivity. }
  assert (hpos : forall t, 0 <= INR t * U (t * K) * omega).
  { intros t. pose proof omega_pos. pose proof (pos_INR t). pose proof (pow_u_ge1 (t * K)). apply Rmult_le_pos; [apply Rmult_le_pos|]; lra. }
  assert (hb2 : forall t, (t <= cnt)%nat -> U (t * K) + INR t * U (t * K) * omega <= 2).
  { intros t ht. assert (h1 : U (t * K) <= U (cnt * K)) by (rewrite !U_gam; pose proof (gam_mono (t * K) (cnt * K) ltac:(apply Nat.mul_le_mono_r; auto)); lra).
    assert (h2 : INR t <= INR cnt) by (apply le_INR; auto). pose proof (pos_INR t). pose proof omega_pos. pose proof (pow_u_ge1 (t * K)).
    assert (INR t * U (t * K) <= INR cnt * U (cnt * K)) by (apply Rmult_le_compat; lra). assert (INR t * U (t * K) * omega <= INR cnt * U (cnt * K) * omega) by (apply Rmult_le_compat_r; lra).
    rewrite (U_gam (cnt * K)) in h1 at 1. lra. }
  assert (hid : forall t, (t <= cnt)%nat -> forall p j, (p < n)%nat -> (j < cnt - t)%nat -> frm (ss (cnt - t)%nat) p j = mid p j).
  { induction t; intros ht p j hp hj.
    - rewrite Nat.sub_0_r in *. unfold frm. rewrite s3 by (unfold cnt in *; lia). unfold mid. destruct (Nat.eqb p j); [exact fr_f1|reflexivity].
    - unfold frm. rewrite s4 by (unfold cnt in *; lia). replace (S (cnt - S t)) with (cnt - t)%nat by lia. rewrite <- (IHt ltac:(lia)) by lia. unfold frm.
      destruct (Nat.ltb_spec p (cnt - S t + s)); auto. destruct (Nat.ltb_spec j (cnt - S t)); [auto|lia]. }
  assert (hap : forall k, (k < cnt)%nat -> (forall p j, (p < n)%nat -> (j < dim)%nat -> fokx (get (ss (S k)) p j)) ->
    (forall j, (j < dim)%nat -> vn n (fun p => frm (ss (S k)) p j) <= 2) ->
    (forall p j, (p < n)%nat -> (j < dim)%nat -> fokx (get (ss k) p j)) /\
    forall j, (k <= j < dim)%nat -> vn n (fun p => frm (ss k) p j - happ n (k + s) (sgf (x k)) (W k) (fun l => frm (ss (S k)) l j) p) <= gam K * vn n (fun l => frm (ss (S k)) l j) + omega).
  { intros k hk hf hN. destruct (hax k hk) as (hu & hv & hw). pose proof (href k hk) as [r1 r2 r3]. assert (hkn : (k + s < n)%nat) by (unfold cnt in hk; lia).
    assert (hfull : forall p, (p < n)%nat -> W k p = wfull (k + s) (fun l => W k (k + s + l)%nat) p).
    { intros p hp. unfold wfull. destruct (Nat.ltb_spec p (k + s)); auto. f_equal. lia. }
    assert (rw : Rsum (n - (k + s)) (fun i => W k (k + s + i)%nat * W k (k + s + i)%nat) = 1 \/ (forall i, (i < n - (k + s))%nat -> W k (k + s + i)%nat = 0)).
    { destruct r3 as [r3|r3]; [left|right].
      - rewrite <- r3. rewrite (Rsum_ext n (fun i => W k i * W k i) (fun i => wfull (k + s) (fun l => W k (k + s + l)%nat) i * W k i)) by (intros p hp; rewrite (hfull p) at 1 by auto; reflexivity).
        rewrite wfull_sum by lia. reflexivity.
      - intros l hl. apply r3. lia. }
    assert (hV : vn (n - (k + s)) (fun l => fr (get m (k + s + l)%nat k)) <= 2).
    { rewrite (vn_ext _ _ (fun l => W k (k + s + l)%nat + (frm m (k + s + l)%nat k - W k (k + s + l)%nat))) by (intros; unfold frm; ring). eapply Rle_trans; [apply vn_plus|].
      pose proof (w_le1 _ _ rw). pose proof (gam_mono (2 * (n - (k + s)) + 15) (2 * n + 20) ltac:(lia)). pose proof (gam16 n n hfit (le_n n)). lra. }
    assert (hc : forall j, (k <= j < dim)%nat -> (forall p, (k + s <= p < n)%nat -> fokx (get (ss k) p j)) /\
       vn n (fun p => frm (ss k) p j - happ n (k + s) (sgf (x k)) (W k) (fun l => frm (ss (S k)) l j) p) <= gam K * vn n (fun l => frm (ss (S k)) l j) + omega).
    { intros j hj. set (yy := fun l => get (ss (S k)) (k + s + l)%nat j). set (vv := fun l => get m (k + s + l)%nat k).
      assert (hyv : forall l, (l < n - (k + s))%nat -> fokx (yy l)) by (intros l hl; apply hf; lia).
      assert (hvv : forall l, (l < n - (k + s))%nat -> fokx (vv l)) by (intros l hl; apply hv; lia).
      assert (hff : forall i, (i < n - (k + s))%nat -> ffin (nmul FN (afl (n - (k + s)) vv yy i) (nsignum FN (x k)))).
      { apply (apply_fwd n); auto; [lia|]. eapply Rle_trans; [apply (vn_tail n (k + s) (fun p => frm (ss (S k)) p j)); lia|]. pose proof (hN j ltac:(lia)). pose proof cap_ge1. lra. }
      destruct (apply_float n (n - (k + s)) vv yy (fun l => W k (k + s + l)%nat) (nsignum FN (x k))) as (g1 & g2); auto.
      - lia.
      - intros l hl. apply (hyv l hl).
      - split.
        + intros p hp. split; [|rewrite ea by lia; apply hff; lia]. rewrite ea by lia. apply mul_unit; auto. apply afl_valid; [lia| |]; intros l hl; [apply (hvv l hl)|apply (hyv l hl)].
        + rewrite (vn_shift n (k + s)); [|lia|intros p hp; unfold happ, frm; rewrite s4 by lia; bd; ring].
          eapply Rle_trans; [right; apply (vn_ext (n - (k + s)) _ (fun p => fr (nmul FN (afl (n - (k + s)) vv yy p) (nsignum FN (x k))) - fr (nsignum FN (x k)) * mirr (n - (k + s)) (fun l => W k (k + s + l)%nat) (fun l => fr (yy l)) p))|].
          * intros p hp. f_equal.
            -- unfold frm. rewrite ea by lia. replace (k + s + p - (k + s))%nat with p by lia. reflexivity.
            -- rewrite <- (happ_mirr n (k + s) _ (fun l => W k (k + s + l)%nat) (fun l => frm (ss (S k)) l j) p) by lia.
               unfold happ. rewrite (hfull (k + s + p)%nat) by lia. rewrite (Rsum_ext n (fun l => W k l * frm (ss (S k)) l j) (fun l => wfull (k + s) (fun l => W k (k + s + l)%nat) l * frm (ss (S k)) l j)) by (intros l hl; rewrite <- hfull by auto; reflexivity). reflexivity.
          * eapply Rle_trans; [exact g2|]. pose proof (omega_eta n (n - (k + s)) hfit ltac:(lia)) as hom. pose proof zeta_pos as hz. unfold omega.
            assert (gam (10 * (n - (k + s)) + 70) * vn (n - (k + s)) (fun l => fr (yy l)) <= gam K * vn n (fun l => frm (ss (S k)) l j)); [|lra].
            apply Rmult_le_compat; [apply gam_nonneg|apply vn_nonneg|apply gam_mono; unfold K; lia|]. apply (vn_tail n (k + s) (fun l => frm (ss (S k)) l j)). lia. }
    split; [|intros j hj; apply hc; auto].
    intros p j hp hj. destruct (le_lt_dec (k + s) p) as [l1|l1]; [destruct (le_lt_dec k j) as [l2|l2]|].
    - apply hc; lia.
    - rewrite s4 by lia. destruct (Nat.ltb_spec p (k + s)); [lia|]. destruct (Nat.ltb_spec j k); [|lia]. apply hf; auto.
    - rewrite s4 by lia. destruct (Nat.ltb_spec p (k + s)); [|lia]. apply hf; auto. }
  assert (hho : forall k, (k < cnt)%nat -> orthogonal n (P k)) by (intros k hk; apply hh_orthogonal; apply href; auto).
  assert (eh : forall k X p, (k < cnt)%nat -> (p < n)%nat -> mmul n (P k) (colm X) p 0%nat = happ n (k + s) (sgf (x k)) (W k) X p).
  { intros k X p hk hp. unfold P. rewrite (hh_apply n 1) by (auto; apply (hh_zero _ _ _ _ (href k hk))). unfold happ, colm. reflexivity. }
  assert (hstep : forall k j, (k < cnt)%nat -> (j < dim)%nat -> (forall p j, (p < n)%nat -> (j < dim)%nat -> fokx (get (ss (S k)) p j)) ->
    (forall j, (j < dim)%nat -> vn n (fun p => frm (ss (S k)) p j) <= 2) ->
    vn n (fun p => frm (ss k) p j - mmul n (P k) (colm (fun l => frm (ss (S k)) l j)) p 0%nat) <= gam K * vn n (fun l => frm (ss (S k)) l j) + omega).
  { intros k j hk hj hf hN. destruct (le_lt_dec k j) as [l|l].
    - eapply Rle_trans; [|apply (proj2 (hap k hk hf hN) j); lia]. right. apply vn_ext. intros p hp. rewrite eh by auto. reflexivity.
    - rewrite (vn_ext n _ (fun _ => 0)).
      + pose proof (vn_const n 0) as g0. rewrite Rabs_R0, Rmult_0_r in g0. pose proof (vn_nonneg n (fun l => frm (ss (S k)) l j)). pose proof (gam_nonneg K). pose proof omega_pos.
        assert (0 <= gam K * vn n (fun l => frm (ss (S k)) l j)) by (apply Rmult_le_pos; auto). lra.
      + intros p hp. rewrite eh by auto. unfold happ. pose proof (hid (cnt - k)%nat ltac:(lia)) as i1. replace (cnt - (cnt - k))%nat with k in i1 by lia.
        pose proof (hid (cnt - S k)%nat ltac:(lia)) as i2. replace (cnt - (cnt - S k))%nat with (S k) in i2 by lia. rewrite (i1 p j), (i2 p j) by lia. destruct (Nat.ltb_spec p (k + s)); [ring|].
        rewrite (Rsum_0 n).
        * unfold mid. bd. ring.
        * intros r hr. rewrite i2 by lia. unfold mid. destruct (Nat.eqb_spec r j) as [->|]; [rewrite (hh_zero _ _ _ _ (href k hk)) by lia|]; ring. }
  assert (hall : forall t, (t <= cnt)%nat -> (forall p j, (p < n)%nat -> (j < dim)%nat -> fokx (get (ss (cnt - t)%nat) p j)) /\
    forall j, (j < dim)%nat -> vn n (fun p => frm (ss (cnt - t)%nat) p j) <= U (t * K) + INR t * U (t * K) * omega).
  { induction t; intros ht.
    - rewrite Nat.sub_0_r. split.
      + intros p j hp hj. rewrite s3 by auto. destruct (Nat.eqb p j); split; reflexivity.
      + intros j hj. rewrite (vn_unit n); [cbn [Nat.mul pow]; change (INR 0) with 0; lra|]. rewrite (Rsum_single n j).
        * unfold frm. rewrite s3 by lia. rewrite Nat.eqb_refl. change (n1 FN) with (f_of_Z 1). rewrite fr_f1. ring.
        * lia.
        * intros p hp ne. unfold frm. rewrite s3 by lia. destruct (Nat.eqb_spec p j); [lia|]. change (fr (Scalar.n0 FN)) with 0. ring.
    - destruct (IHt ltac:(lia)) as (g1 & g2). set (k := (cnt - S t)%nat) in *. replace (cnt - t)%nat with (S k) in * by (unfold k; lia).
      assert (hN : forall j, (j < dim)%nat -> vn n (fun p => frm (ss (S k)) p j) <= 2) by (intros j hj; eapply Rle_trans; [apply g2; auto|apply hb2; lia]).
      split; [apply hap; auto; unfold k; lia|]. intros j hj. pose proof (hstep k j ltac:(unfold k; lia) hj g1 hN) as he.
      rewrite (vn_ext n _ (fun p => mmul n (P k) (colm (fun l => frm (ss (S k)) l j)) p 0%nat + (frm (ss k) p j - mmul n (P k) (colm (fun l => frm (ss (S k)) l j)) p 0%nat))) by (intros; ring).
      eapply Rle_trans; [apply vn_plus|]. rewrite vn_orth by (apply hho; unfold k; lia). specialize (g2 j hj). set (y := vn n (fun l => frm (ss (S k)) l j)) in *.
      replace (S t * K)%nat with (K + t * K)%nat by lia. rewrite pow_add, S_INR. pose proof (U_gam K) as eU. pose proof (gam_nonneg K). pose proof omega_pos. pose proof (pow_u_ge1 (t * K)).
      set (b := U (t * K)) in *. assert (U K * y <= U K * (b + INR t * b * omega)) by (apply Rmult_le_compat_l; lra).
      assert (1 * 1 <= U K * b) by (apply Rmult_le_compat; lra). assert (1 * omega <= U K * b * omega) by (apply Rmult_le_compat_r; lra). rewrite eU in *. lra. }
  destruct (s2 O ltac:(lia)) as (z1 & z2). rewrite s1 in z1, z2. split; auto. split; auto.
  destruct (hall cnt (le_n _)) as (a1 & a2). rewrite Nat.sub_diag, s1 in a1. split; [exact a1|].
  intros j hj. set (X := fun k p => frm (ss k) p j).
  pose proof (accum_rev n P X (U K) omega cnt (pow_u_ge1 _) (Rlt_le _ _ omega_pos) hho) as g.
  assert (hX0 : forall p, (p < n)%nat -> X cnt p = mid p j) by (intros p hp; unfold X, frm; rewrite s3 by auto; unfold mid; destruct (Nat.eqb p j); [exact fr_f1|reflexivity]).
  assert (hX1 : vn n (X cnt) = 1).
  { apply vn_unit. rewrite (Rsum_single n j).
    - rewrite hX0 by lia. unfold mid. rewrite Nat.eqb_refl. ring.
    - lia.
    - intros p hp ne. rewrite hX0 by lia. unfold mid. bd. ring. }
  rewrite hX1, Rmult_1_r, <- (pow_mult (1 + uro) K cnt), (Nat.mul_comm K cnt) in g.
  change (U (cnt * K) - 1) with (gam (cnt * K)) in g.
  eapply Rle_trans; [|apply g].
  - right. apply vn_ext. intros p hp. f_equal; [unfold X; rewrite s1; reflexivity|].
    assert (e : mmul n (hprod n P cnt) mid =[n, dim]= hprod n P cnt) by (intros y z hy hz; apply (mmul_1_r n n (hprod n P cnt) y z); lia).
    rewrite <- (e p j) by auto. unfold mmul. apply Rsum_ext. intros l hl. unfold colm. rewrite hX0 by lia. reflexivity.
  - intros k hk. change (U K - 1) with (gam K). destruct (hall (cnt - S k)%nat ltac:(lia)) as (b1 & b2). replace (cnt - (cnt - S k))%nat with (S k) in * by lia.
    apply (hstep k j hk hj b1). intros j' hj'. eapply Rle_trans; [apply b2; auto|apply hb2; lia].
Qed.
End Asm.
