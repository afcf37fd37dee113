(** * bidiagonal.rs in floating point: the whole reduction and the generated factors *)
From Coq Require Import Reals List Arith Lia Lra Bool ZArith Setoid Morphisms.
From Coq.Floats Require Import SpecFloat.
From Flocq Require Import Core BinarySingleNaN.
From Verif Require Import Scalar Arr MBase MDirect MDecomp Inst Hoare Spec SpecF RLin PTri PHouse PTrid PQR PBid PEighR PRound PTriF PCholF PNormF PHouseF PQRF PQRG PQRS PCholG PTrdF PTrdG PApF PTrdH PBidF.
Import ListNotations.
Local Open Scope R_scope.
Local Notation U k := ((1 + uro) ^ k).

(** ** The run, seen from the tall side *)
Definition bG {N : Num} (up : bool) (m : mat N) : nat -> nat -> N := if up then get m else ftr (get m).

Section BTrace.
Context {N : Num}.
Variables (a : mat N) (b : bidecomp N).
Hypothesis hrun : bidiagonal a = Ret b.
Let up := Nat.leb (nc a) (nr a).
Let r := Nat.max (nr a) (nc a).
Let c := Nat.min (nr a) (nc a).

Lemma bid_trace : (1 <= c)%nat /\ bid_wf (nr a) (nc a) b /\ exists X Y : nat -> nat -> nat -> N,
  X O = bG up a /\ Y (c - 1)%nat = bG up (uv b) /\
  (forall i, (i < c)%nat -> frun r c (X i) (Y i) i i (vget (bi_diag b) i)) /\
  (forall i, (i < c - 1)%nat -> frun c r (ftr (Y i)) (ftr (X (S i))) i (i + 1) (vget (bi_off b) i)).
Proof.
  pose proof (bidiagonal_class a) as hc. rewrite hrun in hc. destruct hc as (h1 & wf). fold c in h1. split; auto. split; auto.
  pose proof hrun as e. unfold bidiagonal in e. fold c in e. destruct (Nat.eqb_spec c 0); [lia|]. fold up in e.
  set (clr_d := fun (m : mat N) i => if up then clear_column m i 0 else clear_row m i 0) in e.
  set (clr_o := fun (m : mat N) i => if up then clear_row m i 1 else clear_column m i 1) in e.
  assert (hd : forall m i m' x, nr m = nr a -> nc m = nc a -> (i < c)%nat -> clr_d m i = Ret (m', x) ->
    nr m' = nr a /\ nc m' = nc a /\ frun r c (bG up m) (bG up m') i i x).
  { intros m i m' x d1 d2 hi ex. unfold clr_d, bG in *. unfold r, c, up in *. destruct (Nat.leb_spec (nc a) (nr a)).
    - destruct (clear_column_frun m i 0 m' x ltac:(lia) ltac:(lia) ex) as (g1 & g2 & g3). rewrite d1, d2, Nat.add_0_r in *. rewrite Nat.max_l, Nat.min_r by lia. auto.
    - destruct (clear_row_frun m i 0 m' x ltac:(lia) ltac:(lia) ex) as (g1 & g2 & g3). rewrite d1, d2, Nat.add_0_r in *. rewrite Nat.max_r, Nat.min_l by lia. auto. }
  assert (ho : forall m i m' x, nr m = nr a -> nc m = nc a -> (i < c - 1)%nat -> clr_o m i = Ret (m', x) ->
    nr m' = nr a /\ nc m' = nc a /\ frun c r (ftr (bG up m)) (ftr (bG up m')) i (i + 1) x).
  { intros m i m' x d1 d2 hi ex. unfold clr_o, bG in *. unfold r, c, up in *. destruct (Nat.leb_spec (nc a) (nr a)).
    - destruct (clear_row_frun m i 1 m' x ltac:(lia) ltac:(lia) ex) as (g1 & g2 & g3). rewrite d1, d2 in *. rewrite Nat.max_l, Nat.min_r by lia. auto.
    - destruct (clear_column_frun m i 1 m' x ltac:(lia) ltac:(lia) ex) as (g1 & g2 & g3). rewrite d1, d2 in *. rewrite Nat.max_r, Nat.min_l by lia. auto. }
  destruct (for_ (c - 1) 0 _ (a, vzeros c, vzeros (c - 1))) as [[[mf df] of]| | | |] eqn:ef; try discriminate. cbn [bind] in e. change (if up then clear_column mf (c - 1) 0 else clear_row mf (c - 1) 0) with (clr_d mf (c - 1)%nat) in e.
  destruct (clr_d mf (c - 1)%nat) as [[ml xl]| | | |] eqn:el; try discriminate. cbn [bind] in e.
  destruct (set1 df (c - 1) xl) as [dl| | | |] eqn:es; try discriminate. cbn [bind] in e. injection e as <-. cbn [uv bi_diag bi_off] in *.
  destruct (for_trace _ _ _ _ _ ef) as (ss & e1 & e2 & e3).
  assert (hset : forall v j x v', set1 v j x = @Ret (list N) v' -> (j < length v)%nat /\ v' = vupd v j x).
  { intros v j x v' h. unfold set1 in h. destruct (Nat.ltb_spec j (length v)); [injection h as <-; auto|discriminate]. }
  assert (hs1 : forall i, (i < c - 1)%nat -> nr (fst (fst (ss i))) = nr a -> nc (fst (fst (ss i))) = nc a -> length (snd (fst (ss i))) = c -> length (snd (ss i)) = (c - 1)%nat ->
    (nr (fst (fst (ss (S i)))) = nr a /\ nc (fst (fst (ss (S i)))) = nc a) /\ exists Y x y, frun r c (bG up (fst (fst (ss i)))) Y i i x /\ frun c r (ftr Y) (ftr (bG up (fst (fst (ss (S i)))))) i (i + 1) y /\
      snd (fst (ss (S i))) = vupd (snd (fst (ss i))) i x /\ snd (ss (S i)) = vupd (snd (ss i)) i y).
  { intros i hi g1 g2 g3 g4. specialize (e3 i hi). cbn [Nat.add] in e3. destruct (ss i) as [[mi di] oi]. destruct (ss (S i)) as [[mi' di'] oi']. cbn [fst snd] in *.
    change (if up then clear_column mi i 0 else clear_row mi i 0) with (clr_d mi i) in e3.
    destruct (clr_d mi i) as [[m1 x]| | | |] eqn:q1; try discriminate. cbn [bind] in e3. destruct (set1 di i x) as [d1| | | |] eqn:q2; try discriminate. cbn [bind] in e3.
    change (if up then clear_row m1 i 1 else clear_column m1 i 1) with (clr_o m1 i) in e3.
    destruct (clr_o m1 i) as [[m2 y]| | | |] eqn:q3; try discriminate. cbn [bind] in e3. destruct (set1 oi i y) as [o1| | | |] eqn:q4; try discriminate. cbn [bind] in e3. injection e3 as <- <- <-.
    destruct (hd mi i m1 x g1 g2 ltac:(lia) q1) as (k1 & k2 & k3). destruct (ho m1 i m2 y k1 k2 hi q3) as (k4 & k5 & k6). split; auto.
    apply hset in q2. apply hset in q4. exists (bG up m1), x, y. split; auto. split; auto. split; [apply q2|apply q4]. }
  assert (hk : forall i, (i <= c - 1)%nat -> nr (fst (fst (ss i))) = nr a /\ nc (fst (fst (ss i))) = nc a /\ length (snd (fst (ss i))) = c /\ length (snd (ss i)) = (c - 1)%nat).
  { induction i; intros hi; [rewrite e1; cbn [fst snd]; rewrite !length_vzeros; auto|]. destruct (IHi ltac:(lia)) as (g1 & g2 & g3 & g4).
    destruct (hs1 i ltac:(lia) g1 g2 g3 g4) as ((k1 & k2) & Y & x & y & _ & _ & k3 & k4). rewrite k3, k4, !length_vupd. auto. }
  assert (hlate : forall j i, (i < j)%nat -> (j <= c - 1)%nat -> vget (snd (fst (ss j))) i = vget (snd (fst (ss (S i)))) i /\ vget (snd (ss j)) i = vget (snd (ss (S i))) i).
  { induction j; intros i hij hj; [lia|]. destruct (Nat.eq_dec i j) as [->|]; auto. destruct (IHj i ltac:(lia) ltac:(lia)) as (<- & <-). destruct (hk j ltac:(lia)) as (g1 & g2 & g3 & g4).
    destruct (hs1 j ltac:(lia) g1 g2 g3 g4) as (_ & Y & x & y & _ & _ & k3 & k4). rewrite k3, k4, !vget_vupd by lia. bd. auto. }
  destruct (hk (c - 1)%nat ltac:(lia)) as (f1 & f2 & f3 & f4). rewrite e2 in f1, f2, f3, f4. cbn [fst snd] in *.
  destruct (hd mf (c - 1)%nat ml xl f1 f2 ltac:(lia) el) as (l1 & l2 & l3). destruct (hset _ _ _ _ es) as (_ & ->).
  set (X := fun i => bG up (fst (fst (ss i)))).
  destruct (fin_choice (bG up a) c (fun i Y => frun r c (X i) Y i i (vget (vupd df (c - 1) xl) i) /\
     ((i < c - 1)%nat -> frun c r (ftr Y) (ftr (X (S i))) i (i + 1) (vget of i)) /\ (i = (c - 1)%nat -> Y = bG up ml))) as (Y & hY).
  { intros i hi. destruct (Nat.eq_dec i (c - 1)) as [->|ne].
    - exists (bG up ml). split; [|split; [lia|auto]]. rewrite vget_vupd by lia. rewrite Nat.eqb_refl. unfold X. rewrite e2. exact l3.
    - destruct (hk i ltac:(lia)) as (g1 & g2 & g3 & g4). destruct (hs1 i ltac:(lia) g1 g2 g3 g4) as (_ & Y & x & y & k1 & k2 & k3 & k4).
      destruct (hlate (c - 1)%nat i ltac:(lia) ltac:(lia)) as (j1 & j2). rewrite e2 in j1, j2. cbn [fst snd] in j1, j2.
      exists Y. split; [|split; [|lia]].
      + rewrite vget_vupd by lia. destruct (Nat.eqb_spec i (c - 1)); [lia|]. rewrite j1, k3, vget_vupd by lia. rewrite Nat.eqb_refl. exact k1.
      + intros _. rewrite j2, k4, vget_vupd by lia. rewrite Nat.eqb_refl. exact k2. }
  exists X, Y. split; [unfold X; rewrite e1; reflexivity|]. split; [apply (hY (c - 1)%nat); lia|]. split; intros i hi; apply (hY i); lia.
Qed.
End BTrace.

Lemma frun_keep {N : Num} n c (F F' : nat -> nat -> N) i k x : frun n c F F' i k x ->
  forall p q, (p < n)%nat -> (q < c)%nat -> (p < k \/ q < i)%nat -> F' p q = F p q.
Proof. intros (v & o & _ & _ & _ & h) p q hp hq ho. rewrite h by auto. bd; auto. Qed.
Lemma omega_g n : INR n * omega <= gam (10 * n + 70) * zfl.
Proof.
  pose proof (gam_ge (10 * n + 70)) as h1. rewrite plus_INR, mult_INR in h1. pose proof (pos_INR n). pose proof uro_pos. pose proof zfl_pos.
  assert (INR 70 = 70) by (simpl; lra). assert (INR 10 = 10) by (simpl; lra). assert (0 <= INR n * uro) by (apply Rmult_le_pos; lra). rewrite H2, H3 in h1.
  assert (ho : omega <= uro * zfl * 10).
  { assert (h : omega = bpow radix2 (-507)) by (unfold omega, zeta; change 2 with (bpow radix2 1); rewrite <- bpow_plus; reflexivity). rewrite h.
    assert (hb : uro * zfl = bpow radix2 (-503)) by (rewrite uro_bpow; unfold zfl; rewrite <- bpow_plus; reflexivity). rewrite hb.
    assert (bpow radix2 (-507) <= bpow radix2 (-503)) by (apply bpow_le; lia). pose proof (bpow_ge_0 radix2 (-503)). lra. }
  apply Rle_trans with (INR n * uro * 10 * zfl); [|apply Rmult_le_compat_r; lra].
  replace (INR n * uro * 10 * zfl) with (INR n * (uro * zfl * 10)) by ring. apply Rmult_le_compat_l; auto.
Qed.
Lemma fits_le n m : (m <= n)%nat -> fits n -> fits m.
Proof. unfold fits. intros h hf. pose proof uro_pos. apply le_INR in h. nra. Qed.
Lemma vn_col_frob n c T q : (q < c)%nat -> vn n (fun p => T p q) <= frob n c T.
Proof. intros h. apply (frob_col_le n c T q h). Qed.

Lemma frob_trr r c X : frob r c (mtr X) = frob c r X.
Proof. unfold frob. rewrite frob2_tr. reflexivity. Qed.

Definition bpad (c : nat) (dr or : nat -> R) : M := fun p q => if Nat.ltb p c then bidiag dr or p q else 0.

Section BRun.
Variables (r c : nat) (X Y : nat -> nat -> nat -> FN) (dd oo : nat -> FN).
Let A : M := fun p q => fr (X O p q).
Let dr := fun i => fr (dd i).
Let orr := fun i => fr (oo i).
Hypothesis hcr : (1 <= c <= r)%nat.
Hypothesis hL : forall i, (i < c)%nat -> frun r c (X i) (Y i) i i (dd i).
Hypothesis hR : forall i, (i < c - 1)%nat -> frun c r (ftr (Y i)) (ftr (X (S i))) i (i + 1) (oo i).
Let g := gam (10 * r + 70).
Let Nb0 := frob r c A + zfl.
Hypothesis hfit : fits r.
Hypothesis hfa : forall p q, (p < r)%nat -> (q < c)%nat -> fokx (X O p q).
Hypothesis hsmall : 4 * INR c * g <= 1.
Hypothesis hcap : 2 * Nb0 <= cap.
Hypothesis hd : forall i, (i < c)%nat -> dr i = 0 \/ tiny <= Rabs (dr i).
Hypothesis ho : forall i, (i < c - 1)%nat -> orr i = 0 \/ tiny <= Rabs (orr i).

Let T := fun i => bW (fun p q => fr (X i p q)) dr orr i i.
Let T1 := fun i => bW (fun p q => fr (Y i p q)) dr orr (S i) i.
Let de := g * Nb0.
Let Lref := fun (W : nat -> nat -> R) k => hh k (sgf (dd k)) (W k).
Let Rref := fun (V : nat -> nat -> R) k => hh (k + 1) (sgf (oo k)) (V k).

Lemma bid_left i : (i < c)%nat -> (forall p q, (i <= p < r)%nat -> (i <= q < c)%nat -> fokx (X i p q)) -> frob r c (T i) + zfl <= 2 * Nb0 ->
  exists w, fstep r c (X i) (Y i) i i (dd i) w /\ frob r c (fun p q => T1 i p q - mmul r (hh i (sgf (dd i)) w) (T i) p q) <= 2 * de.
Proof.
  intros hi hf hN. assert (hg0 : 0 <= g) by apply gam_nonneg. pose proof zfl_pos as hz. pose proof cap_ge1 as hc1.
  assert (eT : forall p q, (i <= p < r)%nat -> (i <= q < c)%nat -> T i p q = fr (X i p q)) by (intros p q hp hq; unfold T, bW; bd; reflexivity).
  destruct (frun_fstep r c (X i) (Y i) i i (dd i) hfit ltac:(lia) hi (hL i hi) hf) as (w & hw).
  - intros q hq. eapply Rle_trans; [right; apply vn_ext; intros l hl; rewrite <- eT by lia; reflexivity|]. eapply Rle_trans; [apply (vn_tail r i (fun p => T i p q)); lia|].
    eapply Rle_trans; [apply (vn_col_frob r c); lia|]. lra.
  - apply (hd i hi).
  - exists w. split; auto. eapply Rle_trans; [apply (half_step r c (X i) (Y i) i i (dd i) w (T i) (T1 i)); auto; try lia|].
    + intros p q hp hq. unfold T, T1, bW. bd; reflexivity.
    + intros p q hp hq. unfold T, T1, bW. split; bd; auto; lia.
    + intros p q hp hq. unfold T1, bW. bd; reflexivity.
    + intros p hp. unfold T1, bW. bd; auto; try lia. unfold dr. subst. reflexivity.
    + fold g. assert (INR c * omega <= INR r * omega) by (apply Rmult_le_compat_r; [pose proof omega_pos; lra|apply le_INR; lia]). pose proof (omega_g r) as h2. fold g in h2.
      assert (g * (frob r c (T i) + zfl) <= g * (2 * Nb0)) by (apply Rmult_le_compat_l; auto). unfold de. lra.
Qed.

Lemma bid_right i : (i < c - 1)%nat -> (forall p q, (i <= p < r)%nat -> (i <= q < c)%nat -> fokx (Y i p q)) -> frob r c (T1 i) + zfl <= 2 * Nb0 ->
  exists w, fstep c r (ftr (Y i)) (ftr (X (S i))) i (i + 1) (oo i) w /\ frob r c (fun p q => T (S i) p q - mmul c (T1 i) (hh (i + 1) (sgf (oo i)) w) p q) <= 2 * de.
Proof.
  intros hi hf hN. assert (hg0 : 0 <= g) by apply gam_nonneg. pose proof zfl_pos as hz. pose proof cap_ge1 as hc1.
  assert (hfc : fits c) by (apply (fits_le r); auto; lia).
  assert (eT : forall p q, (i + 1 <= p < c)%nat -> (i <= q < r)%nat -> mtr (T1 i) p q = fr (ftr (Y i) p q)) by (intros p q hp hq; unfold mtr, T1, bW, ftr; bd; reflexivity).
  destruct (frun_fstep c r (ftr (Y i)) (ftr (X (S i))) i (i + 1) (oo i) hfc ltac:(lia) ltac:(lia) (hR i hi)) as (w & hw).
  - intros p q hp hq. apply hf; lia.
  - intros q hq. eapply Rle_trans; [right; apply vn_ext; intros l hl; rewrite <- eT by lia; reflexivity|]. eapply Rle_trans; [apply (vn_tail c (i + 1) (fun p => mtr (T1 i) p q)); lia|].
    eapply Rle_trans; [apply (vn_col_frob c r); lia|]. rewrite frob_trr. lra.
  - apply (ho i hi).
  - exists w. split; auto.
    assert (hs : frob c r (fun p q => mtr (T (S i)) p q - mmul c (hh (i + 1) (sgf (oo i)) w) (mtr (T1 i)) p q) <= gam (10 * c + 70) * frob c r (mtr (T1 i)) + INR r * omega).
    { apply (half_step c r (ftr (Y i)) (ftr (X (S i))) i (i + 1) (oo i) w); auto; try lia.
      + intros p q hp hq. unfold mtr, T, T1, bW. bd; auto; subst; try lia; try (f_equal; lia).
      + intros p q hp hq. unfold mtr, T, T1, bW. split; bd; auto; lia.
      + intros p q hp hq. unfold mtr, T, bW, ftr. bd; reflexivity.
      + intros p hp. unfold mtr, T, bW. bd; auto; try lia. }
    rewrite frob_trr in hs.
    assert (ht : frob r c (fun p q => T (S i) p q - mmul c (T1 i) (hh (i + 1) (sgf (oo i)) w) p q) = frob c r (fun p q => mtr (T (S i)) p q - mmul c (hh (i + 1) (sgf (oo i)) w) (mtr (T1 i)) p q)).
    { rewrite <- (frob_trr c r). apply frob_ext. intros p q hp hq. unfold mtr at 1 2. f_equal. pose proof (hh_zero _ _ _ _ (fs_ref _ _ _ _ _ _ _ _ hw)) as h0.
      rewrite (hh_apply c r (i + 1) _ w (mtr (T1 i)) h0 p q hp hq). rewrite (hh_apply_r c r (i + 1) _ w (T1 i) h0 q p hq hp). reflexivity. }
    rewrite ht. eapply Rle_trans; [exact hs|]. pose proof (omega_g r) as h2. fold g in h2. pose proof (gam_mono (10 * c + 70) (10 * r + 70) ltac:(lia)) as h3. fold g in h3. pose proof (frob_nonneg r c (T1 i)) as h4.
    assert (gam (10 * c + 70) * frob r c (T1 i) <= g * frob r c (T1 i)) by (apply Rmult_le_compat_r; auto).
    assert (g * (frob r c (T1 i) + zfl) <= g * (2 * Nb0)) by (apply Rmult_le_compat_l; auto). unfold de. lra.
Qed.

Definition Lgood (w : nat -> R) k := reflector r k (sgf (dd k)) w /\ unitf (nsignum FN (dd k)) /\ fokx (dd k) /\
  (forall p, (k <= p < r)%nat -> fokx (Y (c - 1)%nat p k)) /\
  vn (r - k) (fun p => fr (Y (c - 1)%nat (k + p)%nat k) - w (k + p)%nat) <= gam (2 * (r - k) + 15).
Definition Rgood (w : nat -> R) k := reflector c (k + 1) (sgf (oo k)) w /\ unitf (nsignum FN (oo k)) /\ fokx (oo k) /\
  (forall p, (k + 1 <= p < c)%nat -> fokx (Y (c - 1)%nat k p)) /\
  vn (c - (k + 1)) (fun p => fr (Y (c - 1)%nat k (k + 1 + p)%nat) - w (k + 1 + p)%nat) <= gam (2 * (c - (k + 1)) + 15).

Lemma bid_float : exists W V : nat -> nat -> R,
  (forall k, (k < c)%nat -> Lgood (W k) k) /\ (forall k, (k < c - 1)%nat -> Rgood (V k) k) /\
  frob r c (fun p q => A p q - mmul r (hprod r (fun k => hh k (sgf (dd k)) (W k)) c) (mmul c (bpad c dr orr) (mtr (hprod c (fun k => hh (k + 1) (sgf (oo k)) (V k)) (c - 1)))) p q)
    <= 4 * INR c * (g * Nb0).
Proof.
  assert (hg0 : 0 <= g) by apply gam_nonneg. pose proof zfl_pos as hz. pose proof (frob_nonneg r c A) as hN0.
  assert (hde : 0 <= de) by (apply Rmult_le_pos; unfold Nb0; lra).
  assert (hgde : 4 * INR c * de <= Nb0).
  { unfold de. replace (4 * INR c * (g * Nb0)) with (4 * INR c * g * Nb0) by ring. rewrite <- (Rmult_1_l Nb0) at 2. apply Rmult_le_compat_r; [unfold Nb0; lra|auto]. }
  assert (hmov : forall n m L E Z Z', frob n m (fun p q => Z' p q - Z p q) <= E -> frob n m Z = L -> frob n m Z' <= L + E).
  { intros n m L E Z Z' h1 h2. assert (e : Z' =[n, m]= madd Z (fun p q => Z' p q - Z p q)) by (intros p q hp hq; unfold madd; ring).
    rewrite (frob_ext n m _ _ e). eapply Rle_trans; [apply frob_triangle|]. lra. }
  assert (hol : forall n k s w m Z, reflector n k s w -> frob n m (mmul n (hh k s w) Z) = frob n m Z).
  { intros n k s w m Z h. destruct (hh_orthogonal _ _ _ _ h). unfold frob. rewrite frob2_orth_l; auto. }
  assert (hsy : forall n k s w, reflector n k s w -> mtr (hh k s w) =[n, n]= hh k s w) by (intros n k s w h; apply hh_sym; apply (hh_zero _ _ _ _ h)).
  assert (hor : forall n k s w m Z, reflector n k s w -> frob m n (mmul n Z (hh k s w)) = frob m n Z).
  { intros n k s w m Z h. destruct (hh_orthogonal _ _ _ _ h) as (o1 & o2).
    rewrite (frob_ext m n _ (mmul n Z (mtr (hh k s w)))) by (rewrite (hsy n k s w h); reflexivity). unfold frob. f_equal. apply frob2_orth_r. rewrite mtr_mtr. auto. }
  (* one left step, under the invariant *)
  assert (hlf : forall i, (i < c)%nat -> (forall p q, (i <= p < r)%nat -> (i <= q < c)%nat -> fokx (X i p q)) -> frob r c (T i) <= frob r c A + 4 * INR i * de ->
    exists w, fstep r c (X i) (Y i) i i (dd i) w /\ frob r c (fun p q => T1 i p q - mmul r (hh i (sgf (dd i)) w) (T i) p q) <= 2 * de /\ frob r c (T1 i) <= frob r c A + (4 * INR i + 2) * de).
  { intros i hi hf hN. assert (h1 : 4 * INR i * de <= 4 * INR c * de) by (apply Rmult_le_compat_r; auto; apply lt_INR in hi; lra).
    destruct (bid_left i hi hf) as (w & w1 & w2); [unfold Nb0 in *; lra|]. exists w. split; auto. split; auto.
    eapply Rle_trans; [apply (hmov r c (frob r c (T i)) (2 * de) _ (T1 i) w2)|lra]. apply hol. apply (fs_ref _ _ _ _ _ _ _ _ w1). }
  assert (hrt : forall i, (i < c - 1)%nat -> (forall p q, (i <= p < r)%nat -> (i <= q < c)%nat -> fokx (Y i p q)) -> frob r c (T1 i) <= frob r c A + (4 * INR i + 2) * de ->
    exists w, fstep c r (ftr (Y i)) (ftr (X (S i))) i (i + 1) (oo i) w /\ frob r c (fun p q => T (S i) p q - mmul c (T1 i) (hh (i + 1) (sgf (oo i)) w) p q) <= 2 * de /\ frob r c (T (S i)) <= frob r c A + 4 * INR (S i) * de).
  { intros i hi hf hN. assert (h1 : (4 * INR i + 2) * de <= 4 * INR c * de). { apply Rmult_le_compat_r; auto. assert (INR (S i) <= INR c) by (apply le_INR; lia). rewrite S_INR in *. lra. }
    destruct (bid_right i hi hf) as (w & w1 & w2); [unfold Nb0 in *; lra|]. exists w. split; auto. split; auto. rewrite S_INR.
    eapply Rle_trans; [apply (hmov r c (frob r c (T1 i)) (2 * de) _ (T (S i)) w2)|lra]. apply hor. apply (fs_ref _ _ _ _ _ _ _ _ w1). }
  assert (hinv : forall i, (i < c)%nat -> (forall p q, (i <= p < r)%nat -> (i <= q < c)%nat -> fokx (X i p q)) /\ frob r c (T i) <= frob r c A + 4 * INR i * de).
  { induction i; intros hi.
    - split; [intros; apply hfa; lia|]. change (INR 0) with 0. rewrite (frob_ext r c (T O) A); [lra|]. intros p q hp hq. reflexivity.
    - destruct (IHi ltac:(lia)) as (g1 & g2). destruct (hlf i ltac:(lia) g1 g2) as (w & w1 & w2 & w3).
      destruct (hrt i ltac:(lia) (fs_ok _ _ _ _ _ _ _ _ w1) w3) as (v & v1 & v2 & v3). split; auto.
      intros p q hp hq. apply (fs_ok _ _ _ _ _ _ _ _ v1 q p); lia. }
  destruct (fin_choice (fun _ : nat => 0) c (fun i w => fstep r c (X i) (Y i) i i (dd i) w /\ frob r c (fun p q => T1 i p q - mmul r (hh i (sgf (dd i)) w) (T i) p q) <= 2 * de /\ frob r c (T1 i) <= frob r c A + (4 * INR i + 2) * de)) as (W & hW).
  { intros i hi. destruct (hinv i hi) as (g1 & g2). apply hlf; auto. }
  destruct (fin_choice (fun _ : nat => 0) (c - 1) (fun i w => fstep c r (ftr (Y i)) (ftr (X (S i))) i (i + 1) (oo i) w /\ frob r c (fun p q => T (S i) p q - mmul c (T1 i) (hh (i + 1) (sgf (oo i)) w) p q) <= 2 * de /\ frob r c (T (S i)) <= frob r c A + 4 * INR (S i) * de)) as (V & hV).
  { intros i hi. destruct (hW i ltac:(lia)) as (w1 & w2 & w3). apply hrt; auto. apply (fs_ok _ _ _ _ _ _ _ _ w1). }
  exists W, V.
  (* the stored axes *)
  assert (hcol : forall t k, (k <= t)%nat -> (t < c)%nat -> forall p, (p < r)%nat -> Y t p k = Y k p k).
  { induction t; intros k hk ht p hp; [replace k with O by lia; auto|]. destruct (Nat.eq_dec k (S t)) as [->|]; auto. rewrite <- (IHt k) by lia.
    rewrite (frun_keep _ _ _ _ _ _ _ (hL (S t) ht) p k) by lia. apply (frun_keep _ _ _ _ _ _ _ (hR t ltac:(lia)) k p); lia. }
  assert (hrow : forall t k, (k < t)%nat -> (t < c)%nat -> forall q, (q < c)%nat -> Y t k q = X (S k) k q).
  { induction t; intros k hk ht q hq; [lia|]. rewrite (frun_keep _ _ _ _ _ _ _ (hL (S t) ht) k q) by lia. destruct (Nat.eq_dec k t) as [->|]; auto. rewrite <- (IHt k) by lia.
    apply (frun_keep _ _ _ _ _ _ _ (hR t ltac:(lia)) q k); lia. }
  split; [|split].
  - intros k hk. destruct (hW k hk) as (w1 & _). destruct w1 as [f1 f2 f3 f4 f5 f6 _ _]. split; [auto|]. split; [auto|]. split; [auto|]. split.
    + intros p hp. rewrite (hcol (c - 1)%nat k) by lia. apply f5; lia.
    + eapply Rle_trans; [|exact f6]. right. apply vn_ext. intros p hp. rewrite (hcol (c - 1)%nat k) by lia. reflexivity.
  - intros k hk. destruct (hV k hk) as (w1 & _). destruct w1 as [f1 f2 f3 f4 f5 f6 _ _]. split; [auto|]. split; [auto|]. split; [auto|]. split.
    + intros p hp. rewrite (hrow (c - 1)%nat k) by lia. apply (f5 p k); lia.
    + eapply Rle_trans; [|exact f6]. right. apply vn_ext. intros p hp. rewrite (hrow (c - 1)%nat k) by lia. reflexivity.
  - set (P := fun k => hh k (sgf (dd k)) (W k)). set (Qq := fun k => hh (k + 1) (sgf (oo k)) (V k)).
    set (Q' := fun k => if Nat.ltb k (c - 1) then Qq k else mid). set (TT := fun i => if Nat.ltb i c then T i else T1 (c - 1)%nat).
    assert (hacc : frob r c (fun p q => TT O p q - mmul r (hprod r P c) (mmul c (TT c) (mtr (hprod c Q' c))) p q) <= INR c * (4 * de)).
    { apply accum_lr.
      - intros k hk. destruct (hW k hk) as (w1 & _). pose proof (fs_ref _ _ _ _ _ _ _ _ w1). split; [apply hh_orthogonal; auto|apply hh_invol; auto].
      - intros k hk. unfold Q'. destruct (Nat.ltb_spec k (c - 1)).
        + destruct (hV k ltac:(auto)) as (w1 & _). pose proof (fs_ref _ _ _ _ _ _ _ _ w1). split; [apply hh_orthogonal; auto|]. split; [apply hh_invol; auto|apply hsy; auto].
        + split; [split; unfold orthonormal_cols; rewrite ?mtr_mid, mmul_1_l, ?mtr_mid; reflexivity|]. split; [rewrite mmul_1_l; reflexivity|apply mtr_mid].
      - intros k hk. destruct (hW k hk) as (w1 & w2 & _). unfold TT at 2. destruct (Nat.ltb_spec k c); [|lia]. unfold Q'. destruct (Nat.ltb_spec k (c - 1)) as [lt|ge].
        + unfold TT. destruct (Nat.ltb_spec (S k) c); [|lia]. destruct (hV k lt) as (v1 & v2 & _). pose proof (fs_ref _ _ _ _ _ _ _ _ v1) as rf.
          set (E1 := fun p q => T1 k p q - mmul r (hh k (sgf (dd k)) (W k)) (T k) p q) in *. fold (P k) in E1. fold (Qq k) in v2. set (E2 := fun p q => T (S k) p q - mmul c (T1 k) (Qq k) p q) in *.
          assert (e1 : T1 k =[r, c]= madd (mmul r (P k) (T k)) E1) by (intros p q hp hq; unfold madd, E1; ring).
          assert (e2 : mmul c (T1 k) (Qq k) =[r, c]= madd (mmul r (P k) (mmul c (T k) (Qq k))) (mmul c E1 (Qq k))).
          { rewrite e1 at 1. rewrite (mmul_add_l r c c). rewrite (mmul_assoc r r c c (P k)). reflexivity. }
          assert (e3 : (fun p q => T (S k) p q - mmul r (P k) (mmul c (T k) (Qq k)) p q) =[r, c]= madd E2 (mmul c E1 (Qq k))).
          { intros p q hp hq. unfold madd, E2. rewrite (e2 p q hp hq). unfold madd. ring. }
          rewrite (frob_ext r c _ _ e3). eapply Rle_trans; [apply frob_triangle|]. unfold Qq at 1. rewrite hor by auto. lra.
        + unfold TT. destruct (Nat.ltb_spec (S k) c); [lia|]. replace (c - 1)%nat with k by lia.
          assert (e3 : (fun p q => T1 k p q - mmul r (P k) (mmul c (T k) mid) p q) =[r, c]= (fun p q => T1 k p q - mmul r (P k) (T k) p q)).
          { assert (e4 : mmul r (P k) (mmul c (T k) mid) =[r, c]= mmul r (P k) (T k)) by (rewrite mmul_1_r; reflexivity). intros p q hp hq. rewrite (e4 p q hp hq). reflexivity. }
          rewrite (frob_ext r c _ _ e3). fold (P k) in w2. lra. }
    eapply Rle_trans; [|eapply Rle_trans; [exact hacc|unfold de; lra]]. right. apply frob_ext. intros p q hp hq. f_equal.
    { unfold TT. destruct (Nat.ltb_spec 0 c); [reflexivity|lia]. }
    assert (eB : bpad c dr orr =[r, c]= TT c).
    { intros x y hx hy. unfold TT. rewrite Nat.ltb_irrefl. unfold bpad, T1, bW, bidiag. replace (S (c - 1)) with c by lia. bd; auto; try lia. }
    assert (eQ : hprod c Q' c =[c, c]= hprod c Qq (c - 1)).
    { assert (ec : forall m, m = S (c - 1) -> hprod c Q' m = mmul c (hprod c Q' (c - 1)) (Q' (c - 1)%nat)) by (intros m ->; reflexivity). rewrite (ec c) by lia. assert (e0 : Q' (c - 1)%nat = mid) by (unfold Q'; rewrite Nat.ltb_irrefl; reflexivity). rewrite e0, mmul_1_r. apply hprod_ext. intros k hk. unfold Q'. destruct (Nat.ltb_spec k (c - 1)); [reflexivity|lia]. }
    assert (eM : mmul r (hprod r P c) (mmul c (bpad c dr orr) (mtr (hprod c Qq (c - 1)))) =[r, c]= mmul r (hprod r P c) (mmul c (TT c) (mtr (hprod c Q' c)))) by (rewrite eB, eQ; reflexivity).
    apply eM; auto.
Qed.
End BRun.

(** ** The factors *)
Lemma dim_facts r c : (1 <= c <= r)%nat -> INR (r * (10 * r + 70)) * uro <= / 100 -> fits r /\ 4 * INR c * gam (10 * r + 70) <= 1.
Proof.
  intros hcr h. pose proof uro_pos as hu. assert (h1 : 1 <= INR r) by (apply (le_INR 1); lia). assert (hc : INR c <= INR r) by (apply le_INR; lia). pose proof (pos_INR c) as hc0.
  rewrite mult_INR in h. set (K := (10 * r + 70)%nat) in *. assert (hK : 70 <= INR K). { replace 70 with (INR 70) by (simpl; lra). apply le_INR. unfold K. lia. }
  assert (hKr : 10 * INR r <= INR K). { unfold K. rewrite plus_INR, mult_INR. replace (INR 10) with 10 by (simpl; lra). pose proof (pos_INR 70). lra. }
  assert (hKu : 0 < INR K * uro) by (apply Rmult_lt_0_compat; lra).
  assert (hrk : INR r * (INR K * uro) <= / 100) by lra.
  split. { unfold fits. assert (INR r * (70 * uro) <= INR r * (INR K * uro)) by (apply Rmult_le_compat_l; nra). lra. }
  assert (hku : INR K * uro <= / 100) by nra. pose proof (gam_usual K ltac:(lra)) as g.
  assert (g2 : gam K <= 2 * (INR K * uro)).
  { eapply Rle_trans; [exact g|]. apply Rmult_le_reg_r with (1 - INR K * uro); [lra|]. unfold Rdiv. rewrite Rmult_assoc, Rinv_l by lra. nra. }
  pose proof (gam_nonneg K). assert (INR c * gam K <= INR r * (2 * (INR K * uro))) by (apply Rmult_le_compat; auto). lra.
Qed.
Lemma eps_mono n n' c c' : (n <= n')%nat -> (c <= c')%nat -> gam (c * (10 * n + 70)) + INR c * U (c * (10 * n + 70)) * omega <= gam (c' * (10 * n' + 70)) + INR c' * U (c' * (10 * n' + 70)) * omega.
Proof.
  intros hn hc. assert (hm : (c * (10 * n + 70) <= c' * (10 * n' + 70))%nat) by (apply Nat.mul_le_mono; lia).
  pose proof (gam_mono _ _ hm) as g1. pose proof (pow_u_mono _ _ hm) as g2. pose proof omega_pos. pose proof (pos_INR c). assert (INR c <= INR c') by (apply le_INR; auto). pose proof (pow_u_ge1 (c * (10 * n + 70))).
  assert (INR c * U (c * (10 * n + 70)) * omega <= INR c' * U (c' * (10 * n' + 70)) * omega); [|lra].
  apply Rmult_le_compat_r; [lra|]. apply Rmult_le_compat; lra.
Qed.

(** the reduction seen from the tall side *)
Definition bid_tall (r c : nat) (A : M) (G : nat -> nat -> FN) (dd oo : nat -> FN) : Prop :=
  exists W V : nat -> nat -> R,
  (forall k, (k < c)%nat -> reflector r k (sgf (dd k)) (W k) /\ unitf (nsignum FN (dd k)) /\ fokx (dd k) /\
     (forall p, (k <= p < r)%nat -> fokx (G p k)) /\ vn (r - k) (fun p => fr (G (k + p)%nat k) - W k (k + p)%nat) <= gam (2 * (r - k) + 15)) /\
  (forall k, (k < c - 1)%nat -> reflector c (k + 1) (sgf (oo k)) (V k) /\ unitf (nsignum FN (oo k)) /\ fokx (oo k) /\
     (forall p, (k + 1 <= p < c)%nat -> fokx (G k p)) /\ vn (c - (k + 1)) (fun p => fr (G k (k + 1 + p)%nat) - V k (k + 1 + p)%nat) <= gam (2 * (c - (k + 1)) + 15)) /\
  let P := hprod r (fun k => hh k (sgf (dd k)) (W k)) c in let Q := hprod c (fun k => hh (k + 1) (sgf (oo k)) (V k)) (c - 1) in
  orthonormal_cols r c P /\ orthogonal c Q /\
  frob r c (fun p q => A p q - mmul c P (mmul c (bidiag (fun i => fr (dd i)) (fun i => fr (oo i))) (mtr Q)) p q) <= 4 * INR c * (gam (10 * r + 70) * (frob r c A + zfl)).

Lemma bid_tall_float (a : mat FN) b : bidiagonal a = Ret b ->
  let up := Nat.leb (nc a) (nr a) in let r := Nat.max (nr a) (nc a) in let c := Nat.min (nr a) (nc a) in let A : M := fun p q => fr (bG up a p q) in
  (forall p q, (p < nr a)%nat -> (q < nc a)%nat -> fokx (get a p q)) ->
  INR (r * (10 * r + 70)) * uro <= / 100 -> 2 * (frob r c A + zfl) <= cap ->
  (forall i, (i < c)%nat -> fr (vget (bi_diag b) i) = 0 \/ tiny <= Rabs (fr (vget (bi_diag b) i))) ->
  (forall i, (i < c - 1)%nat -> fr (vget (bi_off b) i) = 0 \/ tiny <= Rabs (fr (vget (bi_off b) i))) ->
  bid_tall r c A (bG up (uv b)) (vget (bi_diag b)) (vget (bi_off b)).
Proof.
  intros e up r c A hf hsm hcap hd ho. destruct (bid_trace a b e) as (h1 & wf & X & Y & x0 & yl & hL & hR). fold up r c in h1, x0, yl, hL, hR.
  assert (hcr : (1 <= c <= r)%nat) by (unfold c, r in *; lia). destruct (dim_facts r c hcr hsm) as (hfit & hs4).
  assert (eA : (fun p q => fr (X O p q)) = A) by (unfold A; rewrite x0; reflexivity).
  destruct (bid_float r c X Y (vget (bi_diag b)) (vget (bi_off b)) hcr hL hR hfit) as (W & V & w1 & w2 & w3); auto.
  - intros p q hp hq. rewrite x0. unfold bG, ftr, up, r, c in *. destruct (Nat.leb_spec (nc a) (nr a)); apply hf; lia.
  - rewrite eA. exact hcap.
  - rewrite eA in w3. exists W, V. unfold Lgood, Rgood in *. rewrite yl in *. split; [exact w1|]. split; [exact w2|]. cbv zeta.
    set (P := hprod r _ c) in *. set (Q := hprod c _ (c - 1)) in *.
    split; [|split].
    + apply orthogonal_cols; [lia|]. apply hprod_orthogonal. intros k hk. apply hh_orthogonal. apply (w1 k hk).
    + apply hprod_orthogonal. intros k hk. apply hh_orthogonal. apply (w2 k hk).
    + eapply Rle_trans; [|exact w3]. right. apply frob_ext. intros p q hp hq.
      set (B := bidiag (fun i => fr (vget (bi_diag b) i)) (fun i => fr (vget (bi_off b) i))) in *.
      assert (eM : mmul r P (mmul c (bpad c (fun i => fr (vget (bi_diag b) i)) (fun i => fr (vget (bi_off b) i))) (mtr Q)) =[r, c]= mmul c P (mmul c B (mtr Q))).
      { rewrite (mmul_trunc r c (proj2 hcr) r c).
        - intros x y hx hy. unfold mmul. apply Rsum_ext. intros l hl. f_equal. apply Rsum_ext. intros k hk. unfold bpad. destruct (Nat.ltb_spec l c); [reflexivity|lia].
        - intros x y hx hy. unfold mmul. apply Rsum_0. intros l hl. unfold bpad. destruct (Nat.ltb_spec x c); [lia|]. ring. }
      cbv beta. rewrite (eM p q hp hq). unfold A. rewrite x0. reflexivity.
Qed.

Lemma bid_decomp_float (a : mat FN) : let r := nr a in let c := nc a in let d := Nat.min r c in let n := Nat.max r c in let A := frm a in
  (1 <= d)%nat -> (forall p q, (p < r)%nat -> (q < c)%nat -> fokx (get a p q)) ->
  INR (n * (10 * n + 70)) * uro <= / 100 -> 2 * (frob r c A + zfl) <= cap ->
  exists b u bm vt, bidiagonal a = Ret b /\ generate_u b = Ret u /\ into_b b = Ret bm /\ generate_vt b = Ret vt /\ upper_diag b = Nat.leb c r /\
    nr u = r /\ nc u = d /\ nr bm = d /\ nc bm = d /\ nr vt = d /\ nc vt = c /\
    (forall i j, (i < d)%nat -> (j < d)%nat -> i <> j -> (if Nat.leb c r then j <> (i + 1)%nat else i <> (j + 1)%nat) -> frm bm i j = 0) /\
    ((forall i j, (i < d)%nat -> (j < d)%nat -> frm bm i j = 0 \/ tiny <= frm bm i j) ->
     (forall p j, (p < r)%nat -> (j < d)%nat -> fokx (get u p j)) /\ (forall p j, (p < d)%nat -> (j < d)%nat -> fokx (get bm p j) /\ 0 <= frm bm p j) /\ (forall p j, (p < d)%nat -> (j < c)%nat -> fokx (get vt p j)) /\
     exists P Q : M, orthonormal_cols r d P /\ orthonormal_cols c d Q /\
       frob r c (fun i j => A i j - mmul d P (mmul d (frm bm) (mtr Q)) i j) <= 4 * INR d * (gam (10 * n + 70) * (frob r c A + zfl)) /\
       (forall j, (j < d)%nat -> vn r (fun p => frm u p j - P p j) <= gam (d * (10 * n + 70)) + INR d * U (d * (10 * n + 70)) * omega) /\
       (forall j, (j < d)%nat -> vn c (fun p => frm vt j p - Q p j) <= gam (d * (10 * n + 70)) + INR d * U (d * (10 * n + 70)) * omega)).
Proof.
  intros r c d n A hd1 hf hsm hcap. pose proof (bidiagonal_class a) as hc. destruct (bidiagonal a) as [b|l| | |] eqn:e; try contradiction.
  2:{ exfalso. destruct hc as (_ & h). unfold d, r, c in *. lia. }
  destruct hc as (_ & wf). fold r c in wf.
  destruct (wp_ret _ _ (generate_u_safe _ _ _ wf)) as (u & eu & u1 & u2). destruct (wp_ret _ _ (generate_vt_safe _ _ _ wf)) as (vt & ev & v1 & v2).
  destruct (wp_ret _ _ (into_b_ok _ _ _ wf)) as (bm & eb & b1 & b2 & b3). fold d in u2, v1, b1, b2, b3.
  destruct (wf) as (w1 & w2 & w3 & w4 & w5 & w6). fold d in w3, w4, w6.
  exists b, u, bm, vt. repeat (split; [assumption||reflexivity|]). rewrite w5 in b3.
  assert (hz : forall i j, (i < d)%nat -> (j < d)%nat -> i <> j -> (if Nat.leb c r then j <> (i + 1)%nat else i <> (j + 1)%nat) -> frm bm i j = 0).
  { intros i j hi hj h1 h2. unfold frm. rewrite b3 by auto. destruct (Nat.eqb_spec i j); [lia|]. destruct (Nat.leb c r); bd; reflexivity. }
  split; [exact hz|]. intros hcl.
  assert (hcl0 : forall x, fr (nabs FN x) = 0 \/ tiny <= fr (nabs FN x) -> fr x = 0 \/ tiny <= Rabs (fr x)).
  { intros x. rewrite fr_abs. intros [h|h]; auto. left. destruct (Req_dec (fr x) 0) as [h0|h0]; auto. apply Rabs_no_R0 in h0. contradiction. }
  assert (hdg : forall i, (i < d)%nat -> fr (vget (bi_diag b) i) = 0 \/ tiny <= Rabs (fr (vget (bi_diag b) i))).
  { intros i hi. apply hcl0. specialize (hcl i i hi hi). unfold frm in hcl. rewrite b3 in hcl by auto. rewrite Nat.eqb_refl in hcl. exact hcl. }
  assert (hof : forall i, (i < d - 1)%nat -> fr (vget (bi_off b) i) = 0 \/ tiny <= Rabs (fr (vget (bi_off b) i))).
  { intros i hi. apply hcl0. destruct (Nat.leb c r).
    - specialize (hcl i (i + 1)%nat ltac:(lia) ltac:(lia)). unfold frm in hcl. rewrite b3 in hcl by lia. destruct (Nat.eqb_spec i (i + 1)); [lia|]. rewrite Nat.eqb_refl in hcl. exact hcl.
    - specialize (hcl (i + 1)%nat i ltac:(lia) ltac:(lia)). unfold frm in hcl. rewrite b3 in hcl by lia. destruct (Nat.eqb_spec (i + 1) i); [lia|]. rewrite Nat.eqb_refl in hcl. exact hcl. }
  assert (hN : frob n d (fun p q => fr (bG (Nat.leb c r) a p q)) = frob r c A).
  { unfold bG, n, d. destruct (Nat.leb_spec c r).
    - rewrite Nat.max_l, Nat.min_r by lia. reflexivity.
    - rewrite Nat.max_r, Nat.min_l by lia. rewrite <- (frob_trr c r). reflexivity. }
  pose proof (bid_tall_float a b e) as ht. cbv zeta in ht. fold r c in ht. fold n d in ht. rewrite hN in ht. specialize (ht hf hsm hcap hdg hof).
  destruct ht as (W & V & t1 & t2 & t3). cbv zeta in t3. destruct t3 as (t3 & t4 & t5). rewrite hN in t5.
  destruct (dim_facts n d ltac:(unfold n, d in *; lia) hsm) as (hfit & _).
  assert (hfd : fits d) by (apply (fits_le n); auto; unfold n, d; lia).
  set (P := hprod n _ d) in *. set (Q := hprod d _ (d - 1)) in *. set (B := bidiag (fun i => fr (vget (bi_diag b) i)) (fun i => fr (vget (bi_off b) i))) in *.
  assert (he1 : gam (d * (10 * n + 70)) + INR d * U (d * (10 * n + 70)) * omega <= 1) by (apply eps_small; auto; unfold d, n; lia).
  assert (he2 : gam ((d - 1) * (10 * d + 70)) + INR (d - 1) * U ((d - 1) * (10 * d + 70)) * omega <= 1).
  { eapply Rle_trans; [apply (eps_mono d n (d - 1) d); unfold d, n; lia|exact he1]. }
  set (eps := gam (d * (10 * n + 70)) + INR d * U (d * (10 * n + 70)) * omega) in *.
  assert (i1 : forall i, (i < d)%nat -> idx1 (bi_diag b) i = Ret (vget (bi_diag b) i)) by (intros i hi; unfold idx1; rewrite w3; destruct (Nat.ltb_spec i d); [reflexivity|lia]).
  assert (i2 : forall i, (i < d - 1)%nat -> idx1 (bi_off b) i = Ret (vget (bi_off b) i)) by (intros i hi; unfold idx1; rewrite w4; destruct (Nat.ltb_spec i (d - 1)); [reflexivity|lia]).
  assert (hbm : forall p j, (p < d)%nat -> (j < d)%nat -> fokx (get bm p j) /\ 0 <= frm bm p j).
  { assert (ha : forall x, fokx x -> fokx (nabs FN x) /\ 0 <= fr (nabs FN x)) by (intros x (x1 & x2); split; [split; [apply fvalid_abs|apply ffin_abs]; auto|rewrite fr_abs; apply Rabs_pos]).
    assert (h0 : fokx (n0 FN) /\ 0 <= fr (n0 FN)) by (split; [split; reflexivity|change (fr (n0 FN)) with 0; lra]).
    intros p j hp hj. unfold frm. rewrite b3 by auto. destruct (Nat.eqb p j); [apply ha; apply (t1 p hp)|].
    destruct (Nat.leb c r); [destruct (Nat.eqb_spec j (p + 1))|destruct (Nat.eqb_spec p (j + 1))]; auto; apply ha; [apply (t2 p)|apply (t2 j)]; lia. }
  assert (em : Nat.min c r = d) by (unfold d; lia).
  unfold generate_u in eu. unfold generate_vt in ev. rewrite w5 in eu, ev.
  destruct (Nat.leb_spec c r) as [tall|wide].
  - assert (ed : d = c) by (unfold d; lia). assert (en : n = r) by (unfold n; lia). cbn [bG] in *.
    destruct (assemble_q (transpose (uv b)) 1 _) as [v| | | |] eqn:ea; try discriminate. cbn [bind] in ev. injection ev as <-. dims.
    destruct (asm_float (uv b) u 0 (fun i => idx1 (bi_diag b) i) (vget (bi_diag b)) W) as (_ & _ & a1 & a2); rewrite ?w1, ?w2; fold d; rewrite ?Nat.sub_0_r, <- ?en; auto.
    + lia.
    + intros k hk. rewrite Nat.add_0_r. apply (t1 k hk).
    + intros k hk. rewrite Nat.add_0_r. destruct (t1 k hk) as (g1 & g2 & g3 & g4 & g5). auto.
    + rewrite w1, w2 in a1, a2. fold d in a1, a2. rewrite Nat.sub_0_r in a2. rewrite <- en in a1, a2.
      assert (eP : hprod n (fun k => hh (k + 0) (sgf (vget (bi_diag b) k)) (W k)) d =[n, n]= P) by (apply hprod_ext; intros k hk; rewrite Nat.add_0_r; reflexivity).
      destruct (asm_float (transpose (uv b)) v 1 (fun i => idx1 (bi_off b) i) (vget (bi_off b)) V) as (_ & _ & c1 & c2); dims; rewrite ?w1, ?w2, ?em, <- ?ed; auto.
      * intros k hk. apply (t2 k hk).
      * intros k hk. destruct (t2 k hk) as (g1 & g2 & g3 & g4 & g5). split; auto. split.
        { intros p hp. rewrite get_transpose by lia. apply g4. auto. }
        eapply Rle_trans; [|exact g5]. right. apply vn_ext. intros p hp. unfold frm. rewrite get_transpose by lia. reflexivity.
      * dims. rewrite w1, w2, em in c1, c2. rewrite <- ed in c1, c2.
        split; [exact a1|]. split; [exact hbm|]. split.
        { intros p j hp hj. rewrite get_transpose by lia. apply c1; lia. }
        rewrite <- ?en, <- ?ed in t5. exists P, Q. split; [exact t3|]. split; [apply t4|]. split.
        { eapply Rle_trans; [|exact t5]. right. apply frob_ext. intros i j hi hj. f_equal. 
          assert (eB : frm bm =[d, d]= B).
          { intros p q hp hq. unfold frm. rewrite b3 by auto. unfold B, bidiag. rewrite (Nat.eqb_sym q p). destruct (Nat.eqb p q); [apply fr_abs|]. destruct (Nat.eqb q (p + 1)); [apply fr_abs|reflexivity]. }
          assert (eM : mmul d P (mmul d (frm bm) (mtr Q)) =[n, d]= mmul d P (mmul d B (mtr Q))) by (rewrite eB; reflexivity). apply eM; auto. }
        split.
        { intros j hj. eapply Rle_trans; [|apply (a2 j hj)]. right. apply vn_ext. intros p hp. rewrite (eP p j) by (unfold n, d in *; lia). reflexivity. }
        intros j hj. eapply Rle_trans; [|apply (eps_mono d n (d - 1) d); unfold d, n; lia]. eapply Rle_trans; [|apply (c2 j hj)]. right. apply vn_ext. intros p hp. unfold frm. rewrite get_transpose by lia. reflexivity.
  - assert (ed : d = r) by (unfold d; lia). assert (en : n = c) by (unfold n; lia). cbn [bG] in *.
    destruct (assemble_q (transpose (uv b)) 0 _) as [v| | | |] eqn:ea; try discriminate. cbn [bind] in ev. injection ev as <-. dims.
    destruct (asm_float (transpose (uv b)) v 0 (fun i => idx1 (bi_diag b) i) (vget (bi_diag b)) W) as (_ & _ & a1 & a2); dims; rewrite ?w1, ?w2, ?em; rewrite ?Nat.sub_0_r, <- ?en; auto.
    + lia.
    + intros k hk. rewrite Nat.add_0_r. apply (t1 k hk).
    + intros k hk. rewrite Nat.add_0_r. destruct (t1 k hk) as (g1 & g2 & g3 & g4 & g5). split; auto. split.
      { intros p hp. rewrite get_transpose by lia. apply g4. auto. }
      eapply Rle_trans; [|exact g5]. right. apply vn_ext. intros p hp. unfold frm. rewrite get_transpose by lia. reflexivity.
    + dims. rewrite w1, w2, em in a1, a2. rewrite Nat.sub_0_r in a2. rewrite <- en in a1, a2.
      assert (eP : hprod n (fun k => hh (k + 0) (sgf (vget (bi_diag b) k)) (W k)) d =[n, n]= P) by (apply hprod_ext; intros k hk; rewrite Nat.add_0_r; reflexivity).
      destruct (asm_float (uv b) u 1 (fun i => idx1 (bi_off b) i) (vget (bi_off b)) V) as (_ & _ & c1 & c2); rewrite ?w1, ?w2; fold d; rewrite <- ?ed; auto.
      * intros k hk. apply (t2 k hk).
      * intros k hk. destruct (t2 k hk) as (g1 & g2 & g3 & g4 & g5). auto.
      * rewrite w1, w2 in c1, c2. fold d in c1, c2. rewrite <- ed in c1, c2.
        split; [exact c1|]. split; [exact hbm|]. split.
        { intros p j hp hj. rewrite get_transpose by lia. apply a1; lia. }
        rewrite <- ?en, <- ?ed in t5. exists Q, P. split; [apply t4|]. split; [exact t3|]. split.
        { eapply Rle_trans; [|exact t5]. right. rewrite <- (frob_trr d n). apply frob_ext. intros i j hi hj. unfold mtr at 2. f_equal. 
          assert (eB : frm bm =[d, d]= mtr B).
          { intros p q hp hq. unfold frm, mtr. rewrite b3 by auto. unfold B, bidiag. destruct (Nat.eqb_spec p q) as [->|]; [apply fr_abs|]. destruct (Nat.eqb p (q + 1)); [apply fr_abs|reflexivity]. }
          assert (eM : mmul d Q (mmul d (frm bm) (mtr P)) =[d, n]= mtr (mmul d P (mmul d B (mtr Q)))).
          { rewrite eB, (mtr_mmul n d d P), (mtr_mmul d d d B), (mtr_mtr d d Q). rewrite (mmul_assoc d d d n Q). reflexivity. }
          apply eM; auto. }
        split.
        { intros j hj. eapply Rle_trans; [|apply (eps_mono d n (d - 1) d); unfold d, n; lia]. eapply Rle_trans; [|apply (c2 j hj)]. right. apply vn_ext. intros p hp. reflexivity. }
        intros j hj. eapply Rle_trans; [|apply (a2 j hj)]. right. apply vn_ext. intros p hp. unfold frm. rewrite get_transpose by lia. rewrite (eP p j) by (unfold n, d in *; lia). reflexivity.
Qed.
