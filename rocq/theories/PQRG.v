(** * The QR decomposition in floating point: accumulation over the columns *)
From Coq Require Import Reals List Arith Lia Lra Bool ZArith Setoid Morphisms.
From Coq.Floats Require Import SpecFloat.
From Verif Require Import Scalar Arr MBase MDirect Inst Hoare Spec SpecF RLin PTri PHouse PQR PRound PTriF PCholF PNormF PHouseF PQRF.
Import ListNotations.
Local Open Scope R_scope.
Local Notation U k := ((1 + uro) ^ k).

Lemma for_trace {S} (f : nat -> S -> res S) cnt : forall lo s s', for_ cnt lo f s = Ret s' ->
  exists ss : nat -> S, ss O = s /\ ss cnt = s' /\ forall k, (k < cnt)%nat -> f (lo + k)%nat (ss k) = Ret (ss (Datatypes.S k)).
Proof.
  induction cnt as [|cnt IH]; intros lo s s' e.
  - injection e as <-. exists (fun _ => s). split; [|split]; auto. intros; lia.
  - cbn [for_] in e. destruct (f lo s) as [s1| | | |] eqn:e1; try discriminate. cbn [bind] in e.
    destruct (IH _ _ _ e) as (ss & h1 & h2 & h3). exists (fun k => match k with O => s | Datatypes.S k => ss k end).
    split; auto. split; auto. intros [|k] hk.
    + rewrite Nat.add_0_r, h1. exact e1.
    + replace (lo + Datatypes.S k)%nat with (Datatypes.S lo + k)%nat by lia. apply h3. lia.
Qed.
(** the states of a descending loop, [ss k] before the iterations below k *)
Lemma for_rev_trace {S} (f : nat -> S -> res S) n : forall s s', for_rev n f s = Ret s' ->
  exists ss : nat -> S, ss n = s /\ ss O = s' /\ forall k, (k < n)%nat -> f k (ss (Datatypes.S k)) = Ret (ss k).
Proof.
  induction n as [|n IH]; intros s s' e.
  - injection e as <-. exists (fun _ => s). split; [|split]; auto. intros; lia.
  - cbn [for_rev] in e. destruct (f n s) as [s1| | | |] eqn:e1; try discriminate. cbn [bind] in e.
    destruct (IH _ _ e) as (ss & h1 & h2 & h3). exists (fun k => if Nat.eqb k (Datatypes.S n) then s else ss k).
    split; [now rewrite Nat.eqb_refl|]. split; [auto|]. intros k hk. destruct (Nat.eq_dec k n) as [->|ne].
    + rewrite Nat.eqb_refl. bd. rewrite h1. auto.
    + bd. apply h3. lia.
Qed.

(** ** What assemble_q computes, for any scalars *)
Lemma assemble_trace {N : Num} (m : mat N) df (d : nat -> N) q : (nc m <= nr m)%nat ->
  (forall i, (i < nc m)%nat -> df i = Ret (d i)) -> assemble_q m 0 df = Ret q ->
  exists ss : nat -> mat N, ss O = q /\ (forall k, (k <= nc m)%nat -> nr (ss k) = nr m /\ nc (ss k) = nc m) /\
    (forall p j, (p < nr m)%nat -> (j < nc m)%nat -> get (ss (nc m)) p j = if Nat.eqb p j then n1 N else n0 N) /\
    forall k, (k < nc m)%nat -> forall p j, (p < nr m)%nat -> (j < nc m)%nat -> get (ss k) p j =
      if Nat.ltb p k then get (ss (S k)) p j else if Nat.ltb j k then get (ss (S k)) p j else
      nmul N (refl_entry (fun l => get m (k + l)%nat k) (n0 N) (nr m - k) (fun l b => get (ss (S k)) (k + l)%nat b) (p - k) j) (nsignum N (d k)).
Proof.
  intros hle hd e. unfold assemble_q in e. set (n := nr m) in *. set (c := nc m) in *.
  replace (Nat.min n c) with c in e by lia. unfold usub in e. destruct (Nat.leb_spec 0 c); [|lia]. cbn [bind] in e. rewrite Nat.sub_0_r in e.
  destruct (for_rev_trace _ _ _ _ e) as (ss & h1 & h2 & h3). exists ss. split; auto.
  assert (hb : forall k, (k < c)%nat -> nr (ss (S k)) = n -> nc (ss (S k)) = c -> nr (ss k) = n /\ nc (ss k) = c /\
     forall p j, (p < n)%nat -> (j < c)%nat -> get (ss k) p j = if Nat.ltb p k then get (ss (S k)) p j else if Nat.ltb j k then get (ss (S k)) p j else
      nmul N (refl_entry (fun l => get m (k + l)%nat k) (n0 N) (n - k) (fun l b => get (ss (S k)) (k + l)%nat b) (p - k) j) (nsignum N (d k))).
  { intros k hk g1 g2. specialize (h3 k hk). cbv beta in h3. rewrite Nat.add_0_r in h3. set (q1 := ss (S k)) in *.
    refine (post_inv _ (fun r => nr r = n /\ nc r = c /\ forall p j, (p < n)%nat -> (j < c)%nat -> get r p j = _) noE False _ _ h3).
    step1. apply post_col_from; try (fold n; fold c; lia). step1. apply post_slice; try lia.
    step1. eapply post_mono; [apply reflect_cols_ok; simpl; dims; fold n; lia|].
    intros y (y1 & y2 & y3). dims. cbn [axis bias] in y3. rewrite g1, g2 in *. rewrite hd by auto. cbn [bind]. apply post_ret. dims.
    split; auto. split; auto. intros p j hp hj. rewrite get_put by lia. dims. rewrite y1, y2.
    destruct (Nat.ltb_spec p k); [bd; auto|]. destruct (Nat.ltb_spec j k); [bd; auto|]. bd. rewrite get_mscale by lia. f_equal.
    rewrite y3 by lia. unfold refl_entry. rewrite get_mk by lia. rewrite vget_vmk by (fold n; lia).
    replace (k + (j - k))%nat with j by lia. fold n. f_equal. f_equal. f_equal. f_equal. apply sumn_ext. intros l hl. rewrite vget_vmk by (fold n; lia). rewrite get_mk by lia.
    replace (k + (j - k))%nat with j by lia. reflexivity. }
  assert (hdim : forall t, (t <= c)%nat -> nr (ss (c - t)%nat) = n /\ nc (ss (c - t)%nat) = c).
  { induction t; intros ht.
    - rewrite Nat.sub_0_r, h1. destruct (Nat.eqb_spec n c); unfold eye; dims; auto.
    - destruct (IHt ltac:(lia)) as (g1 & g2). replace (c - t)%nat with (S (c - S t)) in g1, g2 by lia. destruct (hb (c - S t)%nat ltac:(lia) g1 g2) as (g3 & g4 & _). auto. }
  assert (hdim' : forall k, (k <= c)%nat -> nr (ss k) = n /\ nc (ss k) = c).
  { intros k hk. replace k with (c - (c - k))%nat by lia. apply hdim. lia. }
  split; auto. split.
  - intros p j hp hj. rewrite h1. destruct (Nat.eqb_spec n c) as [enc|enc]; unfold eye; rewrite get_mk by lia; reflexivity.
  - intros k hk. destruct (hdim' (S k) ltac:(lia)). apply hb; auto.
Qed.

(** ** Validity is kept *)
Lemma sig_valid x : fvalid (nsignum FN x).
Proof. unfold nsignum, FN, f_signum. destruct (f_is_nan _); [reflexivity|]. destruct (f_neg _); reflexivity. Qed.
Lemma axis_valid c v o : (0 < length c)%nat -> vvalid c -> reflection_axis_mut c = Ret (v, o) -> vvalid v.
Proof.
  intros hm hv e. rewrite axis_outcome in e by auto. cbv zeta in e. destruct (ax_valid c hv hm) as (v1 & v2 & v3 & v4).
  assert (hc : vvalid (vupd c 0 (nadd FN (vget c 0) (ax_sn c)))).
  { intros i hi. rewrite length_vupd in hi. rewrite vget_vupd by auto. destruct (Nat.eqb i 0); auto. apply fvalid_add; auto. }
  destruct (negb (nis_zero FN (ax_nn c))); injection e as <- <-; auto.
  intros i hi. rewrite length_vmap in hi. rewrite vget_vmap by auto. apply fvalid_div; auto. apply fvalid_sqrt. auto.
Qed.
Lemma clear_valid (m m' : mat FN) i x : (i < nr m)%nat -> (i < nc m)%nat -> mvalid m -> clear_column m i 0 = Ret (m', x) ->
  mvalid m' /\ nr m' = nr m /\ nc m' = nc m.
Proof.
  intros hi hic hv e.
  destruct (clear_column_outcome m i 0 m' x ltac:(rewrite Nat.add_0_r; auto) hic e) as (v & o & er & lv & ex & h1 & h2 & h3).
  rewrite Nat.add_0_r in *. split; auto.
  assert (vv : vvalid v).
  { refine (axis_valid _ _ _ _ _ er); [rewrite length_vmk; lia|]. intros p hp. rewrite length_vmk in hp. rewrite vget_vmk by auto. apply hv; lia. }
  intros p q hp hq. rewrite h1 in hp. rewrite h2 in hq. rewrite h3 by auto. pose proof (hv p q hp hq).
  destruct (Nat.ltb_spec p i); auto. destruct (Nat.ltb_spec q i); auto. destruct (Nat.eqb_spec q i); [apply vv; lia|]. destruct o as [y|]; auto. apply fvalid_mul; [|apply sig_valid].
  apply (afl_valid _ (vget v) (fun a => get m (i + a)%nat q) (p - i)); [lia|intros; apply vv; lia|intros; apply hv; lia].
Qed.

(** ** Accumulation of the errors of a product of reflections *)
Definition colm (x : nat -> R) : M := fun l _ => x l.
Lemma vn_orth n P x : orthogonal n P -> vn n (fun p => mmul n P (colm x) p 0%nat) = vn n x.
Proof.
  intros (h & _). unfold vn, frob. f_equal. rewrite <- (frob2_orth_l n 1 P (fun i _ => x i) h). apply frob2_ext.
  intros i j hi hj. reflexivity.
Qed.
Lemma accum n (P : nat -> M) (X : nat -> nat -> R) G w c : 1 <= G -> 0 <= w ->
  (forall k, (k < c)%nat -> orthogonal n (P k)) -> (forall k, (k < c)%nat -> mmul n (P k) (P k) =[n, n]= mid) ->
  (forall k, (k < c)%nat -> vn n (fun p => X (S k) p - mmul n (P k) (colm (X k)) p 0%nat) <= (G - 1) * vn n (X k) + w) ->
  vn n (X c) <= G ^ c * vn n (X O) + INR c * G ^ c * w /\
  vn n (fun p => X O p - mmul n (hprod n P c) (colm (X c)) p 0%nat) <= (G ^ c - 1) * vn n (X O) + INR c * G ^ c * w.
Proof.
  intros hG hw. induction c as [|c IH]; intros ho hi he.
  - cbn [pow hprod]. split; [simpl; lra|]. rewrite (vn_ext n _ (fun _ => 0)).
    + pose proof (vn_const n 0) as h. rewrite Rabs_R0, Rmult_0_r in h. simpl. lra.
    + intros p hp. assert (e : mmul n mid (colm (X O)) =[n, 1]= colm (X O)) by apply mmul_1_l.
      rewrite (e p 0%nat) by auto. unfold colm. ring.
  - destruct IH as (h1 & h2); auto. specialize (he c ltac:(lia)). pose proof (ho c ltac:(lia)) as hoc. pose proof (hi c ltac:(lia)) as hic.
    assert (hGc : 1 <= G ^ c) by (apply pow_R1_Rle; auto). pose proof (pos_INR c) as hc0. pose proof (vn_nonneg n (X c)) as hx0.
    set (E := fun p => X (S c) p - mmul n (P c) (colm (X c)) p 0%nat) in *.
    assert (hcw : 0 <= INR c * G ^ c * w) by (repeat apply Rmult_le_pos; lra).
    assert (b0 : w <= G * G ^ c * w) by (assert (1 <= G * G ^ c) by nra; nra).
    split.
    + apply Rle_trans with (vn n (X c) + ((G - 1) * vn n (X c) + w)).
      * eapply Rle_trans; [right; apply (vn_ext n _ (fun p => mmul n (P c) (colm (X c)) p 0%nat + E p)); intros; unfold E; ring|].
        eapply Rle_trans; [apply vn_plus|]. rewrite vn_orth by auto. lra.
      * rewrite S_INR. cbn [pow]. assert (G * vn n (X c) <= G * (G ^ c * vn n (X O) + INR c * G ^ c * w)) by (apply Rmult_le_compat_l; lra). lra.
    + set (Y := fun p => X O p - mmul n (hprod n P c) (colm (X c)) p 0%nat) in *.
      assert (e : forall p, (p < n)%nat -> X O p - mmul n (hprod n P (S c)) (colm (X (S c))) p 0%nat = Y p + (-1) * mmul n (hprod n P c) (colm (fun q => mmul n (P c) (colm E) q 0%nat)) p 0%nat).
      { intros p hp. assert (e1 : mmul n (hprod n P (S c)) (colm (X (S c))) =[n, 1]= (fun p q => mmul n (hprod n P c) (colm (X c)) p q + mmul n (hprod n P c) (mmul n (P c) (colm E)) p q)).
        { assert (e2 : colm (X (S c)) =[n, 1]= madd (mmul n (P c) (colm (X c))) (colm E)).
          { intros i j hi' hj'. unfold madd, colm, E. replace j with 0%nat by lia. unfold mmul, colm. ring. }
          rewrite e2. cbn [hprod]. rewrite (mmul_assoc n n n 1). rewrite (mmul_add_r n n 1). rewrite <- (mmul_assoc n n n 1 (P c) (P c)). rewrite hic, mmul_1_l.
          rewrite (mmul_add_r n n 1). reflexivity. }
        rewrite (e1 p 0%nat) by auto. unfold Y. 
        replace (mmul n (hprod n P c) (colm (fun q => mmul n (P c) (colm E) q 0%nat)) p 0%nat) with (mmul n (hprod n P c) (mmul n (P c) (colm E)) p 0%nat) by reflexivity. ring. }
      eapply Rle_trans; [right; apply (vn_ext n _ _ e)|]. eapply Rle_trans; [apply vn_plus|]. rewrite vn_scal, Rabs_left by lra.
      assert (hop : orthogonal n (hprod n P c)) by (apply hprod_orthogonal; auto).
      rewrite vn_orth by auto. rewrite vn_orth by auto. rewrite S_INR. cbn [pow].
      assert (hg1 : 0 <= G - 1) by lra.
      assert (b1 : (G - 1) * vn n (X c) <= (G - 1) * (G ^ c * vn n (X O) + INR c * G ^ c * w)) by (apply Rmult_le_compat_l; auto).
      lra.
Qed.

Lemma accum_rev n (P : nat -> M) (X : nat -> nat -> R) G w c : 1 <= G -> 0 <= w ->
  (forall k, (k < c)%nat -> orthogonal n (P k)) ->
  (forall k, (k < c)%nat -> vn n (fun p => X k p - mmul n (P k) (colm (X (S k))) p 0%nat) <= (G - 1) * vn n (X (S k)) + w) ->
  vn n (fun p => X O p - mmul n (hprod n P c) (colm (X c)) p 0%nat) <= (G ^ c - 1) * vn n (X c) + INR c * G ^ c * w.
Proof.
  intros hG hw. induction c as [|c IH]; intros ho he.
  - cbn [pow hprod]. rewrite (vn_ext n _ (fun _ => 0)).
    + pose proof (vn_const n 0) as h. rewrite Rabs_R0, Rmult_0_r in h. simpl. lra.
    + intros p hp. assert (e : mmul n mid (colm (X O)) =[n, 1]= colm (X O)) by apply mmul_1_l.
      rewrite (e p 0%nat) by auto. unfold colm. ring.
  - pose proof (IH ltac:(auto) ltac:(auto)) as h2. specialize (he c ltac:(lia)). pose proof (ho c ltac:(lia)) as hoc.
    assert (hGc : 1 <= G ^ c) by (apply pow_R1_Rle; auto). pose proof (pos_INR c) as hc0. pose proof (vn_nonneg n (X (S c))) as hx0.
    set (E := fun p => X c p - mmul n (P c) (colm (X (S c))) p 0%nat) in *.
    assert (hx : vn n (X c) <= G * vn n (X (S c)) + w).
    { eapply Rle_trans; [right; apply (vn_ext n _ (fun p => mmul n (P c) (colm (X (S c))) p 0%nat + E p)); intros; unfold E; ring|].
      eapply Rle_trans; [apply vn_plus|]. rewrite vn_orth by auto. lra. }
    set (Y := fun p => X O p - mmul n (hprod n P c) (colm (X c)) p 0%nat) in *.
    assert (e : forall p, (p < n)%nat -> X O p - mmul n (hprod n P (S c)) (colm (X (S c))) p 0%nat = Y p + mmul n (hprod n P c) (colm E) p 0%nat).
    { intros p hp. assert (e1 : mmul n (hprod n P c) (colm (X c)) =[n, 1]= (fun p q => mmul n (hprod n P (S c)) (colm (X (S c))) p q + mmul n (hprod n P c) (colm E) p q)).
      { assert (e2 : colm (X c) =[n, 1]= madd (mmul n (P c) (colm (X (S c)))) (colm E)).
        { intros i j hi' hj'. unfold madd, colm, E. replace j with 0%nat by lia. unfold mmul, colm. ring. }
        rewrite e2. rewrite (mmul_add_r n n 1). cbn [hprod]. intros i j hi hj. unfold madd. rewrite (mmul_assoc n n n 1 (hprod n P c) (P c) (colm (X (S c))) i j) by auto. reflexivity. }
      unfold Y. rewrite (e1 p 0%nat) by auto. ring. }
    eapply Rle_trans; [right; apply (vn_ext n _ _ e)|]. eapply Rle_trans; [apply vn_plus|].
    assert (hop : orthogonal n (hprod n P c)) by (apply hprod_orthogonal; auto).
    rewrite vn_orth by auto. rewrite S_INR. cbn [pow].
    assert (b1 : (G ^ c - 1) * vn n (X c) <= (G ^ c - 1) * (G * vn n (X (S c)) + w)) by (apply Rmult_le_compat_l; lra).
    assert (b2 : 0 <= (INR c + 1) * G ^ c * w) by (repeat apply Rmult_le_pos; lra).
    assert (b3 : (INR c + 1) * G ^ c * w <= (INR c + 1) * (G * G ^ c) * w).
    { replace ((INR c + 1) * (G * G ^ c) * w) with (G * ((INR c + 1) * G ^ c * w)) by ring. nra. }
    lra.
Qed.

(** ** The run of qr_into *)
Section Run.
Variables (a : mat FN) (d : qrdecomp FN).
Hypothesis hva : mvalid a.
Hypothesis hrun : qr_into a = Ret d.
Let n := nr a.
Let c := nc a.

Lemma qr_trace : (c <= n)%nat /\ nr (qr d) = n /\ nc (qr d) = c /\ length (qdiag d) = c /\ exists ms : nat -> mat FN, ms O = a /\ ms c = qr d /\
  (forall k, (k <= c)%nat -> mvalid (ms k) /\ nr (ms k) = n /\ nc (ms k) = c) /\
  (forall k, (k < c)%nat -> clear_column (ms k) k 0 = Ret (ms (S k), vget (qdiag d) k)).
Proof.
  pose proof (qr_class a) as hc. rewrite hrun in hc. destruct hc as (hle & d1 & d2 & w1 & w2).
  split; auto. split; auto. split; auto. split; [lia|].
  pose proof hrun as e. unfold qr_into in e. destruct (Nat.ltb_spec (nr a) (nc a)); [lia|].
  destruct (for_ (nc a) 0 _ (a, vzeros (nc a))) as [[m' dd]| | | |] eqn:ef; try discriminate. cbn [bind] in e. injection e as <-.
  destruct (for_trace _ _ _ _ _ ef) as (ss & h1 & h2 & h3). cbn [qr qdiag] in *. fold c in h2, h3.
  assert (hk : forall k, (k <= c)%nat -> (mvalid (fst (ss k)) /\ nr (fst (ss k)) = n /\ nc (fst (ss k)) = c) /\ length (snd (ss k)) = c).
  { induction k; intros hk.
    - rewrite h1. cbn [fst snd]. split; [split; [exact hva|auto]|apply length_vzeros].
    - specialize (h3 k ltac:(lia)). destruct (IHk ltac:(lia)) as ((g1 & g2 & g3) & g4). cbn [Nat.add] in h3. destruct (ss k) as [mk dk]. cbn [fst snd] in *.
      destruct (clear_column mk k 0) as [[m1 x]| | | |] eqn:ec; try discriminate. cbn [bind] in h3. unfold set1 in h3. rewrite g4 in h3.
      destruct (Nat.ltb_spec k c); [|lia]. cbn [bind] in h3. injection h3 as <-. cbn [fst snd].
      destruct (clear_valid mk m1 k x ltac:(lia) ltac:(lia) g1 ec) as (q1 & q2 & q3). rewrite length_vupd. split; [split; [exact q1|split; congruence]|exact g4]. }
  assert (hstep : forall k, (k < c)%nat -> exists x, clear_column (fst (ss k)) k 0 = Ret (fst (ss (S k)), x) /\ snd (ss (S k)) = vupd (snd (ss k)) k x).
  { intros k hkc. specialize (h3 k hkc). destruct (hk k ltac:(lia)) as (_ & g4). cbn [Nat.add] in h3. destruct (ss k) as [mk dk]. cbn [fst snd] in *.
    destruct (clear_column mk k 0) as [[m1 x]| | | |] eqn:ec; try discriminate. cbn [bind] in h3. unfold set1 in h3. rewrite g4 in h3.
    destruct (Nat.ltb_spec k c); [|lia]. cbn [bind] in h3. injection h3 as <-. cbn [fst snd]. eauto. }
  assert (hlate : forall j k, (k < j)%nat -> (j <= c)%nat -> vget (snd (ss j)) k = vget (snd (ss (S k))) k).
  { induction j; intros k hkj hj; [lia|]. destruct (Nat.eq_dec k j) as [->|]; auto. rewrite <- IHj by lia.
    destruct (hstep j ltac:(lia)) as (x & _ & ->). destruct (hk j ltac:(lia)) as (_ & g4). rewrite vget_vupd by lia. bd. reflexivity. }
  exists (fun k => fst (ss k)). rewrite h1, h2. split; auto. split; auto. split; [intros k hkc; apply hk; auto|].
  intros k hkc. destruct (hstep k hkc) as (x & ec & ed). rewrite ec. f_equal. f_equal.
  assert (e : vget dd k = x); [|auto]. change dd with (snd (m', dd)). rewrite <- h2, hlate, ed by lia. destruct (hk k ltac:(lia)) as (_ & g4). rewrite vget_vupd by lia. now rewrite Nat.eqb_refl.
Qed.

Definition rhat : M := fun p q => if Nat.ltb p q then frm (qr d) p q else if Nat.eqb p q then Rabs (fr (vget (qdiag d) q)) else 0.
Hypothesis hfit : fits n.
Hypothesis hdiag : forall k, (k < c)%nat -> diag_ok (vget (qdiag d) k).
Hypothesis hfin : forall p q, (p < q < c)%nat -> ffin (get (qr d) p q).

Lemma qr_steps : exists (ms : nat -> mat FN) (W : nat -> nat -> R), ms O = a /\ ms c = qr d /\
  (forall p q, (p < n)%nat -> (q < c)%nat -> ffin (get a p q)) /\
  forall k, (k < c)%nat -> cstep n c (ms k) (ms (S k)) k (vget (qdiag d) k) (W k).
Proof.
  destruct qr_trace as (hle & d1 & d2 & d3 & ms & h1 & h2 & h3 & h4).
  assert (hb : forall t, (t <= c)%nat -> (forall p q, (p < n)%nat -> (q < c)%nat -> (c - t <= q \/ p < q)%nat -> ffin (get (ms (c - t)%nat) p q)) /\
     forall k, (c - t <= k < c)%nat -> exists w, cstep n c (ms k) (ms (S k)) k (vget (qdiag d) k) w).
  { induction t; intros ht.
    - rewrite Nat.sub_0_r. split; [|intros; lia]. intros p q hp hq ho. rewrite h2. apply hfin. lia.
    - destruct (IHt ltac:(lia)) as (g1 & g2). set (k := (c - S t)%nat). replace (c - t)%nat with (S k) in * by (unfold k; lia).
      assert (hkc : (k < c)%nat) by (unfold k; lia). destruct (h3 k ltac:(lia)) as (vk & nk & ck).
      assert (hs : exists w, cstep n c (ms k) (ms (S k)) k (vget (qdiag d) k) w).
      { rewrite <- nk, <- ck. apply clear_float; auto; try (rewrite ?nk, ?ck; auto; lia). intros p q hp hq. apply g1; lia. }
      split.
      + destruct hs as (w & hs). intros p q hp hq ho. destruct (le_lt_dec k p) as [l1|l1]; [destruct (le_lt_dec k q) as [l2|l2]|].
        * apply (cs_fin _ _ _ _ _ _ _ hs); lia.
        * rewrite <- (cs_left _ _ _ _ _ _ _ hs) by auto. apply g1; auto. lia.
        * rewrite <- (cs_left _ _ _ _ _ _ _ hs) by auto. apply g1; auto. lia.
      + intros j hj. destruct (Nat.eq_dec j k) as [->|]; auto. apply g2. lia. }
  destruct (hb c (le_n c)) as (g1 & g2). rewrite Nat.sub_diag in *.
  destruct (fin_choice (fun _ : nat => 0) c (fun k w => cstep n c (ms k) (ms (S k)) k (vget (qdiag d) k) w)) as (W & hW).
  { intros k hk. apply g2. lia. }
  exists ms, W. split; auto. split; auto. split; auto. intros p q hp hq. rewrite <- h1. apply g1; auto. lia.
Qed.

Definition refs (W : nat -> nat -> R) (k : nat) : M := hh k (sgf (vget (qdiag d) k)) (W k).
Lemma happ_hh k s w X p : (forall i, (i < k)%nat -> w i = 0) -> (p < n)%nat -> mmul n (hh k s w) (colm X) p 0%nat = happ n k s w X p.
Proof. intros h hp. rewrite (hh_apply n 1) by auto. unfold happ, colm. reflexivity. Qed.

Lemma qr_float : exists W : nat -> nat -> R,
  (forall k, (k < c)%nat -> reflector n k (sgf (vget (qdiag d) k)) (W k)) /\
  (forall k, (k < c)%nat -> unitf (nsignum FN (vget (qdiag d) k)) /\
     (forall p, (k <= p < n)%nat -> fvalid (get (qr d) p k) /\ ffin (get (qr d) p k)) /\
     vn (n - k) (fun p => frm (qr d) (k + p)%nat k - W k (k + p)%nat) <= gam (2 * (n - k) + 15)) /\
  (forall p q, (p < n)%nat -> (q < c)%nat -> ffin (get a p q)) /\
  forall q, (q < c)%nat ->
    vn n (fun p => frm a p q - mmul n (hprod n (refs W) c) rhat p q) <=
      gam (c * (10 * n + 70)) * vn n (fun p => frm a p q) + INR c * U (c * (10 * n + 70)) * omega.
Proof.
  destruct qr_trace as (hle & d1 & d2 & d3 & _). destruct qr_steps as (ms & W & h1 & h2 & hfa & hs). exists W.
  assert (href : forall k, (k < c)%nat -> reflector n k (sgf (vget (qdiag d) k)) (W k)).
  { intros k hk. specialize (hs k hk). constructor.
    - apply (cs_w0 _ _ _ _ _ _ _ hs).
    - apply (unitf_fr _ (cs_unit _ _ _ _ _ _ _ hs)).
    - apply (cs_w _ _ _ _ _ _ _ hs). }
  (* finished entries *)
  assert (hdone : forall t k, (k + t <= c)%nat -> forall p q, (p < n)%nat -> (q < k)%nat -> get (ms (k + t)%nat) p q = get (ms k) p q).
  { induction t; intros k hk p q hp hq; [now rewrite Nat.add_0_r|]. rewrite Nat.add_succ_r.
    rewrite (cs_left _ _ _ _ _ _ _ (hs (k + t)%nat ltac:(lia))) by lia. apply IHt; lia. }
  assert (hlast : forall k, (k <= c)%nat -> forall p q, (p < n)%nat -> (q < k)%nat -> get (qr d) p q = get (ms k) p q).
  { intros k hk p q hp hq. rewrite <- h2. replace c with (k + (c - k))%nat by lia. apply hdone; auto; lia. }
  split; auto. split; [|split; auto].
  - intros k hk. pose proof (hs k hk) as hsk. split; [apply (cs_unit _ _ _ _ _ _ _ hsk)|]. split.
    + intros p hp. rewrite (hlast (S k)) by lia. split; [|apply (cs_axis _ _ _ _ _ _ _ hsk); auto].
      apply (cs_valid _ _ _ _ _ _ _ hsk); [rewrite (cs_nr _ _ _ _ _ _ _ hsk)|rewrite (cs_nc _ _ _ _ _ _ _ hsk)]; lia.
    + eapply Rle_trans; [|apply (cs_waxis _ _ _ _ _ _ _ hsk)]. right. apply vn_ext. intros p hp. unfold frm. rewrite (hlast (S k)) by lia. reflexivity.
  - intros q hq.
    set (X := fun k p => if Nat.ltb q k then rhat p q else frm (ms k) p q).
    assert (hstep : forall k, (k < c)%nat -> vn n (fun p => X (S k) p - mmul n (refs W k) (colm (X k)) p 0%nat) <= (U (10 * n + 70) - 1) * vn n (X k) + omega).
    { intros k hk. pose proof (hs k hk) as hsk. change (U (10 * n + 70) - 1) with (gam (10 * n + 70)).
      assert (eh : forall p, (p < n)%nat -> mmul n (refs W k) (colm (X k)) p 0%nat = happ n k (sgf (vget (qdiag d) k)) (W k) (X k) p).
      { intros p hp. apply happ_hh; auto. apply (hh_zero _ _ _ _ (href k hk)). }
      pose proof (gam_nonneg (10 * n + 70)) as hg. pose proof omega_pos as ho.
      destruct (lt_eq_lt_dec q k) as [[lt|eq]|lt].
      - rewrite (vn_ext n _ (fun _ => 0)).
        + pose proof (vn_const n 0) as g. rewrite Rabs_R0, Rmult_0_r in g. pose proof (vn_nonneg n (X k)). assert (0 <= gam (10 * n + 70) * vn n (X k)) by (apply Rmult_le_pos; auto). lra.
        + intros p hp. rewrite eh by auto. unfold X, happ. bd.
          * ring.
          * rewrite (Rsum_0 n).
            -- assert (hr0 : rhat p q = 0) by (unfold rhat; bd; auto). rewrite hr0. ring.
            -- intros l hl. destruct (le_lt_dec k l).
               ++ assert (hr0 : rhat l q = 0) by (unfold rhat; bd; auto). rewrite hr0. ring.
               ++ rewrite (hh_zero _ _ _ _ (href k hk)) by auto. ring.
      - subst q. eapply Rle_trans; [|eapply Rle_trans; [apply (cs_cleared _ _ _ _ _ _ _ hsk)|]].
        + right. apply vn_ext. intros p hp. rewrite eh by auto. f_equal.
          * unfold X, rhat. destruct (Nat.ltb_spec k (S k)); [|lia]. destruct (Nat.ltb_spec p k); auto.
            unfold frm. rewrite (hlast (S k)) by lia. rewrite (cs_left _ _ _ _ _ _ _ hsk) by auto. reflexivity.
          * unfold happ, X. destruct (Nat.ltb_spec k k); [lia|]. reflexivity.
        + right. f_equal. f_equal. apply vn_ext. intros p hp. unfold X. bd. reflexivity.
      - eapply Rle_trans; [|eapply Rle_trans; [apply (cs_col _ _ _ _ _ _ _ hsk q ltac:(lia))|]].
        + right. apply vn_ext. intros p hp. rewrite eh by auto. unfold X, happ. destruct (Nat.ltb_spec q k); [lia|]. destruct (Nat.ltb_spec q (S k)); [lia|]. reflexivity.
        + right. f_equal. f_equal. apply vn_ext. intros p hp. unfold X. bd. reflexivity. }
    destruct (accum n (refs W) X (U (10 * n + 70)) omega c) as (_ & g); auto.
    + apply pow_u_ge1.
    + apply Rlt_le, omega_pos.
    + intros k hk. apply hh_orthogonal. apply href; auto.
    + intros k hk. apply hh_invol. apply href; auto.
    + rewrite <- pow_mult, Nat.mul_comm in g. change (U (c * (10 * n + 70)) - 1) with (gam (c * (10 * n + 70))) in g.
      assert (e0 : vn n (X O) = vn n (fun p => frm a p q)) by (apply vn_ext; intros p hp; unfold X; bd; rewrite h1; reflexivity).
      rewrite e0 in g. eapply Rle_trans; [|exact g]. right. apply vn_ext. intros p hp. f_equal.
      * unfold X. bd. rewrite h1. reflexivity.
      * unfold mmul. apply Rsum_ext. intros l hl. unfold colm, X. bd. reflexivity.
Qed.

Lemma q_float (W : nat -> nat -> R) (q : mat FN) :
  (forall k, (k < c)%nat -> reflector n k (sgf (vget (qdiag d) k)) (W k)) ->
  (forall k, (k < c)%nat -> unitf (nsignum FN (vget (qdiag d) k)) /\
     (forall p, (k <= p < n)%nat -> fvalid (get (qr d) p k) /\ ffin (get (qr d) p k)) /\
     vn (n - k) (fun p => frm (qr d) (k + p)%nat k - W k (k + p)%nat) <= gam (2 * (n - k) + 15)) ->
  qr_generate_q d = Ret q -> (forall p j, (p < n)%nat -> (j < c)%nat -> ffin (get q p j)) ->
  nr q = n /\ nc q = c /\ mvalid q /\ forall j, (j < c)%nat ->
    vn n (fun p => frm q p j - hprod n (refs W) c p j) <= gam (c * (10 * n + 70)) + INR c * U (c * (10 * n + 70)) * omega.
Proof.
  intros href hax e hfq. destruct qr_trace as (hle & d1 & d2 & d3 & _). unfold qr_generate_q in e.
  assert (hidx : forall i, (i < nc (qr d))%nat -> idx1 (qdiag d) i = Ret (vget (qdiag d) i)).
  { intros i hi. unfold idx1. rewrite d2 in hi. rewrite d3. destruct (Nat.ltb_spec i c); [reflexivity|lia]. }
  assert (hle' : (nc (qr d) <= nr (qr d))%nat) by lia.
  destruct (assemble_trace (qr d) (fun i => idx1 (qdiag d) i) (vget (qdiag d)) q hle' hidx e) as (ss & s1 & s2 & s3 & s4).
  rewrite d1, d2 in *. clear e.
  assert (ea : forall k p j, (k < c)%nat -> (k <= p < n)%nat -> (k <= j < c)%nat ->
    get (ss k) p j = nmul FN (afl (n - k) (fun l => get (qr d) (k + l)%nat k) (fun l => get (ss (S k)) (k + l)%nat j) (p - k)) (nsignum FN (vget (qdiag d) k))).
  { intros k p j hk hp hj. rewrite s4 by lia. bd. reflexivity. }
  assert (hval : forall t, (t <= c)%nat -> forall p j, (p < n)%nat -> (j < c)%nat -> fvalid (get (ss (c - t)%nat) p j)).
  { induction t; intros ht p j hp hj.
    - rewrite Nat.sub_0_r, s3 by auto. destruct (Nat.eqb p j); reflexivity.
    - set (k := (c - S t)%nat). replace (c - t)%nat with (S k) in IHt by (unfold k; lia). pose proof (IHt ltac:(lia) p j hp hj).
      assert (hk : (k < c)%nat) by (unfold k; lia).
      destruct (le_lt_dec k p) as [l1|l1]; [destruct (le_lt_dec k j) as [l2|l2]|]; [|rewrite s4 by lia; bd; auto..].
      rewrite ea by lia. apply fvalid_mul; [|apply sig_valid]. apply afl_valid; [lia| |].
      + intros l hl. apply (proj1 (proj2 (hax k hk))). lia.
      + intros l hl. apply IHt; lia. }
  assert (hval' : forall k, (k <= c)%nat -> forall p j, (p < n)%nat -> (j < c)%nat -> fvalid (get (ss k) p j)).
  { intros k hk p j hp hj. replace k with (c - (c - k))%nat by lia. apply hval; auto. lia. }
  assert (hap : forall k, (k < c)%nat -> (forall p j, (p < n)%nat -> (j < c)%nat -> ffin (get (ss k) p j)) ->
    (forall p j, (p < n)%nat -> (j < c)%nat -> ffin (get (ss (S k)) p j)) /\
    forall j, (k <= j < c)%nat -> vn n (fun p => frm (ss k) p j - happ n k (sgf (vget (qdiag d) k)) (W k) (fun l => frm (ss (S k)) l j) p) <= gam (10 * n + 70) * vn n (fun l => frm (ss (S k)) l j) + omega).
  { intros k hk hf. destruct (hax k hk) as (hu & hv & hw). pose proof (href k hk) as [r1 r2 r3].
    assert (hfull : forall p, (p < n)%nat -> W k p = wfull k (fun l => W k (k + l)%nat) p).
    { intros p hp. unfold wfull. destruct (Nat.ltb_spec p k); auto. f_equal. lia. }
    assert (hc : forall j, (k <= j < c)%nat -> (forall p, (k <= p < n)%nat -> ffin (get (ss (S k)) p j)) /\
       vn n (fun p => frm (ss k) p j - happ n k (sgf (vget (qdiag d) k)) (W k) (fun l => frm (ss (S k)) l j) p) <= gam (10 * n + 70) * vn n (fun l => frm (ss (S k)) l j) + omega).
    { intros j hj. set (yy := fun l => get (ss (S k)) (k + l)%nat j). set (vv := fun l => get (qr d) (k + l)%nat k).
      destruct (apply_float n (n - k) vv yy (fun l => W k (k + l)%nat) (nsignum FN (vget (qdiag d) k))) as (g1 & g2); auto.
      - lia.
      - intros l hl. apply hv. lia.
      - intros l hl. apply hval'; lia.
      - destruct r3 as [r3|r3]; [left|right].
        + rewrite <- r3. rewrite (Rsum_ext n (fun i => W k i * W k i) (fun i => wfull k (fun l => W k (k + l)%nat) i * W k i)) by (intros p hp; rewrite (hfull p) at 1 by auto; reflexivity).
          rewrite wfull_sum by lia. reflexivity.
        + intros l hl. apply r3. lia.
      - intros l hl. replace l with (k + l - k)%nat by lia. unfold vv, yy. rewrite <- ea by lia. apply hf; lia.
      - split. { intros p hp. replace p with (k + (p - k))%nat by lia. apply g1. lia. }
        rewrite (vn_shift n k); [|lia|intros p hp; unfold happ, frm; rewrite s4 by lia; bd; ring].
        eapply Rle_trans; [right; apply (vn_ext (n - k) _ (fun p => fr (nmul FN (afl (n - k) vv yy p) (nsignum FN (vget (qdiag d) k))) - fr (nsignum FN (vget (qdiag d) k)) * mirr (n - k) (fun l => W k (k + l)%nat) (fun l => fr (yy l)) p))|].
        + intros p hp. f_equal.
          * unfold frm. rewrite ea by lia. replace (k + p - k)%nat with p by lia. reflexivity.
          * unfold sgf. rewrite <- (happ_mirr n k _ (fun l => W k (k + l)%nat) (fun l => frm (ss (S k)) l j) p) by lia.
            unfold happ. rewrite (hfull (k + p)%nat) by lia. rewrite (Rsum_ext n (fun l => W k l * frm (ss (S k)) l j) (fun l => wfull k (fun l => W k (k + l)%nat) l * frm (ss (S k)) l j)) by (intros l hl; rewrite <- hfull by auto; reflexivity). reflexivity.
        + eapply Rle_trans; [exact g2|]. pose proof (omega_eta n (n - k) hfit ltac:(lia)) as hom. pose proof zeta_pos as hz. unfold omega.
          assert (gam (10 * (n - k) + 70) * vn (n - k) (fun l => fr (yy l)) <= gam (10 * n + 70) * vn n (fun l => frm (ss (S k)) l j)); [|lra].
          apply Rmult_le_compat; [apply gam_nonneg|apply vn_nonneg|apply gam_mono; lia|]. apply (vn_tail n k (fun l => frm (ss (S k)) l j)). lia. }
    split; [|intros j hj; apply hc; auto].
    intros p j hp hj. specialize (hf p j hp hj). destruct (le_lt_dec k p) as [l1|l1]; [destruct (le_lt_dec k j) as [l2|l2]|].
    - apply hc; lia.
    - rewrite s4 in hf by lia. revert hf. bd. auto.
    - rewrite s4 in hf by lia. revert hf. bd. auto. }
  assert (hfk : forall k, (k <= c)%nat -> forall p j, (p < n)%nat -> (j < c)%nat -> ffin (get (ss k) p j)).
  { induction k; intros hk; [rewrite s1; auto|]. apply hap; [lia|]. apply IHk. lia. }
  assert (hid : forall k, (k <= c)%nat -> forall p j, (p < n)%nat -> (j < k)%nat -> frm (ss k) p j = mid p j).
  { intros k hk. replace k with (c - (c - k))%nat by lia. assert (ht : (c - k <= c)%nat) by lia. revert ht. generalize (c - k)%nat. clear k hk.
    induction n0 as [|t IH]; intros ht p j hp hj.
    - rewrite Nat.sub_0_r in *. unfold frm. rewrite s3 by lia. unfold mid. destruct (Nat.eqb p j); [exact fr_f1|reflexivity].
    - unfold frm. rewrite s4 by lia. replace (S (c - S t)) with (c - t)%nat by lia. rewrite <- (IH ltac:(lia)) by lia. unfold frm. bd; auto. }
  destruct (s2 O ltac:(lia)) as (z1 & z2). rewrite s1 in z1, z2. split; auto. split; auto. split.
  { intros p j hp hj. rewrite <- s1. apply hval'; [lia| |]; lia. }
  intros j hj. set (X := fun k p => frm (ss k) p j).
  pose proof (accum_rev n (refs W) X (U (10 * n + 70)) omega c (pow_u_ge1 _) (Rlt_le _ _ omega_pos)) as g.
  assert (hX1 : vn n (X c) = 1).
  { apply vn_unit. rewrite (Rsum_single n j).
    - unfold X. rewrite hid by lia. unfold mid. rewrite Nat.eqb_refl. ring.
    - lia.
    - intros p hp ne. unfold X. rewrite hid by lia. unfold mid. bd. ring. }
  rewrite hX1, Rmult_1_r, <- (pow_mult (1 + uro) (10 * n + 70) c), (Nat.mul_comm (10 * n + 70) c) in g.
  change (U (c * (10 * n + 70)) - 1) with (gam (c * (10 * n + 70))) in g.
  eapply Rle_trans; [|apply g].
  - right. apply vn_ext. intros p hp. f_equal; [unfold X; rewrite s1; reflexivity|].
    assert (e : mmul n (hprod n (refs W) c) mid =[n, c]= hprod n (refs W) c) by (intros x y hx hy; apply (mmul_1_r n n (hprod n (refs W) c) x y); lia).
    rewrite <- (e p j) by auto. unfold mmul. apply Rsum_ext. intros l hl. unfold colm, X. rewrite hid by lia. reflexivity.
  - intros k hk. apply hh_orthogonal. apply href. auto.
  - intros k hk. change (U (10 * n + 70) - 1) with (gam (10 * n + 70)).
    assert (eh : forall p, (p < n)%nat -> mmul n (refs W k) (colm (X (S k))) p 0%nat = happ n k (sgf (vget (qdiag d) k)) (W k) (X (S k)) p).
    { intros p hp. apply happ_hh; auto. apply (hh_zero _ _ _ _ (href k hk)). }
    destruct (le_lt_dec k j) as [l|l].
    + eapply Rle_trans; [|apply (proj2 (hap k hk (hfk k ltac:(lia))) j); lia]. right. apply vn_ext. intros p hp. rewrite eh by auto. reflexivity.
    + rewrite (vn_ext n _ (fun _ => 0)).
      * pose proof (vn_const n 0) as g0. rewrite Rabs_R0, Rmult_0_r in g0. pose proof (vn_nonneg n (X (S k))). pose proof (gam_nonneg (10 * n + 70)). pose proof omega_pos. assert (0 <= gam (10 * n + 70) * vn n (X (S k))) by (apply Rmult_le_pos; auto). lra.
      * intros p hp. rewrite eh by auto. unfold X, happ. rewrite (hid k) by lia. rewrite (hid (S k)) by lia. destruct (Nat.ltb_spec p k); [ring|].
        rewrite (Rsum_0 n).
        -- unfold mid. bd. ring.
        -- intros r hr. rewrite hid by lia. unfold mid. destruct (Nat.eqb_spec r j) as [->|]; [rewrite (hh_zero _ _ _ _ (href k hk)) by lia|]; ring.
Qed.
End Run.

(** ** The factors *)
Lemma into_r_outcome {N : Num} (d : qrdecomp N) r : qr_wf d -> qr_into_r d = Ret r ->
  nr r = nc (qr d) /\ nc r = nc (qr d) /\ forall p q, (p < nc (qr d))%nat -> (q < nc (qr d))%nat ->
    get r p q = if Nat.eqb p q then nabs N (vget (qdiag d) p) else if Nat.ltb p q then get (qr d) p q else n0 N.
Proof.
  intros (w1 & w2) e. set (c := nc (qr d)) in *.
  refine (post_inv _ (fun r => nr r = c /\ nc r = c /\ forall p q, (p < c)%nat -> (q < c)%nat -> get r p q = _) noE False _ _ e).
  unfold qr_into_r. fold c. step1. apply post_slice; try lia.
  step1. step1. eapply post_mono; [apply triangular_inplace_ok; dims; lia|].
  intros r' (r1 & r2 & r3 & r4). dims. rewrite r1, r2, w2 in *. bd; try lia. apply post_ret.
  dims. repeat split; try lia. intros i j hi hj. rewrite get_mk by lia. bd; subst; auto.
  - rewrite r4 by (simpl; lia). rewrite get_mk by lia. reflexivity.
  - rewrite r3 by (simpl; lia). reflexivity.
Qed.

Definition qr_gam (n c : nat) : R := gam (c * (10 * n + 70)).
Definition qr_abs (n c : nat) : R := INR c * (1 + qr_gam n c) * omega.
Definition qr_eps (n c : nat) : R := qr_gam n c + qr_abs n c.
Definition fit_diag (x : spec_float) : Prop := fr x = 0 \/ tiny <= fr x <= huge.

Lemma qr_decomp_float (a : mat FN) d q r : mvalid a -> qr_into a = Ret d -> qr_into_decomp d = Ret (q, r) -> fits (nr a) ->
  (forall i j, (i < nr a)%nat -> (j < nc a)%nat -> ffin (get q i j)) ->
  (forall i j, (i < nc a)%nat -> (j < nc a)%nat -> ffin (get r i j)) ->
  (forall k, (k < nc a)%nat -> fit_diag (get r k k)) ->
  (forall i j, (i < nr a)%nat -> (j < nc a)%nat -> ffin (get a i j)) /\
  exists Q : M, orthonormal_cols (nr a) (nc a) Q /\
    (forall j, (j < nc a)%nat -> vn (nr a) (fun i => frm a i j - mmul (nc a) Q (frm r) i j) <=
       qr_gam (nr a) (nc a) * vn (nr a) (fun i => frm a i j) + qr_abs (nr a) (nc a)) /\
    (forall j, (j < nc a)%nat -> vn (nr a) (fun i => frm q i j - Q i j) <= qr_eps (nr a) (nc a)).
Proof.
  intros va e ed hn fq fr' hd. set (n := nr a) in *. set (c := nc a) in *.
  unfold qr_into_decomp in ed. destruct (qr_generate_q d) as [q'| | | |] eqn:eq; try discriminate. cbn [bind] in ed.
  destruct (qr_into_r d) as [r'| | | |] eqn:er; try discriminate. cbn [bind] in ed. injection ed as -> ->.
  destruct (qr_trace a d va e) as (hle & d1 & d2 & d3 & _). fold n c in hle, d1, d2, d3.
  destruct (into_r_outcome d r ltac:(split; lia) er) as (r1 & r2 & r3). rewrite d2 in r1, r2, r3.
  assert (hdiag : forall k, (k < c)%nat -> diag_ok (vget (qdiag d) k)).
  { intros k hk. pose proof (fr' k k hk hk) as h1. pose proof (hd k hk) as h2. unfold fit_diag in h2. rewrite r3 in h1, h2 by auto. rewrite Nat.eqb_refl in h1, h2.
    rewrite fr_abs in h2. split; [apply (proj1 (ffin_abs _)); exact h1|]. destruct h2 as [h2|h2]; [left|right; exact h2].
    destruct (Req_dec (fr (vget (qdiag d) k)) 0); auto. apply Rabs_no_R0 in H. contradiction. }
  assert (hfin : forall p q, (p < q < c)%nat -> ffin (get (qr d) p q)).
  { intros p j hpj. pose proof (fr' p j ltac:(lia) ltac:(lia)) as h1. rewrite r3 in h1 by lia. revert h1. bd. auto. }
  destruct (qr_float a d va e hn hdiag hfin) as (W & g1 & g2 & g3 & g4). fold n c in g1, g2, g3, g4.
  destruct (q_float a d va e hn W q g1 g2 eq fq) as (q1 & q2 & q3 & q4). fold n c in q1, q2, q4.
  split; auto. set (H := hprod n (refs d W) c) in *. exists H.
  assert (eU : (1 + uro) ^ (c * (10 * n + 70)) = 1 + qr_gam n c) by (unfold qr_gam, gam; ring). rewrite eU in g4, q4.
  assert (ho : orthogonal n H) by (apply hprod_orthogonal; intros k hk; apply hh_orthogonal; auto).
  split; [|split].
  - intros i j hi hj. apply (proj1 ho); lia.
  - intros j hj. eapply Rle_trans; [|apply (g4 j hj)]. right. apply vn_ext. intros i hi. f_equal. unfold mmul.
    rewrite (Rsum_ext n (fun k => H i k * rhat d k j) (fun k => if Nat.ltb k c then H i k * rhat d k j else 0)).
    + rewrite Rsum_if_lt by auto. apply Rsum_ext. intros k hk. f_equal. unfold frm, rhat. rewrite r3 by auto. destruct (Nat.eqb_spec k j) as [->|].
      * rewrite Nat.ltb_irrefl, fr_abs. reflexivity.
      * destruct (Nat.ltb_spec k j); reflexivity.
    + intros k hk. destruct (Nat.ltb_spec k c); auto. unfold rhat. bd. ring.
  - intros j hj. apply (q4 j hj).
Qed.

(** *** Corollaries *)
Lemma vn_lin n c (E : M) (x : nat -> R) e : 0 <= e -> (forall j, (j < c)%nat -> vn n (fun i => E i j) <= e) ->
  vn n (fun i => Rsum c (fun l => E i l * x l)) <= e * (sqrt (INR c) * vn c x).
Proof.
  intros he h. apply Rle_trans with (Rsum c (fun l => e * Rabs (x l))).
  - clear he. induction c as [|c IH].
    + cbn [Rsum]. pose proof (vn_const n 0) as g. rewrite Rabs_R0, Rmult_0_r in g. lra.
    + cbn [Rsum]. eapply Rle_trans; [apply vn_plus|]. apply Rplus_le_compat; [apply IH; auto|].
      rewrite (vn_ext n _ (fun i => x c * E i c)) by (intros; ring). rewrite vn_scal, Rmult_comm. apply Rmult_le_compat_r; [apply Rabs_pos|]. apply h. lia.
  - rewrite Rsum_scal_l. apply Rmult_le_compat_l; auto.
    assert (e1 : vn c (fun _ => 1) = sqrt (INR c)).
    { apply Rsqr_inj; [apply vn_nonneg|apply sqrt_pos|]. unfold Rsqr. rewrite vn_sq, sqrt_sqrt by apply pos_INR. rewrite Rsum_const. ring. }
    rewrite <- e1. eapply Rle_trans; [apply Rle_abs|]. rewrite (Rsum_ext c _ (fun i => 1 * Rabs (x i))) by (intros; ring).
    eapply Rle_trans; [apply (vn_dot c (fun _ => 1))|]. apply Rmult_le_compat_l; [apply vn_nonneg|]. apply vn_le. intros. rewrite Rabs_Rabsolu. lra.
Qed.
Lemma vn_ocols n c Q x : orthonormal_cols n c Q -> vn n (fun i => Rsum c (fun l => Q i l * x l)) = vn c x.
Proof.
  intros h. unfold orthonormal_cols in h. apply Rsqr_inj; try apply vn_nonneg. unfold Rsqr. rewrite !vn_sq.
  change (Rsum n (fun i => Rsum c (fun l => Q i l * x l) * Rsum c (fun l => Q i l * x l))) with (mmul n (mtr (mmul c Q (colm x))) (mmul c Q (colm x)) 0%nat 0%nat).
  assert (e : mmul n (mtr (mmul c Q (colm x))) (mmul c Q (colm x)) =[1, 1]= mmul c (mtr (colm x)) (colm x)).
  { rewrite (mtr_mmul n c 1). rewrite (mmul_assoc 1 c n 1). rewrite <- (mmul_assoc c n c 1). rewrite h. rewrite (mmul_1_l c 1). reflexivity. }
  rewrite (e 0%nat 0%nat) by auto. reflexivity.
Qed.

Lemma qr_eps_facts n c : 0 <= qr_gam n c /\ 0 <= qr_abs n c /\ 0 <= qr_eps n c.
Proof.
  assert (h1 : 0 <= qr_gam n c) by apply gam_nonneg. pose proof omega_pos. pose proof (pos_INR c).
  assert (h2 : 0 <= qr_abs n c) by (unfold qr_abs; apply Rmult_le_pos; [apply Rmult_le_pos|]; lra). unfold qr_eps. lra.
Qed.
Lemma residual_float n c (A Q Qh Rh : M) : orthonormal_cols n c Q ->
  (forall j, (j < c)%nat -> vn n (fun i => A i j - mmul c Q Rh i j) <= qr_gam n c * vn n (fun i => A i j) + qr_abs n c) ->
  (forall j, (j < c)%nat -> vn n (fun i => Qh i j - Q i j) <= qr_eps n c) ->
  forall j, (j < c)%nat -> vn n (fun i => A i j - mmul c Qh Rh i j) <=
    (qr_gam n c + sqrt (INR c) * qr_eps n c * (1 + qr_gam n c)) * vn n (fun i => A i j) + (1 + sqrt (INR c) * qr_eps n c) * qr_abs n c.
Proof.
  intros ho h1 h2 j hj. destruct (qr_eps_facts n c) as (p1 & p2 & p3). specialize (h1 j hj).
  set (B := vn n (fun i => A i j)) in *.
  eapply Rle_trans; [right; apply (vn_ext n _ (fun i => (A i j - mmul c Q Rh i j) + -1 * Rsum c (fun l => (Qh i l - Q i l) * Rh l j)))|].
  { intros i hi. rewrite (Rsum_ext c (fun l => (Qh i l - Q i l) * Rh l j) (fun l => Qh i l * Rh l j - Q i l * Rh l j)) by (intros; ring). rewrite Rsum_minus. unfold mmul. ring. }
  eapply Rle_trans; [apply vn_plus|]. rewrite vn_scal, Rabs_left by lra.
  pose proof (vn_lin n c (fun i l => Qh i l - Q i l) (fun l => Rh l j) (qr_eps n c) p3 h2) as h3. cbv beta in h3.
  assert (h4 : vn c (fun l => Rh l j) <= B + (qr_gam n c * B + qr_abs n c)).
  { rewrite <- (vn_ocols n c Q) by auto. eapply Rle_trans; [right; apply (vn_ext n _ (fun i => A i j + -1 * (A i j - mmul c Q Rh i j))); intros; unfold mmul; ring|].
    eapply Rle_trans; [apply vn_plus|]. rewrite vn_scal, Rabs_left by lra. fold B. lra. }
  assert (h5 : 0 <= qr_eps n c * sqrt (INR c)) by (apply Rmult_le_pos; [auto|apply sqrt_pos]).
  assert (h6 : qr_eps n c * (sqrt (INR c) * vn c (fun l => Rh l j)) <= qr_eps n c * sqrt (INR c) * (B + (qr_gam n c * B + qr_abs n c))).
  { rewrite <- Rmult_assoc. apply Rmult_le_compat_l; auto. }
  lra.
Qed.
Lemma ortho_float n c (Q Qh : M) e : 0 <= e -> orthonormal_cols n c Q -> (forall j, (j < c)%nat -> vn n (fun i => Qh i j - Q i j) <= e) ->
  forall i j, (i < c)%nat -> (j < c)%nat -> Rabs (mmul n (mtr Qh) Qh i j - mid i j) <= 2 * e + e * e.
Proof.
  intros he ho h i j hi hj. unfold orthonormal_cols in ho. rewrite <- (ho i j) by auto. unfold mmul, mtr.
  set (E := fun k l => Qh k l - Q k l) in *.
  replace (Rsum n (fun k => Qh k i * Qh k j) - Rsum n (fun k => Q k i * Q k j)) with (Rsum n (fun k => Q k i * E k j) + (Rsum n (fun k => E k i * Q k j) + Rsum n (fun k => E k i * E k j))).
  2:{ rewrite <- !Rsum_plus, <- Rsum_minus. apply Rsum_ext. intros. unfold E. ring. }
  assert (hq : forall l, (l < c)%nat -> vn n (fun k => Q k l) = 1).
  { intros l hl. apply vn_unit. change (mmul n (mtr Q) Q l l = 1). rewrite (ho l l) by auto. unfold mid. now rewrite Nat.eqb_refl. }
  assert (he' : forall l, (l < c)%nat -> 0 <= vn n (fun k => E k l) <= e) by (intros l hl; split; [apply vn_nonneg|apply (h l hl)]).
  pose proof (vn_dot n (fun k => Q k i) (fun k => E k j)) as b1. pose proof (vn_dot n (fun k => E k i) (fun k => Q k j)) as b2. pose proof (vn_dot n (fun k => E k i) (fun k => E k j)) as b3.
  rewrite hq in b1, b2 by auto. pose proof (he' i hi). pose proof (he' j hj).
  assert (vn n (fun k => E k i) * vn n (fun k => E k j) <= e * e) by (apply Rmult_le_compat; lra).
  eapply Rle_trans; [apply Rabs_triang|]. eapply Rle_trans; [apply Rplus_le_compat_l, Rabs_triang|]. lra.
Qed.
