(** * tridiagonal.rs in floating point: the whole reduction and the generated Q *)
From Coq Require Import Reals List Arith Lia Lra Bool ZArith Setoid Morphisms.
From Coq.Floats Require Import SpecFloat.
From Flocq Require Import Core BinarySingleNaN.
From Verif Require Import Scalar Arr MBase MDirect MDecomp Inst Hoare Spec SpecF RLin PTri PHouse PTrid PEighR PRound PTriF PCholF PNormF PHouseF PQRF PQRG PQRS PCholG PTrdF PTrdG PApF.
Import ListNotations.
Local Open Scope R_scope.
Local Notation U k := ((1 + uro) ^ k).

(** ** Two-sided accumulation *)
Lemma accum2 n (P T : nat -> M) (e : nat -> R) c :
  (forall k, (k < c)%nat -> orthogonal n (P k)) -> (forall k, (k < c)%nat -> mmul n (P k) (P k) =[n, n]= mid) -> (forall k, (k < c)%nat -> mtr (P k) =[n, n]= P k) ->
  (forall k, (k < c)%nat -> frob n n (fun p q => T (S k) p q - mmul n (P k) (mmul n (T k) (P k)) p q) <= e k) ->
  frob n n (fun p q => T O p q - mmul n (hprod n P c) (mmul n (T c) (mtr (hprod n P c))) p q) <= Rsum c e /\
  frob n n (T c) <= frob n n (T O) + Rsum c e.
Proof.
  induction c as [|c IH]; intros ho hi hs he.
  - cbn [hprod Rsum]. split; [|lra]. rewrite frob_zero; [lra|]. intros p q hp hq.
    assert (h : mmul n mid (mmul n (T O) (mtr mid)) =[n, n]= T O) by (rewrite mmul_1_l, mtr_mid, mmul_1_r; reflexivity).
    rewrite (h p q hp hq). ring.
  - destruct IH as (h1 & h2); auto. specialize (he c ltac:(lia)). pose proof (ho c ltac:(lia)) as hoc. pose proof (hi c ltac:(lia)) as hic. pose proof (hs c ltac:(lia)) as hsc.
    set (E := fun p q => T (S c) p q - mmul n (P c) (mmul n (T c) (P c)) p q) in *.
    assert (hop : orthogonal n (hprod n P c)) by (apply hprod_orthogonal; auto).
    assert (hop' : orthogonal n (hprod n P (S c))) by (apply hprod_orthogonal; auto).
    assert (eT : T (S c) =[n, n]= madd (mmul n (P c) (mmul n (T c) (P c))) E) by (intros p q hp hq; unfold madd, E; ring).
    cbn [Rsum]. split.
    + assert (e1 : mmul n (hprod n P (S c)) (mmul n (T (S c)) (mtr (hprod n P (S c)))) =[n, n]=
        madd (mmul n (hprod n P c) (mmul n (T c) (mtr (hprod n P c)))) (mmul n (hprod n P (S c)) (mmul n E (mtr (hprod n P (S c)))))).
      { rewrite eT at 1. rewrite (mmul_add_l n n n). rewrite (mmul_add_r n n n). apply madd_proper; [|reflexivity].
        cbn [hprod]. rewrite (mtr_mmul n n n). rewrite hsc.
        rewrite (mmul_assoc n n n n (hprod n P c) (P c)).
        apply (mmul_proper n n n); [reflexivity|].
        rewrite (mmul_assoc n n n n (P c) (mmul n (T c) (P c))). rewrite <- (mmul_assoc n n n n (P c) (P c)). rewrite hic, mmul_1_l.
        rewrite (mmul_assoc n n n n (T c) (P c)). rewrite <- (mmul_assoc n n n n (P c) (P c)). rewrite hic, mmul_1_l. reflexivity. }
      assert (e2 : (fun p q => T O p q - mmul n (hprod n P (S c)) (mmul n (T (S c)) (mtr (hprod n P (S c)))) p q) =[n, n]=
        madd (fun p q => T O p q - mmul n (hprod n P c) (mmul n (T c) (mtr (hprod n P c))) p q) (mscal (-1) (mmul n (hprod n P (S c)) (mmul n E (mtr (hprod n P (S c))))))).
      { intros p q hp hq. rewrite (e1 p q hp hq). unfold madd, mscal. ring. }
      rewrite (frob_ext n n _ _ e2). eapply Rle_trans; [apply frob_triangle|]. rewrite frob_scal, Rabs_left, frob_conj by (auto; lra). lra.
    + rewrite (frob_ext n n _ _ eT). eapply Rle_trans; [apply frob_triangle|].
      assert (e3 : mmul n (P c) (mmul n (T c) (P c)) =[n, n]= mmul n (P c) (mmul n (T c) (mtr (P c)))) by (rewrite hsc; reflexivity).
      rewrite (frob_ext n n _ _ e3), frob_conj by auto. lra.
Qed.

(** ** The run of sym_tridiagonal *)
Definition xof (o : option FN) : FN := match o with Some x => x | None => n0 FN end.
Section TRun.
Variables (a : mat FN) (d : tridecomp FN).
Hypothesis hrun : sym_tridiagonal a = Ret d.
Let n := nr a.

Lemma tri_trace : (1 <= n)%nat /\ nc a = n /\ nr (diag_matrix d) = n /\ nc (diag_matrix d) = n /\ length (off_diagonal d) = (n - 1)%nat /\
  exists ms : nat -> mat FN, ms O = a /\ ms (n - 1)%nat = diag_matrix d /\ (forall i, (i <= n - 1)%nat -> nr (ms i) = n /\ nc (ms i) = n) /\
  forall i, (i < n - 1)%nat -> let k := (i + 1)%nat in exists v o,
    reflection_axis_mut (vmk (n - k) (fun l => get (ms i) (k + l)%nat i)) = Ret (v, o) /\ length v = (n - k)%nat /\ vget (off_diagonal d) i = xof o /\
    forall p q, (p < n)%nat -> (q < n)%nat -> get (ms (S i)) p q =
      if Nat.ltb p k then get (ms i) p q else if Nat.ltb q i then get (ms i) p q else if Nat.eqb q i then vget v (p - k)
      else match o with
           | Some _ => blk3 (n - k) (fun a b => get (ms i) (k + a)%nat (k + b)%nat) (vget v) (p - k) (q - k)
           | None => get (ms i) p q
           end.
Proof.
  pose proof (sym_tridiagonal_class a) as hc. rewrite hrun in hc. destruct hc as (hsq & h1 & d1 & d2 & d3).
  split; auto. split; [auto|]. split; auto. split; auto. split; auto.
  pose proof hrun as e. unfold sym_tridiagonal, check_square in e. destruct (Nat.eqb_spec (nr a) (nc a)); [|lia]. cbn [bind] in e.
  destruct (Nat.ltb_spec (nr a) 1); [lia|].
  destruct (for_ (nr a - 1) 0 tridiag_step _) as [[[m' off] pp]| | | |] eqn:ef; try discriminate. cbn [bind] in e. injection e as <-. cbn [diag_matrix off_diagonal] in *.
  destruct (for_trace _ _ _ _ _ ef) as (ss & e1 & e2 & e3). fold n in e2, e3.
  assert (hk : forall i, (i <= n - 1)%nat -> nr (fst (fst (ss i))) = n /\ nc (fst (fst (ss i))) = n /\ length (snd (fst (ss i))) = (n - 1)%nat /\ length (snd (ss i)) = (n - 1)%nat).
  { induction i; intros hi.
    - rewrite e1. cbn [fst snd]. rewrite !length_vzeros. auto.
    - destruct (IHi ltac:(lia)) as (g1 & g2 & g3 & g4). specialize (e3 i ltac:(lia)). cbn [Nat.add] in e3. destruct (ss i) as [[mi oi] pi]. cbn [fst snd] in *.
      destruct (tridiag_outcome n mi oi pi i (ss (S i)) g1 g2 ltac:(lia) g3 g4 e3) as (v & o & _ & _ & q1 & q2 & q3 & q4 & _).
      rewrite q1, length_vupd. auto. }
  assert (hs : forall i, (i < n - 1)%nat -> let k := (i + 1)%nat in exists v o,
    reflection_axis_mut (vmk (n - k) (fun l => get (fst (fst (ss i))) (k + l)%nat i)) = Ret (v, o) /\ length v = (n - k)%nat /\ snd (fst (ss (S i))) = vupd (snd (fst (ss i))) i (xof o) /\
    forall p q, (p < n)%nat -> (q < n)%nat -> get (fst (fst (ss (S i)))) p q =
      if Nat.ltb p k then get (fst (fst (ss i))) p q else if Nat.ltb q i then get (fst (fst (ss i))) p q else if Nat.eqb q i then vget v (p - k)
      else match o with
           | Some _ => blk3 (n - k) (fun a b => get (fst (fst (ss i))) (k + a)%nat (k + b)%nat) (vget v) (p - k) (q - k)
           | None => get (fst (fst (ss i))) p q
           end).
  { intros i hi k. destruct (hk i ltac:(lia)) as (g1 & g2 & g3 & g4). specialize (e3 i ltac:(lia)). cbn [Nat.add] in e3. destruct (ss i) as [[mi oi] pi]. cbn [fst snd] in *.
    destruct (tridiag_outcome n mi oi pi i (ss (S i)) g1 g2 ltac:(lia) g3 g4 e3) as (v & o & q0 & q1 & q2 & q3 & q4 & q5 & q6).
    exists v, o. auto. }
  assert (hlate : forall j i, (i < j)%nat -> (j <= n - 1)%nat -> vget (snd (fst (ss j))) i = vget (snd (fst (ss (S i)))) i).
  { induction j; intros i hij hj; [lia|]. destruct (Nat.eq_dec i j) as [->|]; auto. rewrite <- IHj by lia.
    destruct (hs j ltac:(lia)) as (v & o & _ & _ & -> & _). destruct (hk j ltac:(lia)) as (_ & _ & g3 & _). rewrite vget_vupd by lia. bd. reflexivity. }
  exists (fun i => fst (fst (ss i))). rewrite e1, e2. split; auto. split; auto. split; [intros i hi; split; apply hk; auto|].
  intros i hi. cbv zeta. destruct (hs i hi) as (v & o & q1 & q2 & q3 & q4). exists v, o. split; [exact q1|]. split; auto. split; [|exact q4].
  change off with (snd (fst (m', off, pp))). rewrite <- e2, hlate, q3 by lia. destruct (hk i ltac:(lia)) as (_ & _ & g3 & _). rewrite vget_vupd by lia. now rewrite Nat.eqb_refl.
Qed.

Let off := fun j => fr (vget (off_diagonal d) j).
(** the tridiagonal matrix of the returned diagonals (tridiagonal.rs:96-101) *)
Definition that : M := fun p q => if Nat.eqb p q then frm (diag_matrix d) p p else if Nat.eqb p (q + 1) then Rabs (fr (vget (off_diagonal d) q)) else if Nat.eqb q (p + 1) then Rabs (fr (vget (off_diagonal d) p)) else 0.
Definition trefs (W : nat -> nat -> R) (k : nat) : M := hh (k + 1) (sgf (vget (off_diagonal d) k)) (W k).
Let g := gam (2 * n + 20).
Let Nb0 := frob n n (frm a) + zfl.
Hypothesis hfit : fits n.
Hypothesis hva : mvalid a.
Hypothesis hfa : forall p q, (p < n)%nat -> (q < n)%nat -> ffin (get a p q).
Hypothesis hsym : forall p q, (p < n)%nat -> (q < n)%nat -> frm a p q = frm a q p.
Hypothesis hsmall : 650 * (INR n * INR n) * g <= 1.
Hypothesis hcap : 2 * Nb0 <= cap.
Hypothesis hoff : forall i, (i < n - 1)%nat -> off i = 0 \/ tiny <= Rabs (off i).

Lemma tri_float : exists W : nat -> nat -> R,
  (forall k, (k < n - 1)%nat -> reflector n (k + 1) (sgf (vget (off_diagonal d) k)) (W k)) /\
  (forall k, (k < n - 1)%nat -> unitf (nsignum FN (vget (off_diagonal d) k)) /\ fvalid (vget (off_diagonal d) k) /\ ffin (vget (off_diagonal d) k) /\
     (forall p, (k + 1 <= p < n)%nat -> fvalid (get (diag_matrix d) p k) /\ ffin (get (diag_matrix d) p k)) /\
     vn (n - (k + 1)) (fun p => frm (diag_matrix d) (k + 1 + p)%nat k - W k (k + 1 + p)%nat) <= gam (2 * (n - (k + 1)) + 15)) /\
  mvalid (diag_matrix d) /\ (forall p, (p < n)%nat -> ffin (get (diag_matrix d) p p)) /\
  frob n n (fun p q => frm a p q - mmul n (hprod n (trefs W) (n - 1)) (mmul n that (mtr (hprod n (trefs W) (n - 1)))) p q) <= 650 * (INR n * INR n) * (g * Nb0).
Proof.
  destruct tri_trace as (hn1 & hc & d1 & d2 & d3 & ms & m0 & mn & mdim & mstep).
  set (T := fun i => trep i (ms i) off).
  assert (hg0 : 0 <= g) by apply gam_nonneg. pose proof zfl_pos as hz. pose proof (frob_nonneg n n (frm a)) as hN0.
  set (de := g * Nb0). assert (hde : 0 <= de) by (apply Rmult_le_pos; unfold Nb0; lra).
  set (sg := fun i => frob n n (fun p q => T i p q - T i q p)).
  assert (hgde : 650 * (INR n * INR n) * de <= Nb0).
  { unfold de. replace (650 * (INR n * INR n) * (g * Nb0)) with (650 * (INR n * INR n) * g * Nb0) by ring. rewrite <- (Rmult_1_l Nb0) at 2. apply Rmult_le_compat_r; [unfold Nb0; lra|auto]. }
  assert (hpoly : forall i, (i <= n - 1)%nat -> (480 * (INR i * INR i) + 166 * INR i) <= 650 * (INR n * INR n)).
  { intros i hi. assert (INR i <= INR n) by (apply le_INR; lia). pose proof (pos_INR i). assert (1 <= INR n) by (apply (le_INR 1); auto). nra. }
  assert (hbig : forall i, (i <= n - 1)%nat -> frob n n (T i) <= frob n n (frm a) + (480 * (INR i * INR i) + 166 * INR i) * de -> frob n n (T i) + zfl <= 2 * Nb0).
  { intros i hi h. pose proof (hpoly i hi). assert ((480 * (INR i * INR i) + 166 * INR i) * de <= 650 * (INR n * INR n) * de) by (apply Rmult_le_compat_r; auto). unfold Nb0 in *. lra. }
  set (good := fun i (w : nat -> R) => let k := (i + 1)%nat in
    reflector n k (sgf (vget (off_diagonal d) i)) w /\ unitf (nsignum FN (vget (off_diagonal d) i)) /\ fvalid (vget (off_diagonal d) i) /\ ffin (vget (off_diagonal d) i) /\
    (forall p, (k <= p < n)%nat -> fvalid (get (ms (S i)) p i) /\ ffin (get (ms (S i)) p i)) /\
    vn (n - k) (fun p => frm (ms (S i)) (k + p)%nat i - w (k + p)%nat) <= gam (2 * (n - k) + 15) /\
    frob n n (fun p q => T (S i) p q - mmul n (hh k (sgf (vget (off_diagonal d) i)) w) (mmul n (T i) (hh k (sgf (vget (off_diagonal d) i)) w)) p q) <= 166 * de + 960 * INR i * de).
  assert (hone : forall i, (i < n - 1)%nat -> mvalid (ms i) -> (forall p q, (i <= p < n)%nat -> (i <= q < n)%nat -> ffin (get (ms i) p q)) ->
    frob n n (T i) + zfl <= 2 * Nb0 -> sg i <= 320 * INR i * de ->
    (exists w, good i w) /\ mvalid (ms (S i)) /\ (forall p q, (S i <= p < n)%nat -> (S i <= q < n)%nat -> ffin (get (ms (S i)) p q)) /\ sg (S i) <= 320 * INR (S i) * de).
  { intros i hi hv hf hN hsg. destruct (mdim i ltac:(lia)) as (q1 & q2). destruct (mdim (S i) ltac:(lia)) as (q3 & q4).
    destruct (mstep i hi) as (v & o & q5 & q6 & q7 & q8). pose proof (hoff i hi) as ho. unfold off in ho. rewrite q7 in ho.
    destruct (tstep n i (ms i) (ms (S i)) off v o) as (w & t1 & t2 & t3 & t4 & t5 & t6 & t7 & t8 & t9 & t10); auto; try lia.
    - unfold off. rewrite q7. reflexivity.
    - fold (T i). lra.
    - assert (hgN : g * (frob n n (T i) + zfl) <= 2 * de) by (unfold de; assert (g * (frob n n (T i) + zfl) <= g * (2 * Nb0)) by (apply Rmult_le_compat_l; auto); lra).
      assert (eT : trep (i + 1) (ms (S i)) off = T (S i)) by (unfold T; f_equal; lia). rewrite eT in t9, t10. clear eT.
      fold (T i) in t9, t10. fold (sg i) in t9, t10. fold (sg (S i)) in t10. fold g in t9, t10.
      split; [exists w; unfold good; cbv zeta; rewrite q7; repeat (split; [assumption|]); eapply Rle_trans; [exact t9|lra]|]. split; [exact t7|]. split; [intros p q hp hq; apply t8; lia|]. rewrite S_INR. lra. }
  assert (hsym' : forall i w, (i < n - 1)%nat -> good i w -> let P := hh (i + 1) (sgf (vget (off_diagonal d) i)) w in orthogonal n P /\ mmul n P P =[n, n]= mid /\ mtr P =[n, n]= P).
  { intros i w hi (h & _). cbv zeta. split; [apply hh_orthogonal; auto|]. split; [apply hh_invol; auto|]. apply hh_sym. apply (hh_zero _ _ _ _ h). }
  assert (hinv : forall i, (i <= n - 1)%nat ->
    (mvalid (ms i) /\ (forall p q, (i <= p < n)%nat -> (i <= q < n)%nat -> ffin (get (ms i) p q)) /\
     frob n n (T i) <= frob n n (frm a) + (480 * (INR i * INR i) + 166 * INR i) * de /\ sg i <= 320 * INR i * de)).
  { induction i; intros hi.
    - rewrite m0. split; auto. split; [intros; apply hfa; lia|]. assert (e0 : forall p q, T O p q = frm a p q) by (intros p q; unfold T, trep; rewrite m0; reflexivity).
      split; [rewrite (frob_ext n n (T O) (frm a)) by (intros p q hp hq; apply e0); change (INR 0) with 0; lra|]. unfold sg. rewrite frob_zero; [change (INR 0) with 0; lra|].
      intros p q hp hq. rewrite !e0, hsym by auto. ring.
    - destruct (IHi ltac:(lia)) as (g1 & g2 & g3 & g4). destruct (hone i ltac:(lia) g1 g2 (hbig i ltac:(lia) g3) g4) as ((w & hw) & t1 & t2 & t3).
      split; auto. split; auto. split; auto. destruct (hsym' i w ltac:(lia) hw) as (o1 & o2 & o3). destruct hw as (_ & _ & _ & _ & _ & _ & hE).
      set (P := hh (i + 1) (sgf (vget (off_diagonal d) i)) w) in *. set (E := fun p q => T (S i) p q - mmul n P (mmul n (T i) P) p q) in *.
      assert (eT : T (S i) =[n, n]= madd (mmul n P (mmul n (T i) (mtr P))) E).
      { assert (e3 : mmul n P (mmul n (T i) P) =[n, n]= mmul n P (mmul n (T i) (mtr P))) by (rewrite o3; reflexivity). intros p q hp hq. unfold madd. rewrite <- (e3 p q hp hq). unfold E. ring. }
      rewrite (frob_ext n n _ _ eT). eapply Rle_trans; [apply frob_triangle|]. rewrite frob_conj by auto. rewrite S_INR. lra. }
  destruct (fin_choice (fun _ : nat => 0) (n - 1) good) as (W & hW).
  { intros i hi. destruct (hinv i ltac:(lia)) as (g1 & g2 & g3 & g4). apply (hone i hi g1 g2 (hbig i ltac:(lia) g3) g4). }
  exists W. split; [intros k hk; apply (hW k hk)|].
  assert (hcol : forall t k, (k < t)%nat -> (t <= n - 1)%nat -> forall p, (k <= p < n)%nat -> get (ms t) p k = get (ms (S k)) p k).
  { induction t; intros k hk ht p hp; [lia|]. destruct (Nat.eq_dec k t) as [->|]; auto. rewrite <- (IHt k) by lia. destruct (mstep t ltac:(lia)) as (v & o & _ & _ & _ & q8). rewrite q8 by lia.
    destruct (Nat.ltb_spec p (t + 1)); auto. destruct (Nat.ltb_spec k t); [auto|lia]. }
  split.
  { intros k hk. destruct (hW k hk) as (w1 & w2 & w3 & w4 & w5 & w6 & w7). split; auto. split; auto. split; auto. rewrite <- mn. split.
    - intros p hp. rewrite (hcol (n - 1)%nat k) by lia. apply w5. auto.
    - eapply Rle_trans; [|exact w6]. right. apply vn_ext. intros p hp. unfold frm. rewrite (hcol (n - 1)%nat k) by lia. reflexivity. }
  destruct (hinv (n - 1)%nat ltac:(lia)) as (f1 & f2 & f3 & f4). rewrite mn in f1, f2.
  split; auto. split.
  { intros p hp. destruct (Nat.eq_dec p (n - 1)) as [->|ne]; [apply f2; lia|]. rewrite <- mn, (hcol (n - 1)%nat p) by lia.
    destruct (mstep p ltac:(lia)) as (v & o & _ & _ & _ & q8). rewrite q8 by lia. destruct (Nat.ltb_spec p (p + 1)); [|lia]. destruct (hinv p ltac:(lia)) as (_ & b2 & _). apply b2; lia. }
  destruct (accum2 n (trefs W) T (fun i => 166 * de + 960 * INR i * de) (n - 1)) as (b1 & _).
  - intros k hk. apply (hsym' k (W k) hk (hW k hk)).
  - intros k hk. apply (hsym' k (W k) hk (hW k hk)).
  - intros k hk. apply (hsym' k (W k) hk (hW k hk)).
  - intros k hk. apply (hW k hk).
  - assert (hS : forall c, Rsum c (fun i => 166 * de + 960 * INR i * de) <= (480 * (INR c * INR c) + 166 * INR c) * de).
    { induction c; [simpl; lra|]. cbn [Rsum]. rewrite S_INR. lra. }
    pose proof (hpoly (n - 1)%nat ltac:(lia)). assert ((480 * (INR (n - 1) * INR (n - 1)) + 166 * INR (n - 1)) * de <= 650 * (INR n * INR n) * de) by (apply Rmult_le_compat_r; auto).
    eapply Rle_trans; [|eapply Rle_trans; [exact b1|eapply Rle_trans; [apply hS|exact H0]]]. right. apply frob_ext. intros p q hp hq. f_equal; [unfold T, trep; rewrite m0; reflexivity|].
    assert (eT : that =[n, n]= T (n - 1)%nat).
    { intros x y hx hy. unfold that, T, trep. rewrite mn. destruct (Nat.ltb_spec x (n - 1)), (Nat.ltb_spec y (n - 1)); cbn [orb]; auto. replace y with x by lia. rewrite Nat.eqb_refl. reflexivity. }
    assert (eM : mmul n (hprod n (trefs W) (n - 1)) (mmul n that (mtr (hprod n (trefs W) (n - 1)))) =[n, n]= mmul n (hprod n (trefs W) (n - 1)) (mmul n (T (n - 1)%nat) (mtr (hprod n (trefs W) (n - 1))))) by (rewrite eT; reflexivity).
    rewrite (eM p q hp hq). reflexivity.
Qed.
End TRun.

(** ** The factors *)
Lemma small_facts n : (1 <= n)%nat -> 650 * (INR n * INR n) * gam (2 * n + 20) <= 1 ->
  fits n /\ INR (n * (10 * n + 70)) * uro <= / 100.
Proof.
  intros hn h. assert (h1 : 1 <= INR n) by (apply (le_INR 1); auto). pose proof (gam_ge (2 * n + 20)) as hg. rewrite plus_INR, mult_INR in hg. pose proof uro_pos as hu.
  assert (e2 : INR 2 = 2) by (simpl; lra). assert (e20 : INR 20 = 20) by (simpl; lra). rewrite e2, e20 in hg.
  assert (hg' : 22 * uro <= gam (2 * n + 20)) by nra.
  assert (hnn : 650 * (INR n * INR n) * (22 * uro) <= 1) by (eapply Rle_trans; [|exact h]; apply Rmult_le_compat_l; [nra|auto]).
  assert (hnu : INR n * uro <= INR n * INR n * uro) by (apply Rmult_le_compat_r; nra).
  split; [unfold fits; nra|]. rewrite mult_INR, plus_INR, mult_INR. assert (e10 : INR 10 = 10) by (simpl; lra). assert (e70 : INR 70 = 70) by (simpl; lra). rewrite e10, e70.
  replace (INR n * (10 * INR n + 70) * uro) with (10 * (INR n * INR n * uro) + 70 * (INR n * uro)) by ring. lra.
Qed.
Lemma eps_small n c : (c <= n)%nat -> fits n -> INR (n * (10 * n + 70)) * uro <= / 100 -> gam (c * (10 * n + 70)) + INR c * U (c * (10 * n + 70)) * omega <= 1.
Proof.
  intros hc hf h. assert (hm : gam (c * (10 * n + 70)) <= gam (n * (10 * n + 70))) by (apply gam_mono; apply Nat.mul_le_mono_r; auto).
  set (k := (n * (10 * n + 70))%nat) in *. pose proof (gam_usual k ltac:(lra)) as hg. pose proof uro_pos as hu. pose proof (pos_INR k) as hk.
  assert (hg2 : gam k <= / 2).
  { eapply Rle_trans; [exact hg|]. apply Rmult_le_reg_r with (1 - INR k * uro); [lra|]. unfold Rdiv. rewrite Rmult_assoc, Rinv_l by lra. lra. }
  rewrite U_gam. pose proof (gam_nonneg (c * (10 * n + 70))) as hg0. set (gg := gam (c * (10 * n + 70))) in *.
  pose proof omega_pos. pose proof (pos_INR c). assert (hcn : INR c <= INR n) by (apply le_INR; auto). 
  assert (hn1 : INR n <= bpow radix2 47) by (apply fits_47; auto).
  assert (ho : bpow radix2 47 * (4 * omega) <= 1).
  { unfold omega, zeta. replace (bpow radix2 47 * (4 * (2 * bpow radix2 (-508)))) with (bpow radix2 (47 + 3 + -508)) by (rewrite !bpow_plus; change (bpow radix2 3) with 8; ring). apply (bpow_le radix2 _ 0). lia. }
  assert (INR c * (1 + gg) * omega <= INR c * 2 * omega) by (apply Rmult_le_compat_r; [lra|]; apply Rmult_le_compat_l; lra).
  assert (INR c * (4 * omega) <= bpow radix2 47 * (4 * omega)) by (apply Rmult_le_compat_r; lra). lra.
Qed.

Lemma tri_decomp_float (a : mat FN) : let n := nr a in let A := frm a in
  mvalid a -> nc a = n -> (1 <= n)%nat -> (forall p q, (p < n)%nat -> (q < n)%nat -> ffin (get a p q)) -> symmetric n A ->
  650 * (INR n * INR n) * gam (2 * n + 20) <= 1 -> 2 * (frob n n A + zfl) <= cap ->
  exists d q t, sym_tridiagonal a = Ret d /\ tri_generate_q d = Ret q /\ tri_into_matrix d = Ret t /\ nr q = n /\ nc q = n /\ nr t = n /\ nc t = n /\
    ((forall i, (i + 1 < n)%nat -> fr (get t (i + 1) i) = 0 \/ tiny <= fr (get t (i + 1) i)) ->
     (forall p j, (p < n)%nat -> (j < n)%nat -> fvalid (get q p j) /\ ffin (get q p j)) /\
     (forall p j, (p < n)%nat -> (j < n)%nat -> fvalid (get t p j) /\ ffin (get t p j)) /\
     exists Q : M, orthogonal n Q /\
       frob n n (fun i j => A i j - mmul n Q (mmul n (frm t) (mtr Q)) i j) <= 650 * (INR n * INR n) * (gam (2 * n + 20) * (frob n n A + zfl)) /\
       forall j, (j < n)%nat -> vn n (fun p => frm q p j - Q p j) <= gam (n * (10 * n + 70)) + INR n * U (n * (10 * n + 70)) * omega).
Proof.
  intros n A hv hsq hn hf hsym hsm hcap. destruct (small_facts n hn hsm) as (hfit & hsmall).
  pose proof (sym_tridiagonal_class a) as hc. destruct (sym_tridiagonal a) as [d|l| | |] eqn:e; try contradiction.
  2:{ exfalso. destruct l; try contradiction; unfold n in *; lia. }
  destruct hc as (_ & _ & d1 & d2 & d3). fold n in d1, d2, d3.
  assert (hidx : forall i, (i < n - 1)%nat -> idx1 (off_diagonal d) i = Ret (vget (off_diagonal d) i)).
  { intros i hi. unfold idx1. rewrite d3. destruct (Nat.ltb_spec i (n - 1)); [reflexivity|lia]. }
  assert (hqs : exists q, tri_generate_q d = Ret q /\ nr q = n /\ nc q = n).
  { unfold tri_generate_q. edestruct (wp_ret (assemble_q (diag_matrix d) 1 (fun i => idx1 (off_diagonal d) i)) (fun q => nr q = n /\ nc q = n)) as (q & eq & hq); [|exists q; auto].
    eapply post_mono; [apply assemble_q_safe; [lia|]|].
    - intros i hi. rewrite hidx by lia. apply post_ret. exact I.
    - intros q (q1 & q2). rewrite d1, d2, Nat.min_id in *. auto. }
  destruct hqs as (q & eq & q1 & q2). destruct (wp_ret _ _ (tri_into_matrix_ok d n hn d1 d2 d3)) as (t & et & t1 & t2 & t3).
  exists d, q, t. repeat (split; [assumption||reflexivity|]). intros hr.
  assert (habs : forall i, (i + 1 < n)%nat -> get t (i + 1)%nat i = nabs FN (vget (off_diagonal d) i)).
  { intros i hi. rewrite t3 by lia. destruct (Nat.eqb_spec (i + 1) i); [lia|]. rewrite Nat.eqb_refl. reflexivity. }
  assert (hoff : forall i, (i < n - 1)%nat -> fr (vget (off_diagonal d) i) = 0 \/ tiny <= Rabs (fr (vget (off_diagonal d) i))).
  { intros i hi. specialize (hr i ltac:(lia)). rewrite habs in hr by lia. rewrite fr_abs in hr.
    destruct hr as [h0|h0]; [left|right; auto]. destruct (Req_dec (fr (vget (off_diagonal d) i)) 0); auto. apply Rabs_no_R0 in H. contradiction. }
  destruct (tri_float a d e hfit hv hf hsym hsm hcap hoff) as (W & w1 & w2 & w3 & w4 & w5). fold n A in w1, w2, w4, w5.
  destruct (asm_float (diag_matrix d) q 1 (fun i => idx1 (off_diagonal d) i) (vget (off_diagonal d)) W) as (_ & _ & b1 & b2); rewrite ?d1, ?d2, ?Nat.min_id; auto.
  - intros k hk. destruct (w2 k hk) as (u1 & u2 & u3 & u4 & u5). auto.
  - apply eps_small; auto. lia.
  - rewrite d1, d2, Nat.min_id in b1, b2. split; [exact b1|]. split.
    { intros p j hp hj. rewrite t3 by auto. destruct (Nat.eqb_spec p j) as [<-|]; [split; [apply w3; lia|auto]|].
      destruct (Nat.eqb_spec p (j + 1)); [|destruct (Nat.eqb_spec j (p + 1)); [|split; reflexivity]]; (split; [apply fvalid_abs|apply ffin_abs]); [apply (w2 j)|apply (w2 j)|apply (w2 p)|apply (w2 p)]; lia. }
    exists (hprod n (trefs d W) (n - 1)). split; [apply hprod_orthogonal; intros k hk; apply hh_orthogonal; apply w1; auto|]. split.
    + eapply Rle_trans; [|exact w5]. right. apply frob_ext. intros i j hi hj. f_equal.
      assert (et' : frm t =[n, n]= that d).
      { intros p j' hp hj'. unfold frm, that. rewrite t3 by auto. destruct (Nat.eqb p j'); auto. destruct (Nat.eqb p (j' + 1)); [apply fr_abs|]. destruct (Nat.eqb j' (p + 1)); [apply fr_abs|reflexivity]. }
      assert (em : mmul n (hprod n (trefs d W) (n - 1)) (mmul n (frm t) (mtr (hprod n (trefs d W) (n - 1)))) =[n, n]= mmul n (hprod n (trefs d W) (n - 1)) (mmul n (that d) (mtr (hprod n (trefs d W) (n - 1))))) by (rewrite et'; reflexivity).
      apply em; auto.
    + intros j hj. eapply Rle_trans; [apply (b2 j hj)|].
      assert (hm : ((n - 1) * (10 * n + 70) <= n * (10 * n + 70))%nat) by (apply Nat.mul_le_mono_r; lia).
      pose proof (gam_mono _ _ hm) as g1. pose proof (pow_u_mono _ _ hm) as g2. pose proof omega_pos. pose proof (pos_INR (n - 1)). assert (INR (n - 1) <= INR n) by (apply le_INR; lia). pose proof (pow_u_ge1 ((n - 1) * (10 * n + 70))).
      assert (INR (n - 1) * U ((n - 1) * (10 * n + 70)) * omega <= INR n * U (n * (10 * n + 70)) * omega); [|lra].
      apply Rmult_le_compat_r; [lra|]. apply Rmult_le_compat; lra.
Qed.
