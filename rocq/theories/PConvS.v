(** * Convergence of the QR iteration of svd.rs in exact arithmetic *)
From Coq Require Import Reals List Arith Lia Lra Bool Setoid Morphisms.
From Verif Require Import Scalar Arr MBase MDirect MDecomp MEigh MSvd Inst Hoare Spec RLin PTri PHouse PQR PTrid PBid PGivens PEigh PEighR PSvd PSvdR PConv.
Import ListNotations.
Local Open Scope R_scope.

(** ** The Gram matrix of a bidiagonal matrix is tridiagonal *)
Definition td (d o : nat -> R) (j : nat) : R := d j * d j + (if (0 <? j)%nat then o (j - 1)%nat * o (j - 1)%nat else 0).
Definition to (d o : nat -> R) (j : nat) : R := d j * o j.

Lemma bid_col n f d o j : (j < n)%nat -> Rsum n (fun k => f k * bidm d o k j) =
  f j * d j + (if (0 <? j)%nat then f (j - 1)%nat * o (j - 1)%nat else 0).
Proof.
  intros hj.
  rewrite (Rsum_ext n _ (fun k => (if Nat.eqb k j then 1 else 0) * (f k * d k) + (if Nat.eqb (k + 1) j then 1 else 0) * (f k * o k))).
  2:{ intros k hk. unfold bidm. bd; subst; try ring; try lia. }
  rewrite Rsum_plus, (Rsum_delta n j (fun k => f k * d k)) by auto. f_equal.
  destruct (Nat.ltb_spec 0 j).
  - rewrite <- (Rsum_delta n (j - 1) (fun k => f k * o k)) by lia. apply Rsum_ext. intros k hk. bd; auto; lia.
  - apply Rsum_0. intros k hk. bd; try lia. ring.
Qed.
Lemma gram_bid n d o : mmul n (mtr (bidm d o)) (bidm d o) =[n, n]= tridiag (td d o) (to d o).
Proof.
  intros p q hp hq. unfold mmul, mtr. rewrite (bid_col n (fun k => bidm d o k p)) by auto.
  unfold bidm, tridiag, td, to. bd; subst; try lia; try ring;
    replace (p + 1 - 1)%nat with p by lia; replace (q + 1 - 1)%nat with q by lia; ring.
Qed.

(** ** One sweep *)
Lemma gm_row n k c s X p j : (k + 1 < n)%nat -> (p < n)%nat -> mmul n (gm k (k + 1) c s) X p j =
  if Nat.eqb p k then c * X k j - s * X (k + 1)%nat j else if Nat.eqb p (k + 1) then s * X k j + c * X (k + 1)%nat j else X p j.
Proof. intros hk hp. rewrite gm_apply by (auto; lia). reflexivity. Qed.

Lemma sweep_svd_conv r c n up start e (st st' : svd_state RN) U V : (start + 2 <= e < n)%nat ->
  length (sd st) = n -> length (so st) = (n - 1)%nat -> su st = Some U -> nr U = r -> nc U = n -> sv st = Some V -> nr V = n -> nc V = c ->
  (forall j, (start <= j <= e)%nat -> 0 < vent (sd st) j) -> (forall j, (start <= j < e)%nat -> vent (so st) j <> 0) ->
  ((0 < start)%nat -> vent (so st) (start - 1) = 0) -> vent (so st) e = 0 ->
  svd_big (N:=RN) up start e st = Ret st' ->
  let p := to (vent (sd st)) (vent (so st)) in let p' := to (vent (sd st')) (vent (so st')) in
  let k' := p' (e - 1)%nat * p' (e - 1)%nat * (p' (e - 1)%nat * p' (e - 1)%nat) in
  k' <= p (e - 1)%nat * p (e - 1)%nat * (p (e - 2)%nat * p (e - 2)%nat) / 2 /\
  kk p' e <= kk p e / 2.
Proof.
  intros hse l1 l2 hu u1 u2 hv v1 v2 hd ho hlo hhi hr. cbv zeta.
  set (d := vent (sd st)) in *. set (o := vent (so st)) in *.
  set (om := wilkinson_shift (N:=RN) (td d o (e - 1)) (td d o e) (to d o (e - 1))).
  set (T := tridiag (td d o) (to d o)). set (S0 := msub T (mscal om mid)).
  set (Prt := fun k (Rt : M) => local n start e (mtr Rt) /\ (k = start -> Rt = mid) /\
     ((start < k)%nat -> forall p, (p < n)%nat -> p <> start -> mmul n (mtr Rt) S0 p start = 0)).
  assert (hid : orthogonal n mid) by (split; rewrite mtr_mid, mmul_1_l; reflexivity).
  assert (h0 : VIP r c n (ent U) (mtr (ent V)) up (bidm d o) (frob n n (bidm d o)) Prt start st 0 (bidm d o)).
  { split; auto. split; auto. exists mid, mid. split; [|split; [|split]].
    - exists U. split; auto. split; auto. split; auto. destruct up; rewrite mmul_1_r; reflexivity.
    - exists V. split; auto. split; auto. split; auto. destruct up; rewrite mmul_1_r; reflexivity.
    - constructor; auto; [|apply Rle_refl]. right. apply frob_zero. intros i j hi hj. unfold msub.
      assert (e1 : mmul n mid (mmul n (bidm d o) (mtr mid)) =[n, n]= bidm d o) by (rewrite mmul_1_l, mtr_mid, mmul_1_r; reflexivity).
      rewrite e1 by auto. ring.
    - split; [|split; [auto|lia]]. intros p q hp hq _. unfold mtr, mid. bd; auto; lia. }
  assert (hx0 : d start * d start - wilkinson_shift (N:=RN)
    (d (e - 1)%nat * d (e - 1)%nat + o (e - 2)%nat * o (e - 2)%nat) (d e * d e + o (e - 1)%nat * o (e - 1)%nat) (d (e - 1)%nat * o (e - 1)%nat)
    = td d o start - om).
  { assert (e1 : td d o (e - 1) = d (e - 1)%nat * d (e - 1)%nat + o (e - 2)%nat * o (e - 2)%nat).
    { unfold td. replace (e - 1 - 1)%nat with (e - 2)%nat by lia. bd. reflexivity. }
    assert (e2 : td d o e = d e * d e + o (e - 1)%nat * o (e - 1)%nat) by (unfold td; bd; reflexivity).
    assert (e3 : td d o start = d start * d start) by (unfold td; bd; rewrite ?hlo by lia; ring).
    unfold om. rewrite e1, e2, e3. reflexivity. }
  assert (hcolS : forall q, (q < n)%nat -> S0 q start = if Nat.eqb q start then td d o start - om else if Nat.eqb q (start + 1) then to d o start else 0).
  { intros q hq. unfold S0, msub, mscal, mid, T, tridiag. bd; try lia; try (subst; ring).
    replace q with (start - 1)%nat by lia. unfold to. rewrite hlo by lia. ring. }
  pose proof (big_sweep r c n (ent U) (mtr (ent V)) up (bidm d o) (frob n n (bidm d o)) start e st 0 Prt
    ltac:(lia) ltac:(lia) h0 hd hlo hhi) as hb. cbv zeta in hb. fold d o in hb. rewrite hx0 in hb.
  specialize (hb ltac:(
    intros k Rt c1 s1 hk (q1 & q2 & q3) hcs hst;
    assert (eT : mtr (mmul n Rt (mtr (gm k (k + 1) c1 s1))) =[n, n]= mmul n (gm k (k + 1) c1 s1) (mtr Rt))
      by (rewrite mtr_mmul, (mtr_mtr n n (gm k (k + 1) c1 s1)); reflexivity);
    split; [|split; [lia|]];
    [ intros p q hp hq hout; rewrite eT by auto; rewrite gm_row by (auto; lia);
      (destruct (Nat.eqb_spec p k) as [ep|np]; [|destruct (Nat.eqb_spec p (k + 1)) as [ep|np']]); [| |apply q1; auto];
      subst p; rewrite (q1 k q), (q1 (k + 1)%nat q) by lia; unfold mid; bd; try lia; ring
    | intros _ p hp hne;
      assert (eM : mmul n (mtr (mmul n Rt (mtr (gm k (k + 1) c1 s1)))) S0 =[n, n]= mmul n (gm k (k + 1) c1 s1) (mmul n (mtr Rt) S0))
        by (rewrite eT, mmul_assoc; reflexivity);
      rewrite eM by lia; rewrite gm_row by (auto; lia);
      destruct (Nat.eq_dec k start) as [->|nk];
      [ rewrite (q2 eq_refl); assert (eI : mmul n (mtr mid) S0 =[n, n]= S0) by (rewrite mtr_mid, mmul_1_l; reflexivity);
        rewrite !eI by lia; rewrite !hcolS by lia; bd; try lia; try ring; apply hst; auto
      | bd; subst; try lia; rewrite ?q3 by lia; ring ] ])).
  apply (post_inv _ _ _ _ _ hb) in hr. clear hb.
  destruct hr as ((k & hk & hks & l1' & l2' & L & Rt & _ & _ & hf & q1 & q2 & q3) & f1 & f2 & f3).
  set (d' := vent (sd st')) in *. set (o' := vent (so st')) in *.
  assert (hkn : (start < k)%nat).
  { destruct (Nat.eq_dec k start) as [e1|]; [|lia]. exfalso. specialize (hks e1). apply Rmult_integral in hks.
    destruct hks as [h|h]; [specialize (hd start ltac:(lia)); lra|apply (ho start); auto; lia]. }
  specialize (q3 hkn).
  assert (oL := fi_L _ _ _ _ _ _ _ hf). assert (oR := fi_R _ _ _ _ _ _ _ hf).
  assert (hB : bidm d o =[n, n]= mmul n L (mmul n (bidm d' o') (mtr Rt))).
  { pose proof (fi_err _ _ _ _ _ _ _ hf) as hz.
    assert (h2 : frob2 n n (msub (bidm d o) (mmul n L (mmul n (bidm d' o') (mtr Rt)))) = 0).
    { rewrite <- frob_sq. pose proof (frob_nonneg n n (msub (bidm d o) (mmul n L (mmul n (bidm d' o') (mtr Rt))))).
      replace (frob n n (msub (bidm d o) (mmul n L (mmul n (bidm d' o') (mtr Rt))))) with 0 by (apply Rle_antisym; auto). ring. }
    intros i j hi hj. pose proof (frob2_0_inv n n _ h2 i j hi hj) as h3. unfold msub in h3. lra. }
  set (T' := tridiag (td d' o') (to d' o')).
  assert (hT : mmul n (mtr Rt) (mmul n T (mtr (mtr Rt))) =[n, n]= T').
  { unfold T, T'. rewrite <- !gram_bid. rewrite hB at 1 2. 
    destruct oL as (L1 & _). destruct oR as (R1 & _).
    rewrite (mtr_mmul n n n L), (mtr_mmul n n n (bidm d' o')), (mtr_mtr n n Rt).
    rewrite !mmul_assoc.
    rewrite <- (mmul_assoc n n n n (mtr Rt) Rt), R1, mmul_1_l.
    rewrite <- (mmul_assoc n n n n (mtr L) L), L1, mmul_1_l, mmul_1_r. reflexivity. }
  assert (hG : orthogonal n (mtr Rt)).
  { destruct oR as (R1 & R2). split; [rewrite (mtr_mtr n n Rt); auto|rewrite (mtr_mtr n n Rt); auto]. }
  assert (hb1 : to d o (e - 1) <> 0).
  { unfold to. apply Rmult_integral_contrapositive_currified; [|apply ho; lia]. specialize (hd (e - 1)%nat ltac:(lia)). lra. }
  destruct (wilkinson_real (td d o (e - 1)) (td d o e) (to d o (e - 1)) hb1) as (w1 & w2 & _). fold om in w1, w2.
  apply (st_conv n start e (td d o) (to d o) (td d' o') (to d' o') (mtr Rt) om); auto; try lia.
  - intros h. unfold to. rewrite hlo by auto. ring.
  - unfold to. rewrite hhi. ring.
  - unfold to, o'. rewrite f3 by lia. fold o. rewrite hhi. ring.
  - intros j hj. unfold to. apply Rmult_integral_contrapositive_currified; [|apply ho; lia]. specialize (hd j ltac:(lia)). lra.
Qed.

(** ** The loop *)
Lemma kk_ext o o' e : o (e - 1)%nat = o' (e - 1)%nat -> o (e - 2)%nat = o' (e - 2)%nat -> kk o e = kk o' e.
Proof. intros h1 h2. unfold kk. rewrite h1, h2. reflexivity. Qed.

Section Loop.
Context (r c n : nat) (U0 V0 : M) (up : bool) (B0 : M) (K eps KK : R) (Nn : nat).
Context (heps : 0 < eps) (hK : K <> 0 -> 1 <= K) (hKK : K <= KK) (hKK1 : 1 <= KK).
Let eta := 2 * eps ^ 3.
Let B := 4 * eta ^ 8 / KK ^ 4.
Context (hN : KK ^ 12 < B * 2 ^ Nn).
Notation act := (act r c n U0 V0 up B0 K eps).
Notation SIv := (SIv r c n U0 V0 up B0 K eps).
Notation pp st := (to (vent (sd st)) (vent (so st))).

Lemma heta : 0 < eta. Proof. unfold eta. pose proof (pow_lt eps 3 heps). lra. Qed.
Lemma hB : 0 < B.
Proof.
  unfold B. apply Rdiv_lt_0_compat; [|apply pow_lt; lra]. pose proof (pow_lt eta 8 heta). lra.
Qed.

Lemma pp_le st dead j : SIv st dead -> (j + 1 < n)%nat -> pp st j * pp st j <= KK ^ 4.
Proof.
  intros (hv & _) hj. pose proof (VI_K0 _ _ _ _ _ _ _ _ _ _ _ hv) as h0.
  pose proof (VI_K _ _ _ _ _ _ _ _ _ _ _ j j hv ltac:(lia) ltac:(lia)) as h1.
  pose proof (VI_K _ _ _ _ _ _ _ _ _ _ _ j (j + 1) hv ltac:(lia) ltac:(lia)) as h2.
  unfold bidm in h1, h2. rewrite Nat.eqb_refl in h1. revert h2. bd. intros h2.
  replace (KK ^ 4) with ((KK * KK) * (KK * KK)) by ring. apply Rsqr_le_abs_1. unfold to. rewrite Rabs_mult, (Rabs_right (KK * KK)) by nra.
  apply Rmult_le_compat; try apply Rabs_pos; lra.
Qed.

Lemma kk_top_svd st dead e : SIv st dead -> (2 <= e < n)%nat -> kk (pp st) e < B * 2 ^ Nn.
Proof.
  intros hs he. eapply Rle_lt_trans; [|exact hN].
  pose proof (pp_le st dead (e - 1) hs ltac:(lia)) as h1. pose proof (pp_le st dead (e - 2) hs ltac:(lia)) as h2.
  unfold kk. set (a := pp st (e - 1)%nat) in *. set (b := pp st (e - 2)%nat) in *.
  pose proof (Rle_0_sqr a) as a0. pose proof (Rle_0_sqr b) as b0. unfold Rsqr in a0, b0.
  replace (KK ^ 12) with (KK ^ 4 * KK ^ 4 * KK ^ 4) by ring.
  apply Rmult_le_compat; auto; [apply Rmult_le_pos; auto|]. apply Rmult_le_compat; auto.
Qed.

(** The first loop of [delimit_subproblem] returns the end it was given only without touching the state *)
Lemma delim_end_same e : forall st k st', svd_delim_end (N:=RN) up eps e st = Ret (k, st') ->
  (k <= e)%nat /\ (k = e -> (0 < e)%nat -> st' = st /\
    eps * (Rabs (vent (sd st) e) + Rabs (vent (sd st) (e - 1))) < Rabs (vent (so st) (e - 1)) /\
    eps < Rabs (vent (sd st) (e - 1)) /\ eps < Rabs (vent (sd st) e)).
Proof.
  induction e as [|m IH]; intros st k st'; cbn [svd_delim_end].
  - intros h. injection h as <- <-. split; lia.
  - assert (next : forall s1, svd_delim_end (N:=RN) up eps m s1 = Ret (k, st') -> (k <= S m)%nat /\ (k = S m -> (0 < S m)%nat -> st' = st /\
      eps * (Rabs (vent (sd st) (S m)) + Rabs (vent (sd st) (S m - 1))) < Rabs (vent (so st) (S m - 1)) /\
      eps < Rabs (vent (sd st) (S m - 1)) /\ eps < Rabs (vent (sd st) (S m)))).
    { intros s1 h. destruct (IH _ _ _ h). split; lia. }
    unfold at1. destruct (Nat.ltb_spec m (length (so st))); [|discriminate]. cbn [bind].
    destruct (Nat.ltb_spec (S m) (length (sd st))); [|discriminate]. cbn [bind].
    destruct (Nat.ltb_spec m (length (sd st))); [|discriminate]. cbn [bind].
    change (nle RN) with Rleb. change (nabs RN) with Rabs. change (nmul RN) with Rmult. change (nadd RN) with Rplus.
    destruct (_ || _) eqn:eb.
    { destruct (atm1 _ _ _) as [x| | | |]; [|discriminate..]. cbn [bind]. apply next. }
    apply orb_false_iff in eb. destruct eb as (_ & eb).
    match type of eb with Rleb ?x ?y = false => destruct (Rleb_spec x y) as [|g1]; [discriminate|] end.
    match goal with |- context [Rleb ?x ?y] => destruct (Rleb_spec x y) as [g2|g2] end.
    { destruct (atm1 _ _ _) as [x| | | |]; [|discriminate..]. cbn [bind].
      destruct (cancel_horizontal _ _ _ _) as [y| | | |]; [|discriminate..]. cbn [bind].
      destruct (if negb (Nat.eqb m 0) then _ else _) as [z| | | |]; [|discriminate..]. cbn [bind]. apply next. }
    match goal with |- context [Rleb ?x ?y] => destruct (Rleb_spec x y) as [g3|g3] end.
    { destruct (atm1 _ _ _) as [x| | | |]; [|discriminate..]. cbn [bind].
      destruct (cancel_vertical _ _ _) as [y| | | |]; [|discriminate..]. cbn [bind]. apply next. }
    intros h. injection h as <- <-. split; [lia|]. intros _ _. rewrite Nat.sub_succ, Nat.sub_0_r. unfold vent. split; auto. lra.
Qed.

Lemma delimit_svd_conv e st dead s' e' st' : SIv st dead -> (e < n)%nat -> (forall j, (e <= j < n - 1)%nat -> dead j = true) ->
  svd_delimit (N:=RN) up e eps st = Ret (s', e', st') ->
  (e' <= e)%nat /\ (e' = e -> (0 < e)%nat -> eta ^ 2 < pp st (e - 1) * pp st (e - 1) /\ forall j, (s' <= j)%nat -> pp st' j = pp st j).
Proof.
  intros hs he hdd. unfold svd_delimit.
  pose proof (delim_end_real r c n U0 V0 up B0 K eps ltac:(lra) hK e st dead hs he hdd) as hde.
  destruct (svd_delim_end (N:=RN) up eps e st) as [[k st1]| | | |] eqn:ek; [|discriminate..]. cbn [bind post fst snd] in *.
  destruct (delim_end_same e st k st1 ek) as (h1 & h2).
  destruct (Nat.eqb_spec k 0) as [e0|ne0].
  - intros h. injection h as <- <- <-. split; [lia|]. lia.
  - destruct (wp_ret _ _ (post_usub k 1 (fun d => d = (k - 1)%nat) noE False ltac:(lia) ltac:(reflexivity))) as (d & -> & ->). cbn [bind].
    destruct hde as (dead1 & q1 & q2 & q3 & q4 & q5). destruct q5 as (p1 & p2 & p3); [lia|].
    pose proof (delim_start_real r c n U0 V0 up B0 K eps ltac:(lra) hK k (k - 1) st1 dead1 q1 ltac:(lia) ltac:(lia) q3) as hds.
    specialize (hds ltac:(split; intros j hj; [assert (j = k \/ j = k - 1)%nat as [-> | ->] by lia; auto|replace j with (k - 1)%nat by lia; auto])).
    destruct (svd_delim_start _ _ _ _ _) as [[s st2]| | | |]; [|discriminate..]. cbn [bind post fst snd] in *.
    intros h. injection h as <- <- <-. split; auto. intros -> hpos. destruct (h2 eq_refl hpos) as (-> & g1 & g2 & g3).
    destruct hds as ((_ & hp) & _). split; [|intros j hj; apply hp; auto].
    assert (ho : 2 * eps * eps < Rabs (vent (so st) (e - 1))) by nra.
    replace (eta ^ 2) with (Rsqr eta) by (unfold Rsqr; ring). apply Rsqr_lt_abs_1. unfold to. rewrite Rabs_mult, (Rabs_right eta) by (pose proof heta; lra).
    replace eta with (eps * (2 * eps * eps)) by (unfold eta; ring). apply Rmult_gt_0_lt_compat; nra.
Qed.

Lemma big_svd_conv dead s e st st' : (s + 1 < e)%nat -> act dead s e st -> svd_big (N:=RN) up s e st = Ret st' ->
  kk (pp st') e <= kk (pp st) e / 2 /\ (eta ^ 2 < pp st' (e - 1) * pp st' (e - 1) -> B <= kk (pp st) e).
Proof.
  intros hse (hs & hdd & _ & hen & ha) hr. destruct ha as ((hb1 & hb2) & hlo); [lia|].
  pose proof hs as ((l1 & l2 & L & Rt & (U & u0 & u1 & u2 & _) & (V & v0 & v1 & v2 & _) & _) & hd & hn).
  pose proof (OO_end _ _ _ _ _ _ _ _ _ _ _ e hs hdd hen) as hoe.
  destruct (sweep_svd_conv r c n up s e st st' U V ltac:(lia) l1 l2 u0 u1 u2 v0 v1 v2 hb1 hb2 hlo hoe hr) as (c1 & c2).
  split; auto. intros hx.
  set (x := pp st' (e - 1)) in *. pose proof (pp_le st dead (e - 2) hs ltac:(lia)) as hb.
  assert (hkk : kk (pp st) e = pp st (e - 1) * pp st (e - 1) * (pp st (e - 1) * pp st (e - 1)) * (pp st (e - 2) * pp st (e - 2))) by reflexivity.
  set (a := pp st (e - 1)) in *. set (b := pp st (e - 2)) in *.
  pose proof heta as h0.
  assert (h4 : eta ^ 8 <= (x * x * (x * x)) * (x * x * (x * x))).
  { replace (eta ^ 8) with (eta ^ 2 * eta ^ 2 * (eta ^ 2 * eta ^ 2)) by ring. assert (0 <= eta ^ 2) by (apply pow_le; lra).
    assert (eta ^ 2 * eta ^ 2 <= x * x * (x * x)) by (apply Rmult_le_compat; lra).
    assert (0 <= eta ^ 2 * eta ^ 2) by (apply Rmult_le_pos; auto). apply Rmult_le_compat; lra. }
  assert (h5 : (x * x * (x * x)) * (x * x * (x * x)) <= (a * a * (b * b) / 2) * (a * a * (b * b) / 2)).
  { assert (0 <= x * x * (x * x)) by (apply Rle_0_sqr). apply Rmult_le_compat; auto. }
  assert (h6 : (a * a * (b * b) / 2) * (a * a * (b * b) / 2) = kk (pp st) e * (b * b) / 4) by (rewrite hkk; field).
  assert (hk0 : 0 <= kk (pp st) e) by (rewrite hkk; apply Rmult_le_pos; [apply Rle_0_sqr|apply Rle_0_sqr]).
  assert (h7 : kk (pp st) e * (b * b) <= kk (pp st) e * KK ^ 4) by (apply Rmult_le_compat_l; auto).
  unfold B. apply (Rmult_le_reg_r (KK ^ 4)); [apply pow_lt; lra|]. unfold Rdiv. rewrite Rmult_assoc, Rinv_l by (apply pow_nonzero; lra). lra.
Qed.

Lemma loop_svd_conv : forall fuel s e st dead t, act dead s e st -> ((s + 2 <= e)%nat -> kk (pp st) e < B * 2 ^ t) ->
  (e * (Nn + 1) + t <= fuel)%nat -> exists st', svd_loop (N:=RN) fuel up true true eps s e st = Ret st'.
Proof.
  induction fuel as [|fuel IH]; intros s e st dead t ha ht hf; cbn [svd_loop];
  (destruct (Nat.eqb_spec e s) as [es0|hne]; [eauto|]); pose proof ha as (h1 & h2 & h3 & h4 & h5).
  - exfalso. destruct e; lia.
  - destruct (wp_ret _ _ (post_usub e s (fun d => d = (e - s)%nat) noE False ltac:(lia) ltac:(reflexivity))) as (d & -> & ->). cbn [bind].
    assert (hstep : exists st1 e1 dead1, (if 2 <? S (e - s) then bind (svd_big (N:=RN) up s e st) (fun st => Ret (st, e))
         else if S (e - s) =? 2 then bind (svd_two (N:=RN) up true true s st) (fun st => bind (usub e 1) (fun e => Ret (st, e))) else Ret (st, e)) = Ret (st1, e1) /\
       (e1 < n)%nat /\ SIv st1 dead1 /\ (forall j, (e1 <= j < n - 1)%nat -> dead1 j = true) /\
       ((e1 + 1 <= e)%nat \/ e1 = e /\ (eta ^ 2 < pp st1 (e - 1) * pp st1 (e - 1) -> (1 <= t)%nat /\ kk (pp st1) e < B * 2 ^ (t - 1)))).
    { destruct (Nat.ltb_spec 2 (S (e - s))).
      - destruct (wp_ret _ _ (big_real r c n U0 V0 up B0 K eps s e st dead ltac:(lia) ha)) as (st1 & hr & hmi).
        exists st1, e, dead. rewrite hr. split; [reflexivity|]. split; auto. split; auto. split; auto. right. split; auto.
        destruct (big_svd_conv dead s e st st1 ltac:(lia) ha hr) as (k2 & k1). intros hx. specialize (k1 hx). specialize (ht ltac:(lia)).
        pose proof hB. destruct t as [|t]; [cbn [pow] in ht; lra|]. split; [lia|]. cbn [pow] in ht. replace (S t - 1)%nat with t by lia. lra.
      - destruct (Nat.eqb_spec (S (e - s)) 2) as [e2|]; [|lia]. assert (e = S s) by lia. subst e.
        destruct (wp_ret _ _ (two_real r c n U0 V0 up B0 K eps ltac:(lra) s st dead ha)) as (st1 & hr & hmi).
        exists st1, s, (mark dead s). rewrite hr. cbn [bind].
        destruct (wp_ret _ _ (post_usub (S s) 1 (fun d => d = s) noE False ltac:(lia) ltac:(cbv beta; lia))) as (d & -> & ->). cbn [bind].
        split; auto. split; [lia|]. split; auto. split; [|left; lia]. intros j hj. unfold mark. bd; auto. apply h2. lia. }
    destruct hstep as (st1 & e1 & dead1 & -> & hen & hs1 & hdd1 & hcase). cbn [bind].
    destruct (wp_ret _ _ (delimit_real r c n U0 V0 up B0 K eps ltac:(lra) hK e1 st1 dead1 hs1 hen hdd1)) as ([[s' e'] st2] & hdl & dead2 & ha2).
    cbn [fst snd] in ha2. rewrite hdl. cbn [bind].
    destruct (delimit_svd_conv e1 st1 dead1 s' e' st2 hs1 hen hdd1 hdl) as (d1 & d2).
    destruct (Nat.eq_dec e' e) as [ee|ne].
    + destruct hcase as [hcase|(-> & hk)]; [lia|]. subst e'. destruct (d2 eq_refl ltac:(lia)) as (d3 & d4).
      destruct (hk d3) as (ht1 & hk'). apply (IH s' e _ dead2 (t - 1)%nat); auto; [|lia].
      intros hse. rewrite (kk_ext (pp st2) (pp st1)); auto; apply d4; lia.
    + apply (IH s' e' _ dead2 Nn); auto.
      * intros hse. destruct ha2 as (g1 & _ & _ & g2 & _). apply (kk_top_svd st2 dead2); auto. lia.
      * assert (he' : (e' + 1 <= e)%nat) by (destruct hcase as [hcase|(hcase & _)]; lia).
        assert (((e' + 1) * (Nn + 1) <= e * (Nn + 1))%nat) by (apply Nat.mul_le_mono_r; auto). lia.
Qed.
End Loop.

(** ** The whole routine *)
Lemma frob_bound r c (X : M) : (forall i j, (i < r)%nat -> (j < c)%nat -> Rabs (X i j) <= 1) -> frob2 r c X <= INR r * INR c.
Proof.
  intros h. assert (hc : forall i, (i < r)%nat -> Rsum c (fun j => X i j * X i j) <= INR c).
  { intros i hi. replace (INR c) with (Rsum c (fun _ => 1)).
    - apply Rsum_le. intros j hj. specialize (h i j hi hj). replace 1 with (1 * 1) by ring. apply Rsqr_le_abs_1. rewrite Rabs_R1. auto.
    - clear. induction c; [reflexivity|]. rewrite S_INR. cbn [Rsum]. lra. }
  unfold frob2. replace (INR r * INR c) with (Rsum r (fun _ => INR c)).
  - apply Rsum_le. intros i hi. eapply Rle_trans; [|apply (hc i hi)]. right. apply Rsum_ext. intros. ring.
  - clear. induction r; [cbn; ring|]. rewrite S_INR. cbn [Rsum]. lra.
Qed.

Lemma conv_arith_svd KK eps L : 1 <= KK -> KK ^ 2 <= 2 ^ L -> / 2 ^ 50 <= eps ->
  KK ^ 12 < 4 * (2 * eps ^ 3) ^ 8 / KK ^ 4 * 2 ^ (8 * L + 1191).
Proof.
  intros h1 h2 h3.
  assert (p4 : 0 < KK ^ 4) by (apply pow_lt; lra).
  assert (h24 : / 2 ^ 1200 <= eps ^ 24).
  { replace (/ 2 ^ 1200) with ((/ 2 ^ 50) ^ 24).
    - apply pow_incr. split; auto. left. apply Rinv_0_lt_compat, pow_lt. lra.
    - rewrite pow_inv, <- pow_mult. reflexivity. }
  assert (h16 : KK ^ 16 <= 2 ^ (8 * L)).
  { rewrite Nat.mul_comm, pow_mult. replace 16%nat with (2 * 8)%nat by reflexivity. rewrite pow_mult. apply pow_incr. split; auto. apply pow_le. lra. }
  apply (Rmult_lt_reg_r (KK ^ 4)); auto.
  replace (KK ^ 12 * KK ^ 4) with (KK ^ 16) by ring.
  replace (4 * (2 * eps ^ 3) ^ 8 / KK ^ 4 * 2 ^ (8 * L + 1191) * KK ^ 4) with (2 ^ (8 * L) * (2 ^ 1191 * (2 ^ 10 * eps ^ 24))).
  2:{ rewrite pow_add. set (p := 2 ^ (8 * L)). set (q := 2 ^ 1191). replace (2 ^ 10) with (4 * 2 ^ 8) by ring.
      rewrite (Rpow_mult_distr 2), <- pow_mult. change (3 * 8)%nat with 24%nat. set (w := eps ^ 24). set (v := 2 ^ 8). field. lra. }
  eapply Rle_lt_trans; [exact h16|]. rewrite <- (Rmult_1_r (2 ^ (8 * L))) at 1. apply Rmult_lt_compat_l; [apply pow_lt; lra|].
  apply Rlt_le_trans with (2 ^ 1191 * (2 ^ 10 * / 2 ^ 1200)).
  - rewrite <- Rmult_assoc, <- pow_add. change (1191 + 10)%nat with (1 + 1200)%nat. rewrite pow_add.
    set (q := 2 ^ 1200). assert (0 < q) by (apply pow_lt; lra). replace (2 ^ 1 * q * / q) with 2 by (field; lra). lra.
  - apply Rmult_le_compat_l; [apply pow_le; lra|]. apply Rmult_le_compat_l; auto. apply pow_le. lra.
Qed.

Lemma svd_eps_conv fuel (a : mat RN) (eps : R) (L : nat) : (1 <= nr a)%nat -> (1 <= nc a)%nat -> / 2 ^ 50 <= eps ->
  (nr a * nc a <= 2 ^ L)%nat -> (Nat.min (nr a) (nc a) * (8 * L + 1192) <= fuel)%nat ->
  exists U s Vt, svd_eps fuel a true true eps = Ret (Some U, s, Some Vt).
Proof.
  intros hr hc heps hL hfu.
  assert (he : 0 < eps). { eapply Rlt_le_trans; [|exact heps]. apply Rinv_0_lt_compat, pow_lt. lra. }
  enough (exists x, svd_eps fuel a true true eps = Ret x) as (x & hx).
  { pose proof (svd_real fuel a eps ltac:(lra) hr hc) as hp. rewrite hx in hp. cbn [post] in hp. destruct hp as (U & s & Vt & -> & _). eauto. }
  unfold svd_eps.
  destruct (Nat.eqb_spec (nr a) 0) as [|nz1]; [lia|]. destruct (Nat.eqb_spec (nc a) 0) as [|nz2]; [lia|]. cbn [orb].
  destruct (scale_down_real a) as (ha & hsc & hle & _); try lia.
  destruct (svd_start_real a eps hr hc) as (b & u0 & vt0 & U0 & V0 & B0 & eb & eu & evt & hU & hV & hA' & eK & hK & hs).
  set (am := abs_max a) in *. set (m := scale_down a am) in *.
  set (r := nr a) in *. set (c := nc a) in *. set (n := Nat.min r c) in *.
  rewrite eb. cbn [bind]. rewrite eu, evt. cbn [bind].
  destruct (bi_into_diagonals b) as [dg off]. cbn [fst snd] in hs.
  set (up := upper_diag b) in *. set (K := frob n n B0) in *.
  destruct (wp_ret _ _ (post_usub n 1 (fun d => d = (n - 1)%nat) noE False ltac:(lia) ltac:(reflexivity))) as (d & -> & ->). cbn [bind].
  set (st := SS dg off (Some u0) (Some vt0)) in *.
  destruct (wp_ret _ _ (delimit_real r c n U0 V0 up B0 K eps ltac:(lra) hK (n - 1) st (fun _ => false) hs ltac:(lia) ltac:(lia)))
    as ([[s e] st1] & -> & dead & hact). cbn [fst snd] in hact. cbn [bind].
  set (KK := sqrt (INR (r * c))).
  assert (h1rc : 1 <= INR (r * c)). { change 1 with (INR 1). apply le_INR. destruct r, c; lia. }
  assert (hKK1 : 1 <= KK) by (unfold KK; rewrite <- sqrt_1; apply sqrt_le_1; lra).
  assert (hKKs : KK ^ 2 = INR (r * c)) by (replace (KK ^ 2) with (KK * KK) by ring; apply sqrt_sqrt; lra).
  assert (hKK : K <= KK).
  { rewrite <- eK. unfold frob, KK. apply sqrt_le_1; [apply frob2_nonneg|lra|]. rewrite mult_INR. apply frob_bound. auto. }
  assert (hKL : KK ^ 2 <= 2 ^ L).
  { rewrite hKKs. replace (2 ^ L) with (INR (2 ^ L)); [apply le_INR; auto|]. rewrite pow_INR. reflexivity. }
  pose proof (conv_arith_svd KK eps L hKK1 hKL heps) as har.
  destruct (loop_svd_conv r c n U0 V0 up B0 K eps KK (8 * L + 1191) he hK hKK hKK1 har fuel s e st1 dead (8 * L + 1191) hact) as (st2 & hl).
  - intros hse. destruct hact as (g1 & _ & _ & g2 & _). eapply kk_top_svd; eauto; lia.
  - destruct hact as (_ & _ & _ & g2 & _). assert ((e + 1) * (8 * L + 1192) <= n * (8 * L + 1192))%nat by (apply Nat.mul_le_mono_r; lia). lia.
  - rewrite hl. cbn [bind]. pose proof (loop_real r c n U0 V0 up B0 K eps ltac:(lra) hK fuel s e st1 dead hact) as hp. rewrite hl in hp. cbn [post] in hp.
    destruct hp as (dead2 & (hv & hd & hpos) & hall). destruct hv as (k1 & k2 & _).
    set (sv := vmap (fun x => nmul RN x am) (sd st2)).
    assert (lsv : length sv = n) by (unfold sv, vmap; rewrite length_vmk; auto).
    destruct (wp_ret _ _ (fix_signs_real n sv (su st2) ltac:(lia) ltac:(
      intros j hj; unfold vent, sv, vmap; rewrite vget_vmk by lia; apply Rmult_le_pos; [apply hpos|auto]))) as (x & -> & ->). cbn [bind]. eauto.
Qed.

Lemma svd_conv fuel (a : mat RN) fu fv (L : nat) : (1 <= nr a)%nat -> (1 <= nc a)%nat ->
  (nr a * nc a <= 2 ^ L)%nat -> (Nat.min (nr a) (nc a) * (8 * L + 1192) <= fuel)%nat ->
  exists x, svd (N:=RN) fuel a fu fv = Ret x.
Proof.
  intros hr hc hL hfu. unfold svd. set (eps := nmul RN _ _).
  assert (heps : / 2 ^ 50 <= eps).
  { unfold eps. change (nepsilon RN) with (/ IZR (2 ^ 52)). change (2 ^ 52)%Z with (Z.pow 2 (Z.of_nat 52)). rewrite <- pow_IZR.
    change (nofQ RN 5%Z 1%positive) with (5 / 1). change (nmul RN) with Rmult. change 52%nat with (50 + 2)%nat. rewrite pow_add.
    set (p := 2 ^ 50). assert (0 < p) by (apply pow_lt; lra). replace (/ (p * 2 ^ 2) * (5 / 1)) with (5 / 4 * / p) by (field; lra).
    assert (0 < / p) by (apply Rinv_0_lt_compat; auto). lra. }
  destruct (svd_eps_conv fuel a eps L hr hc heps hL hfu) as (U & s & Vt & h).
  pose proof (svd_flags_real fuel a fu fv eps ltac:(apply Rle_trans with (/ 2 ^ 50); auto; left; apply Rinv_0_lt_compat, pow_lt; lra)) as hs.
  rewrite h in hs. destruct (svd_eps fuel a fu fv eps) as [x| | | |]; simpl in hs; try tauto. eauto.
Qed.
