(** * svd.rs (values only) in binary64: from the bidiagonal form to the singular values *)
From Coq Require Import Reals List Arith Lia Lra Bool ZArith Setoid Morphisms.
From Coq.Floats Require Import SpecFloat.
From Flocq Require Import Core BinarySingleNaN.
From Verif Require Import Scalar Arr MBase MDirect MDecomp MEigh MSvd Inst Hoare Spec SpecF SpecH RLin PTri PHouse PQR PTrid PBid PGivens PEigh PEighR PSvd PSvdR PRound PHouseF PQRF PQRG PCholG PTrdF PBidF PBidG PApx PGivF PEigF PEigG PSvdV PSvdF PSvdS.
Import ListNotations.
Local Open Scope R_scope.

(** ** Scaling *)
Lemma frob_const_rc r c z : 0 <= z -> frob r c (fun _ _ => z) <= INR (Nat.max r c) * z.
Proof.
  intros hz. apply Rsqr_incr_0_var; [|apply Rmult_le_pos; [apply pos_INR|auto]]. unfold Rsqr. rewrite frob_sq. unfold frob2. rewrite Rsum_const, Rsum_const.
  assert (h1 : INR r <= INR (Nat.max r c)) by (apply le_INR; lia). assert (h2 : INR c <= INR (Nat.max r c)) by (apply le_INR; lia). pose proof (pos_INR r). pose proof (pos_INR c).
  replace (INR (Nat.max r c) * z * (INR (Nat.max r c) * z)) with (INR (Nat.max r c) * (INR (Nat.max r c) * (z * z))) by ring.
  apply Rmult_le_compat; auto; [apply Rmult_le_pos; nra|apply Rmult_le_compat_r; nra].
Qed.
Lemma abs_max_rf (a : mat FN) r c : nr a = r -> nc a = c -> (1 <= r)%nat -> (1 <= c)%nat -> (forall i j, (i < r)%nat -> (j < c)%nat -> fokx (get a i j)) ->
  fokx (abs_max a) /\ (forall i j, (i < r)%nat -> (j < c)%nat -> Rabs (frm a i j) <= fr (abs_max a)) /\
  exists i j, (i < r)%nat /\ (j < c)%nat /\ Rabs (frm a i j) = fr (abs_max a).
Proof.
  intros hr hc hn hn' ha. unfold abs_max. set (l := map (nabs FN) (elems a)).
  assert (hl : forall x, In x l -> fokx x /\ exists i j, (i < r)%nat /\ (j < c)%nat /\ fr x = Rabs (frm a i j)).
  { intros x hx. apply in_map_iff in hx. destruct hx as (y & <- & hy). apply in_elemsF in hy. destruct hy as (i & j & hi & hj & ->).
    rewrite hr in hi. rewrite hc in hj. destruct (ha i j hi hj) as (v & f). split; [split; [apply fvalid_abs|apply ffin_abs]; auto|].
    exists i, j. split; auto. split; auto. rewrite fr_abs. reflexivity. }
  assert (hin : forall i j, (i < r)%nat -> (j < c)%nat -> In (nabs FN (get a i j)) l).
  { intros i j hi hj. apply in_map. apply in_elemsF. exists i, j. rewrite hr, hc. auto. }
  destruct l as [|y l]; [destruct (hin 0%nat 0%nat); lia|].
  cbn [fold_left]. rewrite neg_inf_max by (apply hl; left; auto).
  destruct (fold_max_f l (fun x hx => proj1 (hl x (or_intror hx))) y (proj1 (hl y (or_introl eq_refl)))) as (h1 & h2 & h3 & h4).
  cbv zeta in *. set (m := fold_left _ _ _) in *. split; auto. split.
  - intros i j hi hj. specialize (hin i j hi hj). unfold frm. rewrite <- fr_abs. destruct hin as [->|hx]; auto.
  - destruct h4 as [h4|(x & hx & h4)].
    + destruct (proj2 (hl y (or_introl eq_refl))) as (i & j & hi & hj & e). exists i, j. rewrite <- e. auto.
    + destruct (proj2 (hl x (or_intror hx))) as (i & j & hi & hj & e). exists i, j. rewrite <- e. auto.
Qed.

Lemma scale_rf (a : mat FN) r c : nr a = r -> nc a = c -> (1 <= r)%nat -> (1 <= c)%nat -> (forall i j, (i < r)%nat -> (j < c)%nat -> fokx (get a i j)) ->
  0 < fr (abs_max a) ->
  let al := fr (abs_max a) in let s := scale_down a (abs_max a) in
  nr s = r /\ nc s = c /\ (forall i j, (i < r)%nat -> (j < c)%nat -> fokx (get s i j)) /\
  (forall i j, (i < r)%nat -> (j < c)%nat -> Rabs (frm s i j) <= 2) /\ 1 / 2 <= frob r c (frm s) /\ al <= frob r c (frm a) /\
  frob r c (msub (frm a) (mscal al (frm s))) <= (uro + INR (Nat.max r c) * eta) * frob r c (frm a).
Proof.
  intros hr hc hn hn' ha hal al s. destruct (abs_max_rf a r c hr hc hn hn' ha) as (hm & h1 & i0 & j0 & hi0 & hj0 & h2). fold al in h1, h2.
  assert (es : s = mmap (fun x => ndiv FN x (abs_max a)) a).
  { unfold s, scale_down. rewrite (neq_pos _ (proj2 hm) hal). reflexivity. }
  change (0 < al) in hal.
  assert (hg : forall i j, (i < r)%nat -> (j < c)%nat -> get s i j = ndiv FN (get a i j) (abs_max a)).
  { intros i j hi hj. rewrite es. rewrite get_mmap by lia. reflexivity. }
  assert (hq : forall i j, (i < r)%nat -> (j < c)%nat -> Rabs (frm a i j / al) <= 1).
  { intros i j hi hj. unfold Rdiv. rewrite Rabs_mult, (Rabs_right (/ al)) by (left; apply Rinv_0_lt_compat; lra).
    apply (Rmult_le_reg_r al); [lra|]. rewrite Rmult_assoc, Rinv_l by lra. rewrite Rmult_1_l, Rmult_1_r. auto. }
  assert (hbig : 1 <= bpow radix2 1023) by (change 1 with (bpow radix2 0); apply bpow_le; lia).
  assert (hd : forall i j, (i < r)%nat -> (j < c)%nat -> fokx (get s i j) /\ Rabs (frm s i j - frm a i j / al) <= uro * Rabs (frm a i j / al) + eta).
  { intros i j hi hj. unfold frm at 1. rewrite hg by auto. apply div_err; auto; [fold al; lra|]. eapply Rle_trans; [apply (hq i j hi hj)|auto]. }
  assert (hu : uro <= 1 / 4) by (pose proof uro_small; lra).
  assert (he : 0 <= eta <= 1 / 4) by (split; [apply bpow_ge_0|unfold eta; replace (1 / 4) with (bpow radix2 (-2)) by (simpl; lra); apply bpow_le; lia]).
  pose proof uro_pos as hu0.
  assert (hb : forall i j, (i < r)%nat -> (j < c)%nat -> Rabs (frm s i j) <= Rabs (frm a i j / al) + 1 / 2 /\ Rabs (frm a i j / al) - 1 / 2 <= Rabs (frm s i j)).
  { intros i j hi hj. destruct (hd i j hi hj) as (_ & hx). pose proof (hq i j hi hj) as hy. pose proof (Rabs_pos (frm a i j / al)) as hz.
    assert (uro * Rabs (frm a i j / al) <= 1 / 4) by (eapply Rle_trans; [apply Rmult_le_compat_l; [lra|exact hy]|lra]).
    pose proof (Rabs_triang_inv (frm s i j) (frm a i j / al)). pose proof (Rabs_triang_inv (frm a i j / al) (frm s i j)) as ht. rewrite Rabs_minus_sym in ht. lra. }
  split; [rewrite es; exact hr|]. split; [rewrite es; exact hc|]. split; [intros; apply hd; auto|].
  split. { intros i j hi hj. pose proof (hb i j hi hj). pose proof (hq i j hi hj). lra. }
  split. { eapply Rle_trans; [|apply (frob_entry_le r c (frm s) i0 j0); auto]. pose proof (hb i0 j0 hi0 hj0) as (_ & hx).
    unfold Rdiv in hx. rewrite Rabs_mult, h2, (Rabs_right (/ al)), Rinv_r in hx by (try lra; left; apply Rinv_0_lt_compat; lra). lra. }
  assert (hfa : al <= frob r c (frm a)) by (rewrite <- h2; apply (frob_entry_le r c); auto).
  split; auto.
  eapply Rle_trans; [apply (frob_le _ _ _ (madd (mscal uro (fun i j => Rabs (frm a i j))) (fun _ _ => eta * al)))|].
  - intros i j hi hj. unfold msub, mscal, madd. destruct (hd i j hi hj) as (_ & hx).
    rewrite (Rabs_pos_eq (uro * _ + _)) by (apply Rplus_le_le_0_compat; apply Rmult_le_pos; try lra; apply Rabs_pos).
    replace (frm a i j - al * frm s i j) with (al * - (frm s i j - frm a i j / al)) by (field; lra).
    rewrite Rabs_mult, Rabs_Ropp, (Rabs_pos_eq al) by lra.
    replace (uro * Rabs (frm a i j) + eta * al) with (al * (uro * Rabs (frm a i j / al) + eta)); [apply Rmult_le_compat_l; lra|].
    unfold Rdiv. rewrite Rabs_mult, (Rabs_right (/ al)) by (left; apply Rinv_0_lt_compat; lra). field. lra.
  - eapply Rle_trans; [apply frob_triangle|]. rewrite frob_scal, (Rabs_pos_eq uro) by lra.
    assert (e1 : frob r c (fun i j => Rabs (frm a i j)) = frob r c (frm a)).
    { unfold frob, frob2. f_equal. apply Rsum_ext. intros i hi. apply Rsum_ext. intros j hj. apply Rabs_sq. }
    rewrite e1. assert (h3 : frob r c (fun _ _ => eta * al) <= INR (Nat.max r c) * eta * al).
    { rewrite Rmult_assoc. apply frob_const_rc. apply Rmult_le_pos; lra. }
    assert (h4 : INR (Nat.max r c) * eta * al <= INR (Nat.max r c) * eta * frob r c (frm a)) by (apply Rmult_le_compat_l; auto; apply Rmult_le_pos; [apply pos_INR|lra]).
    lra.
Qed.


(** ** Bidiagonalisation does not use [hypot] *)
Lemma bid_h h (a : mat FN) b : bidiagonal (N:=FN) a = Ret b -> bidiagonal (N:=FNh h) a = Ret (BID (N:=FNh h) (uv b) (bi_off b) (bi_diag b) (upper_diag b)).
Proof.
  unfold bidiagonal. change (@nr (FNh h) a) with (nr a). change (@nc (FNh h) a) with (nc a). destruct (Nat.eqb (Nat.min (nr a) (nc a)) 0); [discriminate|].
  intros e. apply bind_ret in e as ([[self d] o] & e1 & e). apply bind_ret in e as ([self2 x] & e2 & e). apply bind_ret in e as (d2 & e3 & e). injection e as <-.
  cbn [uv bi_off bi_diag upper_diag].
  match goal with |- bind ?m _ = _ => replace m with (@Ret (mat FN * list FN * list FN) (self, d, o)) by (symmetry; exact e1) end. cbn [bind].
  match goal with |- bind ?m _ = _ => replace m with (@Ret (mat FN * FN) (self2, x)) by (symmetry; exact e2) end. cbn [bind].
  match goal with |- bind ?m _ = _ => replace m with (@Ret (list FN) d2) by (symmetry; exact e3) end. reflexivity.
Qed.

(** ** The signs *)
Definition fx (x : FN) : FN := if nis_neg FN x then nopp FN x else x.
Lemma fx_abs x : fr (fx x) = Rabs (fr x) /\ (ffin (fx x) -> ffin x) /\ (fokx x -> fokx (fx x)).
Proof.
  unfold fx. destruct x as [s|s| |s m e].
  - split; [|destruct s; cbn; auto]. destruct s; cbn; change (fr (S754_zero _)) with 0; rewrite Rabs_R0; reflexivity.
  - split; [|destruct s; cbn; auto]. destruct s; cbn; change (fr (S754_infinity _)) with 0; rewrite Rabs_R0; reflexivity.
  - split; [|cbn; auto]. cbn. change (fr S754_nan) with 0. rewrite Rabs_R0. reflexivity.
  - split; [|destruct s; cbn; auto]. change (nis_neg FN (S754_finite s m e)) with s. unfold fr, SF2R. destruct s; cbn [nopp FN SFopp cond_Zopp negb].
    + change (nopp FN (S754_finite true m e)) with (S754_finite false m e). cbn. rewrite <- F2R_Zopp || idtac. rewrite Rabs_left.
      * rewrite <- F2R_Zopp. reflexivity.
      * apply F2R_lt_0. reflexivity.
    + symmetry. apply Rabs_pos_eq. apply F2R_ge_0. cbn. lia.
Qed.
Lemma fix_signs_f h n (ds : list FN) : length ds = n ->
  wp (svd_fix_signs (N:=FNh h) n ds None) (fun x => snd x = None /\ length (fst x) = n /\ forall k, (k < n)%nat -> vget (N:=FN) (fst x) k = fx (vget (N:=FN) ds k)).
Proof.
  intros hl. unfold svd_fix_signs.
  eapply post_for' with (I := fun i (s : list FN * option (mat FN)) => snd s = None /\ length (fst s) = n /\ forall k, (k < n)%nat -> vget (N:=FN) (fst s) k = if Nat.ltb k i then fx (vget (N:=FN) ds k) else vget (N:=FN) ds k).
  - cbn [fst snd]. split; auto.
  - intros i [d1 u1] hi (h1 & h2 & h3). cbn [fst snd] in *. subst u1.
    assert (hin : (i < length d1)%nat) by (change (length d1 = n) in h2; rewrite h2; lia).
    step1. apply post_idx1; [exact hin|].
    pose proof (h3 i ltac:(lia)) as hv. destruct (Nat.ltb_spec i i); [lia|].
    destruct (nis_neg (FNh h) (vget (N:=FNh h) d1 i)) eqn:en.
    + step1. apply post_set1; [exact hin|]. cbn [bind]. apply post_ret. cbn [fst snd]. split; auto. split; [exact (eq_trans (length_vupd (N:=FN) d1 i _) h2)|].
      intros k hk. etransitivity; [apply (vget_vupd (N:=FN)); lia|]. destruct (Nat.eqb_spec k i) as [->|ne].
      * destruct (Nat.ltb_spec i (S i)); [|lia]. unfold fx. rewrite <- hv. change (nis_neg FN (vget (N:=FN) d1 i) = true) in en. rewrite en. reflexivity.
      * rewrite h3 by auto. destruct (Nat.ltb_spec k i), (Nat.ltb_spec k (S i)); try lia; auto.
    + apply post_ret. cbn [fst snd]. split; auto. split; auto. intros k hk. rewrite h3 by auto.
      destruct (Nat.ltb_spec k i), (Nat.ltb_spec k (S i)); try lia; auto. assert (k = i) as -> by lia. unfold fx.
      change (nis_neg FN (vget (N:=FN) d1 i) = false) in en. rewrite hv in en. rewrite en. reflexivity.
  - intros [d1 u1] (h1 & h2 & h3). cbn [fst snd] in *. split; auto. split; auto. intros k hk. rewrite h3 by auto. destruct (Nat.ltb_spec k (0 + n)); [auto|lia].
Qed.

(** ** The whole run *)
Definition vrun (h : FN -> FN -> FN) (fuel : nat) (eps : FN) (n : nat) (d o : FV) : option (FV * FV) :=
  let '(s, e, d, o) := vdelim h eps (n - 1) d o in vloop h fuel eps s e d o.
Definition outv (n : nat) (am : FN) (d : FV) : list FN := vmk (N:=FN) n (fun k => fx (nmul FN (d k) am)).
Definition dgv (b : bidecomp FN) (k : nat) : FN := nabs FN (vget (bi_diag b) k).
Definition ofv (b : bidecomp FN) (k : nat) : FN := nabs FN (vget (bi_off b) k).
Lemma svd_link h fuel (a : mat FN) eps b : let n := Nat.min (nr a) (nc a) in
  (1 <= n)%nat -> bidiagonal (scale_down a (abs_max a)) = Ret b ->
  svd_eps (N:=FNh h) fuel a false false eps =
    match vrun h fuel eps n (dgv b) (ofv b) with Some r => Ret (None, outv n (abs_max a) (fst r), None) | None => OutOfFuel end.
Proof.
  intros n hn eb. pose proof (bidiagonal_class (scale_down a (abs_max a))) as hc. rewrite eb in hc. destruct hc as (_ & (w1 & w2 & w3 & w4 & w5 & w6)).
  assert (hs : nr (scale_down a (abs_max a)) = nr a /\ nc (scale_down a (abs_max a)) = nc a) by (unfold scale_down; destruct (neq FN _ _); auto).
  destruct hs as (s1 & s2). rewrite s1, s2 in *. fold n in w3, w4, w6.
  unfold svd_eps. change (@nr (FNh h) a) with (nr a). change (@nc (FNh h) a) with (nc a).
  destruct (Nat.eqb_spec (nr a) 0) as [e0|_]; [exfalso; unfold n in hn; lia|]. destruct (Nat.eqb_spec (nc a) 0) as [e0|_]; [exfalso; unfold n in hn; lia|]. cbn [orb]. fold n. cbv zeta.
  change (@scale_down (FNh h) a (@abs_max (FNh h) a)) with (@scale_down FN a (@abs_max FN a)). rewrite (bid_h h _ b eb). cbn [bind upper_diag].
  unfold bi_into_diagonals. cbn [bi_diag bi_off].
  destruct (wp_ret (usub n 1) (fun v => v = n - 1)%nat ltac:(apply post_usub; [lia|reflexivity])) as (n1 & -> & ->). cbn [bind].
  set (st0 := SS (N:=FNh h) (vmap (nabs (FNh h)) (bi_diag b)) (vmap (nabs (FNh h)) (bi_off b)) None None).
  assert (hr : rel h n st0 (dgv b) (ofv b)).
  { unfold rel, st0. cbn [sd so su sv]. split; [etransitivity; [apply (length_vmap (N:=FN))|exact w3]|]. split; [etransitivity; [apply (length_vmap (N:=FN))|exact w4]|].
    split; auto. split; auto. split; intros j hj; apply (vget_vmap (N:=FN)); lia. }
  destruct (wp_ret _ _ (delim_link h n (upper_diag b) eps (n - 1) st0 _ _ hr ltac:(lia))) as ([[s e] st1] & ed & q1 & q2 & q3 & q4). rewrite ed. cbn [bind fst snd] in *.
  unfold vrun. destruct (vdelim h eps (n - 1) (dgv b) (ofv b)) as [[[s' e'] d1] o1]. cbn [fst snd] in *. subst s' e'.
  pose proof (loop_link h n (upper_diag b) eps fuel s e st1 d1 o1 q3 ltac:(lia) ltac:(lia)) as hl.
  destruct (vloop h fuel eps s e d1 o1) as [[d2 o2]|]; [|rewrite hl; reflexivity].
  destruct (wp_ret _ _ hl) as (st2 & -> & r2). cbn [bind fst snd] in *. destruct r2 as (g1 & g2 & g3 & g4 & g5 & g6).
  set (dv := vmap (fun x => nmul (FNh h) x (abs_max a)) (sd st2)). assert (lv : length dv = n) by (etransitivity; [apply (length_vmap (N:=FN))|exact g1]). rewrite g3.
  destruct (wp_ret _ _ (fix_signs_f h n dv lv)) as ([dv' u'] & ef & f1 & f2 & f3).
  match goal with |- bind ?m _ = _ => replace m with (@Ret (list FN * option (mat FN)) (dv', u')) by (symmetry; exact ef) end. cbn [bind fst snd] in *. rewrite f1, g4. f_equal. f_equal. f_equal.
  apply nth_ext with (d := n0 FN) (d' := n0 FN); [rewrite f2; symmetry; apply (length_vmk (N:=FN))|].
  intros k hk. rewrite f2 in hk. change (vget (N:=FN) dv' k = vget (N:=FN) (outv n (abs_max a) d2) k). rewrite f3 by auto. unfold outv. rewrite vget_vmk by auto. f_equal.
  etransitivity; [apply (vget_vmap (N:=FN)); exact (eq_ind_r (fun z => (k < z)%nat) hk g1)|]. exact (f_equal (fun x => nmul FN x (abs_max a)) (g5 k hk)).
Qed.

(** ** Nearness of a rectangular matrix to a product with orthonormal columns *)
Definition rnear (r c d : nat) (A X : M) (b : R) : Prop :=
  exists P Q, orthonormal_cols r d P /\ orthonormal_cols c d Q /\ frob r c (msub A (mmul d P (mmul d X (mtr Q)))) <= b.
Lemma rnear_trans r c d A X Y b t : rnear r c d A X b -> near2 d X Y t -> rnear r c d A Y (b + t).
Proof.
  intros (P & Q & hP & hQ & hb) (U & V & (hU & _) & (hV & _) & ht).
  assert (oP : orthonormal_cols r d (mmul d P U)).
  { unfold orthonormal_cols in *. rewrite (mtr_mmul r d d P U). rewrite (mmul_assoc d d r d (mtr U) (mtr P)). rewrite <- (mmul_assoc d r d d (mtr P) P U). rewrite hP, mmul_1_l. exact hU. }
  assert (oQ : orthonormal_cols c d (mmul d Q V)).
  { unfold orthonormal_cols in *. rewrite (mtr_mmul c d d Q V). rewrite (mmul_assoc d d c d (mtr V) (mtr Q)). rewrite <- (mmul_assoc d c d d (mtr Q) Q V). rewrite hQ, mmul_1_l. exact hV. }
  exists (mmul d P U), (mmul d Q V). split; auto. split; auto.
  set (Z := msub X (mmul d U (mmul d Y (mtr V)))) in *.
  assert (e1 : mmul d (mmul d P U) (mmul d Y (mtr (mmul d Q V))) =[r, c]= mmul d P (mmul d (mmul d U (mmul d Y (mtr V))) (mtr Q))).
  { rewrite (mtr_mmul c d d Q V). rewrite (mmul_assoc r d d c P U). rewrite <- (mmul_assoc d d d c Y (mtr V) (mtr Q)). rewrite <- (mmul_assoc d d d c U (mmul d Y (mtr V)) (mtr Q)). reflexivity. }
  assert (e2 : msub A (mmul d (mmul d P U) (mmul d Y (mtr (mmul d Q V)))) =[r, c]= madd (msub A (mmul d P (mmul d X (mtr Q)))) (mmul d P (mmul d Z (mtr Q)))).
  { assert (e3 : mmul d P (mmul d X (mtr Q)) =[r, c]= madd (mmul d P (mmul d (mmul d U (mmul d Y (mtr V))) (mtr Q))) (mmul d P (mmul d Z (mtr Q)))).
    { rewrite <- (mmul_add_r r d c P). rewrite <- (mmul_add_l d d c). assert (e4 : madd (mmul d U (mmul d Y (mtr V))) Z =[d, d]= X) by (intros p q hp hq; unfold Z, madd, msub; ring). rewrite e4. reflexivity. }
    intros p q hp hq. unfold msub at 1, madd at 1. unfold msub at 1. rewrite (e1 p q hp hq), (e3 p q hp hq). unfold madd. ring. }
  rewrite (frob_ext r c _ _ e2). eapply Rle_trans; [apply frob_triangle|]. apply Rplus_le_compat; auto.
  rewrite (frob_ocols r d c P) by auto. rewrite (frob_ocols_r d d c Q) by auto. exact ht.
Qed.
Lemma rnear_weak r c d A X b b' : b <= b' -> rnear r c d A X b -> rnear r c d A X b'.
Proof. intros h (P & Q & h1 & h2 & h3). exists P, Q. split; auto. split; auto. lra. Qed.
Lemma rnear_left r c d A A' X b t : frob r c (msub A A') <= t -> rnear r c d A' X b -> rnear r c d A X (t + b).
Proof.
  intros h (P & Q & h1 & h2 & h3). exists P, Q. split; auto. split; auto. set (Y := mmul d P (mmul d X (mtr Q))) in *.
  rewrite (frob_ext r c _ (madd (msub A A') (msub A' Y))) by (intros p q hp hq; unfold madd, msub; ring).
  eapply Rle_trans; [apply frob_triangle|]. lra.
Qed.
Lemma rnear_scal r c d al A X b : 0 <= al -> rnear r c d A X b -> rnear r c d (mscal al A) (mscal al X) (al * b).
Proof.
  intros ha (P & Q & h1 & h2 & h3). exists P, Q. split; auto. split; auto.
  rewrite (frob_ext r c _ (mscal al (msub A (mmul d P (mmul d X (mtr Q)))))).
  - rewrite frob_scal, (Rabs_pos_eq al) by lra. apply Rmult_le_compat_l; auto.
  - intros p j hp hj. unfold msub, mscal, mmul. rewrite Rmult_minus_distr_l. f_equal. rewrite <- Rsum_scal_l. apply Rsum_ext. intros i hi. rewrite <- !Rsum_scal_l. apply Rsum_ext. intros l hl'. ring.
Qed.
Lemma near2_tr n B C b : near2 n B C b -> near2 n (mtr B) (mtr C) b.
Proof.
  intros (U & V & hU & hV & hb). exists V, U. split; auto. split; auto. eapply Rle_trans; [|exact hb]. right. rewrite <- (frob_tr n n (msub B _)). apply frob_ext.
  assert (e : mtr (mmul n U (mmul n C (mtr V))) =[n, n]= mmul n V (mmul n (mtr C) (mtr U))).
  { rewrite (mtr_mmul n n n U), (mtr_mmul n n n C), (mtr_mtr n n V). rewrite (mmul_assoc n n n n V). reflexivity. }
  intros p q hp hq. unfold msub at 1. rewrite <- (e p q hp hq). reflexivity.
Qed.
Lemma near2_sign n B (x : nat -> R) b : near2 n B (mdiag x) b -> near2 n B (mdiag (fun k => Rabs (x k))) b.
Proof.
  intros h. set (sg := fun k => if Rlt_dec (x k) 0 then -1 else 1).
  assert (hs : forall k, sg k * sg k = 1) by (intros k; unfold sg; destruct (Rlt_dec _ _); ring).
  assert (hd : forall y z, mmul n (mdiag y) (mdiag z) =[n, n]= mdiag (fun k => y k * z k)).
  { intros y z p q hp hq. unfold mmul. rewrite (Rsum_single n p); auto.
    - unfold mdiag. rewrite Nat.eqb_refl. destruct (Nat.eqb p q); ring.
    - intros l hl hne. unfold mdiag. destruct (Nat.eqb_spec p l); [congruence|ring]. }
  assert (ht : mtr (mdiag sg) =[n, n]= mdiag sg) by (intros p q hp hq; unfold mtr, mdiag; destruct (Nat.eqb_spec q p) as [->|]; [rewrite Nat.eqb_refl|destruct (Nat.eqb_spec p q); [congruence|]]; reflexivity).
  assert (hi : mdiag (fun k => sg k * sg k) =[n, n]= mid) by (intros p q hp hq; unfold mdiag, mid; rewrite hs; reflexivity).
  assert (ho : orthogonal n (mdiag sg)) by (split; rewrite ht, hd, hi; reflexivity).
  replace b with (b + 0) by ring. apply (near2_left n B (mdiag x) _ (mdiag sg)); auto.
  right. unfold frob. rewrite (frob2_ext n n _ (fun _ _ => 0)).
  - unfold frob2. rewrite Rsum_0; [apply sqrt_0|]. intros. apply Rsum_0. intros. ring.
  - intros p q hp hq. unfold msub. rewrite (hd sg x p q hp hq). unfold mdiag, sg, Rabs. destruct (Nat.eqb p q); [|ring]. destruct (Rlt_dec (x p) 0), (Rcase_abs (x p)); lra.
Qed.

(** ** The guarded [hypot] *)
Definition hypnf (h : FN -> FN -> FN) : Prop := forall x y, nf x \/ nf y -> nf (h x y).
Lemma f_hypot_nf : hypnf f_hypot.
Proof. intros x y. unfold nf. intros [e|e]; destruct x as [s|s| |s m k]; try discriminate e; destruct y as [s'|s'| |s' m' k']; try discriminate e; reflexivity. Qed.
Lemma guarded_nf h : hypnf h -> hypnf (guarded h).
Proof. intros hn x y hx. unfold guarded. destruct (SFltb _ _); [apply nf_nan|apply hn; auto]. Qed.
Lemma guarded_low h x y : fvalid (guarded h x y) -> ffin (guarded h x y) -> bpow radix2 (-1000) <= fr (guarded h x y).
Proof.
  unfold guarded. destruct (SFltb _ _) eqn:e; [discriminate|]. intros hv hf.
  apply ltb_fr_false in e; [|split; auto|split; vm_compute; reflexivity]. rewrite fr_guard in e. exact e.
Qed.
Definition seps : FN := nmul FN (nepsilon FN) (nofQ FN 5%Z 1%positive).
Lemma seps_ok : fokx seps. Proof. split; vm_compute; reflexivity. Qed.
Lemma seps_v : fr seps = 10 * uro.
Proof.
  assert (e : seps = S754_finite false 5629499534213120 (-102)) by (vm_compute; reflexivity). rewrite e. unfold fr, SF2R. cbn [cond_Zopp]. unfold F2R. cbn [Fnum Fexp].
  change 5629499534213120%Z with (10 * 2 ^ 49)%Z. rewrite mult_IZR. change (IZR (2 ^ 49)) with (IZR (Zpower radix2 49)). rewrite (IZR_Zpower radix2 49) by lia. rewrite Rmult_assoc, <- bpow_plus. rewrite uro_bpow. reflexivity.
Qed.

(** ** The iteration *)
Lemma vrun_f h n B0 m fuel (d o : FV) : hyp_good h -> hypnf h -> (forall x y, fvalid (h x y) -> ffin (h x y) -> bpow radix2 (-1000) <= fr (h x y)) ->
  1 <= m -> m <= bpow radix2 28 -> frob n n B0 <= m / 2 -> (1 <= n)%nat -> (INR fuel + 1) * itc n m <= m / 2 ->
  oks n d o -> B0 =[n, n]= bidm (D d) (D o) ->
  match vrun h fuel seps n d o with
  | None => True
  | Some r => bad n (fst r) \/ ((forall k, (k < n)%nat -> ent_ok m (fst r k)) /\ near2 n B0 (mdiag (D (fst r))) ((INR fuel + 1) * itc n m))
  end.
Proof.
  intros hh hnf hlow m1 m2 hB hn hbud hok hB0. unfold vrun.
  pose proof (itc_pos n m m1) as it0. pose proof (kp_pos m m1) as kp0. pose proof (pos_INR n) as hpn. pose proof (pos_INR fuel) as hpf.
  set (c := (INR n + 1) * ((INR n + 3) * kp m)). assert (hc : c <= itc n m) by (unfold c, itc; nra).
  assert (hg : good n B0 d o 0) by (split; auto; eapply near2_ext; [exact hB0|apply near2_id]).
  pose proof (delim_f h hh hnf n B0 m m1 m2 hB seps seps_ok seps_v (n - 1) d o 0 ltac:(lia) ltac:(fold c; nra)) as q. fold c in q.
  specialize (q ltac:(right; split; [exact hg|intros j h1 h2; lia])).
  destruct (vdelim h seps (n - 1) d o) as [[[s e] d1] o1]. destruct q as (q & _). rewrite Rplus_0_l in q.
  pose proof (loop_f h hh hnf hlow n B0 m m1 m2 hB seps seps_ok seps_v fuel s e d1 o1 c q ltac:(nra)) as ql.
  destruct (vloop h fuel seps s e d1 o1) as [[d2 o2]|]; auto. cbn [fst snd] in *. destruct ql as [ql|(ql & qd)]; [left; auto|right].
  assert (hbb : c + INR fuel * itc n m <= m / 2) by nra. split.
  - intros k hk. eapply good_d; eauto.
  - destruct ql as (_ & ql). eapply near2_weak; [|eapply near2_ext; [|exact ql]]; [nra|].
    intros p q' hp hq. unfold bidm, mdiag. destruct (Nat.eqb p q'); auto. destruct (Nat.eqb_spec q' (p + 1)) as [->|]; auto. apply qd; lia.
Qed.

Lemma vrun_sim g h n fuel (d o : FV) : (forall x y, g x y = S754_nan \/ g x y = h x y) -> hypnf g -> (1 <= n)%nat ->
  (forall r, vrun g fuel seps n d o = Some r -> bad n (fst r)) \/ vrun g fuel seps n d o = vrun h fuel seps n d o.
Proof.
  intros hg gnf hn. unfold vrun. pose proof (delim_sim g h hg gnf n seps (proj2 seps_ok) (n - 1) d o ltac:(lia)) as (_ & q2 & q3 & q4).
  destruct (vdelim g seps (n - 1) d o) as [[[s e] d1] o1]. unfold dd, ee, st in q2, q3, q4. cbn [fst snd] in *.
  pose proof (loop_sim g h hg gnf n seps (proj2 seps_ok) fuel s e d1 o1 ltac:(lia) q4) as (l1 & l2).
  destruct q2 as [q2|q2]; [left; auto|]. rewrite <- q2. exact l2.
Qed.

Lemma near2_extl n B B' C b : B =[n, n]= B' -> near2 n B C b -> near2 n B' C b.
Proof.
  intros h (U & V & hU & hV & hb). exists U, V. split; auto. split; auto. eapply Rle_trans; [|exact hb]. right. apply frob_ext.
  intros p q hp hq. unfold msub. rewrite (h p q hp hq). reflexivity.
Qed.
Lemma ocols_mid r d : (d <= r)%nat -> orthonormal_cols r d mid.
Proof.
  intros h p q hp hq. unfold mmul, mtr, mid. rewrite (Rsum_single r p); [|lia|].
  - rewrite Nat.eqb_refl. destruct (Nat.eqb p q); ring.
  - intros l hl hne. destruct (Nat.eqb_spec l p); [congruence|ring].
Qed.

Section Final.
Variable h : FN -> FN -> FN.
Hypothesis hh : hyp_good h.
Hypothesis hnf : hypnf h.
Hypothesis hlow : forall x y, fvalid (h x y) -> ffin (h x y) -> bpow radix2 (-1000) <= fr (h x y).
Variables r c fuel : nat.
Let d := Nat.min r c.
Let n := Nat.max r c.
Let R0 := 4 * INR d * gam (10 * n + 70).
Hypothesis hd1 : (1 <= d)%nat.
Hypothesis hsz : INR (n * (10 * n + 70)) * uro <= / 100.
Hypothesis hR : R0 <= 2 / 25.
Hypothesis hbud : 600 * (INR fuel + 1) * (INR d + 3) ^ 2 * uro <= / 2.

Lemma n_small : INR n <= 4000000.
Proof.
  pose proof (pos_INR n) as hn. pose proof uro_pos as hu. destruct (Rle_dec (INR n) 4000000) as [|hc]; auto. exfalso.
  rewrite mult_INR, plus_INR, mult_INR in hsz. replace (INR 10) with 10 in hsz by (simpl; lra). replace (INR 70) with 70 in hsz by (simpl; lra).
  assert (hv : uro * 9007199254740992 = 1) by (unfold uro; change (2 ^ 53)%Z with 9007199254740992%Z; lra).
  assert (h2 : 4000000 * (10 * 4000000) <= INR n * (10 * INR n + 70)) by (apply Rmult_le_compat; lra).
  assert (4000000 * (10 * 4000000) * uro <= INR n * (10 * INR n + 70) * uro) by (apply Rmult_le_compat_r; lra). lra.
Qed.
Lemma neta_small : INR n * eta <= uro.
Proof.
  pose proof n_small as hn. pose proof (pos_INR n) as hn0. assert (he : eta <= bpow radix2 (-100)) by (unfold eta; apply bpow_le; lia). pose proof eta_pos as he0.
  apply Rle_trans with (bpow radix2 22 * bpow radix2 (-100)).
  - apply Rmult_le_compat; auto; [lra|]. eapply Rle_trans; [exact hn|]. cbn. lra.
  - rewrite <- bpow_plus, uro_bpow. apply bpow_le. lia.
Qed.

Definition svdf_eps : R := 3 * R0 + 8000 * (INR fuel + 1) * (INR d + 3) ^ 2 * uro.
Lemma R0_pos : 0 <= R0.
Proof. unfold R0. pose proof (gam_nonneg (10 * n + 70)). pose proof (pos_INR d). apply Rmult_le_pos; lra. Qed.

(** the scaled matrix and its bidiagonal form *)
Lemma scaled_f (s : mat FN) : nr s = r -> nc s = c -> (forall i j, (i < r)%nat -> (j < c)%nat -> fokx (get s i j)) ->
  (forall i j, (i < r)%nat -> (j < c)%nat -> Rabs (frm s i j) <= 2) ->
  (forall bd bm, bidiagonal s = Ret bd -> into_b bd = Ret bm -> forall i j, (i < d)%nat -> (j < d)%nat -> fr (get bm i j) = 0 \/ tiny <= fr (get bm i j)) ->
  let m := 1 + 4 * frob r c (frm s) in
  exists b, bidiagonal s = Ret b /\
  match vrun h fuel seps d (dgv b) (ofv b) with
  | None => True
  | Some x => bad d (fst x) \/ ((forall k, (k < d)%nat -> ent_ok m (fst x k)) /\
      rnear r c d (frm s) (mdiag (D (fst x))) (R0 * (frob r c (frm s) + zfl) + (INR fuel + 1) * itc d m))
  end.
Proof.
  intros s1 s2 s3 s4 hcl m. set (F := frob r c (frm s)) in *.
  assert (hF0 : 0 <= F) by apply frob_nonneg. pose proof R0_pos as hR0. pose proof n_small as hns. pose proof (pos_INR n) as hn0. pose proof (pos_INR d) as hd0. pose proof (pos_INR fuel) as hf0. pose proof uro_pos as hu.
  assert (hF : F <= 8000000).
  { apply Rle_trans with (frob r c (fun _ _ => 2)); [apply frob_le; intros i j hi hj; rewrite (Rabs_pos_eq 2) by lra; auto|]. eapply Rle_trans; [apply frob_const_rc; lra|]. fold n. lra. }
  assert (hz : 0 <= zfl <= 1 / 8) by (unfold zfl; split; [apply bpow_ge_0|replace (1 / 8) with (bpow radix2 (-3)) by (simpl; lra); apply bpow_le; lia]).
  assert (hcap : 2 * (F + zfl) <= cap).
  { apply Rle_trans with (bpow radix2 28); [cbn; lra|unfold cap; apply bpow_le; lia]. }
  destruct (bid_decomp_float s) as (b & u & bm & vt & eb & _ & ebm & _ & eup & _ & _ & b1 & b2 & _ & _ & _ & hc); try (rewrite s1, s2); auto.
  rewrite s1, s2 in *. fold d n in b1, b2, hc. exists b. split; auto.
  destruct (hc (hcl b bm eb ebm)) as (_ & g2 & _ & P & Q & g4 & g5 & g6 & _). clear hc. fold F in g6.
  pose proof (bidiagonal_class s) as hw. rewrite eb in hw. destruct hw as (_ & wf). rewrite s1, s2 in wf.
  destruct (wp_ret _ _ (into_b_ok _ _ _ wf)) as (bm' & eb' & _ & _ & b3). fold d in b3. rewrite ebm in eb'. injection eb' as <-.
  set (B0 := bidm (D (dgv b)) (D (ofv b))).
  assert (hB : (if Nat.leb c r then B0 else mtr B0) =[d, d]= frm bm).
  { rewrite eup in b3. intros p q hp hq. unfold frm. rewrite b3 by auto. unfold B0, bidm, mtr, D, dgv, ofv.
    destruct (Nat.leb c r).
    - destruct (Nat.eqb p q); auto. destruct (Nat.eqb q (p + 1)); auto.
    - rewrite (Nat.eqb_sym q p). destruct (Nat.eqb_spec p q) as [->|]; auto. destruct (Nat.eqb p (q + 1)); auto. }
  assert (hBf : frob d d B0 = frob d d (frm bm)).
  { rewrite <- (frob_ext d d _ _ hB). destruct (Nat.leb c r); [reflexivity|symmetry; apply frob_tr]. }
  assert (hn1 : rnear r c d (frm s) (frm bm) (R0 * (F + zfl))).
  { exists P, Q. split; [exact g4|]. split; [exact g5|]. eapply Rle_trans; [exact g6|]. right. unfold R0. ring. }
  assert (hbm : frob d d (frm bm) <= F + R0 * (F + zfl)).
  { destruct hn1 as (P' & Q' & o1 & o2 & o3). rewrite <- (frob_ocols_r d d c Q' (frm bm)) by auto. rewrite <- (frob_ocols r d c P') by auto. set (Y := mmul d P' _) in *.
    apply Rle_trans with (frob r c (madd (frm s) (mscal (-1) (msub (frm s) Y)))).
    - right. apply frob_ext. intros p j hp hj. unfold madd, mscal, msub. ring.
    - eapply Rle_trans; [apply frob_triangle|]. rewrite frob_scal. replace (Rabs (-1)) with 1 by (rewrite Rabs_left; lra). fold F. lra. }
  assert (hm2 : frob d d B0 <= m / 2).
  { rewrite hBf. eapply Rle_trans; [exact hbm|]. unfold m. assert (R0 * (F + zfl) <= 2 / 25 * (F + zfl)) by (apply Rmult_le_compat_r; lra). lra. }
  assert (hm1 : 1 <= m) by (unfold m; lra).
  assert (hm3 : m <= bpow radix2 28) by (unfold m; cbn; lra).
  assert (hit : (INR fuel + 1) * itc d m <= m / 2).
  { unfold itc, kp. replace ((INR fuel + 1) * ((INR d + 3) * (INR d + 3) * (600 * uro * m))) with (600 * (INR fuel + 1) * (INR d + 3) ^ 2 * uro * m) by ring.
    unfold Rdiv. rewrite (Rmult_comm m). apply Rmult_le_compat_r; lra. }
  assert (hok : oks d (dgv b) (ofv b)).
  { rewrite eup in b3. split.
    - intros j hj. pose proof (b3 j j hj hj) as e. rewrite Nat.eqb_refl in e. unfold dgv. rewrite <- e. apply g2; auto.
    - intros j hj. unfold ofv. destruct (Nat.leb c r).
      + pose proof (b3 j (j + 1)%nat ltac:(lia) hj) as e. destruct (Nat.eqb_spec j (j + 1)); [lia|]. rewrite Nat.eqb_refl in e. rewrite <- e. apply g2; lia.
      + pose proof (b3 (j + 1)%nat j hj ltac:(lia)) as e. destruct (Nat.eqb_spec (j + 1) j); [lia|]. rewrite Nat.eqb_refl in e. rewrite <- e. apply g2; lia. }
  pose proof (vrun_f h d B0 m fuel (dgv b) (ofv b) hh hnf hlow hm1 hm3 hm2 hd1 hit hok ltac:(reflexivity)) as hv.
  destruct (vrun h fuel seps d (dgv b) (ofv b)) as [x|]; auto. destruct hv as [hv|(v1 & v2)]; auto. right. split; auto.
  eapply rnear_trans; [exact hn1|]. apply (near2_extl d _ _ _ _ hB). destruct (Nat.leb c r); auto.
  apply near2_tr in v2. eapply near2_ext; [|exact v2]. intros p q hp hq. unfold mtr, mdiag. rewrite (Nat.eqb_sym q p). destruct (Nat.eqb_spec p q) as [->|]; auto.
Qed.

Lemma svd_f (a : mat FN) b x : nr a = r -> nc a = c -> (forall i j, (i < r)%nat -> (j < c)%nat -> fokx (get a i j)) ->
  (forall bd bm, bidiagonal (scale_down a (abs_max a)) = Ret bd -> into_b bd = Ret bm -> forall i j, (i < d)%nat -> (j < d)%nat -> fr (get bm i j) = 0 \/ tiny <= fr (get bm i j)) ->
  bidiagonal (scale_down a (abs_max a)) = Ret b -> vrun h fuel seps d (dgv b) (ofv b) = Some x -> ~ bad d (fst x) ->
  (forall k, (k < d)%nat -> ffin (vget (N:=FN) (outv d (abs_max a) (fst x)) k)) ->
  rnear r c d (frm a) (mdiag (frv (outv d (abs_max a) (fst x)))) (svdf_eps * frob r c (frm a) + INR d * eta).
Proof.
  intros hr hc ha hcl eb ev hnb hfin. assert (hr1 : (1 <= r)%nat) by lia. assert (hc1 : (1 <= c)%nat) by lia.
  assert (ho : forall k, (k < d)%nat -> vget (N:=FN) (outv d (abs_max a) (fst x)) k = fx (nmul FN (fst x k) (abs_max a))) by (intros k hk; unfold outv; rewrite vget_vmk by auto; reflexivity).
  destruct (abs_max_rf a r c hr hc hr1 hc1 ha) as (hm & hmax & i0 & j0 & hi0 & hj0 & hat).
  set (al := fr (abs_max a)) in *. set (A := frm a) in *. pose proof R0_pos as hR0.
  pose proof uro_pos as hu. pose proof (pos_INR d) as hpn. pose proof (pos_INR fuel) as hpf. pose proof eta_pos as het. pose proof neta_small as hne. pose proof (pos_INR n) as hpn'.
  assert (hdn : INR d <= INR n) by (apply le_INR; unfold d, n; lia).
  pose proof (frob_nonneg r c A) as hA0. set (FA := frob r c A) in *.
  set (K := (INR fuel + 1) * (INR d + 3) ^ 2 * uro). assert (hK3 : 3 * (INR d + 3) * uro <= K).
  { unfold K. apply Rmult_le_compat_r; [lra|]. assert (1 * ((INR d + 3) * (INR d + 3)) <= (INR fuel + 1) * ((INR d + 3) * (INR d + 3))) by (apply Rmult_le_compat_r; [apply Rmult_le_pos|]; lra).
    assert (3 * (INR d + 3) <= (INR d + 3) * (INR d + 3)) by (apply Rmult_le_compat_r; lra). simpl. lra. }
  assert (hdu : 0 <= INR d * uro) by (apply Rmult_le_pos; lra).
  assert (hK : 0 <= K) by lra.
  assert (es : svdf_eps = 3 * R0 + 8000 * K) by (unfold svdf_eps, K; ring). rewrite es.
  assert (heps : 0 <= (3 * R0 + 8000 * K) * FA) by (apply Rmult_le_pos; lra).
  assert (hal0 : 0 <= al) by (rewrite <- hat; apply Rabs_pos).
  assert (hfin' : forall k, (k < d)%nat -> ffin (nmul FN (fst x k) (abs_max a))).
  { intros k hk. specialize (hfin k hk). rewrite ho in hfin by auto. apply fx_abs. exact hfin. }
  destruct (Req_dec al 0) as [ez|enz].
  - assert (hz : forall i j, (i < r)%nat -> (j < c)%nat -> A i j = 0).
    { intros i j hi hj. specialize (hmax i j hi hj). destruct (Req_dec (A i j) 0) as [|hx]; auto. apply Rabs_pos_lt in hx. lra. }
    exists mid, mid. split; [apply ocols_mid; lia|]. split; [apply ocols_mid; lia|].
    assert (hv : mdiag (frv (outv d (abs_max a) (fst x))) =[d, d]= (fun _ _ => 0)).
    { intros p q hp hq. unfold mdiag. destruct (Nat.eqb p q); auto. unfold frv. rewrite ho by auto. rewrite (proj1 (fx_abs _)), mul_zero_fin; auto; [apply Rabs_R0|apply hm]. }
    rewrite (frob_ext r c _ (fun _ _ => 0)).
    + eapply Rle_trans; [apply frob_const_rc; lra|]. rewrite Rmult_0_r. apply Rplus_le_le_0_compat; auto. apply Rmult_le_pos; lra.
    + intros p q hp hq. unfold msub. rewrite (hz p q hp hq). unfold mmul. rewrite Rsum_0; [ring|]. intros i hi. rewrite Rsum_0; [ring|]. intros j hj. rewrite (hv i j hi hj). ring.
  - assert (hal : 0 < al) by lra.
    destruct (scale_rf a r c hr hc hr1 hc1 ha hal) as (s1 & s2 & s3 & s4 & s5 & s6 & s7). cbv zeta in *. fold al A n FA in s6, s7.
    set (s := scale_down a (abs_max a)) in *.
    destruct (scaled_f s s1 s2 s3 s4 hcl) as (b' & eb' & hv). rewrite eb in eb'. injection eb' as <-. rewrite ev in hv.
    destruct hv as [hv|(he & hnear)]; [contradiction|].
    set (F := frob r c (frm s)) in *. set (m := 1 + 4 * F) in *.
    assert (hF0 : 0 <= F) by apply frob_nonneg. assert (hu8 : uro <= / 8) by apply uro_small.
    assert (hsF : al * F <= 2 * FA).
    { assert (e : al * F = frob r c (mscal al (frm s))) by (rewrite frob_scal, (Rabs_pos_eq al) by lra; reflexivity). rewrite e.
      apply Rle_trans with (frob r c (madd A (mscal (-1) (msub A (mscal al (frm s)))))).
      - right. apply frob_ext. intros p j hp hj. unfold madd, mscal, msub. ring.
      - eapply Rle_trans; [apply frob_triangle|]. rewrite frob_scal. replace (Rabs (-1)) with 1 by (rewrite Rabs_left; lra).
        assert ((uro + INR n * eta) * FA <= 1 * FA) by (apply Rmult_le_compat_r; lra). fold FA. lra. }
    assert (ham : al * m <= 12 * FA).
    { unfold m. assert (al * (1 / 2) <= al * F) by (apply Rmult_le_compat_l; lra). lra. }
    pose proof (rnear_left _ _ _ _ _ _ _ _ s7 (rnear_scal r c d al _ _ _ ltac:(lra) hnear)) as n2.
    assert (n3 : near2 d (mscal al (mdiag (D (fst x)))) (mdiag (frv (outv d (abs_max a) (fst x)))) (0 + INR d * (uro * (al * m) + eta))).
    { set (w := fun k => fr (nmul FN (fst x k) (abs_max a))).
      eapply near2_ext with (B := mdiag (fun k => Rabs (w k))).
      { intros p q hp hq. unfold mdiag. destruct (Nat.eqb p q); auto. unfold frv, w. rewrite ho by auto. symmetry. apply fx_abs. }
      apply near2_sign. eapply near2_close; [apply near2_id|].
      rewrite (frob_ext d d _ (mdiag (fun k => al * fr (fst x k) - w k))) by (intros p j hp hj; unfold msub, mscal, mdiag, D; destruct (Nat.eqb p j); ring).
      apply frob_diag; [apply Rplus_le_le_0_compat; [apply Rmult_le_pos; [lra|apply Rmult_le_pos; unfold m; lra]|lra]|].
      intros k hk. destruct (he k hk) as ((vk & fk) & hk2). unfold w.
      destruct (mul_std _ _ vk (proj1 hm) (hfin' k hk)) as (_ & _ & d' & e & hd & hee & ->). fold al. apply dlt_u in hd.
      replace (al * fr (fst x k) - (fr (fst x k) * al * (1 + d') + e)) with (- (d' * (al * fr (fst x k)) + e)) by ring.
      rewrite Rabs_Ropp. eapply Rle_trans; [apply Rabs_triang|]. apply Rplus_le_compat; auto. rewrite !Rabs_mult, (Rabs_pos_eq al) by lra.
      apply Rmult_le_compat; try apply Rabs_pos; auto; [apply Rmult_le_pos; [lra|apply Rabs_pos]|apply Rmult_le_compat_l; auto]. }
    eapply rnear_weak; [|exact (rnear_trans _ _ _ _ _ _ _ _ n2 n3)].
    assert (hz : 0 <= zfl <= 1 / 8) by (unfold zfl; split; [apply bpow_ge_0|replace (1 / 8) with (bpow radix2 (-3)) by (simpl; lra); apply bpow_le; lia]).
    assert (t1 : al * (R0 * (F + zfl)) <= 3 * R0 * FA).
    { replace (al * (R0 * (F + zfl))) with (R0 * (al * F + al * zfl)) by ring. replace (3 * R0 * FA) with (R0 * (3 * FA)) by ring.
      apply Rmult_le_compat_l; auto. assert (al * zfl <= al * 1) by (apply Rmult_le_compat_l; lra). lra. }
    assert (t2 : al * ((INR fuel + 1) * itc d m) <= 7200 * K * FA).
    { unfold itc, kp. replace (al * ((INR fuel + 1) * ((INR d + 3) * (INR d + 3) * (600 * uro * m)))) with (600 * K * (al * m)) by (unfold K; ring).
      replace (7200 * K * FA) with (600 * K * (12 * FA)) by ring. apply Rmult_le_compat_l; lra. }
    assert (t3 : INR d * (uro * (al * m)) <= 12 * K * FA).
    { replace (INR d * (uro * (al * m))) with ((INR d * uro) * (al * m)) by ring. replace (12 * K * FA) with (K * (12 * FA)) by ring.
      apply Rmult_le_compat; auto; [apply Rmult_le_pos; unfold m; lra|lra]. }
    assert (t4 : (uro + INR n * eta) * FA <= 2 * K * FA) by (apply Rmult_le_compat_r; lra).
    assert (0 <= K * FA) by (apply Rmult_le_pos; auto). lra.
Qed.
End Final.
