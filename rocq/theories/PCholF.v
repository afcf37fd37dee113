(** * cholesky.rs in floating point *)
From Coq Require Import Reals List Arith Lia Lra Bool.
From Coq.Floats Require Import SpecFloat.
From Flocq Require Import Core BinarySingleNaN.
From Verif Require Import Scalar Arr MBase MDirect Inst Hoare Spec SpecF RLin PTri PChol PRound PTriF.
Import ListNotations.
Open Scope res_scope.

(** ** The operations performed, for any scalar type *)
Section Generic.
Context {N : Num}.
Notation mtx := (mat N).

Definition chol_off (a l : mtx) (p q : nat) : N :=
  ndiv N (nsub N (get a p q) (sumn q (fun i => nmul N (get l q i) (get l p i)))) (get l q q).
Definition chol_pivot (a l : mtx) (p : nat) : N :=
  nsub N (get a p p) (sumn p (fun i => nmul N (get l p i) (get l p i))).

Definition chol_ex (a : mtx) (n j : nat) (m : mtx) : Prop :=
  nr m = n /\ nc m = n /\
  (forall p q, p < j -> q < p -> get m p q = chol_off a m p q) /\
  (forall p, p < j -> nle N (chol_pivot a m p) (n0 N) = false /\ get m p p = nsqrt N (chol_pivot a m p)) /\
  (forall p q, p < n -> q < n -> (j <= p \/ p < q) -> get m p q = get a p q).

Lemma chol_loop_exact (a : mtx) n j m : j < n -> chol_ex a n j m ->
  wp (for_ j 0 (chol_step j) (m, n0 N)) (fun st => let m1 := fst st in
    nr m1 = n /\ nc m1 = n /\
    (forall x y, x < n -> y < n -> (x <> j \/ j <= y) -> get m1 x y = get m x y) /\
    (forall q, q < j -> get m1 j q = chol_off a m1 j q) /\
    snd st = sumn j (fun i => nmul N (get m1 j i) (get m1 j i))).
Proof.
  intros hj (i1 & i2 & i3 & i4 & i5).
  eapply post_for' with (I := fun k st => let m1 := fst st in
    nr m1 = n /\ nc m1 = n /\
    (forall x y, x < n -> y < n -> (x <> j \/ k <= y) -> get m1 x y = get m x y) /\
    (forall q, q < k -> get m1 j q = chol_off a m1 j q) /\
    snd st = sumn k (fun i => nmul N (get m1 j i) (get m1 j i))).
  - simpl. repeat split; auto; intros; lia.
  - intros k [m1 d] hk (h1 & h2 & h3 & h4 & h5). cbn [fst snd] in h1, h2, h3, h4, h5. unfold chol_step.
    apply post_bind. eapply post_mono; [apply chol_inner_ok; lia|]. intros s hs.
    steps. cbn [fst snd]. cbv zeta.
    set (y := ndiv N (nsub N (get m1 j k) s) (get m1 k k)).
    assert (hg : forall p q, p < n -> q < n ->
       get (upd m1 j k y) p q = if (p =? j) && (q =? k) then y else get m1 p q).
    { intros. rewrite get_upd by lia. reflexivity. }
    assert (hy : y = ndiv N (nsub N (get m1 j k) s) (get m1 k k)) by reflexivity.
    clearbody y. repeat split; auto.
    + intros p q hp hq ho. rewrite hg by auto. bd; try apply h3; auto; lia.
    + intros q hq. unfold chol_off. rewrite !hg by lia.
      rewrite (sumn_ext q _ (fun i => nmul N (get m1 q i) (get m1 j i))).
      2:{ intros i hi. rewrite !hg by lia. bd. reflexivity. }
      destruct (Nat.eq_dec q k) as [->|].
      * bd. rewrite hy, hs. rewrite (h3 j k) by lia. rewrite i5 by lia. reflexivity.
      * bd. apply h4. lia.
    + cbn [sumn]. rewrite !hg by lia. bd. rewrite h5. f_equal.
      apply sumn_ext. intros i hi. rewrite !hg by lia. bd. reflexivity.
  - intros [m1 d] h. exact h.
Qed.

Lemma chol_row_exact (a : mtx) n j m m' : j < n -> chol_ex a n j m ->
  chol_row j m = (m', Ret tt) -> chol_ex a n (S j) m'.
Proof.
  intros hj hi. unfold chol_row.
  destruct (wp_ret _ _ (chol_loop_exact a n j m hj hi)) as ([m1 d] & -> & h1 & h2 & h3 & h4 & h5).
  cbn [fst snd] in h1, h2, h3, h4, h5. destruct hi as (i1 & i2 & i3 & i4 & i5).
  unfold at2. rewrite h1, h2. bd. destruct (nle N _ _) eqn:hle; [discriminate|].
  unfold atm2. rewrite h1, h2. bd. cbn [andb]. intros e. injection e as <-.
  set (y := nsqrt N (nsub N (get m1 j j) d)).
  assert (hg : forall p q, p < n -> q < n ->
     get (upd m1 j j y) p q = if (p =? j) && (q =? j) then y else get m1 p q).
  { intros. rewrite get_upd by lia. reflexivity. }
  assert (hy : y = nsqrt N (nsub N (get m1 j j) d)) by reflexivity.
  assert (hp : forall p, p < n -> chol_pivot a (upd m1 j j y) p = chol_pivot a m1 p).
  { intros p hp. unfold chol_pivot. f_equal. apply sumn_ext. intros. rewrite !hg by lia. bd; reflexivity. }
  assert (hpv : chol_pivot a m1 j = nsub N (get m1 j j) d).
  { unfold chol_pivot. rewrite h5, (h3 j j), i5 by lia. reflexivity. }
  clearbody y. unfold chol_ex. dims. split; auto. split; auto. split; [|split].
  - intros p q hpj hq. unfold chol_off. rewrite !hg by lia.
    rewrite (sumn_ext q _ (fun i => nmul N (get m1 q i) (get m1 p i))).
    2:{ intros i hi. rewrite !hg by lia. bd; reflexivity. }
    bd; try (subst; apply h4; lia). rewrite !h3 by lia. rewrite i3 by lia. unfold chol_off.
    f_equal. f_equal. apply sumn_ext. intros. rewrite !h3 by lia. reflexivity.
  - intros p hpj. rewrite hp by lia. destruct (Nat.eq_dec p j) as [->|].
    + rewrite hpv, hle, hg by lia. bd. auto.
    + assert (e : chol_pivot a m1 p = chol_pivot a m p).
      { unfold chol_pivot. f_equal. apply sumn_ext. intros. rewrite !h3 by lia. reflexivity. }
      rewrite e, hg by lia. bd. rewrite h3 by lia. apply i4. lia.
  - intros p q hpn hq ho. rewrite hg by lia. bd; rewrite h3 by lia; apply i5; lia.
Qed.

Lemma chol_rows_exact (a : mtx) n cnt : forall j m m', j + cnt = n -> chol_ex a n j m ->
  chol_rows cnt j m = (m', Ret tt) -> chol_ex a n n m'.
Proof.
  induction cnt as [|c IH]; intros j m m' hj hi.
  - simpl. intros e. injection e as <-. rewrite Nat.add_0_r in hj. subst. auto.
  - cbn [chol_rows]. destruct (chol_row j m) as [m1 r] eqn:hr. destruct r as [[]| | | |]; try discriminate.
    intros e. apply (IH (S j) m1 m'); auto; [lia|]. eapply chol_row_exact; eauto. lia.
Qed.

Lemma cholesky_dirty_exact (a l : mtx) : cholesky_dirty a = Ret l ->
  nr a = nc a /\ chol_ex a (nr a) (nr a) l.
Proof.
  unfold cholesky_dirty, cholesky_inplace_dirty, check_square.
  destruct (Nat.eqb_spec (nr a) (nc a)) as [sq|]; [|discriminate].
  destruct (chol_rows (nr a) 0 a) as [m1 r] eqn:hr. destruct r as [[]| | | |]; try discriminate.
  cbn [bind]. intros e. injection e as <-. split; auto.
  apply (chol_rows_exact a (nr a) (nr a) 0 a); auto. repeat split; auto; intros; lia.
Qed.
End Generic.

(** ** Rounding errors *)
Local Open Scope R_scope.

Lemma sumn_valid m (f : nat -> FN) : (forall j, (j < m)%nat -> fvalid (f j)) -> fvalid (sumn m f).
Proof. induction m; intros h; simpl; [reflexivity|]. apply fvalid_add; auto. Qed.

Lemma dot_std (x y : nat -> FN) m :
  (forall j, (j < m)%nat -> fvalid (x j) /\ fvalid (y j)) ->
  ffin (sumn m (fun i => nmul FN (x i) (y i))) ->
  (forall j, (j < m)%nat -> ffin (x j) /\ ffin (y j)) /\
  exists D e, (forall j, (j < m)%nat -> near (S m) (D j)) /\
    Rabs e <= INR m * (1 + uro) ^ m * eta /\
    fr (sumn m (fun i => nmul FN (x i) (y i))) = Rsum m (fun j => fr (x j) * fr (y j) * D j) + e.
Proof.
  intros hv. induction m as [|m IH]; intros hf.
  - split; [intros; lia|]. exists (fun _ => 1), 0. split; [intros; lia|].
    split; [simpl; rewrite Rabs_R0; lra|]. simpl. change (0 = 0 + 0). lra.
  - cbn [sumn] in hf. destruct (hv m ltac:(lia)) as [vx vy].
    assert (vs : fvalid (sumn m (fun i => nmul FN (x i) (y i)))).
    { apply sumn_valid. intros j hj. destruct (hv j ltac:(lia)). apply fvalid_mul; auto. }
    destruct (add_std _ _ vs (fvalid_mul _ _ vx vy) hf) as (f1 & f2 & d & hd & e1).
    destruct (mul_std _ _ vx vy f2) as (f3 & f4 & d' & ep & hd' & hep & e2).
    destruct IH as (g1 & D & e & g3 & g5 & g6); auto.
    split. { intros j hj. destruct (Nat.eq_dec j m) as [->|]; auto. apply g1. lia. }
    exists (fun j => if Nat.eqb j m then (1 + d') * (1 + d) else D j * (1 + d)), ((e + ep) * (1 + d)).
    split; [|split].
    + intros j hj. destruct (Nat.eqb_spec j m) as [->|].
      * apply near_mono with (1 + 1)%nat; [lia|]. apply near_mul; now apply near_dlt.
      * replace (S (S m)) with (S m + 1)%nat by lia. apply near_mul; [|now apply near_dlt]. apply g3. lia.
    + rewrite Rabs_mult. pose proof (near_abs _ _ (near_dlt _ hd)) as hd1. rewrite pow_1 in hd1.
      pose proof (Rabs_triang e ep). pose proof (pow_u_ge1 m). pose proof eta_pos. pose proof (pos_INR m).
      assert (Rabs (e + ep) <= (INR m + 1) * (1 + uro) ^ m * eta) by nra.
      eapply Rle_trans; [apply Rmult_le_compat; [apply Rabs_pos|apply Rabs_pos|exact H3|exact hd1]|].
      rewrite S_INR. simpl pow. right. ring.
    + cbn [Rsum sumn]. rewrite Nat.eqb_refl.
      rewrite (Rsum_ext m _ (fun j => fr (x j) * fr (y j) * D j * (1 + d))).
      2:{ intros j hj. bd. ring. }
      rewrite Rsum_scal_r, e1, e2, g6. ring.
Qed.

(** one off-diagonal entry: (a - sum x_i y_i) / l *)
Lemma chol_off_std (x y : nat -> FN) m a l z :
  (forall j, (j < m)%nat -> fvalid (x j) /\ fvalid (y j)) -> fvalid a -> fvalid l -> ffin l ->
  z = ndiv FN (nsub FN a (sumn m (fun i => nmul FN (x i) (y i)))) l -> ffin z ->
  ffin a /\ fr l <> 0 /\
  Rabs (Rsum m (fun j => fr (x j) * fr (y j)) + fr l * fr z - fr a)
    <= gam (m + 2) * (Rsum m (fun j => Rabs (fr (x j)) * Rabs (fr (y j))) + Rabs (fr l) * Rabs (fr z))
       + (1 + uro) ^ (m + 2) * (INR m + Rabs (fr l)) * eta.
Proof.
  intros hv va vl fl -> hf.
  assert (vs : fvalid (sumn m (fun i => nmul FN (x i) (y i)))).
  { apply sumn_valid. intros j hj. destruct (hv j ltac:(lia)). apply fvalid_mul; auto. }
  destruct (div_std _ _ (fvalid_sub _ _ va vs) vl fl hf) as (f1 & f2 & d1 & ep & h1 & hep & e1).
  destruct (sub_std _ _ va vs f1) as (f3 & f4 & d2 & h2 & e2).
  destruct (dot_std x y m hv f4) as (f5 & D & e & g1 & g2 & g3).
  split; auto. split; auto. set (z := fr (ndiv FN _ l)) in *.
  set (C := / (1 + d1) * / (1 + d2)).
  assert (hC : near (1 + 1) C) by (apply near_mul; now apply near_inv).
  pose proof (dlt_pos _ h1). pose proof (dlt_pos _ h2).
  assert (ea : fr a = Rsum m (fun j => fr (x j) * fr (y j) * D j) + e + fr l * (z - ep) * C).
  { rewrite <- g3. unfold C. rewrite e1, e2. field. repeat split; lra. }
  replace (Rsum m (fun j => fr (x j) * fr (y j)) + fr l * z - fr a)
    with (Rsum m (fun j => fr (x j) * fr (y j) * (1 - D j)) + fr l * z * (1 - C) + (fr l * ep * C - e)).
  2:{ rewrite ea. rewrite (Rsum_ext m (fun j => fr (x j) * fr (y j) * (1 - D j))
        (fun j => fr (x j) * fr (y j) - fr (x j) * fr (y j) * D j)) by (intros; ring).
      rewrite Rsum_minus. ring. }
  eapply Rle_trans; [apply Rabs_triang|]. apply Rplus_le_compat.
  - eapply Rle_trans; [apply Rabs_triang|]. rewrite Rmult_plus_distr_l. apply Rplus_le_compat.
    + eapply Rle_trans; [apply Rsum_abs|]. rewrite <- Rsum_scal_l. apply Rsum_le. intros j hj.
      rewrite !Rabs_mult. rewrite (Rmult_comm (gam _)). 
      apply Rmult_le_compat_l; [apply Rmult_le_pos; apply Rabs_pos|].
      rewrite Rabs_minus_sym. apply (near_mono (S m)); [lia|]. auto.
    + rewrite !Rabs_mult. rewrite (Rmult_comm (gam _)).
      apply Rmult_le_compat_l; [apply Rmult_le_pos; apply Rabs_pos|].
      rewrite Rabs_minus_sym. apply (near_mono (1 + 1)); [lia|]. auto.
  - eapply Rle_trans; [apply Rabs_triang|]. rewrite Rabs_Ropp, !Rabs_mult.
    pose proof (near_abs _ _ (near_mono (1 + 1) (m + 2) _ ltac:(lia) hC)).
    pose proof (pow_u_mono m (m + 2) ltac:(lia)). pose proof eta_pos. pose proof (pos_INR m).
    pose proof (Rabs_pos (fr l)).
    assert (Rabs (fr l) * Rabs ep * Rabs C <= Rabs (fr l) * eta * (1 + uro) ^ (m + 2)).
    { apply Rmult_le_compat; auto; try apply Rabs_pos; [apply Rmult_le_pos; apply Rabs_pos|].
      apply Rmult_le_compat_l; auto. }
    assert (INR m * (1 + uro) ^ m * eta <= INR m * (1 + uro) ^ (m + 2) * eta).
    { rewrite !Rmult_assoc. apply Rmult_le_compat_l; auto. apply Rmult_le_compat_r; lra. }
    lra.
Qed.

(** one diagonal entry: sqrt (a - sum x_i^2) *)
Lemma chol_diag_std (x : nat -> FN) m a z :
  (forall j, (j < m)%nat -> fvalid (x j)) -> fvalid a ->
  z = nsqrt FN (nsub FN a (sumn m (fun i => nmul FN (x i) (x i)))) -> ffin z ->
  ffin a /\
  Rabs (Rsum m (fun j => fr (x j) * fr (x j)) + fr z * fr z - fr a)
    <= gam (m + 3) * (Rsum m (fun j => Rabs (fr (x j)) * Rabs (fr (x j))) + Rabs (fr z) * Rabs (fr z))
       + (1 + uro) ^ (m + 2) * INR m * eta.
Proof.
  intros hv va -> hf.
  assert (vs : fvalid (sumn m (fun i => nmul FN (x i) (x i)))).
  { apply sumn_valid. intros j hj. apply fvalid_mul; auto. }
  destruct (sqrt_rel _ (fvalid_sub _ _ va vs) hf) as (f1 & f2 & d1 & h1 & e1).
  destruct (sub_std _ _ va vs f1) as (f3 & f4 & d2 & h2 & e2).
  destruct (dot_std x x m ltac:(auto) f4) as (f5 & D & e & g1 & g2 & g3).
  split; auto. set (z := fr (nsqrt FN _)) in *.
  set (C := / (1 + d1) * / (1 + d1) * / (1 + d2)).
  assert (hC : near (1 + 1 + 1) C) by (repeat apply near_mul; now apply near_inv).
  pose proof (dlt_pos _ h1). pose proof (dlt_pos _ h2).
  assert (ez : z * z = fr (nsub FN a (sumn m (fun i => nmul FN (x i) (x i)))) * ((1 + d1) * (1 + d1))).
  { rewrite e1. set (s := sqrt _). rewrite <- (sqrt_sqrt _ f2). fold s. ring. }
  assert (ea : fr a = Rsum m (fun j => fr (x j) * fr (x j) * D j) + e + z * z * C).
  { rewrite <- g3, ez, e2. unfold C. field. split; lra. }
  replace (Rsum m (fun j => fr (x j) * fr (x j)) + z * z - fr a)
    with (Rsum m (fun j => fr (x j) * fr (x j) * (1 - D j)) + z * z * (1 - C) + (- e)).
  2:{ rewrite ea. rewrite (Rsum_ext m (fun j => fr (x j) * fr (x j) * (1 - D j))
        (fun j => fr (x j) * fr (x j) - fr (x j) * fr (x j) * D j)) by (intros; ring).
      rewrite Rsum_minus. ring. }
  eapply Rle_trans; [apply Rabs_triang|]. apply Rplus_le_compat.
  - eapply Rle_trans; [apply Rabs_triang|]. rewrite Rmult_plus_distr_l. apply Rplus_le_compat.
    + eapply Rle_trans; [apply Rsum_abs|]. rewrite <- Rsum_scal_l. apply Rsum_le. intros j hj.
      rewrite !Rabs_mult. rewrite (Rmult_comm (gam _)). 
      apply Rmult_le_compat_l; [apply Rmult_le_pos; apply Rabs_pos|].
      rewrite Rabs_minus_sym. apply (near_mono (S m)); [lia|]. auto.
    + rewrite !Rabs_mult. rewrite (Rmult_comm (gam _)).
      apply Rmult_le_compat_l; [apply Rmult_le_pos; apply Rabs_pos|].
      rewrite Rabs_minus_sym. apply (near_mono (1 + 1 + 1)); [lia|]. auto.
  - rewrite Rabs_Ropp. eapply Rle_trans; [exact g2|].
    pose proof (pow_u_mono m (m + 2) ltac:(lia)). pose proof eta_pos. pose proof (pos_INR m).
    rewrite (Rmult_comm ((1 + uro) ^ _)). apply Rmult_le_compat_r; [lra|]. apply Rmult_le_compat_l; auto.
Qed.

(** ** The whole factorisation *)
Lemma chol_valid (a l : mat FN) : nr a = nc a -> mvalid a -> chol_ex a (nr a) (nr a) l ->
  mvalid l.
Proof.
  intros sq va (h1 & h2 & h3 & h4 & h5).
  assert (hl : forall s p q, (p < s)%nat -> (q <= p)%nat -> (p < nr a)%nat -> fvalid (get l p q)).
  { induction s as [|s IH]; intros p q hp hq hn; [lia|].
    revert q hq. apply (well_founded_induction Wf_nat.lt_wf (fun q => (q <= p)%nat -> fvalid (get l p q))).
    intros q IHq hq. destruct (Nat.eq_dec q p) as [->|ne].
    - destruct (h4 p hn) as [_ ->]. apply fvalid_sqrt. apply fvalid_sub; [apply va; lia|].
      apply sumn_valid. intros j hj. apply fvalid_mul; apply IHq; lia.
    - rewrite h3 by lia. apply fvalid_div; [|apply IH; lia]. apply fvalid_sub; [apply va; lia|].
      apply sumn_valid. intros j hj. apply fvalid_mul; [apply IH; lia|apply IHq; lia]. }
  intros i j hi hj. destruct (Nat.le_gt_cases j i).
  - apply (hl (S i)); lia.
  - rewrite h5 by lia. apply va; lia.
Qed.

Lemma fr_pos_of_pivot (r : FN) : ffin r -> 0 <= fr r -> nle FN r (n0 FN) = false -> 0 < fr r.
Proof.
  destruct r as [s|s| |s m e]; try discriminate.
  intros _ h0 _. destruct s.
  - exfalso. revert h0. apply Rlt_not_le. apply Flocq.Core.Float_prop.F2R_lt_0. reflexivity.
  - apply Flocq.Core.Float_prop.F2R_gt_0. reflexivity.
Qed.

(** the smallest of two indices: column of the pivot used for entry (i, j) *)
Lemma cholesky_dirty_backward (a l : mat FN) :
  mvalid a -> cholesky_dirty a = Ret l ->
  (forall i j, (j <= i < nr a)%nat -> ffin (get l i j)) ->
  let n := nr a in let L := tri_of Lower (frm l) in
  nr a = nc a /\ nr l = n /\ nc l = n /\ mvalid l /\
  (forall i, (i < n)%nat -> 0 < L i i) /\
  (forall i j, (j <= i < n)%nat -> ffin (get a i j)) /\
  forall i j, (j <= i < n)%nat ->
    Rabs (Rsum (S j) (fun k => L i k * L j k) - frm a i j)
    <= gam (n + 2) * Rsum (S j) (fun k => Rabs (L i k) * Rabs (L j k))
       + (1 + uro) ^ (n + 2) * (INR n + Rabs (L j j)) * eta.
Proof.
  intros va hc hf n L. destruct (cholesky_dirty_exact a l hc) as [sq hex].
  pose proof (chol_valid a l sq va hex) as vl. destruct hex as (h1 & h2 & h3 & h4 & h5).
  fold n in h1, h2, h3, h4, h5, hf.
  assert (hL : forall i j, (j <= i)%nat -> L i j = fr (get l i j)).
  { intros i j hij. unfold L, tri_of, frm. bd. reflexivity. }
  assert (vlt : forall i j, (i < n)%nat -> (j < n)%nat -> fvalid (get l i j)) by (intros; apply vl; lia).
  assert (vat : forall i j, (i < n)%nat -> (j < n)%nat -> fvalid (get a i j)) by (intros; apply va; unfold n in *; lia).
  assert (hpos : forall i, (i < n)%nat -> 0 < L i i).
  { intros i hi. rewrite hL by lia. destruct (h4 i hi) as [e1 e2].
    assert (vp : fvalid (chol_pivot a l i)).
    { apply fvalid_sub; auto. apply sumn_valid. intros. apply fvalid_mul; apply vlt; lia. }
    pose proof (hf i i ltac:(lia)) as hfi. rewrite e2 in hfi |- *.
    destruct (sqrt_rel _ vp hfi) as (f1 & f2 & d & hd & ->).
    apply Rmult_lt_0_compat; [|now apply dlt_pos]. apply sqrt_lt_R0. apply fr_pos_of_pivot; auto. }
  assert (habs : forall m i j, (m <= i)%nat -> (m <= j)%nat ->
     Rsum m (fun k => L i k * L j k) = Rsum m (fun k => fr (get l j k) * fr (get l i k)) /\
     Rsum m (fun k => Rabs (L i k) * Rabs (L j k)) = Rsum m (fun k => Rabs (fr (get l j k)) * Rabs (fr (get l i k)))).
  { intros m i j hi hj. split; apply Rsum_ext; intros; rewrite !hL by lia; ring. }
  assert (hent : forall i j, (j <= i < n)%nat -> ffin (get a i j) /\
    Rabs (Rsum (S j) (fun k => L i k * L j k) - frm a i j)
    <= gam (n + 2) * Rsum (S j) (fun k => Rabs (L i k) * Rabs (L j k))
       + (1 + uro) ^ (n + 2) * (INR n + Rabs (L j j)) * eta).
  { intros i j hij. cbn [Rsum]. destruct (habs j i j ltac:(lia) ltac:(lia)) as [-> ->].
    pose proof eta_pos. pose proof (Rabs_pos (L j j)). pose proof (pow_u_ge1 (n + 2)).
    assert (hnn : 0 <= Rsum j (fun k => Rabs (fr (get l j k)) * Rabs (fr (get l i k)))).
    { apply Rsum_nonneg. intros. apply Rmult_le_pos; apply Rabs_pos. }
    assert (hn2 : 0 <= Rabs (L i j) * Rabs (L j j)) by (apply Rmult_le_pos; apply Rabs_pos).
    destruct (Nat.eq_dec i j) as [->|ne].
    - destruct (h4 j ltac:(lia)) as [_ e2].
      destruct (chol_diag_std (fun k => get l j k) j (get a j j) (get l j j)) as (g1 & g2); auto.
      + intros. apply vlt; lia.
      + apply vat; lia.
      + split; auto. rewrite hL by lia. eapply Rle_trans; [exact g2|].
        apply Rplus_le_compat.
        * apply Rmult_le_compat_r; [rewrite <- hL in * by lia; lra|]. apply gam_mono. lia.
        * apply Rmult_le_compat_r; [lra|]. pose proof (pos_INR j). pose proof (le_INR j n ltac:(lia)).
          pose proof (Rabs_pos (fr (get l j j))).
          apply Rmult_le_compat; try lra; [pose proof (pow_u_ge1 (j + 2)); lra|apply pow_u_mono; lia].
    - destruct (chol_off_std (fun k => get l j k) (fun k => get l i k) j (get a i j) (get l j j) (get l i j))
        as (g1 & g2 & g3); auto.
      + intros. split; apply vlt; lia.
      + apply vat; lia.
      + apply vlt; lia.
      + apply hf. lia.
      + apply h3; lia.
      + split; auto. rewrite !hL in * by lia. rewrite (Rmult_comm (fr (get l i j))), (Rmult_comm (Rabs (fr (get l i j)))).
        eapply Rle_trans; [exact g3|].
        apply Rplus_le_compat.
        * apply Rmult_le_compat_r; [lra|]. apply gam_mono. lia.
        * apply Rmult_le_compat_r; [lra|]. pose proof (pos_INR j). pose proof (le_INR j n ltac:(lia)).
          apply Rmult_le_compat; try lra; [pose proof (pow_u_ge1 (j + 2)); lra|apply pow_u_mono; lia]. }
  split; auto. split; auto. split; auto. split; auto. split; auto.
  split; intros i j hij; apply (hent i j hij).
Qed.

(** underflow contribution to entry (i, j) of the factorisation error *)
Definition chol_uf (n : nat) (L : M) (i j : nat) : R :=
  (1 + uro) ^ (n + 2) * (INR n + Rabs (L (Nat.min i j) (Nat.min i j))) * eta.

Lemma chol_gram_backward (a l : mat FN) :
  mvalid a -> cholesky_dirty a = Ret l ->
  (forall i j, (j <= i < nr a)%nat -> ffin (get l i j)) ->
  let n := nr a in let L := tri_of Lower (frm l) in
  forall i j, (i < n)%nat -> (j < n)%nat ->
    Rabs (mmul n L (mtr L) i j - sym_of_lower (frm a) i j)
    <= gam (n + 2) * mmul n (mabs L) (mtr (mabs L)) i j + chol_uf n L i j.
Proof.
  intros va hc hf n L i j hi hj.
  destruct (cholesky_dirty_backward a l va hc hf) as (sq & h1 & h2 & vl & hpos & hfa & hb).
  fold n in h1, h2, hpos, hfa, hb. fold L in hpos, hb.
  assert (hl : lower_tri n n L) by (intros p q hp hq hpq; unfold L, tri_of; bd; auto).
  assert (hl' : lower_tri n n (mabs L)).
  { intros p q hp hq hpq. unfold mabs. rewrite hl by auto. apply Rabs_R0. }
  rewrite !lower_gram by auto. unfold sym_of_lower, chol_uf. destruct (Nat.leb_spec j i).
  - rewrite Nat.min_r by lia. apply hb. lia.
  - rewrite Nat.min_l by lia. specialize (hb j i ltac:(lia)).
    rewrite (Rsum_ext (S i) (fun k => L i k * L j k) (fun k => L j k * L i k)) by (intros; ring).
    rewrite (Rsum_ext (S i) (fun k => mabs L i k * mabs L j k) (fun k => Rabs (L j k) * Rabs (L i k)))
      by (intros; unfold mabs; ring).
    exact hb.
Qed.

Lemma cholesky_backward (a l : mat FN) :
  mvalid a -> cholesky a = Ret l -> (forall i j, (j <= i < nr a)%nat -> ffin (get l i j)) ->
  let n := nr a in let L := frm l in
  nr a = nc a /\ nr l = n /\ nc l = n /\ mvalid l /\
  lower_tri n n L /\ (forall i, (i < n)%nat -> 0 < L i i) /\
  (forall i j, (j <= i < n)%nat -> ffin (get a i j)) /\
  forall i j, (i < n)%nat -> (j < n)%nat ->
    Rabs (mmul n L (mtr L) i j - sym_of_lower (frm a) i j)
    <= gam (n + 2) * mmul n (mabs L) (mtr (mabs L)) i j + chol_uf n L i j.
Proof.
  intros va hc hf n L. unfold cholesky in hc. apply bind_ret in hc. destruct hc as (l0 & hc & ht).
  destruct (cholesky_dirty_exact a l0 hc) as [sq (d1 & d2 & _)].
  destruct (wp_ret _ _ (triangular_inplace_ok l0 Lower ltac:(lia))) as (l' & e' & g1 & g2 & g3 & g4).
  rewrite ht in e'. injection e' as <-.
  assert (hlow : forall i j, (j <= i < n)%nat -> get l i j = get l0 i j).
  { intros i j hij. apply g4; unfold n in *; simpl; lia. }
  assert (hf0 : forall i j, (j <= i < nr a)%nat -> ffin (get l0 i j)).
  { intros i j hij. rewrite <- hlow by (unfold n; lia). auto. }
  assert (hLeq : forall i j, (i < n)%nat -> (j < n)%nat -> L i j = tri_of Lower (frm l0) i j).
  { intros i j hi hj. unfold L, tri_of, frm. bd; [|rewrite hlow by lia; reflexivity].
    rewrite g3 by (simpl; unfold n in *; lia). reflexivity. }
  destruct (cholesky_dirty_backward a l0 va hc hf0) as (_ & _ & _ & vl & hpos & hfa & _).
  fold n in hpos, hfa.
  split; auto. split; [unfold n; lia|]. split; [unfold n; lia|].
  split. { intros i j hi hj. destruct (Nat.le_gt_cases j i).
           - rewrite hlow by (unfold n; lia). apply vl; lia.
           - rewrite g3 by (simpl; lia). apply fvalid_0. }
  split. { intros i j hi hj hij. rewrite hLeq by auto. unfold tri_of. bd. auto. }
  split. { intros i hi. rewrite hLeq by auto. auto. }
  split; auto.
  intros i j hi hj. pose proof (chol_gram_backward a l0 va hc hf0 i j hi hj) as hb. fold n in hb.
  assert (e1 : mmul n L (mtr L) i j = mmul n (tri_of Lower (frm l0)) (mtr (tri_of Lower (frm l0))) i j).
  { apply Rsum_ext. intros. unfold mtr. rewrite !hLeq by auto. reflexivity. }
  assert (e2 : mmul n (mabs L) (mtr (mabs L)) i j = mmul n (mabs (tri_of Lower (frm l0))) (mtr (mabs (tri_of Lower (frm l0)))) i j).
  { apply Rsum_ext. intros. unfold mtr, mabs. rewrite !hLeq by auto. reflexivity. }
  rewrite e1, e2. unfold chol_uf in *. rewrite hLeq by lia. exact hb.
Qed.

(** ** Solving with the factor *)
Lemma mvalid_transpose (m : mat FN) : mvalid m -> mvalid (transpose m).
Proof. intros h i j hi hj. rewrite nr_transpose, nc_transpose in *. rewrite get_transpose by auto. auto. Qed.

Lemma solvec_backward (a b x : mat FN) k :
  mvalid a -> mvalid b -> (forall i, (i < nr a)%nat -> ffin (get a i i)) ->
  solvec a b = Ret x -> (k < nc b)%nat ->
  (forall i, (i < nr a)%nat -> ffin (get x i k)) ->
  let n := nr a in
  nr a = nc a /\ nr b = n /\
  exists l, cholesky_dirty a = Ret l /\ let L := tri_of Lower (frm l) in
  (forall i, (i < n)%nat -> 0 < L i i) /\
  (forall i, (i < n)%nat -> ffin (get b i k)) /\
  (forall i j, (j <= i < n)%nat -> ffin (get l i j) /\ ffin (get a i j)) /\
  exists dA db,
    (forall i j, (i < n)%nat -> (j < n)%nat ->
       Rabs (dA i j) <= gam (3 * n + 2) * mmul n (mabs L) (mtr (mabs L)) i j + chol_uf n L i j) /\
    (forall i, (i < n)%nat -> Rabs (db i) <=
       (1 + uro) ^ (2 * n) * (INR n + L i i + Rsum n (fun j => Rabs (L i j) * (INR n + L j j))) * eta) /\
    (forall i, (i < n)%nat ->
       Rsum n (fun j => madd (sym_of_lower (frm a)) dA i j * frm x j k) = frm b i k + db i).
Proof.
  intros va vb hfa hs hk hfx n.
  unfold solvec in hs. apply bind_ret in hs. destruct hs as (l & hc & hs).
  apply bind_ret in hs. destruct hs as (y & hy & hx).
  destruct (cholesky_dirty_exact a l hc) as [sq hex]. pose proof (chol_valid a l sq va hex) as vl.
  pose proof hex as (d1 & d2 & c3 & c4 & c5). fold n in d1, d2, c3, c4, c5, hfa, hfx.
  assert (hcl := solve_triangular_class l b Lower). rewrite hy in hcl. destruct hcl as (_ & y1 & y2 & y3).
  assert (hcl := solve_triangular_class (transpose l) y Upper). rewrite hx in hcl.
  destruct hcl as (_ & x1 & x2 & x3). dims.
  (* the exact recurrences *)
  assert (dg : forall i, (i < nr l)%nat -> at2 l i i = Ret (get l i i)) by (intros; unfold at2; bd; reflexivity).
  assert (dgt : forall i, (i < nr (transpose l))%nat -> at2 (transpose l) i i = Ret (get l i i)).
  { intros i hi. unfold at2. dims. bd. cbn [andb]. rewrite get_transpose by lia. reflexivity. }
  pose proof (post_inv _ _ _ _ _ (solve_system_exact l b Lower (fun i => at2 l i i) (fun i => get l i i)
      ltac:(lia) ltac:(lia) dg) hy) as (_ & _ & hye).
  pose proof (post_inv _ _ _ _ _ (solve_system_exact (transpose l) y Upper (fun i => at2 (transpose l) i i)
      (fun i => get l i i) ltac:(dims; lia) ltac:(dims; lia) dgt) hx) as (_ & _ & hxe).
  dims.
  assert (vy : mvalid y).
  { apply (solution_valid l b y Lower (fun i => get l i i)); auto; try lia. intros; apply vl; lia. }
  (* the diagonal of the factor is finite *)
  assert (hfd : forall i, (i < n)%nat -> ffin (get l i i)).
  { intros i hi. destruct (c4 i hi) as [e1 e2].
    set (s := sumn i (fun k => nmul FN (get l i k) (get l i k))).
    assert (vs : fvalid s) by (apply sumn_valid; intros; apply fvalid_mul; apply vl; lia).
    assert (hs : nneg s).
    { unfold s. clear - vl d1 d2 hi. assert (h : forall m, (m <= i)%nat -> nneg (sumn (N:=FN) m (fun k => nmul FN (get l i k) (get l i k)))).
      { induction m as [|m IH]; intros hm; cbn [sumn]; [apply nneg_0|].
        apply nneg_add; [apply sumn_valid; intros; apply fvalid_mul; apply vl; lia|apply fvalid_mul; apply vl; lia|apply IH; lia|].
        apply nneg_mul. apply vl; lia. }
      apply h. lia. }
    assert (vaii : fvalid (get a i i)) by (apply va; unfold n in *; lia).
    destruct (sub_nneg (get a i i) s vaii vs (hfa i hi) hs) as [h|[h|h]];
      change (nsub FN (get a i i) s) with (chol_pivot a l i) in h.
    - rewrite e2. destruct (chol_pivot a l i) as [sg|sg| |sg m e] eqn:ep; try discriminate.
      destruct sg.
      + exfalso. revert e1. unfold nle, FN, SFleb, SFcompare. simpl. discriminate.
      + assert (vp : fvalid (chol_pivot a l i)) by (apply fvalid_sub; auto).
        rewrite ep in vp. apply fvalid_B2SF in vp. destruct vp as [bb eb]. rewrite eb.
        unfold nsqrt, FN. rewrite sqrt_equiv, ffin_B2SF.
        destruct (Bsqrt_correct prec emax Hprec Hemax mode_NE bb) as (_ & -> & _).
        destruct bb as [| | |[]]; try discriminate; reflexivity.
    - exfalso. pose proof (hfx i hi) as hxi. rewrite hxe in hxi by lia.
      rewrite e2, h in hxi. revert hxi. change (nsqrt FN S754_nan) with S754_nan.
      unfold ndiv, FN. destruct (row_val _ _ _ _ _ _ _); discriminate.
    - rewrite h in e1. discriminate. }
  destruct (system_backward (transpose l) y x Upper (fun i => at2 (transpose l) i i) (fun i => get l i i) k)
    as (vx & b1 & b2 & D2 & e2 & b3 & b4 & b5); dims; auto; try lia.
  { apply mvalid_transpose; auto. }
  { intros i hi. split; [apply vl; lia|apply hfd; lia]. }
  { intros i hi. apply hfx. lia. }
  rewrite d2 in b1, b2, b3, b4, b5.
  destruct (system_backward l b y Lower (fun i => at2 l i i) (fun i => get l i i) k)
    as (_ & p1 & p2 & D1 & e1 & p3 & p4 & p5); auto; try lia.
  { intros i hi. split; [apply vl; lia|apply hfd; lia]. }
  { intros i hi. apply b1. lia. }
  rewrite d1 in p1, p2, p3, p4, p5.
  assert (hfl : forall i j, (j <= i < n)%nat -> ffin (get l i j)).
  { intros i j hij. destruct (Nat.eq_dec i j) as [->|]; [apply hfd; lia|]. apply p2; simpl; lia. }
  destruct (cholesky_dirty_backward a l va hc hfl) as (_ & _ & _ & _ & hpos & hfa' & _).
  pose proof (chol_gram_backward a l va hc hfl) as hgram. cbv zeta in hgram. fold n in hpos, hfa', hgram.
  split; auto. split; [lia|]. exists l. split; auto. set (L := tri_of Lower (frm l)) in *.
  cbv zeta. split; auto. split; [intros; apply p1; auto|]. split; [intros; split; auto|].
  assert (T1 : tri_part Lower (fun i => fr (get l i i)) (frm l) =[n, n]= L).
  { intros i j hi hj. symmetry. apply (tri_of_part n Lower (frm l)); auto. }
  assert (T2 : tri_part Upper (fun i => fr (get l i i)) (frm (transpose l)) =[n, n]= mtr L).
  { intros i j hi hj. unfold tri_part, mtr, L, tri_of, frm. bd; subst; auto.
    rewrite get_transpose by lia. reflexivity. }
  assert (hlow : lower_tri n n L) by (intros p q hp hq hpq; unfold L, tri_of; bd; auto).
  set (G := fun i c => Rsum n (fun j => L i j * D1 i j * (L c j * D2 j c))).
  exists (fun i c => G i c - sym_of_lower (frm a) i c),
    (fun i => e1 i + Rsum n (fun j => L i j * D1 i j * e2 j)).
  split; [|split].
  - intros i j hi hj.
    replace (G i j - sym_of_lower (frm a) i j)
      with ((G i j - mmul n L (mtr L) i j) + (mmul n L (mtr L) i j - sym_of_lower (frm a) i j)) by ring.
    eapply Rle_trans; [apply Rabs_triang|].
    assert (hG : Rabs (G i j - mmul n L (mtr L) i j) <= gam (n + n) * mmul n (mabs L) (mtr (mabs L)) i j).
    { unfold G, mmul, mtr. rewrite <- Rsum_minus, <- Rsum_scal_l. eapply Rle_trans; [apply Rsum_abs|].
      apply Rsum_le. intros q hq.
      replace (L i q * D1 i q * (L j q * D2 q j) - L i q * L j q)
        with (L i q * L j q * (D1 i q * D2 q j - 1)) by ring.
      rewrite !Rabs_mult, Rmult_comm. unfold mabs. apply Rmult_le_compat_r; [apply Rmult_le_pos; apply Rabs_pos|].
      apply near_mul; auto. }
    pose proof (hgram i j hi hj) as hg.
    assert (hnn : 0 <= mmul n (mabs L) (mtr (mabs L)) i j).
    { apply Rsum_nonneg. intros. apply Rmult_le_pos; apply Rabs_pos. }
    pose proof (gam_add (n + n) (n + 2)) as ga. pose proof (gam_nonneg (n + n)). pose proof (gam_nonneg (n + 2)).
    replace (n + n + (n + 2))%nat with (3 * n + 2)%nat in ga by lia.
    assert (0 <= gam (n + n) * gam (n + 2)) by (apply Rmult_le_pos; auto).
    rewrite <- ga. nra.
  - intros i hi. eapply Rle_trans; [apply Rabs_triang|].
    pose proof eta_pos. pose proof (pow_u_mono n (2 * n) ltac:(lia)) as hp. pose proof (pos_INR n).
    pose proof (pow_u_ge1 n). pose proof (pow_u_ge1 (2 * n)).
    assert (hLd : forall j, (j < n)%nat -> Rabs (fr (get l j j)) = L j j).
    { intros j hj. rewrite Rabs_pos_eq; [|pose proof (hpos j hj) as hq; revert hq; unfold L, tri_of, frm; bd; lra].
      unfold L, tri_of, frm. bd. reflexivity. }
    assert (h1 : Rabs (e1 i) <= (1 + uro) ^ (2 * n) * (INR n + L i i) * eta).
    { eapply Rle_trans; [apply p4; auto|]. rewrite hLd by auto. apply Rmult_le_compat_r; [lra|].
      pose proof (hpos i hi). apply Rmult_le_compat_r; lra. }
    assert (h2 : Rabs (Rsum n (fun j => L i j * D1 i j * e2 j)) <=
       (1 + uro) ^ (2 * n) * Rsum n (fun j => Rabs (L i j) * (INR n + L j j)) * eta).
    { eapply Rle_trans; [apply Rsum_abs|]. rewrite Rmult_assoc, <- Rsum_scal_r, <- Rsum_scal_l.
      apply Rsum_le. intros j hj. rewrite !Rabs_mult.
      pose proof (near_abs _ _ (p3 i j hi hj)). pose proof (b4 j ltac:(lia)) as hb4. rewrite hLd in hb4 by auto.
      pose proof (hpos j hj). pose proof (Rabs_pos (L i j)).
      replace ((1 + uro) ^ (2 * n) * (Rabs (L i j) * (INR n + L j j) * eta))
        with (Rabs (L i j) * (1 + uro) ^ n * ((1 + uro) ^ n * (INR n + L j j) * eta)).
      2:{ replace (2 * n)%nat with (n + n)%nat by lia. rewrite pow_add. ring. }
      apply Rmult_le_compat; auto; try apply Rabs_pos; [apply Rmult_le_pos; apply Rabs_pos|].
      apply Rmult_le_compat_l; auto. }
    rewrite Rmult_plus_distr_l, Rmult_plus_distr_r. lra.
  - intros i hi. 
    rewrite (Rsum_ext n _ (fun c => Rsum n (fun j => L i j * D1 i j * (L c j * D2 j c) * frm x c k))).
    2:{ intros c hcn. unfold madd, G. rewrite Rsum_scal_r. ring. }
    rewrite Rsum_swap.
    rewrite (Rsum_ext n _ (fun j => L i j * D1 i j * (frm y j k + e2 j))).
    2:{ intros j hj. rewrite <- b5 by lia. rewrite <- Rsum_scal_l. apply Rsum_ext. intros c hcn.
        rewrite (T2 j c) by auto. unfold mtr. ring. }
    rewrite (Rsum_ext n _ (fun j => L i j * D1 i j * frm y j k + L i j * D1 i j * e2 j)) by (intros; ring).
    rewrite Rsum_plus. rewrite <- Rplus_assoc. f_equal.
    rewrite <- p5 by auto. apply Rsum_ext. intros j hj. rewrite (T1 i j) by auto. ring.
Qed.
