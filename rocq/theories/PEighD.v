(** * The eigenvalues computed in exact arithmetic are Rayleigh quotients of an orthonormal basis:
    deflation drops off-diagonal entries only *)
From Coq Require Import Reals List Arith Lia Lra Bool.
From Verif Require Import Scalar Arr MBase MDirect MDecomp MEigh Inst Hoare Spec RLin PTri PHouse PTrid PGivens PEigh PEighR.
Import ListNotations.
Local Open Scope R_scope.

(** Conjugation by a matrix that acts inside a block *)
Lemma block_conj n a b G X Y : (b < n)%nat -> local n a b G ->
  (forall i j, (a <= i <= b)%nat -> (a <= j <= b)%nat -> X i j = Y i j) ->
  forall i j, (a <= i <= b)%nat -> (a <= j <= b)%nat ->
    mmul n G (mmul n X (mtr G)) i j = mmul n G (mmul n Y (mtr G)) i j.
Proof.
  intros hb hG hXY i j hi hj. unfold mmul, mtr. apply Rsum_ext. intros k hk.
  destruct (le_lt_dec a k) as [k1|k1]; [destruct (le_lt_dec k b) as [k2|k2]|].
  - f_equal. apply Rsum_ext. intros l hl. destruct (le_lt_dec a l) as [l1|l1]; [destruct (le_lt_dec l b) as [l2|l2]|].
    + rewrite hXY by lia. reflexivity.
    + rewrite (hG j l) by lia. unfold mid. bd; subst; try lia. ring.
    + rewrite (hG j l) by lia. unfold mid. bd; subst; try lia. ring.
  - rewrite (hG i k) by lia. unfold mid. bd; subst; try lia. ring.
  - rewrite (hG i k) by lia. unfold mid. bd; subst; try lia. ring.
Qed.
Lemma outside_conj n a b G X : (b < n)%nat -> local n a b G ->
  forall i j, (i < n)%nat -> (j < n)%nat -> ~ (a <= i <= b)%nat -> ~ (a <= j <= b)%nat ->
    mmul n G (mmul n X (mtr G)) i j = X i j.
Proof.
  intros hb hG i j hi hj oi oj. unfold mmul, mtr. rewrite (Rsum_single n i); auto.
  - rewrite hG by (auto; lia). rewrite (Rsum_single n j); auto.
    + rewrite hG by (auto; lia). unfold mid. rewrite !Nat.eqb_refl. ring.
    + intros k hk hne. rewrite (hG j k) by (auto; lia). unfold mid. bd; subst; try lia. ring.
  - intros k hk hne. rewrite (hG i k) by (auto; lia). unfold mid. bd; subst; try lia. ring.
Qed.

(** B = P A P^T has the current diagonal, and on every run of nonzero off-diagonal entries up to [e] it is
    the current tridiagonal matrix *)
Record DI (n : nat) (A P : M) (d o : nat -> R) (e : nat) : Prop := {
  di_P : orthogonal n P;
  di_diag : forall i, (i < n)%nat -> mmul n P (mmul n A (mtr P)) i i = d i;
  di_band : forall i j, (i < j)%nat -> (j <= e)%nat -> (forall k, (i <= k < j)%nat -> o k <> 0) ->
    mmul n P (mmul n A (mtr P)) i j = if Nat.eqb j (i + 1) then o i else 0
}.
Definition DLI (n : nat) (A : M) (s e : nat) (es : eig_state RN) : Prop :=
  exists P Q, es_shape n es /\ es_q es = Some Q /\ (s <= e < n)%nat /\
    DI n A P (vent (es_diag es)) (vent (es_off es)) e /\
    (forall j, (s <= j < e)%nat -> vent (es_off es) j <> 0) /\
    ((0 < s)%nat -> (s < e)%nat -> vent (es_off es) (s - 1) = 0).
Definition DMI (n : nat) (A : M) (e : nat) (es : eig_state RN) : Prop :=
  exists P Q, es_shape n es /\ es_q es = Some Q /\ (e < n)%nat /\ DI n A P (vent (es_diag es)) (vent (es_off es)) e.

Lemma conj_sym n P A : symmetric n A -> symmetric n (mmul n P (mmul n A (mtr P))).
Proof.
  intros hs i j hi hj. unfold mtr at 2. unfold mmul, mtr.
  rewrite (Rsum_ext n _ (fun k => Rsum n (fun l => P i k * A k l * P j l))) by (intros; rewrite <- Rsum_scal_l; apply Rsum_ext; intros; ring).
  rewrite Rsum_swap. apply Rsum_ext. intros k hk. rewrite <- Rsum_scal_l. apply Rsum_ext. intros l hl.
  rewrite (hs l k) by auto. unfold mtr. ring.
Qed.

(** The block [s..e] of B is the tridiagonal matrix the sweep works on *)
Lemma di_block n A P d o s e : symmetric n A -> (e < n)%nat -> DI n A P d o e -> (forall j, (s <= j < e)%nat -> o j <> 0) ->
  forall i j, (s <= i <= e)%nat -> (s <= j <= e)%nat ->
    mmul n P (mmul n A (mtr P)) i j = tridiag d (fun k => if Nat.ltb k e then o k else 0) i j.
Proof.
  intros hs he [h1 h2 h3] hnz i j hi hj. unfold tridiag.
  destruct (Nat.lt_trichotomy i j) as [hl|[->|hl]].
  - rewrite h3 by (auto; try lia; intros; apply hnz; lia). bd; subst; try lia; auto.
  - rewrite h2 by lia. bd; auto; lia.
  - rewrite (conj_sym n P A hs i j) by lia. unfold mtr at 1. rewrite h3 by (auto; try lia; intros; apply hnz; lia). bd; subst; try lia; auto.
Qed.

(** A similarity inside the block [s..e] that makes the block tridiagonal again *)
Lemma di_conj n A P d o d' o' s e e' G : symmetric n A -> (e < n)%nat -> (e' <= e)%nat -> DI n A P d o e -> (forall j, (s <= j < e)%nat -> o j <> 0) ->
  ((0 < s)%nat -> o' (s - 1)%nat = 0) -> orthogonal n G -> local n s e G ->
  let T := tridiag d (fun k => if Nat.ltb k e then o k else 0) in
  (forall i, (i < n)%nat -> mmul n G (mmul n T (mtr G)) i i = d' i) ->
  (forall i j, (s <= i)%nat -> (i < j)%nat -> (j <= e')%nat -> (forall k, (i <= k < j)%nat -> o' k <> 0) ->
     mmul n G (mmul n T (mtr G)) i j = if Nat.eqb j (i + 1) then o' i else 0) ->
  (forall j, (j < s)%nat -> o' j = o j) ->
  DI n A (mmul n G P) d' o' e'.
Proof.
  intros hs he hee hdi hnz h0 hG hl T hT1 hT2 ho. pose proof (di_block n A P d o s e hs he hdi hnz) as hb.
  assert (hc : mmul n (mmul n G P) (mmul n A (mtr (mmul n G P))) =[n, n]= mmul n G (mmul n (mmul n P (mmul n A (mtr P))) (mtr G)))
    by (symmetry; apply conj_comp).
  destruct hdi as [h1 h2 h3]. constructor.
  - apply orthogonal_mul; auto.
  - intros i hi. rewrite hc by auto. destruct (le_lt_dec s i) as [i1|i1]; [destruct (le_lt_dec i e) as [i2|i2]|].
    + rewrite (block_conj n s e G _ T he hl hb) by lia. auto.
    + rewrite (outside_conj n s e) by (auto; lia). rewrite h2 by auto. rewrite <- hT1 by auto.
      rewrite (outside_conj n s e) by (auto; lia). unfold T, tridiag. bd. auto.
    + rewrite (outside_conj n s e) by (auto; lia). rewrite h2 by auto. rewrite <- hT1 by auto.
      rewrite (outside_conj n s e) by (auto; lia). unfold T, tridiag. bd. auto.
  - intros i j hij hje hk. rewrite hc by lia. destruct (le_lt_dec s i) as [i1|i1].
    + rewrite (block_conj n s e G _ T he hl hb) by lia. apply hT2; auto.
    + destruct (le_lt_dec s j) as [j1|j1].
      * exfalso. apply (hk (s - 1)%nat); [lia|]. apply h0. lia.
      * rewrite (outside_conj n s e) by (auto; lia). rewrite h3 by (auto; try lia; intros k hk'; rewrite <- ho by lia; apply hk; auto).
        rewrite ho by lia. reflexivity.
Qed.

Lemma delimit_diag n A eps e es : 0 <= eps -> DMI n A e es ->
  wp (delimit_subproblem (N:=RN) (es_diag es) (es_off es) e eps)
     (fun r => DLI n A (fst (fst r)) (snd (fst r)) (ES (es_diag es) (snd r) (es_q es))).
Proof.
  intros he (P & Q & hsh & hq & hen & [h1 h2 h3]). pose proof hsh as (s1 & s2 & s3).
  eapply post_mono; [apply delimit_ok; lia|]. intros [[s k] off']. cbn [fst snd]. intros (g1 & g2 & g3 & g4 & g5 & g6).
  exists P, Q. cbn [es_diag es_off es_q].
  assert (hoff : forall j, (j < n - 1)%nat -> vent off' j <> 0 -> vent (es_off es) j = vent off' j).
  { intros j hjn hj. destruct (Nat.eq_dec k 0) as [ek|nk]; [destruct (g5 ek) as (_ & ->); auto|].
    destruct (g6 ltac:(lia)) as (g7 & g8 & g9 & [(_ & ->)|(ps & _ & ->)]); auto.
    revert hj. unfold vent. rewrite vget_vupd by lia. bd; auto. intros hj. exfalso. apply hj. reflexivity. }
  split; [split; [|split]; cbn [es_diag es_off es_q]; auto; lia|]. split; [auto|]. split; [lia|]. split; [|split].
  - constructor; auto. intros i j hij hj hk. rewrite h3 by (auto; try lia; intros l hl; rewrite hoff by (try apply hk; lia); apply hk; auto).
    rewrite hoff by (try apply hk; lia). reflexivity.
  - intros j hj. destruct (g6 ltac:(lia)) as (g7 & g8 & g9 & g10).
    assert (hnz : vent (es_off es) j <> 0).
    { destruct (Nat.eq_dec j (k - 1)) as [->|nj]; [eapply above_nz; eauto|]. eapply negl_false. apply g9. lia. }
    destruct g10 as [(_ & ->)|(ps & _ & ->)]; auto. unfold vent in *. rewrite vget_vupd by lia. bd. auto.
  - intros hs hk. destruct (g6 ltac:(lia)) as (g7 & g8 & g9 & [(e0 & _)|(ps & _ & ->)]); [lia|].
    unfold vent. rewrite vget_vupd by lia. bd. reflexivity.
Qed.

Lemma big_diag n A eps s e es : symmetric n A -> 0 <= eps -> (s + 1 < e)%nat -> DLI n A s e es ->
  wp (eig_big (N:=RN) s e eps es) (fun r => DMI n A (snd r) (fst r)).
Proof.
  intros hs he hse (P & Q & hsh & hq & hen & hdi & hnz & h0).
  eapply post_mono; [apply (sweep_real n s e eps es Q); auto; try lia|].
  - intros. apply h0; lia.
  - apply hnz; lia.
  - intros [es' e1]. cbn [fst snd]. intros ((G & Q1 & sh & hq1 & hG & hl & hQ1 & hT & ho & _) & hc).
    assert (he1 : (e1 <= e)%nat) by (destruct hc as [(-> & _)|(-> & _)]; lia).
    exists (mmul n G P), Q1. split; [auto|]. split; [auto|]. split; [lia|].
    apply di_conj with (d := vent (es_diag es)) (o := vent (es_off es)) (s := s) (e := e); auto; try lia.
    + intros hp. rewrite ho by lia. apply h0; lia.
    + intros i hi. etransitivity; [apply hT; auto|]. rewrite (bulged_0 _ _ e n) by auto. unfold tridiag. bd. auto.
    + intros i j hi hij hj hk. etransitivity; [apply hT; lia|]. rewrite (bulged_0 _ _ e n) by lia. unfold tridiag, gh. bd; subst; try lia; auto.
Qed.

Lemma two_diag n A eps s es : symmetric n A -> 0 <= eps -> DLI n A s (s + 1) es ->
  wp (eig_two (N:=RN) s (s + 1) eps es) (fun r => DMI n A (snd r) (fst r)).
Proof.
  intros hsym he (P & Q & hsh & hq & hen & hdi & hnz & h0).
  pose proof hsh as (s1 & s2 & s3). rewrite hq in s3. destruct s3 as (q1 & q2).
  unfold eig_two. step1. apply post_idx1; [lia|]. step1. apply post_idx1; [lia|]. step1. apply post_idx1; [lia|].
  rewrite compute_2x2_real. cbn [unwrap_opt bind].
  set (dd := vent (es_diag es)) in *. set (oo := gh (s + 1) (es_off es)) in *.
  change (vget (es_diag es) s) with (dd s). change (vget (es_diag es) (s + 1)) with (dd (s + 1)%nat).
  change (vget (es_off es) s) with (vent (es_off es) s).
  assert (hz : vent (es_off es) s <> 0) by (apply hnz; lia).
  assert (eo : vent (es_off es) s = oo s) by (unfold oo, gh; bd; auto). rewrite eo in *.
  set (l1 := ev1 _ _ _). set (l2 := ev2 _ _ _).
  assert (h1 : forall h, s = S h -> oo h = 0).
  { intros h hh. unfold oo, gh. bd. replace h with (s - 1)%nat by lia. apply h0; lia. }
  assert (h2 : (s + 2 < n)%nat -> oo (s + 1)%nat = 0) by (intros; unfold oo, gh; bd; auto).
  step1. apply post_set1; [lia|]. step1. apply post_set1; [dims; lia|].
  set (diag' := vupd (vupd (es_diag es) s l1) (s + 1) l2).
  assert (hdiag : forall j, (j < n)%nat -> upd2 dd s l1 l2 j = vent diag' j).
  { intros j hj. unfold diag', vent, upd2. rewrite !vget_vupd by (dims; lia). bd; auto; lia. }
  assert (hlen : length diag' = n) by (unfold diag'; dims; auto).
  (* the rotation, whether or not it is applied to q *)
  assert (hP : exists P', DI n A P' (vent diag') (vent (es_off es)) s).
  { set (a := l1 - dd (s + 1)%nat). set (r := sqrt (a * a + oo s * oo s)).
    assert (hp : 0 < a * a + oo s * oo s) by (pose proof (sqn a); assert (0 < oo s * oo s) by (clear - hz; nra); lra).
    assert (hr : r <> 0) by (apply Rgt_not_eq, sqrt_lt_R0; auto).
    assert (hrr : r * r = a * a + oo s * oo s) by (apply sqrt_sqrt; lra).
    assert (h := two_conj n s dd oo (a / r) (oo s / r) r ltac:(lia) h1 h2). cbv zeta in h. specialize (h hr).
    assert (hcs : a / r * (a / r) + oo s / r * (oo s / r) = 1).
    { replace (a / r * (a / r) + oo s / r * (oo s / r)) with ((a * a + oo s * oo s) / (r * r)) by (field; auto).
      rewrite hrr. field. lra. }
    set (G := gm s (s + 1) (a / r) (- (oo s / r))) in *.
    assert (hT : mmul n G (mmul n (tridiag dd oo) (mtr G)) =[n, n]= tridiag (upd2 dd s l1 l2) (upd0 oo s)).
    { apply h; [exact hcs| |]; unfold Rdiv; rewrite Rmult_assoc, Rinv_l, Rmult_1_r by auto; reflexivity. }
    exists (mmul n G P). apply di_conj with (d := dd) (o := vent (es_off es)) (s := s) (e := (s + 1)%nat); auto; try lia.
    - intros. apply h0; lia.
    - apply gm_orthogonal; try lia. rewrite <- hcs. ring.
    - apply local_gm; lia.
    - intros i hi. etransitivity; [apply hT; auto|]. unfold tridiag. bd. apply hdiag; auto. }
  destruct hP as (P' & hP').
  rewrite hq. destruct (try_new _ _ _) as [[g r]|].
  - step1. eapply post_mono; [apply rotate_q_real; lia|]. intros o (q' & -> & n1 & n2 & hq').
    step1. apply post_usub; [lia|]. apply post_ret. cbn [fst snd]. replace (s + 1 - 1)%nat with s by lia.
    exists P', q'. cbn [es_diag es_off es_q]. split; [split; [|split]; cbn [es_diag es_off es_q]; auto; split; lia|]. split; auto. split; [lia|auto].
  - step1. apply post_ret. step1. apply post_usub; [lia|]. apply post_ret. cbn [fst snd]. replace (s + 1 - 1)%nat with s by lia.
    exists P', Q. cbn [es_diag es_off es_q]. split; [split; [|split]; cbn [es_diag es_off es_q]; auto; split; lia|]. split; auto. split; [lia|auto].
Qed.

Lemma loop_diag n A eps : symmetric n A -> 0 <= eps -> forall fuel s e es, DLI n A s e es ->
  post (eig_loop (N:=RN) fuel eps s e es) (fun es' => exists P, orthogonal n P /\ length (es_diag es') = n /\
     forall i, (i < n)%nat -> mmul n P (mmul n A (mtr P)) i i = vent (es_diag es') i) noE True.
Proof.
  intros hs he. induction fuel as [|fuel IH]; intros s e es hli; cbn [eig_loop];
  (destruct (Nat.eqb_spec e s) as [es0|hne];
   [destruct hli as (P & Q & (hl & _) & hq & hen & [k1 k2 k3] & _); apply post_ret; exists P; auto|]).
  - exact I.
  - pose proof hli as (_ & _ & _ & _ & hen & _).
    step1. apply post_usub; [lia|]. step1.
    assert (hstep : wp (if 2 <? S (e - s) then eig_big (N:=RN) s e eps es
         else if S (e - s) =? 2 then eig_two (N:=RN) s e eps es else Ret (es, e))
       (fun r : eig_state RN * nat => DMI n A (snd r) (fst r))).
    { destruct (Nat.ltb_spec 2 (S (e - s))).
      - apply big_diag; auto. lia.
      - destruct (Nat.eqb_spec (S (e - s)) 2); [|lia]. replace e with (s + 1)%nat in * by lia. apply two_diag; auto. }
    eapply wp_conseq; [exact hstep|]. intros [es1 e1]. cbn [fst snd]. intros hm.
    step1. eapply wp_conseq; [apply delimit_diag; eauto|]. intros [[s' e'] off']. cbn [fst snd]. intros hli'.
    apply IH. exact hli'.
Qed.

Lemma symmetric_eig_diag fuel (a : mat RN) (eps : R) vals q : 0 <= eps -> nr a = nc a -> symmetric (nr a) (ent a) ->
  symmetric_eig fuel a true eps = Ret (vals, Some q) ->
  length vals = nr a /\ exists P, orthogonal (nr a) P /\
    forall i, (i < nr a)%nat -> mmul (nr a) P (mmul (nr a) (ent a) (mtr P)) i i = vent vals i.
Proof.
  intros he sq hs h. pose proof (symmetric_eig_class fuel a true eps (eig2_total_real eps)) as hc.
  rewrite h in hc. destruct hc as (_ & hl & _). split; auto.
  unfold symmetric_eig, check_square in h. revert h. bd. cbn [bind].
  destruct (Nat.ltb_spec (nr a) 1) as [h0|h0].
  { intros _. exists mid. split; [split; intros i j hi; lia|intros; lia]. }
  destruct (scale_down_real a) as (ha & hsc & _ & _); try lia.
  set (am := abs_max a) in *. set (m := scale_down a am) in *.
  assert (d1 : nr m = nr a) by apply nr_scale_down. assert (d2 : nc m = nc a) by apply nc_scale_down.
  assert (hsm : symmetric (nr m) (ent m)).
  { rewrite d1. intros i j hi hj. unfold mtr. unfold m, scale_down.
    destruct (neq RN am (n0 RN)); cbn [negb]; [apply hs; auto|].
    unfold ent. rewrite !get_mmap by lia. f_equal. apply hs; auto. }
  destruct (wp_ret _ _ (sym_tridiagonal_real m ltac:(lia) ltac:(lia) hsm)) as (td & -> & ok). cbn [bind].
  destruct (wp_ret _ _ (tri_generate_q_real _ _ _ ok)) as (q0 & -> & k1 & k2 & k3). cbn [bind].
  rewrite d1 in *.
  destruct (tri_into_diagonals td) as [diag off] eqn:et.
  set (n := nr a) in *.
  assert (l1 : length diag = n /\ length off = (n - 1)%nat /\
     (forall j, (j < n)%nat -> vent diag j = ent (diag_matrix td) j j) /\
     (forall j, (j + 1 < n)%nat -> vent off j = Rabs (vent (off_diagonal td) j))).
  { unfold tri_into_diagonals in et. injection et as <- <-. rewrite (to_nr _ _ _ ok), (to_nc _ _ _ ok), Nat.min_id.
    unfold vmap. rewrite !length_vmk. pose proof (to_len _ _ _ ok). split; auto. split; [auto|].
    unfold vent. split; intros j hj; rewrite vget_vmk by lia; reflexivity. }
  destruct l1 as (l1 & l2 & l3 & l4).
  assert (hq0 : orthogonal n (ent q0)).
  { apply (orthogonal_proper _ _ _ (meq_sym _ _ _ _ k3)). apply (trid_H _ _ _ ok). }
  set (T := tridiag (vent diag) (gh (n - 1) off)).
  assert (hB : mmul n (mtr (ent q0)) (mmul n (ent m) (mtr (mtr (ent q0)))) =[n, n]= T).
  { assert (hz : ent m =[n, n]= mmul n (ent q0) (mmul n T (mtr (ent q0)))).
    { assert (ht : T =[n, n]= tridiag (fun j => ent (diag_matrix td) j j) (fun j => Rabs (vent (off_diagonal td) j))).
      { apply tridiag_ext; auto. intros j hj. unfold gh. bd. apply l4; lia. }
      rewrite k3, ht. apply (to_eq _ _ _ ok). }
    rewrite hz, conj_comp. destruct hq0 as (o1 & o2). rewrite o1, mtr_mid, mmul_1_r, mmul_1_l. reflexivity. }
  (* rescaling *)
  assert (fin : forall dg P, orthogonal n P -> length dg = n ->
    (forall i, (i < n)%nat -> mmul n P (mmul n (ent m) (mtr P)) i i = vent dg i) -> vals = vmap (fun x => nmul RN x am) dg ->
    exists P, orthogonal n P /\ forall i, (i < n)%nat -> mmul n P (mmul n (ent a) (mtr P)) i i = vent vals i).
  { intros dg P hP hlen hd ->. exists P. split; auto. intros i hi. unfold vent, vmap. rewrite vget_vmk by lia.
    change (vget dg i) with (vent dg i). rewrite <- hd by auto. rn. unfold mmul. rewrite Rmult_comm, <- Rsum_scal_l.
    apply Rsum_ext. intros k hk. rewrite <- (Rmult_assoc am), (Rmult_comm am), Rmult_assoc. f_equal.
    rewrite <- Rsum_scal_l. apply Rsum_ext. intros l hl'. rewrite hsc by lia. ring. }
  assert (hd0 : DI n (ent m) (mtr (ent q0)) (vent diag) (vent off) (n - 1)).
  { constructor.
    - apply orthogonal_mtr; auto.
    - intros i hi. rewrite hB by auto. unfold T, tridiag. bd. auto.
    - intros i j hij hj _. rewrite hB by lia. unfold T, tridiag, gh. bd; subst; try lia; auto. }
  destruct (Nat.eqb_spec n 1) as [e1|ne1].
  { intros h. injection h as <- <-. eapply fin; [apply (di_P _ _ _ _ _ _ hd0)|exact l1|apply (di_diag _ _ _ _ _ _ hd0)|reflexivity]. }
  destruct (wp_ret _ _ (delimit_diag n (ent m) eps (n - 1) (ES diag off (Some q0)) he
     ltac:(exists (mtr (ent q0)), q0; split; [split; [|split]; cbn [es_diag es_off es_q]; auto; split; auto|];
           split; [auto|]; split; [lia|auto])))
    as ([[s k] off'] & hd & hli). cbn [es_diag es_off es_q fst snd] in hd, hli. rewrite hd. cbn [bind].
  pose proof (loop_diag n (ent m) eps hsm he fuel _ _ _ hli) as hloop.
  destruct (eig_loop _ _ _ _ _) as [es'|er| | |]; cbn [bind]; try discriminate.
  cbn [post] in hloop. destruct hloop as (P & g1 & g2 & g3).
  intros h. injection h as <- hq. eapply fin; eauto.
Qed.
