(** * The QR iteration of eigh.rs in binary64 *)
From Coq Require Import Reals List Arith Lia Lra Bool ZArith Setoid Morphisms.
From Coq.Floats Require Import SpecFloat.
From Flocq Require Import Core BinarySingleNaN.
From Verif Require Import Scalar Arr MBase MDirect MDecomp MEigh Inst Hoare Spec SpecF SpecH RLin PTri PHouse PQR PTrid PGivens PEigh PEighR PRound PHouseF PCholG PTrdF PApx PGivF PRotF.
Import ListNotations.
Local Open Scope R_scope.

(** ** Nearness up to an orthogonal similarity *)
Definition near (n : nat) (T0 T : M) (b : R) : Prop :=
  exists W, orthogonal n W /\ frob n n (msub T0 (mmul n W (mmul n T (mtr W)))) <= b.

Lemma orth_tr n W : orthogonal n W -> orthogonal n (mtr W).
Proof. intros (h1 & h2). split; rewrite mtr_mtr; auto. Qed.

Lemma near_move n T0 T T' G b t : orthogonal n G -> near n T0 T b ->
  frob n n (msub (mmul n G (mmul n T (mtr G))) T') <= t -> near n T0 T' (b + t).
Proof.
  intros hG (W & hW & hb) ht. assert (hGt := orth_tr n G hG). exists (mmul n W (mtr G)).
  assert (hWG : orthogonal n (mmul n W (mtr G))) by (apply orthogonal_mul; auto). split; auto.
  eapply Rle_trans; [apply (err_replace n T0 (mmul n W (mtr G)) (mmul n G (mmul n T (mtr G))) T' hWG)|]. apply Rplus_le_compat; auto.
  eapply Rle_trans; [|exact hb]. right. apply frob_ext.
  assert (e : mmul n (mmul n W (mtr G)) (mmul n (mmul n G (mmul n T (mtr G))) (mtr (mmul n W (mtr G)))) =[n, n]= mmul n W (mmul n T (mtr W))).
  { rewrite <- (conj_comp n (mtr G) W). rewrite (conj_comp n G (mtr G) T). destruct hG as (g1 & g2).
    assert (ee : mmul n (mtr G) G =[n, n]= mid) by exact g1. rewrite ee, mtr_mid, mmul_1_r, mmul_1_l. reflexivity. }
  intros p q hp hq. unfold msub. rewrite (e p q hp hq). reflexivity.
Qed.
Lemma near_id n T0 : near n T0 T0 0.
Proof.
  exists mid. split; [apply orthogonal_mid|]. right. unfold frob.
  rewrite (frob2_ext n n _ (fun _ _ => 0)).
  - unfold frob2. rewrite Rsum_0; [apply sqrt_0|]. intros. apply Rsum_0. intros. ring.
  - intros p q hp hq. unfold msub. assert (e : mmul n mid (mmul n T0 (mtr mid)) =[n, n]= T0) by (rewrite mtr_mid, mmul_1_r, mmul_1_l; reflexivity). rewrite (e p q hp hq). ring.
Qed.
Lemma near_ext n T0 T T' b : T =[n, n]= T' -> near n T0 T b -> near n T0 T' b.
Proof.
  intros h (W & hW & hb). exists W. split; auto. eapply Rle_trans; [|exact hb]. right. apply frob_ext.
  assert (e : mmul n W (mmul n T' (mtr W)) =[n, n]= mmul n W (mmul n T (mtr W))) by (rewrite h; reflexivity).
  intros p q hp hq. unfold msub. rewrite (e p q hp hq). reflexivity.
Qed.
Lemma near_weak n T0 T b b' : b <= b' -> near n T0 T b -> near n T0 T b'.
Proof. intros h (W & hW & hb). exists W. split; auto. lra. Qed.
Lemma near_close n T0 T T' b t : near n T0 T b -> frob n n (msub T T') <= t -> near n T0 T' (b + t).
Proof.
  intros h ht. apply (near_move n T0 T T' mid b t); auto; [apply orthogonal_mid|].
  eapply Rle_trans; [|exact ht]. right. apply frob_ext. intros p q hp hq. unfold msub.
  assert (e : mmul n mid (mmul n T (mtr mid)) =[n, n]= T) by (rewrite mtr_mid, mmul_1_r, mmul_1_l; reflexivity). rewrite (e p q hp hq). reflexivity.
Qed.
Lemma near_frob n T0 T b : near n T0 T b -> frob n n T <= frob n n T0 + b.
Proof.
  intros (W & hW & hb). rewrite <- (frob_conj n W T) by auto. set (X := mmul n W (mmul n T (mtr W))) in *.
  eapply Rle_trans; [|apply Rplus_le_compat_l; exact hb].
  apply Rle_trans with (frob n n (madd T0 (mscal (-1) (msub T0 X)))).
  - right. apply frob_ext. intros p q hp hq. unfold madd, mscal, msub. ring.
  - eapply Rle_trans; [apply frob_triangle|]. apply Rplus_le_compat_l. right. rewrite frob_scal. replace (Rabs (-1)) with 1 by (rewrite Rabs_left; lra). ring.
Qed.

(** A matrix supported on four consecutive rows and columns *)
Lemma Rsum_window n a b f : 0 <= b -> (forall i, (i < n)%nat -> f i <= if Nat.leb a i && Nat.ltb i (a + 4) then b else 0) -> Rsum n f <= 4 * b.
Proof.
  intros hb h. apply Rle_trans with (Rsum n (fun i => if Nat.leb a i && Nat.ltb i (a + 4) then b else 0)); [apply Rsum_le; auto|]. clear h.
  assert (g : Rsum n (fun i => if Nat.leb a i && Nat.ltb i (a + 4) then b else 0) = INR (Nat.min (n - a) 4) * b).
  { induction n as [|n IH]; [simpl; ring|]. cbn [Rsum]. rewrite IH. destruct (Nat.leb_spec a n); destruct (Nat.ltb_spec n (a + 4)); cbn [andb].
    - replace (Nat.min (S n - a) 4) with (S (Nat.min (n - a) 4)) by lia. rewrite S_INR. ring.
    - replace (Nat.min (S n - a) 4) with (Nat.min (n - a) 4) by lia. ring.
    - replace (Nat.min (S n - a) 4) with (Nat.min (n - a) 4) by lia. ring.
    - replace (Nat.min (S n - a) 4) with (Nat.min (n - a) 4) by lia. ring. }
  rewrite g. apply Rmult_le_compat_r; auto. replace 4 with (INR 4) by (simpl; ring). apply le_INR. lia.
Qed.
Lemma frob_window n a t X : 0 <= t ->
  (forall p q, (p < n)%nat -> (q < n)%nat -> Rabs (X p q) <= if (Nat.leb a p && Nat.ltb p (a + 4)) && (Nat.leb a q && Nat.ltb q (a + 4)) then t else 0) ->
  frob n n X <= 4 * t.
Proof.
  intros ht h. unfold frob. rewrite <- (sqrt_square (4 * t)) by lra. apply sqrt_le_1_alt. unfold frob2.
  replace (4 * t * (4 * t)) with (4 * (4 * (t * t))) by ring.
  assert (htt : 0 <= t * t) by nra.
  apply (Rsum_window n a); [lra|]. intros p hp. destruct (_ && _) eqn:ep.
  - apply (Rsum_window n a); auto. intros q hq. specialize (h p q hp hq). rewrite ep in h. cbn [andb] in h.
    rewrite <- (Rabs_sq (X p q)). pose proof (Rabs_pos (X p q)). destruct (_ && _); nra.
  - right. apply Rsum_0. intros q hq. specialize (h p q hp hq). rewrite ep in h. cbn [andb] in h.
    rewrite <- (Rabs_sq (X p q)). pose proof (Rabs_pos (X p q)). nra.
Qed.

(** The difference of two bulged matrices that agree away from index i *)
Lemma bulged_window n i d o y d' o' y' t : 0 <= t ->
  (forall j, Rabs (d j - d' j) <= if Nat.eqb j i || Nat.eqb j (i + 1) then t else 0) ->
  (forall j, Rabs (o j - o' j) <= if Nat.eqb (j + 1) i || (Nat.eqb j i || Nat.eqb j (i + 1)) then t else 0) ->
  Rabs (y - y') <= t ->
  frob n n (msub (bulged d o y (i + 1)) (bulged d' o' y' (i + 1))) <= 4 * t.
Proof.
  intros ht hd ho hy. apply (frob_window n (i - 1)); auto. intros p q hp hq. unfold msub, bulged.
  destruct (Nat.eqb_spec p q) as [->|]; [|destruct (Nat.eqb_spec q (p + 1)) as [->|]; [|destruct (Nat.eqb_spec p (q + 1)) as [->|]; [|destruct (_ || _) eqn:eb]]].
  - specialize (hd q). revert hd. bd; cbn [orb]; intros; auto; lra.
  - specialize (ho p). revert ho. bd; cbn [orb]; intros; auto; try lra; lia.
  - specialize (ho q). revert ho. bd; cbn [orb]; intros; auto; try lra; lia.
  - apply orb_prop in eb. bd; auto; exfalso; destruct eb as [eb|eb]; apply andb_prop in eb as [e1 e2]; apply Nat.eqb_eq in e1, e2; lia.
  - rewrite Rminus_0_r, Rabs_R0. bd; lra.
Qed.

(** ** Entries of the state *)
Definition gf (e : nat) (v : list FN) (j : nat) : R := if Nat.ltb j e then frv v j else 0.
Definition kap (m : R) : R := 320 * uro * m.

Section Run.
Variable h : spec_float -> spec_float -> spec_float.
Hypothesis hh : hyp_good h.
Local Notation N := (FNh h).
Variables (n : nat) (T0 : M) (m : R).
Variables (qv : bool) (qd0 : R).
Hypotheses (m1 : 1 <= m) (m2 : m <= mbig) (hqd0 : qd0 <= / 2) (hneta : INR n * eta <= uro) (hT0 : frob n n T0 <= m / 2).

Definition bad (es : eig_state N) : Prop := exists k, (k < n)%nat /\ vget (N:=FN) (es_diag es) k = S754_nan.
Definition ents (es : eig_state N) : Prop :=
  (forall j, (j < n)%nat -> ent_ok m (vget (N:=FN) (es_diag es) j)) /\ (forall j, (j < n - 1)%nat -> ent_ok m (vget (N:=FN) (es_off es) j)).

(** The matrix of vectors, if there is one, is within qd0 + b / (3 m) of an orthogonal one *)
Definition qn (q : option (mat N)) (b : R) : Prop := match q with None => qv = false | Some q => qv = true /\ qnear n q (qd0 + b / (3 * m)) end.
Lemma qn_weak q b b' : b <= b' -> qn q b -> qn q b'.
Proof.
  intros hb. destruct q as [q|]; cbn [qn]; auto. intros (h0 & h1). split; auto. eapply qnear_weak; [|exact h1]. apply Rplus_le_compat_l. apply Rmult_le_compat_r; auto.
  left. apply Rinv_0_lt_compat. lra.
Qed.
Lemma rotate_qn (g : givens N) (q : option (mat N)) b c C S : (c + 1 < n)%nat -> b <= m / 2 -> q_shape n q -> qn q b ->
  apx (MBase.rc g) C 1 6 -> apx (MBase.rs g) S 1 6 -> C * C + S * S = 1 -> wp (rotate_q (N:=N) g q c) (fun q' => qn q' (b + kap m)).
Proof.
  intros hc hb hsh hq aC aS hCS. destruct q as [q|]; [|apply post_ret; exact hq]. destruct hsh as (q1 & q2). destruct hq as (hf & hq).
  eapply post_mono; [apply rotate_q_ok; lia|]. intros o (q' & -> & _ & _ & hq'). cbn [qn]. split; auto. rewrite q1, q2 in hq'.
  assert (e1 : b / (3 * m) <= / 2). { apply Rmult_le_reg_r with (3 * m); [lra|]. unfold Rdiv. rewrite Rmult_assoc, Rinv_l by lra. lra. }
  pose proof uro_pos as hu.
  apply qnear_weak with (qd0 + b / (3 * m) + 90 * uro).
  - unfold kap. replace ((b + 320 * uro * m) / (3 * m)) with (b / (3 * m) + 320 / 3 * uro) by (field; lra). lra.
  - apply (rot_qnear (Rot (N:=FN) (MBase.rc g) (MBase.rs g)) q q' n c _ C S); auto. lra.
Qed.

Lemma rotate_q2 (g : givens N) (q : option (mat N)) b c (P : Prop) C S : (c + 1 < n)%nat -> b <= m / 2 -> q_shape n q ->
  (P \/ (qn q b /\ apx (MBase.rc g) C 1 6 /\ apx (MBase.rs g) S 1 6 /\ C * C + S * S = 1)) ->
  wp (rotate_q (N:=N) g q c) (fun q' => q_shape n q' /\ (P \/ qn q' (b + kap m))).
Proof.
  intros hc hb hsh hor. destruct (wp_ret _ _ (rotate_q_shape' g q n c hc hsh)) as (q' & eq & hq' & _). rewrite eq. apply post_ret. split; auto.
  destruct hor as [hp|(h1 & h2 & h3 & h4)]; [left; auto|right]. destruct (wp_ret _ _ (rotate_qn g q b c C S hc hb hsh h1 h2 h3 h4)) as (q2 & e2 & hq2).
  rewrite eq in e2. injection e2 as <-. exact hq2.
Qed.

Lemma near_entry T b p q : b <= m / 2 -> near n T0 T b -> (p < n)%nat -> (q < n)%nat -> Rabs (T p q) <= m.
Proof.
  intros hb hn hp hq. eapply Rle_trans; [apply (frob_entry_le n n); auto|]. eapply Rle_trans; [apply (near_frob _ _ _ _ hn)|]. lra.
Qed.

(** ** Deflation *)
Lemma fr_eps : fr (nepsilon FN) = 2 * uro.
Proof.
  assert (e : nepsilon FN = S754_finite false 4503599627370496 (-104)) by (vm_compute; reflexivity). rewrite e. rewrite uro_bpow.
  unfold fr, SF2R, F2R. cbn [Fnum Fexp cond_Zopp]. replace 4503599627370496%R with (bpow radix2 52) by (cbn; lra). change 2 with (bpow radix2 1). rewrite <- !bpow_plus. reflexivity.
Qed.
Lemma thr_le (p q o : FN) : ent_ok m p -> ent_ok m q -> ent_ok m o ->
  (let t := nmul FN (nepsilon FN) (nadd FN (nabs FN p) (nabs FN q)) in
   nlt FN t (nabs FN o) = false \/ nle FN (nabs FN o) t = true) -> Rabs (fr o) <= 80 * uro * m.
Proof.
  intros (kp & bp) (kq & bq) (ko & bo) ht. cbv zeta in ht. set (t := nmul FN _ _) in ht.
  pose proof big1000 as hb. pose proof m2 as m2'. rewrite mbig_v in m2'. pose proof uro_pos as hu. pose proof uro_1024 as hu1.
  assert (hk : fokx t /\ fr t <= 12 * uro * m).
  { assert (a1 : apx (nabs FN p) (fr (nabs FN p)) m 0) by (apply apx_exact; auto; [apply fokx_abs; auto|rewrite fr_abs, Rabs_Rabsolu; auto]).
    assert (a2 : apx (nabs FN q) (fr (nabs FN q)) m 0) by (apply apx_exact; auto; [apply fokx_abs; auto|rewrite fr_abs, Rabs_Rabsolu; auto]).
    pose proof (apx_add _ _ _ _ _ _ _ a1 a2 ltac:(unfold amax_; lra) ltac:(lra)) as a3.
    assert (a4 : apx (nepsilon FN) (fr (nepsilon FN)) 1 0) by (apply apx_exact; [split; vm_compute; reflexivity|lra|rewrite fr_eps, Rabs_pos_eq; lra]).
    pose proof (apx_mul _ _ _ _ _ _ _ _ a4 a3 ltac:(unfold amax_; lra) ltac:(lra)) as a5. fold t in a5. destruct a5 as [k1 _ _ _ k5]. split; auto.
    rewrite fr_eps, !fr_abs in k5. apply Rabs_le_inv in k5. nra. }
  destruct hk as (kt & et). rewrite <- fr_abs. assert (hm : 0 <= uro * m) by nra. apply Rle_trans with (fr t); [|lra].
  destruct ht as [ht|ht]; [apply ltb_fr_false|apply leb_fr]; auto using fokx_abs.
Qed.
Lemma drop_gen d o o' b j : (forall k, k <> j -> o k = o' k) -> Rabs (o j - o' j) <= 80 * uro * m ->
  near n T0 (tridiag d o) b -> near n T0 (tridiag d o') (b + kap m).
Proof.
  intros h1 h2 hn. apply (near_close n T0 (tridiag d o)); auto. assert (hp : 0 <= 80 * uro * m) by (pose proof uro_pos; nra).
  rewrite (frob_ext n n _ (msub (bulged d o 0 (j + 1)) (bulged d o' 0 (j + 1)))).
  - eapply Rle_trans; [apply (bulged_window n j _ _ _ _ _ _ (80 * uro * m)); auto|right; unfold kap; ring].
    + intros k. rewrite Rminus_diag_eq, Rabs_R0 by reflexivity. destruct (_ || _); lra.
    + intros k. destruct (Nat.eq_dec k j) as [->|nk]; [rewrite Nat.eqb_refl, orb_true_r; cbn [orb]|rewrite (h1 k nk), Rminus_diag_eq, Rabs_R0 by reflexivity; destruct (_ || _); lra].
      exact h2.
    + rewrite Rminus_0_r, Rabs_R0. auto.
  - intros p q hp' hq'. unfold msub. rewrite (bulged_0 d o (j + 1) n p q hp' hq'), (bulged_0 d o' (j + 1) n p q hp' hq'). reflexivity.
Qed.

Section Sweep.
Variables (start e : nat).
Hypotheses (hse : (start + 1 <= e)%nat) (hen : (e < n)%nat).

Definition swf (b : R) (i : nat) (st : N * N * eig_state N) : Prop :=
  let x : FN := fst (fst st) in let y : FN := snd (fst st) in let es := snd st in
  ents es /\
  near n T0 (bulged (frv (es_diag es)) (gf e (es_off es)) (if Nat.ltb start i && Nat.ltb i e then fr y else 0) i) b /\
  ((start < i)%nat -> (i < e)%nat -> x = vget (N:=FN) (es_off es) (i - 1) /\ ent_ok m y) /\
  (i = start -> (x = S754_nan \/ ent_ok cap x) /\ ent_ok m y /\ ((0 < start)%nat -> frv (es_off es) (start - 1) = 0)) /\
  qn (es_q es) b.

Lemma cap_big : m <= cap.
Proof. eapply Rle_trans; [exact m2|]. unfold mbig, cap. apply bpow_le. lia. Qed.

Lemma apx_err x X P a : apx x X P a -> fokx x /\ Rabs (fr x - X) <= a * uro * P.
Proof. intros [h1 h2 h3 h4 h5]. auto. Qed.

Lemma sweep_step_f b i st : (start <= i)%nat -> (i < e)%nat -> b + kap m <= m / 2 -> es_shape n (snd st) -> (bad (snd st) \/ swf b i st) ->
  wp (eig_sweep_step (N:=N) start e i st) (fun r => es_shape n (snd (snd r)) /\
     (bad (snd (snd r)) \/ if fst r then swf (b + kap m) (S i) (snd r) else
        ents (snd (snd r)) /\ near n T0 (tridiag (frv (es_diag (snd (snd r)))) (gf e (es_off (snd (snd r))))) b /\ qn (es_q (snd (snd r))) b)).
Proof.
  destruct st as [[x y] [d o q]]. intros hs hi hbm (s1 & s2 & s3) hor.
  assert (kp0 : 0 <= kap m) by (unfold kap; pose proof uro_pos; nra). cbn [fst snd es_diag es_off es_q] in *.
  unfold eig_sweep_step. cbn [es_diag es_off es_q].
  (* what the rotation is *)
  assert (hrot : match @cancel_y N x y with
    | None => bad (ES d o q) \/ (swf b i (x, y, ES d o q) /\ fr y = 0)
    | Some (rot, norm) => bad (ES d o q) \/ rc rot = S754_nan \/
        (swf b i (x, y, ES d o q) /\ fr y <> 0 /\ (i = start -> (0 < start)%nat -> frv o (start - 1) = 0) /\
         apx (rc rot) (gc (fr x) (fr y)) 1 6 /\ apx (rs rot) (gs (fr x) (fr y)) 1 6 /\ fokx norm /\
         Rabs (fr norm - sqrt (fr x * fr x + fr y * fr y)) <= 3 * uro * sqrt (fr x * fr x + fr y * fr y)) end).
  { destruct hor as [hb|hsw]; [destruct (@cancel_y N x y) as [[rot norm]|]; auto|].
    pose proof cap_big as hcap. pose proof hsw as ((g1 & g2) & hn & g3 & g4 & _). cbn [fst snd es_diag es_off] in *.
    assert (hy : ent_ok m y). { destruct (Nat.eq_dec i start) as [es0|ns]; [apply g4; auto|apply g3; lia]. }
    assert (hx : x = S754_nan \/ ent_ok cap x).
    { destruct (Nat.eq_dec i start) as [es0|ns]; [apply g4; auto|]. right. destruct g3 as (-> & _); [lia|auto|]. destruct (g2 (i - 1)%nat ltac:(lia)) as (a1 & a2). split; auto. lra. }
    destruct hx as [->|hx].
    - destruct (nis_zero FN y) eqn:ez.
      + unfold cancel_y. change (nis_zero N y) with (nis_zero FN y). rewrite ez. cbn [negb]. right. split; auto. apply zero_fr; auto.
      + rewrite (cancel_y_nan h hh y (proj2 (proj1 hy)) ez). right; left. reflexivity.
    - pose proof (cancel_y_f h hh x y (proj1 hx) (proj1 hy) (proj2 hx) ltac:(destruct hy; lra)) as hc.
      destruct (@cancel_y N x y) as [[rot norm]|]; [|right; auto]. destruct hc as (hy0 & [->|hc]); [right; left; reflexivity|].
      right; right. split; auto. split; auto. split; [|exact hc]. intros -> hs0. apply g4; auto. }
  destruct (@cancel_y N x y) as [[rot norm]|].
  2: { apply post_ret. cbn [fst snd]. split; [split; [|split]; auto|]. destruct hrot as [hb|(hsw & hy)]; [left; exact hb|right].
       destruct hsw as (he & hn & _ & _ & hqn). split; auto. split; [|exact hqn]. eapply near_ext; [|exact hn]. cbn [fst snd es_diag es_off]. rewrite hy.
       rewrite <- (bulged_0 (frv d) (gf e o) i n). destruct (_ && _); reflexivity. }
  set (c := rc rot) in *. set (s := rs rot) in *.
  step1. eapply post_mono with (Q := fun o1 : list N => length o1 = (n - 1)%nat /\
    forall j, (j < n - 1)%nat -> vget (N:=FN) o1 j = if Nat.ltb start i && Nat.eqb (j + 1) i then norm else vget (N:=FN) o j).
  { destruct (Nat.ltb_spec start i); cbn [andb]; [|apply post_ret; auto].
    step1. apply post_usub; [lia|]. apply post_atm1; [lia|]. dims. split; auto.
    intros j hj. change (vget (N:=FN) (vupd (N:=N) o (i - 1) norm) j) with (vget (N:=N) (vupd (N:=N) o (i - 1) norm) j). rewrite vget_vupd by lia. bd; auto; lia. }
  intros o1 (l1 & ho1).
  step1. apply post_at1; [lia|]. step1. apply post_at1; [lia|]. step1. apply post_at1; [lia|].
  step1. apply post_atm1; [lia|]. step1. apply post_atm1; [dims; lia|]. step1. apply post_atm1; [dims; lia|].
  step1. apply post_usub; [lia|]. step1.
  match goal with |- context [vupd (vupd d i ?a) (S i) ?b] => set (dii := a) in *; set (djj := b) in * end.
  match goal with |- context [vupd o1 i ?a] => set (oii := a) in * end.
  set (d2 := vupd (vupd d i dii) (S i) djj) in *. set (o2 := vupd o1 i oii) in *.
  assert (ld2 : length d2 = n) by (unfold d2; dims; auto).
  assert (lo2 : length o2 = (n - 1)%nat) by (unfold o2; dims; auto).
  eapply post_mono with (Q := fun r : N * N * list N => length (snd r) = (n - 1)%nat /\
     ((i + 1 < e)%nat -> fst (fst r) = vget (N:=FN) o2 i /\ snd (fst r) = nmul FN (nopp FN s) (vget (N:=FN) o2 (i + 1))) /\
     forall j, (j < n - 1)%nat -> vget (N:=FN) (snd r) j = if Nat.eqb j (i + 1) && Nat.ltb (i + 1) e then nmul FN (vget (N:=FN) o2 j) c else vget (N:=FN) o2 j).
  { destruct (Nat.eqb_spec i (e - 1)); cbn [negb].
    - apply post_ret. cbn [fst snd]. split; auto. split; [lia|]. intros j hj. bd; auto; try lia.
    - step1. apply post_at1; [lia|]. step1. apply post_at1; [lia|]. step1. apply post_atm1; [lia|].
      apply post_ret. cbn [fst snd]. dims. split; auto. split.
      + intros _. split; auto. rewrite Nat.add_1_r. reflexivity.
      + intros j hj. match goal with |- vget (N:=FN) (vupd o2 ?k ?v) j = _ => change (vget (N:=N) (vupd (N:=N) o2 k v) j = if Nat.eqb j (i + 1) && Nat.ltb (i + 1) e then nmul FN (vget (N:=FN) o2 j) c else vget (N:=FN) o2 j) end.
        rewrite vget_vupd by lia. rewrite Nat.add_1_r.
        bd; auto; try lia. subst j. reflexivity. }
  intros [[x' y'] o3]. cbn [fst snd]. intros (l3 & hxy & ho3).
  step1. eapply post_mono; [apply (rotate_q2 _ _ b i (bad (ES d o q) \/ c = S754_nan) (gc (fr x) (fr y)) (- gs (fr x) (fr y))); [lia|lra|exact s3|]|].
  { destruct hrot as [hb|[hc|hg]]; [left; auto|left; auto|right]. destruct hg as ((_ & _ & _ & _ & hqn) & hy0 & _ & ac & as_ & _). split; [exact hqn|]. split; [exact ac|].
    split; [apply apx_opp; exact as_|]. destruct (gcs (fr x) (fr y) hy0) as (ecs & _). lra. }
  intros q' (hq' & hqn'). apply post_ret. cbn [fst snd]. split; [split; [|split]; auto|].
  assert (hd2 : forall j, (j < n)%nat -> vget (N:=FN) d2 j = if Nat.eqb j i then dii else if Nat.eqb j (i + 1) then djj else vget (N:=FN) d j).
  { intros j hj. change (vget (N:=FN) d2 j) with (vget (N:=N) d2 j). unfold d2. rewrite !vget_vupd by (dims; lia). bd; auto; lia. }
  assert (ho2 : forall j, (j < n - 1)%nat -> vget (N:=FN) o2 j = if Nat.eqb j i then oii else vget (N:=FN) o1 j).
  { intros j hj. change (vget (N:=FN) o2 j) with (vget (N:=N) o2 j). unfold o2. rewrite !vget_vupd by (dims; lia). bd; auto; lia. }
  set (mii := vget (N:=FN) d i) in *. set (mjj := vget (N:=FN) d (i + 1)) in *. set (mij := vget (N:=FN) o1 i) in *.
  set (cf := c : FN). set (sf := s : FN).
  assert (edii : dii = nsub FN (nadd FN (nmul FN (nmul FN cf cf) mii) (nmul FN (nmul FN sf sf) mjj)) (nmul FN (nmul FN (nmul FN cf sf) mij) (ntwo (N:=FN)))).
  { unfold dii, mjj, mii. rewrite Nat.add_1_r. reflexivity. }
  assert (edjj : djj = nadd FN (nadd FN (nmul FN (nmul FN sf sf) mii) (nmul FN (nmul FN cf cf) mjj)) (nmul FN (nmul FN (nmul FN cf sf) mij) (ntwo (N:=FN)))).
  { unfold djj, mjj, mii. rewrite Nat.add_1_r. reflexivity. }
  assert (eoii : oii = nadd FN (nmul FN (nmul FN cf sf) (nsub FN mii mjj)) (nmul FN mij (nsub FN (nmul FN cf cf) (nmul FN sf sf)))).
  { unfold oii, mjj, mii. rewrite Nat.add_1_r. reflexivity. }
  clearbody dii djj oii.
  destruct hrot as [(k & hk & ek)|[enan|hgood]].
  - left. cbn [es_diag] in ek. destruct (Nat.eq_dec k i) as [->|ni]; [|destruct (Nat.eq_dec k (i + 1)) as [->|ni']].
    + exists i. split; [lia|]. cbn [es_diag]. rewrite hd2 by lia. rewrite Nat.eqb_refl, edii. fold mii in ek. rewrite ek. rewrite nan_mul_r. reflexivity.
    + exists i. split; [lia|]. cbn [es_diag]. rewrite hd2 by lia. rewrite Nat.eqb_refl, edii. fold mjj in ek. rewrite ek. rewrite nan_mul_r, nan_add_r. reflexivity.
    + exists k. split; [auto|]. cbn [es_diag]. rewrite hd2 by lia. bd. exact ek.
  - left. exists i. split; [lia|]. cbn [es_diag]. rewrite hd2 by lia. rewrite Nat.eqb_refl, edii. unfold cf. rewrite enan. reflexivity.
  - right. destruct hgood as (((g1 & g2) & hn & g3 & g4 & hqn) & hy0 & hdead & ac & as_ & okn & en). cbn [fst snd es_diag es_off] in g1, g2, hn, g3, g4.
    set (C := gc (fr x) (fr y)) in *. set (S_ := gs (fr x) (fr y)) in *. destruct (gcs (fr x) (fr y) hy0) as (ecs & ecs1 & ecs2). fold C S_ in ecs, ecs1, ecs2.
    assert (hoi : forall j, (j < n - 1)%nat -> (j + 1)%nat <> i -> vget (N:=FN) o1 j = vget (N:=FN) o j).
    { intros j hj hne. rewrite ho1 by auto. bd; auto; lia. }
    assert (emij : mij = vget (N:=FN) o i) by (apply hoi; lia).
    assert (k1 : ent_ok m mii) by (apply g1; lia). assert (k2 : ent_ok m mjj) by (apply g1; lia). assert (k3 : ent_ok m mij) by (rewrite emij; apply g2; lia).
    pose proof (step_dii m cf sf mii mjj mij C S_ m1 m2 ac as_ k1 k2 k3) as a1. rewrite <- edii in a1.
    pose proof (step_djj m cf sf mii mjj mij C S_ m1 m2 ac as_ k1 k2 k3) as a2. rewrite <- edjj in a2.
    pose proof (step_oii m cf sf mii mjj mij C S_ m1 m2 ac as_ k1 k2 k3) as a3. rewrite <- eoii in a3.
    apply apx_err in a1 as (ok1 & er1). apply apx_err in a2 as (ok2 & er2). apply apx_err in a3 as (ok3 & er3).
    set (t := 80 * uro * m). pose proof uro_pos as hu.
    assert (hum : 0 <= uro * m) by nra. assert (ht : 0 <= t) by (unfold t; lra).
    replace (20 * uro * (4 * m)) with t in er1, er2, er3 by (unfold t; ring).
    set (D := frv d) in *. set (O := gf e o) in *. set (bl := if Nat.ltb start i && Nat.ltb i e then fr y else 0) in *.
    set (dE := fun j => if Nat.eqb j i then C * C * D i + S_ * S_ * D (i + 1)%nat - 2 * (C * S_) * O i
                        else if Nat.eqb j (i + 1) then S_ * S_ * D i + C * C * D (i + 1)%nat + 2 * (C * S_) * O i else D j).
    set (oE := fun j => if Nat.eqb (j + 1) i then C * O j - S_ * bl else if Nat.eqb j i then C * S_ * (D i - D (i + 1)%nat) + O i * (C * C - S_ * S_)
                        else if Nat.eqb j (i + 1) then C * O j else O j).
    assert (eOi : O i = fr mij) by (unfold O, gf, frv; rewrite emij; bd; auto).
    assert (hbl : (start < i)%nat -> bl = fr y) by (intros; unfold bl; bd; auto).
    assert (hprev : forall k, i = S k -> (start < i)%nat -> O k = fr x /\ ent_ok m y).
    { intros k ek hsi. destruct (g3 hsi hi) as (ex & hy). split; auto. unfold O, gf, frv. bd. rewrite ex. replace (i - 1)%nat with k by lia. reflexivity. }
    assert (hch : mmul n (gm i (i + 1) C S_) (mmul n (bulged D O bl i) (mtr (gm i (i + 1) C S_))) =[n, n]= bulged dE oE (- S_ * O (i + 1)%nat) (i + 1)).
    { apply chase; try lia.
      - intros k ek. unfold oE. bd. split; [|reflexivity]. destruct (Nat.eq_dec i start) as [eis|nis].
        + replace bl with 0 by (unfold bl; bd; auto). unfold O, gf. bd. replace k with (start - 1)%nat by lia. rewrite hdead by lia. ring.
        + destruct (hprev k ek ltac:(lia)) as (-> & _). rewrite hbl by lia. lra.
      - unfold dE. bd. ring.
      - unfold dE. bd. ring.
      - unfold oE. bd. ring.
      - intros _. unfold oE. bd. split; ring.
      - intros j j1 j2. unfold dE. bd. auto.
      - intros j j1 j2 j3. unfold oE. bd. auto. }
    assert (hnorm : (start < i)%nat -> Rabs (sqrt (fr x * fr x + fr y * fr y) - fr norm) <= t).
    { intros hsi. destruct (hprev (i - 1)%nat ltac:(lia) hsi) as (ex & hy). assert (bx : Rabs (fr x) <= m).
      { rewrite <- ex. unfold O, gf. bd. apply g2; lia. }
      rewrite Rabs_minus_sym. eapply Rle_trans; [exact en|].
      assert (hr : sqrt (fr x * fr x + fr y * fr y) <= 2 * m).
      { rewrite <- (sqrt_square (2 * m)) by lra. apply sqrt_le_1_alt. rewrite <- (Rabs_sq (fr x)), <- (Rabs_sq (fr y)). destruct hy as (_ & hy). pose proof (Rabs_pos (fr x)). pose proof (Rabs_pos (fr y)). nra. }
      pose proof (sqrt_pos (fr x * fr x + fr y * fr y)). unfold t. nra. }
    assert (hnext : (i + 1 < e)%nat -> ent_ok m (vget (N:=FN) o (i + 1)) /\ vget (N:=FN) o2 (i + 1) = vget (N:=FN) o (i + 1) /\ O (i + 1)%nat = fr (vget (N:=FN) o (i + 1))).
    { intros hlt. split; [apply g2; lia|]. split; [rewrite ho2 by lia; bd; apply hoi; lia|]. unfold O, gf, frv. bd. auto. }
    assert (hny : (i + 1 < e)%nat -> fokx y' /\ Rabs (- S_ * O (i + 1)%nat - fr y') <= t /\ fokx (nmul FN (vget (N:=FN) o2 (i + 1)) c) /\ Rabs (C * O (i + 1)%nat - fr (nmul FN (vget (N:=FN) o2 (i + 1)) c)) <= t).
    { intros hlt. destruct (hnext hlt) as (hok & e2 & eo). destruct (hxy hlt) as (_ & ->). rewrite e2, eo.
      destruct (step_y m cf sf C S_ m1 m2 ac as_ _ hok) as (b1 & b2). apply apx_err in b1 as (kk1 & ee1). apply apx_err in b2 as (kk2 & ee2).
      assert (8 * uro * m <= t) by (unfold t; lra). split; [exact kk1|]. split; [rewrite Rabs_minus_sym; eapply Rle_trans; [exact ee1|auto]|]. split; [exact kk2|]. rewrite Rabs_minus_sym; eapply Rle_trans; [exact ee2|auto]. }
    set (bl' := if Nat.ltb start (S i) && Nat.ltb (S i) e then fr y' else 0).
    assert (hdd : forall j, Rabs (dE j - frv d2 j) <= if Nat.eqb j i || Nat.eqb j (i + 1) then t else 0).
    { intros j. unfold dE, frv. destruct (le_lt_dec n j) as [hj|hj].
      - destruct (Nat.eqb_spec j i) as [|ne1]; [lia|]. destruct (Nat.eqb_spec j (i + 1)) as [|ne2]; [lia|].
        assert (z1 : vget (N:=FN) d j = n0 FN) by (apply nth_overflow; exact (Nat.le_trans _ _ _ (Nat.eq_le_incl _ _ s1) hj)).
        assert (z2 : vget (N:=FN) d2 j = n0 FN) by (apply nth_overflow; exact (Nat.le_trans _ _ _ (Nat.eq_le_incl _ _ ld2) hj)).
        unfold D, frv. rewrite z1, z2. cbn [orb]. rewrite Rminus_diag_eq, Rabs_R0 by reflexivity. lra.
      - rewrite hd2 by auto. destruct (Nat.eqb_spec j i) as [->|]; cbn [orb]; [|destruct (Nat.eqb_spec j (i + 1)) as [->|]].
        + rewrite eOi. rewrite Rabs_minus_sym. exact er1.
        + rewrite eOi. rewrite Rabs_minus_sym. exact er2.
        + unfold D, frv. rewrite Rminus_diag_eq, Rabs_R0 by reflexivity. lra. }
    assert (hoo : forall j, Rabs (oE j - gf e o3 j) <= if Nat.eqb (j + 1) i || (Nat.eqb j i || Nat.eqb j (i + 1)) then t else 0).
    { intros j. unfold oE, gf. destruct (Nat.ltb_spec j e) as [hj|hj].
      - unfold frv. rewrite ho3 by lia. destruct (Nat.eqb_spec (j + 1) i) as [e1|]; cbn [orb].
        + destruct (Nat.eqb_spec j (i + 1)); [lia|]. cbn [andb]. rewrite ho2 by lia. destruct (Nat.eqb_spec j i); [lia|]. rewrite ho1 by lia.
          destruct (Nat.ltb_spec start i) as [hsi|hsi]; cbn [andb].
          * destruct (Nat.eqb_spec (j + 1) i); [|lia]. destruct (hprev j ltac:(lia) hsi) as (-> & _). rewrite hbl by auto. rewrite ecs2. apply hnorm; auto.
          * replace bl with 0 by (unfold bl; bd; auto). assert (ez : frv o j = 0) by (replace j with (start - 1)%nat by lia; apply hdead; lia).
            unfold O, gf. bd. fold (frv o j). rewrite ez. rewrite Rminus_diag_eq, Rabs_R0 by ring. auto.
        + destruct (Nat.eqb_spec j i) as [->|]; cbn [orb].
          * destruct (Nat.eqb_spec i (i + 1)); [lia|]. cbn [andb]. rewrite ho2 by lia. rewrite Nat.eqb_refl. rewrite eOi, Rabs_minus_sym. exact er3.
          * destruct (Nat.eqb_spec j (i + 1)) as [->|]; cbn [andb].
            -- destruct (Nat.ltb_spec (i + 1) e); [|lia]. apply hny; auto.
            -- rewrite ho2 by lia. bd. rewrite hoi by lia. unfold O, gf, frv. bd. rewrite Rminus_diag_eq, Rabs_R0 by reflexivity. lra.
      - destruct (Nat.eqb_spec (j + 1) i); [lia|]. destruct (Nat.eqb_spec j i); [lia|]. cbn [orb].
        assert (ez : O j = 0) by (unfold O, gf; bd; auto). destruct (Nat.eqb_spec j (i + 1)); rewrite ez; rewrite Rminus_diag_eq, Rabs_R0 by ring; lra. }
    assert (hyy : Rabs (- S_ * O (i + 1)%nat - bl') <= t).
    { unfold bl'. destruct (Nat.ltb_spec start (S i)); [|lia]. cbn [andb]. destruct (Nat.ltb_spec (S i) e) as [hlt|hge].
      - apply hny; lia.
      - assert (ez : O (i + 1)%nat = 0) by (unfold O, gf; bd; auto). rewrite ez, Rminus_diag_eq, Rabs_R0 by ring. auto. }
    assert (hnear : near n T0 (bulged (frv d2) (gf e o3) bl' (i + 1)) (b + kap m)).
    { apply (near_move n T0 (bulged D O bl i) _ (gm i (i + 1) C S_)); auto; [apply gm_orthogonal; auto; lia|].
      rewrite (frob_ext n n _ (msub (bulged dE oE (- S_ * O (i + 1)%nat) (i + 1)) (bulged (frv d2) (gf e o3) bl' (i + 1)))).
      - eapply Rle_trans; [apply (bulged_window n i _ _ _ _ _ _ t); auto|]. right. unfold kap, t. ring.
      - intros p q0 hp hq0. unfold msub. rewrite (hch p q0 hp hq0). reflexivity. }
    assert (bd_ : forall p q0, (p < n)%nat -> (q0 < n)%nat -> Rabs (bulged (frv d2) (gf e o3) bl' (i + 1) p q0) <= m).
    { intros. eapply near_entry; eauto. }
    replace (i + 1)%nat with (S i) in hnear by lia.
    unfold swf. cbn [fst snd es_diag es_off]. split; [|split; [exact hnear|split; [|split]]].
    + split; cbn [es_diag es_off].
      * intros j hj. split.
        -- rewrite hd2 by auto. bd; auto. apply g1; auto.
        -- specialize (bd_ j j hj hj). unfold bulged in bd_. rewrite Nat.eqb_refl in bd_. exact bd_.
      * intros j hj. split.
        -- rewrite ho3 by auto. destruct (Nat.eqb_spec j (i + 1)) as [->|]; cbn [andb].
           ++ destruct (Nat.ltb_spec (i + 1) e); [apply hny; auto|]. rewrite ho2 by lia. bd. rewrite hoi by lia. apply g2; auto.
           ++ rewrite ho2 by auto. bd; auto. rewrite ho1 by auto. bd; auto; apply g2; auto.
        -- destruct (le_lt_dec e j) as [hej|hej].
           ++ assert (eo : vget (N:=FN) o3 j = vget (N:=FN) o j). { rewrite ho3 by auto. destruct (Nat.eqb_spec j (i + 1)); cbn [andb]; [destruct (Nat.ltb_spec (i + 1) e); [lia|]|]; rewrite ho2 by auto; bd; apply hoi; lia. }
              rewrite eo. apply g2; auto.
           ++ specialize (bd_ j (j + 1)%nat ltac:(lia) ltac:(lia)). unfold bulged, gf, frv in bd_. revert bd_. bd. auto.
    + intros _ hlt. destruct (hxy ltac:(lia)) as (ex' & ey'). split.
      * rewrite ex'. rewrite ho3 by lia. replace (S i - 1)%nat with i by lia. bd. reflexivity.
      * destruct (hny ltac:(lia)) as (ky & _). split; auto. specialize (bd_ (i + 2)%nat i ltac:(lia) ltac:(lia)). unfold bulged, bl' in bd_. revert bd_. bd; cbn [andb orb]; auto; lia.
    + intros; lia.
    + cbn [es_q]. destruct hqn' as [[(k & hk & ek)|ek]|hqn']; [| |exact hqn']; exfalso.
      * cbn [es_diag] in ek. destruct (g1 k hk) as ((_ & gf1) & _). rewrite ek in gf1. discriminate gf1.
      * destruct ac as [(_ & gf1) _ _ _ _]. rewrite ek in gf1. discriminate gf1.
Qed.

(** A whole sweep *)
Hypothesis hse2 : (start + 1 < e)%nat.
Definition tri_near (es : eig_state N) (k : nat) (b : R) : Prop := ents es /\ near n T0 (tridiag (frv (es_diag es)) (gf k (es_off es))) b /\ qn (es_q es) b.

Lemma big_f b es : es_shape n es -> b + (INR n + 1) * kap m <= m / 2 ->
  (bad es \/ (tri_near es e b /\ ((0 < start)%nat -> frv (es_off es) (start - 1) = 0))) ->
  wp (eig_big (N:=N) start e (nepsilon N) es) (fun r => es_shape n (fst r) /\ (snd r < n)%nat /\
     (bad (fst r) \/ tri_near (fst r) (snd r) (b + (INR n + 1) * kap m))).
Proof.
  intros hsh hb hor. pose proof hsh as (s1 & s2 & s3).
  assert (kp : 0 <= kap m) by (unfold kap; pose proof uro_pos; nra).
  unfold eig_big. step1. apply post_usub; [lia|].
  step1. apply post_idx1; [lia|]. step1. apply post_idx1; [lia|]. step1. apply post_idx1; [lia|].
  step1. apply post_idx1; [lia|]. step1. apply post_idx1; [lia|]. step1.
  set (x0 := nsub N _ _). set (y0 := vget (es_off es) start).
  eapply post_mono with (Q := fun st : N * N * eig_state N => es_shape n (snd st) /\ (bad (snd st) \/ tri_near (snd st) e (b + INR n * kap m))).
  { eapply post_for_brk with (I := fun i st => es_shape n (snd st) /\ (bad (snd st) \/ swf (b + INR (i - start) * kap m) i st)).
    - split; [exact hsh|]. cbn [snd]. destruct hor as [hbad|((he & hn & hqn) & hd)]; [left; auto|right]. unfold swf. cbn [fst snd].
      split; auto. split; [|split; [intros; lia|split]].
      + replace (start - start)%nat with 0%nat by lia. rewrite Rmult_0_l, Rplus_0_r. destruct (Nat.ltb_spec start start); [lia|]. cbn [andb].
        eapply near_ext; [|exact hn]. rewrite bulged_0. reflexivity.
      + intros _. destruct he as (g1 & g2). split; [|split; [apply g2; lia|exact hd]].
        destruct (shift_f m (vget (N:=FN) (es_diag es) (e - 1)) (vget (N:=FN) (es_diag es) e) (vget (N:=FN) (es_off es) (e - 1)) m1 m2) as [hnan|hok]; [apply g1; lia|apply g1; lia|apply g2; lia| |].
        * left. unfold x0. change (nsub FN (vget (N:=FN) (es_diag es) start) (@wilkinson_shift FN (vget (N:=FN) (es_diag es) (e - 1)) (vget (N:=FN) (es_diag es) e) (vget (N:=FN) (es_off es) (e - 1))) = S754_nan). rewrite hnan. apply nan_sub_r.
        * right. unfold x0. change (ent_ok cap (nsub FN (vget (N:=FN) (es_diag es) start) (@wilkinson_shift FN (vget (N:=FN) (es_diag es) (e - 1)) (vget (N:=FN) (es_diag es) e) (vget (N:=FN) (es_off es) (e - 1))))).
          pose proof big1000 as hb1. pose proof m2 as m2'. rewrite mbig_v in m2'. pose proof uro_pos as hu. pose proof uro_1024 as hu1.
          assert (a1 : apx (vget (N:=FN) (es_diag es) start) (fr (vget (N:=FN) (es_diag es) start)) (16 * m) 0) by (eapply apx_weak; [apply (ent_apx m); [auto|apply g1; lia]|lra|unfold amax_; lra]).
          assert (a2 := ent_apx (16 * m) _ ltac:(lra) hok).
          pose proof (apx_sub _ _ _ _ _ _ _ a1 a2 ltac:(unfold amax_; lra) ltac:(lra)) as a3. pose proof (apx_abs _ _ _ _ a3) as a4. destruct a3 as [k1 _ _ _ _]. split; auto.
          eapply Rle_trans; [exact a4|]. eapply Rle_trans; [|apply (bpow_le radix2 70 500); lia]. change (bpow radix2 70) with 1180591620717411303424. nra.
      + replace (start - start)%nat with 0%nat by lia. rewrite Rmult_0_l, Rplus_0_r. exact hqn.
    - intros i st hi (hsh' & hor'). assert (hINR : INR (i - start) + 1 <= INR n) by (rewrite <- S_INR; apply le_INR; lia).
      eapply post_mono; [apply (sweep_step_f (b + INR (i - start) * kap m)); auto; [lia|lia|nra]|].
      intros [go st']. cbn [fst snd]. intros (h1 & h2). destruct go.
      + split; auto. destruct h2 as [|h2]; [left; auto|right]. replace (S i - start)%nat with (S (i - start)) by lia. rewrite S_INR.
        replace (b + (INR (i - start) + 1) * kap m) with (b + INR (i - start) * kap m + kap m) by ring. exact h2.
      + split; auto. destruct h2 as [|(h2 & h3 & h4)]; [left; auto|right]. split; auto. split; [eapply near_weak; [|exact h3]; nra|eapply qn_weak; [|exact h4]; nra].
    - intros st (hsh' & hor'). split; auto. destruct hor' as [|hsw]; [left; auto|right]. replace (start + (e - start))%nat with e in hsw by lia.
      destruct hsw as (he & hn & _ & _ & hqn). split; auto. destruct (Nat.ltb_spec e e); [lia|]. rewrite andb_false_r in hn.
      assert (INR (e - start) <= INR n) by (apply le_INR; lia). split; [eapply near_weak; [|eapply near_ext; [|exact hn]; apply bulged_0]; nra|eapply qn_weak; [|exact hqn]; nra]. }
  intros [xy es1]. cbn [snd]. intros ((t1 & t2 & t3) & hor').
  step1. apply post_idx1; [lia|]. step1. apply post_idx1; [lia|]. step1. apply post_idx1; [lia|].
  destruct (nle N _ _) eqn:el.
  - step1. apply post_usub; [lia|]. apply post_ret. cbn [fst snd]. split; [split; [|split]; auto|]. split; [lia|]. destruct hor' as [|((g1 & g2) & hn & hqn)]; [left; auto|right].
    split; [split; auto|]. split; [|eapply qn_weak; [|exact hqn]; nra]. replace (b + (INR n + 1) * kap m) with (b + INR n * kap m + kap m) by ring.
    apply (drop_gen (frv (es_diag es1)) (gf e (es_off es1)) _ _ (e - 1)); auto.
    + intros j hj. unfold gf. bd; auto; lia.
    + unfold gf. bd. rewrite Rminus_0_r. apply (thr_le (vget (N:=FN) (es_diag es1) (e - 1)) (vget (N:=FN) (es_diag es1) e)); [apply g1; lia|apply g1; lia|apply g2; lia|right; exact el].
  - apply post_ret. cbn [fst snd]. split; [split; [|split]; auto|]. split; [lia|]. destruct hor' as [|(h1 & hn & hqn)]; [left; auto|right]. split; auto. split; [eapply near_weak; [|exact hn]; nra|eapply qn_weak; [|exact hqn]; nra].
Qed.
End Sweep.

(** ** The two by two case *)
Lemma two_exact j (d o : nat -> R) : (j + 1 < n)%nat -> (forall k, j = S k -> o k = 0) -> ((j + 2 < n)%nat -> o (j + 1)%nat = 0) ->
  exists G, orthogonal n G /\ mmul n G (mmul n (tridiag d o) (mtr G)) =[n, n]=
    tridiag (upd2 d j (ev1 (d j) (d (j + 1)%nat) (o j)) (ev2 (d j) (d (j + 1)%nat) (o j))) (upd0 o j).
Proof.
  intros hj h1 h2. set (l1 := ev1 _ _ _). set (l2 := ev2 _ _ _). set (a := l1 - d (j + 1)%nat). set (r := sqrt (a * a + o j * o j)).
  destruct (Req_dec (a * a + o j * o j) 0) as [ez|nz].
  - assert (pa : 0 <= a * a) by (pose proof (Rle_0_sqr a) as g; exact g). assert (po : 0 <= o j * o j) by (pose proof (Rle_0_sqr (o j)) as g; exact g).
    assert (a * a = 0) by lra. assert (ea : a = 0) by (destruct (Rmult_integral a a); auto). assert (o j * o j = 0) by lra. assert (eo : o j = 0) by (destruct (Rmult_integral (o j) (o j)); auto).
    assert (e1 : l1 = d (j + 1)%nat) by (unfold a in ea; lra). assert (e2 : l2 = d j) by (unfold l1, l2, ev1, ev2 in *; lra).
    exists (gm j (j + 1) 0 1). split; [apply gm_orthogonal; try lia; ring|].
    rewrite <- (bulged_0 d o j n). rewrite <- (bulged_0 (upd2 d j l1 l2) (upd0 o j) (j + 1) n). apply chase; auto.
    + intros k hk. rewrite (h1 k hk). unfold upd0. bd. rewrite (h1 k hk). split; ring.
    + unfold upd2. bd. rewrite e1. ring.
    + unfold upd2. bd. rewrite e2. ring.
    + unfold upd0. bd. rewrite eo. ring.
    + intros hh'. rewrite (h2 hh'). unfold upd0. bd. rewrite (h2 hh'). split; ring.
    + intros k k1 k2. unfold upd2. bd. auto.
    + intros k k1 k2 k3. unfold upd0. bd. auto.
  - assert (hp : 0 < a * a + o j * o j) by (pose proof (sqn a); pose proof (sqn (o j)); lra).
    assert (hr : r <> 0) by (apply Rgt_not_eq, sqrt_lt_R0; auto).
    assert (hrr : r * r = a * a + o j * o j) by (apply sqrt_sqrt; lra).
    assert (hcs : a / r * (a / r) + o j / r * (o j / r) = 1).
    { replace (a / r * (a / r) + o j / r * (o j / r)) with ((a * a + o j * o j) / (r * r)) by (field; auto). rewrite hrr. field. lra. }
    exists (gm j (j + 1) (a / r) (- (o j / r))). split; [apply gm_orthogonal; try lia; lra|].
    apply (two_conj n j d o (a / r) (o j / r) r hj h1 h2); auto; fold l1 a; field; auto.
Qed.

Lemma eig2_nan_l (o d : FN) : @compute_2x2_eigvals FN S754_nan o o d = None.
Proof. unfold compute_2x2_eigvals. generalize (nmul FN o o). intros z. destruct z; reflexivity. Qed.
Lemma eig2_nan_r (o d : FN) : @compute_2x2_eigvals FN d o o S754_nan = None.
Proof. unfold compute_2x2_eigvals. rewrite nan_sub_r. generalize (nmul FN o o). intros z. destruct z; reflexivity. Qed.

(** The rotation made from two numbers *)
Lemma try_new_f (c s : FN) : fokx c -> fokx s -> Rabs (fr c) <= cap -> Rabs (fr s) <= cap ->
  match @try_new N c s (nepsilon N) with
  | None => True
  | Some (g, _) => exists C S, apx (MBase.rc g) C 1 6 /\ apx (MBase.rs g) S 1 6 /\ C * C + S * S = 1
  end.
Proof.
  intros hc hs bc bs. unfold try_new. change (nhypot N c s) with (h c s). change (nlt N (nepsilon N) (h c s)) with (nlt FN (nepsilon FN) (h c s)).
  destruct hh as (h1 & _). destruct (h1 c s (proj1 hc) (proj2 hc) (proj1 hs) (proj2 hs) bc bs) as [e|(r1 & r2 & r3)]; [rewrite e; exact I|].
  destruct (nlt FN (nepsilon FN) (h c s)) eqn:el; [|exact I]. cbn [MBase.rc MBase.rs].
  assert (he : fokx (nepsilon FN)) by (split; vm_compute; reflexivity).
  apply (ltb_fr _ _ he (conj r1 r2)) in el. rewrite fr_eps in el. pose proof uro_pos as hu. pose proof uro_1024 as hu1.
  set (r := sqrt (fr c * fr c + fr s * fr s)) in *. assert (hr0 : 0 <= r) by apply sqrt_pos.
  assert (hp : 0 < r). { apply Rabs_le_inv in r3. destruct (Rle_lt_or_eq_dec 0 r hr0) as [|e0]; auto. rewrite <- e0 in r3. lra. }
  assert (er : r * r = fr c * fr c + fr s * fr s) by apply hyp_sq.
  assert (le1 : Rabs (fr c) <= r) by (apply Rabs_le_of_sq; [lra|]; pose proof (Rle_0_sqr (fr s)) as q; unfold Rsqr in q; lra).
  assert (le2 : Rabs (fr s) <= r) by (apply Rabs_le_of_sq; [lra|]; pose proof (Rle_0_sqr (fr c)) as q; unfold Rsqr in q; lra).
  exists (fr c / r), (fr s / r). split; [apply quot_apx; auto; split; auto|]. split; [apply quot_apx; auto; split; auto|].
  replace (fr c / r * (fr c / r) + fr s / r * (fr s / r)) with ((fr c * fr c + fr s * fr s) / (r * r)) by (field; lra). rewrite <- er. field. lra.
Qed.

Lemma two_f start b es r : (start + 1 < n)%nat -> es_shape n es -> b + kap m <= m / 2 ->
  (bad es \/ (tri_near es (start + 1) b /\ ((0 < start)%nat -> frv (es_off es) (start - 1) = 0))) ->
  eig_two (N:=N) start (start + 1) (nepsilon N) es = Ret r ->
  es_shape n (fst r) /\ snd r = start /\ (bad (fst r) \/ tri_near (fst r) start (b + kap m)).
Proof.
  intros hs hsh hb hor hrun. pose proof hsh as (s1 & s2 & s3). destruct es as [d o q]. cbn [es_diag es_off es_q] in *.
  unfold eig_two in hrun. cbn [es_diag es_off es_q] in hrun.
  apply bind_ret in hrun as (d0 & e0 & hrun). apply bind_ret in hrun as (oo & eo & hrun). apply bind_ret in hrun as (d1 & e1 & hrun).
  assert (x0 : d0 = vget (N:=FN) d start) by (eapply (post_inv (idx1 (N:=N) d start) (fun v => v = vget (N:=N) d start) noE False); [apply post_idx1; [lia|reflexivity]|exact e0]).
  assert (x1 : d1 = vget (N:=FN) d (start + 1)) by (eapply (post_inv (idx1 (N:=N) d (start + 1)) (fun v => v = vget (N:=N) d (start + 1)) noE False); [apply post_idx1; [lia|reflexivity]|exact e1]).
  assert (xo : oo = vget (N:=FN) o start) by (eapply (post_inv (idx1 (N:=N) o start) (fun v => v = vget (N:=N) o start) noE False); [apply post_idx1; [lia|reflexivity]|exact eo]).
  clear e0 e1 eo.
  change (@compute_2x2_eigvals N d0 oo oo d1) with (@compute_2x2_eigvals FN d0 oo oo d1) in hrun.
  destruct (@compute_2x2_eigvals FN d0 oo oo d1) as [[l1 l2]|] eqn:ec; [|discriminate hrun]. cbn [unwrap_opt bind] in hrun.
  assert (kp0 : 0 <= kap m) by (unfold kap; pose proof uro_pos; nra).
  assert (hqor : bad (ES d o q) \/ (qn q b /\ fokx (nsub FN l1 d1) /\ fokx oo /\ Rabs (fr (nsub FN l1 d1)) <= cap /\ Rabs (fr oo) <= cap)).
  { destruct hor as [hbad|(((g1 & g2) & _ & hqn) & _)]; [left; exact hbad|right]. cbn [es_diag es_off es_q] in g1, g2, hqn. split; [exact hqn|].
    assert (kd1 : ent_ok m d1) by (rewrite x1; apply g1; lia). assert (ko : ent_ok m oo) by (rewrite xo; apply g2; lia).
    destruct (eig2_f m d0 d1 oo m1 m2) as (l1' & l2' & ec' & a1 & _); [rewrite x0; apply g1; lia|auto|auto|].
    rewrite ec in ec'. injection ec' as <- <-. assert (hcap : m <= cap) by (eapply Rle_trans; [exact m2|]; unfold mbig, cap; apply bpow_le; lia). pose proof big1000 as hb1. pose proof m2 as m2'. rewrite mbig_v in m2'. pose proof uro_pos as hu. pose proof uro_1024 as hu1.
    assert (a2 : apx d1 (fr d1) (4 * m) 15) by (eapply apx_weak; [apply (ent_apx m); auto|lra|unfold amax_; lra]).
    pose proof (apx_sub _ _ _ _ _ _ _ a1 a2 ltac:(unfold amax_; lra) ltac:(lra)) as a3. pose proof (apx_abs _ _ _ _ a3) as a4. destruct a3 as [k1 _ _ _ _].
    split; auto. split; [apply ko|]. split; [|destruct ko; lra]. eapply Rle_trans; [exact a4|]. eapply Rle_trans; [|apply (bpow_le radix2 70 500); lia]. change (bpow radix2 70) with 1180591620717411303424. nra. }
  assert (hc : exists q', r = (ES (vupd (N:=N) (vupd (N:=N) d start l1) (start + 1) l2) o q', start) /\ q_shape n q' /\ (bad (ES d o q) \/ qn q' (b + kap m))).
  { revert hrun. apply (post_inv _ (fun r => exists q', r = (ES (vupd (N:=N) (vupd (N:=N) d start l1) (start + 1) l2) o q', start) /\ q_shape n q' /\ (bad (ES d o q) \/ qn q' (b + kap m))) noE False).
    step1. apply post_set1; [lia|]. step1. apply post_set1; [dims; lia|]. step1.
    eapply post_mono with (Q := fun q' => q_shape n q' /\ (bad (ES d o q) \/ qn q' (b + kap m))).
    - assert (hskip : q_shape n q /\ (bad (ES d o q) \/ qn q (b + kap m))).
      { split; [exact s3|]. destruct hqor as [hq|(hq & _)]; [left; auto|right]. eapply qn_weak; [|exact hq]. lra. }
      destruct q as [q|]; [|apply post_ret; exact hskip].
      change (nsub N l1 d1) with (nsub FN l1 d1).
      assert (htn : bad (ES d o (Some q)) \/ (qn (Some q) b /\ match @try_new N (nsub FN l1 d1) oo (nepsilon N) with None => True | Some (g, _) => exists C S, apx (MBase.rc g) C 1 6 /\ apx (MBase.rs g) S 1 6 /\ C * C + S * S = 1 end)).
      { destruct hqor as [hq|(hq & t1 & t2 & t3 & t4)]; [left; auto|right]. split; auto. apply try_new_f; auto. }
      destruct (@try_new N (nsub FN l1 d1) oo (nepsilon N)) as [[rot nn]|]; [|apply post_ret; auto].
      destruct htn as [hbad|(hqn & C & S & aC & aS & eCS)].
      + apply (rotate_q2 rot (Some q) b start (bad (ES d o (Some q))) 0 0); auto. lra.
      + apply (rotate_q2 rot (Some q) b start (bad (ES d o (Some q))) C S); auto. lra.
    - intros q' hq'. step1. apply post_usub; [lia|]. apply post_ret. exists q'. split; [|auto]. f_equal. lia. }
  destruct hc as (q' & -> & hq' & hqn'). clear hrun hqor. cbn [fst snd].
  set (d2 := vupd (vupd d start l1) (start + 1) l2).
  assert (hd2 : forall j, (j < n)%nat -> vget (N:=FN) d2 j = if Nat.eqb j start then l1 else if Nat.eqb j (start + 1) then l2 else vget (N:=FN) d j).
  { intros j hj. change (vget (N:=FN) d2 j) with (vget (N:=N) d2 j). unfold d2. rewrite !vget_vupd by (dims; lia). bd; auto; lia. }
  assert (ld2 : length d2 = n) by (unfold d2; dims; auto).
  split; [split; [|split]; auto|]. split; auto.
  destruct hor as [(k & hk & ek)|(((g1 & g2) & hn & hqn) & hdead)].
  - left. cbn [es_diag] in ek. exists k. split; auto. cbn [es_diag]. rewrite hd2 by auto.
    destruct (Nat.eqb_spec k start) as [->|]; [|destruct (Nat.eqb_spec k (start + 1)) as [->|]]; [| |exact ek].
    + exfalso. rewrite x0, ek in ec. rewrite eig2_nan_l in ec. discriminate ec.
    + exfalso. rewrite x1, ek in ec. rewrite eig2_nan_r in ec. discriminate ec.
  - right. cbn [es_diag es_off] in g1, g2, hn.
    destruct (eig2_f m d0 d1 oo m1 m2) as (l1' & l2' & ec' & a1 & a2); [rewrite x0; apply g1; lia|rewrite x1; apply g1; lia|rewrite xo; apply g2; lia|].
    rewrite ec in ec'. injection ec' as <- <-. apply apx_err in a1 as (k1 & er1). apply apx_err in a2 as (k2 & er2).
    set (t := 80 * uro * m). assert (ht : 0 <= t /\ 15 * uro * (4 * m) <= t) by (unfold t; pose proof uro_pos; split; nra). destruct ht as (ht & ht2).
    set (D := frv d) in *. set (O := gf (start + 1) o) in *.
    assert (eO : O start = fr oo) by (unfold O, gf, frv; bd; rewrite xo; reflexivity).
    assert (eD0 : D start = fr d0) by (unfold D, frv; rewrite x0; reflexivity). assert (eD1 : D (start + 1)%nat = fr d1) by (unfold D, frv; rewrite x1; reflexivity).
    destruct (two_exact start D O hs) as (G & hG & eG).
    { intros k hk. unfold O, gf. bd. replace k with (start - 1)%nat by lia. apply hdead. lia. }
    { intros _. unfold O, gf. bd. auto. }
    rewrite eD0, eD1, eO in eG.
    assert (hnear : near n T0 (tridiag (frv d2) (gf start o)) (b + kap m)).
    { apply (near_move n T0 (tridiag D O) _ G); auto.
      rewrite (frob_ext n n _ (msub (bulged (upd2 D start (ev1 (fr d0) (fr d1) (fr oo)) (ev2 (fr d0) (fr d1) (fr oo))) (upd0 O start) 0 (start + 1)) (bulged (frv d2) (gf start o) 0 (start + 1)))).
      - eapply Rle_trans; [apply (bulged_window n start _ _ _ _ _ _ t); auto|right; unfold kap, t; ring].
        + intros j. unfold upd2. destruct (Nat.eqb_spec j start) as [->|ne1]; cbn [orb]; [|destruct (Nat.eqb_spec j (start + 1)) as [->|ne2]].
          * unfold frv. rewrite hd2, Nat.eqb_refl by lia. rewrite Rabs_minus_sym. lra.
          * unfold frv. rewrite hd2 by lia. bd. rewrite Rabs_minus_sym. lra.
          * right. assert (ee : vget (N:=FN) d2 j = vget (N:=FN) d j).
            { destruct (le_lt_dec n j) as [hj|hj].
              - assert (z1 : vget (N:=FN) d j = n0 FN) by (apply nth_overflow; exact (Nat.le_trans _ _ _ (Nat.eq_le_incl _ _ s1) hj)).
                assert (z2 : vget (N:=FN) d2 j = n0 FN) by (apply nth_overflow; exact (Nat.le_trans _ _ _ (Nat.eq_le_incl _ _ ld2) hj)). rewrite z1, z2. auto.
              - rewrite hd2 by auto. bd. auto. }
            unfold D, frv. rewrite ee, Rminus_diag_eq, Rabs_R0 by reflexivity. auto.
        + intros j. assert (ee : upd0 O start j = gf start o j) by (unfold upd0, O, gf; bd; auto; lia). rewrite ee, Rminus_diag_eq, Rabs_R0 by reflexivity. destruct (_ || _); lra.
        + rewrite Rminus_0_r, Rabs_R0. auto.
      - intros p q0 hp hq0. unfold msub. rewrite (eG p q0 hp hq0). rewrite (bulged_0 _ _ (start + 1) n p q0 hp hq0), (bulged_0 (frv d2) (gf start o) (start + 1) n p q0 hp hq0). reflexivity. }
    split; [split; cbn [es_diag es_off]; [|exact g2]|split; [exact hnear|]].
    2:{ cbn [es_q]. destruct hqn' as [(k & hk & ek)|hqn']; [|exact hqn']. exfalso. cbn [es_diag] in ek. destruct (g1 k hk) as ((_ & gf1) & _). rewrite ek in gf1. discriminate gf1. }
    intros j hj. split; [rewrite hd2 by auto; bd; auto; apply g1; auto|].
    pose proof (near_entry _ _ j j hb hnear hj hj) as hle. unfold tridiag in hle. rewrite Nat.eqb_refl in hle. exact hle.
Qed.

(** ** Delimiting *)
Definition LIf (s e : nat) (es : eig_state N) (b : R) : Prop :=
  es_shape n es /\ (e < n)%nat /\ ((s < e)%nat \/ (s = 0 /\ e = 0)%nat) /\
  (bad es \/ (tri_near es e b /\ ((0 < s)%nat -> frv (es_off es) (s - 1) = 0))).

Lemma drop_range d o cnt : forall k b, (forall j, (k <= j < k + cnt)%nat -> Rabs (frv o j) <= 80 * uro * m) ->
  near n T0 (tridiag d (gf (k + cnt) o)) b -> near n T0 (tridiag d (gf k o)) (b + INR cnt * kap m).
Proof.
  induction cnt as [|cnt IH]; intros k b h1 hn.
  - replace (k + 0)%nat with k in hn by lia. rewrite Rmult_0_l, Rplus_0_r. exact hn.
  - rewrite S_INR. replace (b + (INR cnt + 1) * kap m) with ((b + kap m) + INR cnt * kap m) by ring. apply IH; [intros; apply h1; lia|].
    apply (drop_gen d (gf (k + S cnt) o) _ _ (k + cnt)); auto.
    + intros j hj. unfold gf. bd; auto; lia.
    + unfold gf. bd. rewrite Rminus_0_r. apply h1. lia.
Qed.

Lemma delimit_f e es b : es_shape n es -> (e < n)%nat -> b + (INR n + 1) * kap m <= m / 2 -> (bad es \/ tri_near es e b) ->
  wp (delimit_subproblem (N:=N) (es_diag es) (es_off es) e (nepsilon N))
     (fun r => LIf (fst (fst r)) (snd (fst r)) (ES (es_diag es) (snd r) (es_q es)) (b + (INR n + 1) * kap m)).
Proof.
  intros (s1 & s2 & s3) he hb hor. assert (kp : 0 <= kap m) by (unfold kap; pose proof uro_pos; nra).
  eapply post_mono; [apply delimit_ok; lia|]. intros [[s k] off']. cbn [fst snd]. intros (g1 & g2 & g3 & g4 & g5 & g6).
  split; [split; [|split]; cbn [es_diag es_off es_q]; auto; lia|]. split; [lia|]. split.
  { destruct (Nat.eq_dec k 0) as [ek|nk]; [right; split; auto; apply g5; auto|left; apply g6; lia]. }
  destruct hor as [hbad|((h1 & h2) & hn & hqn)]; [left; exact hbad|right].
  assert (hnk : near n T0 (tridiag (frv (es_diag es)) (gf k (es_off es))) (b + INR (e - k) * kap m)).
  { apply drop_range.
    - intros j hj. specialize (g4 j ltac:(lia)). apply (thr_le (vget (N:=FN) (es_diag es) (S j)) (vget (N:=FN) (es_diag es) j)); [apply h1; lia|apply h1; lia|apply h2; lia|left; exact g4].
    - replace (k + (e - k))%nat with e by lia. exact hn. }
  assert (hINR : INR (e - k) <= INR n) by (apply le_INR; lia).
  assert (hnk0 : 0 <= INR n * kap m) by (apply Rmult_le_pos; auto; apply pos_INR).
  assert (hsame : off' = es_off es -> s = 0%nat -> tri_near (ES (es_diag es) off' (es_q es)) k (b + (INR n + 1) * kap m) /\ ((0 < s)%nat -> frv off' (s - 1) = 0)).
  { intros -> ->. split; [|lia]. split; [split; auto|]. cbn [es_diag es_off]. split; [eapply near_weak; [|exact hnk]; nra|eapply qn_weak; [|exact hqn]; lra]. }
  destruct (Nat.eq_dec k 0) as [ek|nk]; [destruct (g5 ek); auto|].
  destruct (g6 ltac:(lia)) as (g7 & g8 & g9 & [(es0 & eo)|(ps & hneg & eo)]); [auto|].
  assert (hov : forall j, (j < n - 1)%nat -> vget (N:=FN) off' j = if Nat.eqb j (s - 1) then n0 FN else vget (N:=FN) (es_off es) j).
  { intros j hj. rewrite eo. change (vget (N:=FN) (vupd (N:=N) (es_off es) (s - 1) (n0 N)) j) with (vget (N:=N) (vupd (N:=N) (es_off es) (s - 1) (n0 N)) j). rewrite vget_vupd by lia. reflexivity. }
  cbn [es_off]. split.
  - split; cbn [es_diag es_off].
    + split; auto. cbn [es_off]. intros j hj. rewrite hov by auto. bd; [|apply h2; auto]. split; [split; reflexivity|]. rewrite fr_0, Rabs_R0. lra.
    + split; [|eapply qn_weak; [|exact hqn]; lra]. apply near_weak with (b + INR (e - k) * kap m + kap m); [nra|]. apply (drop_gen _ (gf k (es_off es)) _ _ (s - 1)); auto.
      * intros j hj. unfold gf, frv. bd; auto. rewrite hov by lia. bd. auto.
      * unfold gf, frv. bd. rewrite hov by lia. rewrite Nat.eqb_refl, fr_0, Rminus_0_r.
        unfold negl in hneg. apply orb_prop in hneg as [hz|hle].
        -- change (nis_zero FN (vget (N:=FN) (es_off es) (s - 1)) = true) in hz. rewrite (zero_fr _ hz), Rabs_R0. pose proof uro_pos. nra.
        -- apply (thr_le (vget (N:=FN) (es_diag es) (S (s - 1))) (vget (N:=FN) (es_diag es) (s - 1))); [apply h1; lia|apply h1; lia|apply h2; lia|right; exact hle].
  - intros _. unfold frv. rewrite hov by lia. rewrite Nat.eqb_refl. apply fr_0.
Qed.

(** ** The loop *)
Lemma loop_f : forall fuel s e es b es', LIf s e es b -> b + INR fuel * ((2 * INR n + 2) * kap m) <= m / 2 ->
  eig_loop (N:=N) fuel (nepsilon N) s e es = Ret es' ->
  es_shape n es' /\ (bad es' \/ (ents es' /\ near n T0 (tridiag (frv (es_diag es')) (fun _ => 0)) (b + INR fuel * ((2 * INR n + 2) * kap m)) /\ qn (es_q es') (b + INR fuel * ((2 * INR n + 2) * kap m)))).
Proof.
  assert (kp : 0 <= kap m) by (unfold kap; pose proof uro_pos; nra).
  assert (cp : 0 <= (2 * INR n + 2) * kap m) by (apply Rmult_le_pos; auto; pose proof (pos_INR n); lra).
  induction fuel as [|fuel IH]; intros s e es b es' (hsh & hen & hor & hst) hb hrun;
  (match goal with |- context [INR ?f * ((2 * INR n + 2) * kap m)] => set (fuel0 := f) in |- * end); cbn [eig_loop] in hrun;
  (destruct (Nat.eqb_spec e s) as [es0|hne];
   [injection hrun as <-; split; auto; destruct hst as [|((h1 & h2 & h3) & _)]; [left; auto|right; split; auto];
    assert (hle : b <= b + INR fuel0 * ((2 * INR n + 2) * kap m)) by (assert (0 <= INR fuel0 * ((2 * INR n + 2) * kap m)) by (apply Rmult_le_pos; auto; apply pos_INR); lra);
    (split; [|eapply qn_weak; [exact hle|exact h3]]);
    eapply near_weak; [exact hle|eapply near_ext; [|exact h2]]; apply tridiag_ext; auto; intros j hj; unfold gf; bd; auto; lia|]).
  - discriminate.
  - rewrite S_INR in hb. pose proof (pos_INR fuel) as hpf. pose proof (pos_INR n) as hpn.
    assert (hfp : 0 <= INR fuel * ((2 * INR n + 2) * kap m)) by (apply Rmult_le_pos; auto).
    assert (hnp : 0 <= INR n * kap m) by (apply Rmult_le_pos; auto).
    assert (hb1 : b + (INR n + 1) * kap m + (INR n + 1) * kap m + INR fuel * ((2 * INR n + 2) * kap m) <= m / 2) by lra.
    apply bind_ret in hrun as (dd & ed & hrun). assert (edd : dd = (e - s)%nat) by (eapply (post_inv (usub e s) (fun v => v = (e - s)%nat) noE False); [apply post_usub; [lia|reflexivity]|exact ed]). subst dd. clear ed.
    apply bind_ret in hrun as ([es1 e1] & estep & hrun).
    assert (hstep : es_shape n es1 /\ (e1 < n)%nat /\ (bad es1 \/ tri_near es1 e1 (b + (INR n + 1) * kap m))).
    { destruct (Nat.ltb_spec 2 (S (e - s))) as [h2|h2].
      - apply (post_inv _ _ _ _ _ (big_f s e ltac:(lia) hen ltac:(lia) b es hsh ltac:(lra) hst) estep).
      - destruct (Nat.eqb_spec (S (e - s)) 2) as [h3|h3]; [|lia]. assert (ee : e = (s + 1)%nat) by lia. subst e.
        destruct (two_f s b es (es1, e1) ltac:(lia) hsh ltac:(lra) hst estep) as (k1 & k2 & k3). cbn [fst snd] in *. split; auto. split; [lia|].
        destruct k3 as [|(k3 & k4 & k5)]; [left; auto|right]. subst e1. split; auto. split; [eapply near_weak; [|exact k4]; lra|eapply qn_weak; [|exact k5]; lra]. }
    destruct hstep as (k1 & k2 & k3).
    apply bind_ret in hrun as ([[s' e'] off'] & edl & hrun).
    pose proof (post_inv _ _ _ _ _ (delimit_f e1 es1 (b + (INR n + 1) * kap m) k1 k2 ltac:(lra) k3) edl) as hli. cbn [fst snd] in hli.
    destruct (IH _ _ _ _ _ hli hb1 hrun) as (r1 & r2). split; auto. destruct r2 as [|(r2 & r3 & r4)]; [left; auto|right; split; auto]. unfold fuel0. rewrite S_INR.
    split; [eapply near_weak; [|exact r3]; lra|eapply qn_weak; [|exact r4]; lra].
Qed.
End Run.
