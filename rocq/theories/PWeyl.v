(** * Weyl's perturbation bounds: close symmetric matrices have close eigenvalues, close matrices
    have close singular values, position by position in sorted order *)
From Coq Require Import Reals List Arith Lia Lra Bool Setoid Morphisms.
From Verif Require Import Scalar Arr MEigh Spec RLin PSort PEighR PHouseF PQRG PQRS PTrdF PEigF.
Local Open Scope R_scope.

(** ** k homogeneous equations in k + 1 unknowns *)
Definition sk (p j : nat) : nat := if Nat.ltb j p then j else S j.
Lemma Rsum_sk k p (f : nat -> R) : (p <= k)%nat -> Rsum (S k) f = f p + Rsum k (fun j => f (sk p j)).
Proof.
  intros hp. induction k as [|k IH].
  - assert (p = 0%nat) as -> by lia. cbn [Rsum]. lra.
  - destruct (Nat.eq_dec p (S k)) as [->|ne].
    + rewrite (Rsum_ext (S k) (fun j => f (sk (S k) j)) f) by (intros i hi; unfold sk; destruct (Nat.ltb_spec i (S k)); [reflexivity|lia]). cbn [Rsum]. lra.
    + change (Rsum (S (S k)) f) with (Rsum (S k) f + f (S k)). rewrite IH by lia. cbn [Rsum]. replace (sk p k) with (S k) by (unfold sk; destruct (Nat.ltb_spec k p); [lia|reflexivity]). lra.
Qed.
Lemma row_dec k (f : nat -> R) : (forall j, (j < k)%nat -> f j = 0) \/ exists p, (p < k)%nat /\ f p <> 0.
Proof.
  induction k as [|k [IH|(p & h1 & h2)]]; [left; intros; lia| |right; exists p; split; auto].
  destruct (Req_dec (f k) 0) as [e|e]; [left|right; exists k; auto]. intros j hj. destruct (Nat.eq_dec j k) as [->|]; [auto|apply IH; lia].
Qed.
Lemma null_vec k : forall m : nat -> nat -> R, exists t, (exists j, (j <= k)%nat /\ t j <> 0) /\ forall i, (i < k)%nat -> Rsum (S k) (fun j => m i j * t j) = 0.
Proof.
  induction k as [|k IH]; intros m; [exists (fun _ => 1); split; [exists 0%nat; split; [lia|lra]|intros; lia]|].
  destruct (row_dec (S (S k)) (m k)) as [hz|(p & hp & hm)].
  - destruct (IH m) as (t & (j & hj & ht) & hs). exists (fun i => if Nat.leb i k then t i else 0). split; [exists j; split; [lia|]; destruct (Nat.leb_spec j k); [auto|lia]|].
    intros i hi. destruct (Nat.eq_dec i k) as [->|ne]; [apply Rsum_0; intros l hl; rewrite hz by auto; ring|].
    change (Rsum (S (S k)) (fun j0 => m i j0 * (if Nat.leb j0 k then t j0 else 0))) with (Rsum (S k) (fun j0 => m i j0 * (if Nat.leb j0 k then t j0 else 0)) + m i (S k) * (if Nat.leb (S k) k then t (S k) else 0)).
    destruct (Nat.leb_spec (S k) k); [lia|]. rewrite (Rsum_ext _ _ (fun l => m i l * t l)) by (intros l hl; destruct (Nat.leb_spec l k); [reflexivity|lia]). rewrite hs by lia. ring.
  - destruct (IH (fun i j => m i (sk p j) - m i p * m k (sk p j) / m k p)) as (t & (j & hj & ht) & hs).
    set (tp := - Rsum (S k) (fun j => m k (sk p j) * t j) / m k p).
    set (w := fun i => if Nat.eqb i p then tp else if Nat.ltb i p then t i else t (i - 1)%nat).
    assert (hw : forall l, w (sk p l) = t l).
    { intros l. unfold w, sk. destruct (Nat.ltb_spec l p).
      - destruct (Nat.eqb_spec l p); [lia|]. destruct (Nat.ltb_spec l p); [reflexivity|lia].
      - destruct (Nat.eqb_spec (S l) p); [lia|]. destruct (Nat.ltb_spec (S l) p); [lia|]. f_equal. lia. }
    assert (hwp : w p = tp) by (unfold w; rewrite Nat.eqb_refl; reflexivity).
    exists w. split; [exists (sk p j); split; [unfold sk; destruct (Nat.ltb_spec j p); lia|rewrite hw; auto]|].
    intros i hi. rewrite (Rsum_sk (S k) p) by lia. rewrite hwp. rewrite (Rsum_ext (S k) _ (fun l => m i (sk p l) * t l)) by (intros l hl; rewrite hw; reflexivity).
    destruct (Nat.eq_dec i k) as [->|ne]; [unfold tp; field; auto|].
    specialize (hs i ltac:(lia)). rewrite (Rsum_ext (S k) _ (fun l => m i (sk p l) * t l - m i p / m k p * (m k (sk p l) * t l))) in hs by (intros l hl; field; auto).
    rewrite Rsum_minus, Rsum_scal_l in hs. unfold tp. assert (e : forall a b c, c <> 0 -> a * (- b / c) = - (a / c * b)) by (intros; field; auto). rewrite e by auto. lra.
Qed.

(** ** Products with orthonormal columns *)
Lemma mv_fac c d (P Q : M) (l x : nat -> R) i :
  Rsum c (fun j => mmul d P (mmul d (mdiag l) (mtr Q)) i j * x j) = Rsum d (fun k => P i k * (l k * Rsum c (fun j => Q j k * x j))).
Proof.
  rewrite (Rsum_ext c _ (fun j => Rsum d (fun k => P i k * (l k * (Q j k * x j))))).
  - rewrite Rsum_swap. apply Rsum_ext. intros k hk. rewrite <- !Rsum_scal_l. apply Rsum_ext. intros j hj. ring.
  - intros j hj. unfold mmul at 1. rewrite <- Rsum_scal_r. apply Rsum_ext. intros k hk.
    assert (e : mmul d (mdiag l) (mtr Q) k j = l k * Q j k).
    { unfold mmul, mdiag, mtr. rewrite (Rsum_single d k); auto; [rewrite Nat.eqb_refl; ring|intros u hu hne; destruct (Nat.eqb_spec k u); [congruence|ring]]. }
    rewrite e. ring.
Qed.
Lemma bessel c d (Q : M) x : orthonormal_cols c d Q -> vn d (fun k => Rsum c (fun j => Q j k * x j)) <= vn c x.
Proof.
  intros hQ. set (z := fun k => Rsum c (fun j => Q j k * x j)).
  assert (h1 : vn d z * vn d z <= vn c x * vn d z).
  { rewrite (vn_sq d z). rewrite (Rsum_ext d _ (fun k => Rsum c (fun j => z k * (Q j k * x j)))) by (intros k hk; unfold z at 2; rewrite Rsum_scal_l; reflexivity).
    rewrite Rsum_swap. rewrite (Rsum_ext c _ (fun j => x j * Rsum d (fun k => Q j k * z k))) by (intros j hj; rewrite <- Rsum_scal_l; apply Rsum_ext; intros; ring).
    eapply Rle_trans; [apply Rle_abs|]. eapply Rle_trans; [apply vn_dot|]. rewrite (vn_ocols c d Q z hQ). lra. }
  pose proof (vn_nonneg d z) as h2. destruct h2 as [h2|h2]; [apply (Rmult_le_reg_r (vn d z)); auto|rewrite <- h2; apply vn_nonneg].
Qed.
(** a nonzero combination of the first k+1 columns of Q orthogonal to the first k columns of Q' *)
Lemma pick c d (Q Q' : M) k : orthonormal_cols c d Q -> (k < d)%nat -> exists t x,
  (forall j, (k < j)%nat -> t j = 0) /\ (forall i, (i < c)%nat -> x i = Rsum d (fun l => Q i l * t l)) /\ 0 < vn c x /\ vn c x = vn d t /\
  (forall l, (l < d)%nat -> Rsum c (fun i => Q i l * x i) = t l) /\ (forall i, (i < k)%nat -> Rsum c (fun j => Q' j i * x j) = 0).
Proof.
  intros hQ hk. destruct (null_vec k (fun i l => Rsum c (fun j => Q' j i * Q j l))) as (t0 & (j0 & hj0 & ht0) & hs).
  set (t := fun l => if Nat.leb l k then t0 l else 0). set (x := fun i => Rsum d (fun l => Q i l * t l)). exists t, x.
  assert (hv : vn c x = vn d t) by (apply (vn_ocols c d Q t hQ)).
  split; [intros j hj; unfold t; destruct (Nat.leb_spec j k); [lia|auto]|]. split; [reflexivity|].
  split.
  { rewrite hv. assert (ht : t j0 <> 0) by (unfold t; destruct (Nat.leb_spec j0 k); [auto|lia]). eapply Rlt_le_trans; [apply (Rabs_pos_lt _ ht)|]. apply (vn_entry d t j0). lia. }
  split; [exact hv|]. split.
  - intros l hl. unfold x. rewrite (Rsum_ext c _ (fun i => Rsum d (fun u => (Q i l * Q i u) * t u))) by (intros i hi; rewrite <- Rsum_scal_l; apply Rsum_ext; intros; ring).
    rewrite Rsum_swap. rewrite (Rsum_ext d _ (fun u => mid l u * t u)).
    + rewrite (Rsum_single d l); auto; [unfold mid; rewrite Nat.eqb_refl; ring|intros u hu hne; unfold mid; destruct (Nat.eqb_spec l u); [congruence|ring]].
    + intros u hu. rewrite Rsum_scal_r. f_equal. apply (hQ l u hl hu).
  - intros i hi. rewrite (Rsum_ext c _ (fun j => Rsum d (fun l => (Q' j i * Q j l) * t l))) by (intros j hj; unfold x; rewrite <- Rsum_scal_l; apply Rsum_ext; intros; ring).
    rewrite Rsum_swap. rewrite (Rsum_ext d _ (fun l => if Nat.ltb l (S k) then Rsum c (fun j => Q' j i * Q j l) * t0 l else 0)).
    + rewrite Rsum_if_lt by lia. apply (hs i hi).
    + intros l hl. rewrite Rsum_scal_r. unfold t. destruct (Nat.leb_spec l k), (Nat.ltb_spec l (S k)); try lia; ring.
Qed.

(** ** Singular values *)
Definition nonincreasing (d : nat) (s : nat -> R) : Prop := forall k l, (k <= l)%nat -> (l < d)%nat -> s l <= s k.
Lemma weyl_sv_1 r c d A B (P Q P' Q' : M) s s' b : orthonormal_cols r d P -> orthonormal_cols c d Q -> orthonormal_cols r d P' -> orthonormal_cols c d Q' ->
  nonincreasing d s -> nonincreasing d s' -> (forall k, (k < d)%nat -> 0 <= s k) -> (forall k, (k < d)%nat -> 0 <= s' k) ->
  A =[r, c]= mmul d P (mmul d (mdiag s) (mtr Q)) -> B =[r, c]= mmul d P' (mmul d (mdiag s') (mtr Q')) -> frob r c (msub A B) <= b ->
  forall k, (k < d)%nat -> s k - s' k <= b.
Proof.
  intros hP hQ hP' hQ' hs hs' h0 h0' eA eB hb k hk.
  destruct (pick c d Q Q' k hQ hk) as (t & x & t1 & hx & hx0 & hxt & t2 & t3).
  assert (a1 : s k * vn c x <= vn r (fun i => Rsum c (fun j => A i j * x j))).
  { rewrite (vn_ext r _ (fun i => Rsum d (fun l => P i l * (s l * t l)))).
    - rewrite (vn_ocols r d P (fun l => s l * t l) hP). rewrite hxt. rewrite <- (Rabs_pos_eq (s k)) by auto. rewrite <- vn_scal. apply vn_le.
      intros l hl. destruct (Nat.le_gt_cases l k) as [hlk|hlk]; [|rewrite t1 by auto; rewrite !Rmult_0_r; lra].
      rewrite !Rabs_mult. apply Rmult_le_compat_r; [apply Rabs_pos|]. specialize (hs l k hlk hk). rewrite !Rabs_pos_eq; auto.
    - intros i hi. rewrite (Rsum_ext c _ (fun j => mmul d P (mmul d (mdiag s) (mtr Q)) i j * x j)) by (intros j hj; rewrite (eA i j hi hj); reflexivity).
      rewrite mv_fac. apply Rsum_ext. intros l hl. rewrite t2 by auto. reflexivity. }
  assert (a2 : vn r (fun i => Rsum c (fun j => B i j * x j)) <= s' k * vn c x).
  { rewrite (vn_ext r _ (fun i => Rsum d (fun l => P' i l * (s' l * Rsum c (fun j => Q' j l * x j))))).
    - rewrite (vn_ocols r d P' (fun l => s' l * Rsum c (fun j => Q' j l * x j)) hP'). apply Rle_trans with (s' k * vn d (fun l => Rsum c (fun j => Q' j l * x j))); [|apply Rmult_le_compat_l; auto; apply bessel; auto].
      rewrite <- (Rabs_pos_eq (s' k)) at 1 by auto. rewrite <- vn_scal. apply vn_le.
      intros l hl. destruct (Nat.lt_ge_cases l k) as [hlk|hlk]; [rewrite t3 by auto; rewrite !Rmult_0_r; lra|].
      rewrite !Rabs_mult. apply Rmult_le_compat_r; [apply Rabs_pos|]. specialize (hs' k l hlk hl). rewrite !Rabs_pos_eq; auto.
    - intros i hi. rewrite (Rsum_ext c _ (fun j => mmul d P' (mmul d (mdiag s') (mtr Q')) i j * x j)) by (intros j hj; rewrite (eB i j hi hj); reflexivity).
      apply mv_fac. }
  assert (a3 : vn r (fun i => Rsum c (fun j => A i j * x j)) <= vn r (fun i => Rsum c (fun j => B i j * x j)) + frob r c (msub A B) * vn c x).
  { eapply Rle_trans; [|apply Rplus_le_compat_l; apply vn_mv]. rewrite (vn_ext r _ (fun i => Rsum c (fun j => B i j * x j) + Rsum c (fun j => msub A B i j * x j))); [apply vn_plus|].
    intros i hi. rewrite <- Rsum_plus. apply Rsum_ext. intros j hj. unfold msub. ring. }
  apply (Rmult_le_reg_r (vn c x)); auto. assert (frob r c (msub A B) * vn c x <= b * vn c x) by (apply Rmult_le_compat_r; lra). lra.
Qed.
Lemma frob_sym r c A B : frob r c (msub A B) = frob r c (msub B A).
Proof.
  rewrite (frob_ext r c (msub A B) (mscal (-1) (msub B A))) by (intros i j hi hj; unfold msub, mscal; ring).
  rewrite frob_scal. rewrite Rabs_left by lra. ring.
Qed.
Lemma weyl_sv r c d A B (P Q P' Q' : M) s s' b : orthonormal_cols r d P -> orthonormal_cols c d Q -> orthonormal_cols r d P' -> orthonormal_cols c d Q' ->
  nonincreasing d s -> nonincreasing d s' -> (forall k, (k < d)%nat -> 0 <= s k) -> (forall k, (k < d)%nat -> 0 <= s' k) ->
  A =[r, c]= mmul d P (mmul d (mdiag s) (mtr Q)) -> B =[r, c]= mmul d P' (mmul d (mdiag s') (mtr Q')) -> frob r c (msub A B) <= b ->
  forall k, (k < d)%nat -> Rabs (s k - s' k) <= b.
Proof.
  intros hP hQ hP' hQ' hs hs' h0 h0' eA eB hb k hk.
  pose proof (weyl_sv_1 r c d A B P Q P' Q' s s' b hP hQ hP' hQ' hs hs' h0 h0' eA eB hb k hk).
  rewrite frob_sym in hb. pose proof (weyl_sv_1 r c d B A P' Q' P Q s' s b hP' hQ' hP hQ hs' hs h0' h0 eB eA hb k hk).
  apply Rabs_le. lra.
Qed.

(** ** Eigenvalues *)
Lemma quad n (V : M) l x : Rsum n (fun i => x i * Rsum n (fun j => mmul n V (mmul n (mdiag l) (mtr V)) i j * x j)) =
  Rsum n (fun k => l k * (Rsum n (fun j => V j k * x j) * Rsum n (fun j => V j k * x j))).
Proof.
  rewrite (Rsum_ext n _ (fun i => Rsum n (fun k => (V i k * x i) * (l k * Rsum n (fun j => V j k * x j))))).
  - rewrite Rsum_swap. apply Rsum_ext. intros k hk. rewrite Rsum_scal_r. ring.
  - intros i hi. rewrite mv_fac. rewrite <- Rsum_scal_l. apply Rsum_ext. intros. ring.
Qed.
Lemma weyl_ev_1 n A B (V W : M) l m b : orthogonal n V -> orthogonal n W -> nonincreasing n l -> nonincreasing n m ->
  A =[n, n]= mmul n V (mmul n (mdiag l) (mtr V)) -> B =[n, n]= mmul n W (mmul n (mdiag m) (mtr W)) -> frob n n (msub A B) <= b ->
  forall k, (k < n)%nat -> l k - m k <= b.
Proof.
  intros (hV & _) hW hl hm eA eB hb k hk.
  destruct (pick n n V W k hV hk) as (t & x & t1 & hx & hx0 & hxt & t2 & t3).
  assert (hW' : vn n (fun p => Rsum n (fun j => W j p * x j)) = vn n x) by (apply (PQRS.vn_hx n (mtr W) x (orth_tr n W hW))).
  set (q := fun X : M => Rsum n (fun i => x i * Rsum n (fun j => X i j * x j))).
  assert (a1 : l k * (vn n x * vn n x) <= q A).
  { unfold q. rewrite (Rsum_ext n _ (fun i => x i * Rsum n (fun j => mmul n V (mmul n (mdiag l) (mtr V)) i j * x j))) by (intros i hi; f_equal; apply Rsum_ext; intros j hj; rewrite (eA i j hi hj); reflexivity).
    rewrite quad, hxt, vn_sq, <- Rsum_scal_l. apply Rsum_le. intros j hj. rewrite t2 by auto.
    destruct (Nat.le_gt_cases j k) as [hlk|hlk]; [|rewrite t1 by auto; lra]. apply Rmult_le_compat_r; [apply Rle_0_sqr|auto]. }
  assert (a2 : q B <= m k * (vn n x * vn n x)).
  { unfold q. rewrite (Rsum_ext n _ (fun i => x i * Rsum n (fun j => mmul n W (mmul n (mdiag m) (mtr W)) i j * x j))) by (intros i hi; f_equal; apply Rsum_ext; intros j hj; rewrite (eB i j hi hj); reflexivity).
    rewrite quad, <- hW', vn_sq, <- Rsum_scal_l. apply Rsum_le. intros j hj.
    destruct (Nat.lt_ge_cases j k) as [hlk|hlk]; [rewrite t3 by auto; lra|]. apply Rmult_le_compat_r; [apply Rle_0_sqr|auto]. }
  assert (a3 : q A - q B <= b * (vn n x * vn n x)).
  { unfold q. rewrite <- Rsum_minus. rewrite (Rsum_ext n _ (fun i => x i * Rsum n (fun j => msub A B i j * x j))).
    - eapply Rle_trans; [apply Rle_abs|]. eapply Rle_trans; [apply vn_dot|]. rewrite <- Rmult_assoc, (Rmult_comm b), Rmult_assoc. apply Rmult_le_compat_l; [apply vn_nonneg|].
      eapply Rle_trans; [apply vn_mv|]. apply Rmult_le_compat_r; [apply vn_nonneg|auto].
    - intros i hi. rewrite <- Rmult_minus_distr_l, <- Rsum_minus. f_equal. apply Rsum_ext. intros j hj. unfold msub. ring. }
  apply (Rmult_le_reg_r (vn n x * vn n x)); [apply Rmult_lt_0_compat; auto|]. lra.
Qed.
Lemma weyl_ev n A B (V W : M) l m b : orthogonal n V -> orthogonal n W -> nonincreasing n l -> nonincreasing n m ->
  A =[n, n]= mmul n V (mmul n (mdiag l) (mtr V)) -> B =[n, n]= mmul n W (mmul n (mdiag m) (mtr W)) -> frob n n (msub A B) <= b ->
  forall k, (k < n)%nat -> Rabs (l k - m k) <= b.
Proof.
  intros hV hW hl hm eA eB hb k hk. pose proof (weyl_ev_1 n A B V W l m b hV hW hl hm eA eB hb k hk).
  rewrite frob_sym in hb. pose proof (weyl_ev_1 n B A W V m l b hW hV hm hl eB eA hb k hk). apply Rabs_le. lra.
Qed.

(** ** Any order *)
Definition ordered (o : Order) (d : nat) (s : nat -> R) : Prop :=
  forall k l, (k <= l)%nat -> (l < d)%nat -> match o with Largest => s l <= s k | Smallest => s k <= s l end.
Lemma fac_perm r c d (P Q : M) s sg : perm_of d sg ->
  mmul d P (mmul d (mdiag s) (mtr Q)) =[r, c]= mmul d (fun i k => P i (sg k)) (mmul d (mdiag (fun k => s (sg k))) (mtr (fun j k => Q j (sg k)))).
Proof.
  assert (e : forall (P Q : M) s i j, mmul d P (mmul d (mdiag s) (mtr Q)) i j = Rsum d (fun k => P i k * (s k * Q j k))).
  { intros P' Q' s' i j. unfold mmul at 1. apply Rsum_ext. intros k hk. f_equal. unfold mmul, mdiag, mtr. rewrite (Rsum_single d k); auto; [rewrite Nat.eqb_refl; ring|intros u hu hne; destruct (Nat.eqb_spec k u); [congruence|ring]]. }
  intros hp i j hi hj. rewrite !e. symmetry. apply (Rsum_perm d sg (fun k => P i k * (s k * Q j k)) hp).
Qed.
Lemma ocols_perm r d (P : M) sg : perm_of d sg -> orthonormal_cols r d P -> orthonormal_cols r d (fun i k => P i (sg k)).
Proof.
  intros (h1 & h2) hP p q hp hq. specialize (hP (sg p) (sg q) (h1 p hp) (h1 q hq)). unfold mmul, mtr in *. rewrite hP. unfold mid.
  destruct (Nat.eqb_spec p q) as [->|ne]; [rewrite Nat.eqb_refl; reflexivity|]. destruct (Nat.eqb_spec (sg p) (sg q)) as [e|]; auto. exfalso. apply ne. apply h2; auto.
Qed.
Lemma orth_perm n (V : M) sg : perm_of n sg -> orthogonal n V -> orthogonal n (fun i k => V i (sg k)).
Proof.
  intros hp (h1 & h2). split; [apply (ocols_perm n n V sg hp h1)|]. intros p q hp' hq. specialize (h2 p q hp' hq). rewrite <- h2. unfold mmul, mtr.
  apply (Rsum_perm n sg (fun k => V p k * V q k) hp).
Qed.
Definition rev (d k : nat) : nat := (d - 1 - k)%nat.
Lemma rev_perm d : perm_of d (rev d).
Proof. unfold rev. split; intros; lia. Qed.
Lemma rev_ordered d s : ordered Smallest d s -> nonincreasing d (fun k => s (rev d k)).
Proof. intros h k l hk hl. apply (h (rev d l) (rev d k)); unfold rev; lia. Qed.
Lemma weyl_sv_o o r c d A B (P Q P' Q' : M) s s' b : orthonormal_cols r d P -> orthonormal_cols c d Q -> orthonormal_cols r d P' -> orthonormal_cols c d Q' ->
  ordered o d s -> ordered o d s' -> (forall k, (k < d)%nat -> 0 <= s k) -> (forall k, (k < d)%nat -> 0 <= s' k) ->
  A =[r, c]= mmul d P (mmul d (mdiag s) (mtr Q)) -> B =[r, c]= mmul d P' (mmul d (mdiag s') (mtr Q')) -> frob r c (msub A B) <= b ->
  forall k, (k < d)%nat -> Rabs (s k - s' k) <= b.
Proof.
  destruct o; [apply weyl_sv|]. intros hP hQ hP' hQ' hs hs' h0 h0' eA eB hb k hk. pose proof (rev_perm d) as hr.
  assert (hi : forall i, (i < d)%nat -> (rev d i < d)%nat) by (intros; unfold rev; lia).
  pose proof (weyl_sv r c d A B _ _ _ _ _ _ b (ocols_perm _ _ _ _ hr hP) (ocols_perm _ _ _ _ hr hQ) (ocols_perm _ _ _ _ hr hP') (ocols_perm _ _ _ _ hr hQ') (rev_ordered _ _ hs) (rev_ordered _ _ hs')
    (fun k hk => h0 _ (hi k hk)) (fun k hk => h0' _ (hi k hk))) as q.
  rewrite eA in q at 1. rewrite eB in q at 1. specialize (q (fac_perm r c d P Q s _ hr) (fac_perm r c d P' Q' s' _ hr) hb (rev d k) (hi k hk)).
  cbv beta in q. replace (rev d (rev d k)) with k in q by (unfold rev; lia). exact q.
Qed.
Lemma weyl_ev_o o n A B (V W : M) l m b : orthogonal n V -> orthogonal n W -> ordered o n l -> ordered o n m ->
  A =[n, n]= mmul n V (mmul n (mdiag l) (mtr V)) -> B =[n, n]= mmul n W (mmul n (mdiag m) (mtr W)) -> frob n n (msub A B) <= b ->
  forall k, (k < n)%nat -> Rabs (l k - m k) <= b.
Proof.
  destruct o; [apply weyl_ev|]. intros hV hW hl hm eA eB hb k hk. pose proof (rev_perm n) as hr.
  assert (hi : forall i, (i < n)%nat -> (rev n i < n)%nat) by (intros; unfold rev; lia).
  pose proof (weyl_ev n A B _ _ _ _ b (orth_perm _ _ _ hr hV) (orth_perm _ _ _ hr hW) (rev_ordered _ _ hl) (rev_ordered _ _ hm)) as q.
  rewrite eA in q at 1. rewrite eB in q at 1. specialize (q (fac_perm n n n V V l _ hr) (fac_perm n n n W W m _ hr) hb (rev n k) (hi k hk)).
  cbv beta in q. replace (rev n (rev n k)) with k in q by (unfold rev; lia). exact q.
Qed.
