(** * Monotonicity of Ritz values (Cauchy interlacing with errors) *)
From Coq Require Import Reals List Arith Lia Lra ZArith.
From Coq Require Import Setoid Morphisms.
From Verif Require Import Scalar Arr MBase MDirect MDecomp MEigh MSvd MLobpcg Inst Hoare Spec SpecL RLin PTri PChol PSort PEigh PEighR PSvdR PLob PLobR PRitz PGen.
Import ListNotations.
Local Open Scope R_scope.
Local Notation mr := (mat RN).

(** More unknowns than homogeneous equations *)
Lemma find_nz n (f : nat -> R) : (exists i, (i < n)%nat /\ f i <> 0) \/ (forall i, (i < n)%nat -> f i = 0).
Proof.
  induction n as [|n [(i & h & h')|IH]]; [right; intros; lia|left; exists i; split; auto; lia|].
  destruct (Req_dec (f n) 0); [right|left; exists n; auto]. intros i hi. destruct (Nat.eq_dec i n) as [->|]; auto. apply IH. lia.
Qed.
Lemma kernel j : forall M : M, exists c : nat -> R, (exists i, (i <= j)%nat /\ c i <> 0) /\
  forall r, (r < j)%nat -> Rsum (S j) (fun i => M r i * c i) = 0.
Proof.
  induction j as [|j IH]; intros M.
  - exists (fun _ => 1). split; [exists 0%nat; split; auto; lra|intros; lia].
  - destruct (find_nz (S j) (fun r => M r (S j))) as [(p & hp & hn)|hz].
    + set (up := fun r => if (r <? p)%nat then r else S r).
      destruct (IH (fun r i => M (up r) i - M (up r) (S j) / M p (S j) * M p i)) as (c & (i0 & h0 & h0') & hc).
      set (t := - Rsum (S j) (fun i => M p i * c i) / M p (S j)).
      exists (fun i => if (i <=? j)%nat then c i else t). split.
      { exists i0. split; [lia|]. destruct (Nat.leb_spec i0 j); auto; lia. }
      assert (hs : forall r, Rsum (S (S j)) (fun i => M r i * (if (i <=? j)%nat then c i else t)) = Rsum (S j) (fun i => M r i * c i) + M r (S j) * t).
      { intros r. change (Rsum (S (S j)) ?f) with (Rsum (S j) f + f (S j)). f_equal.
        - apply Rsum_ext. intros i hi. destruct (Nat.leb_spec i j); auto; lia.
        - cbv beta. rewrite (proj2 (Nat.leb_gt (S j) j)) by lia. reflexivity. }
      intros r hr. rewrite hs. destruct (Nat.eq_dec r p) as [->|ne]; [unfold t; field; auto|].
      assert (hr' : exists r', (r' < j)%nat /\ up r' = r).
      { unfold up. destruct (Nat.ltb_spec r p); [exists r|exists (r - 1)%nat]; (split; [lia|]).
        - destruct (Nat.ltb_spec r p); lia.
        - destruct (Nat.ltb_spec (r - 1) p); lia. }
      destruct hr' as (r' & hr1 & hr2). specialize (hc r' hr1). rewrite hr2 in hc.
      rewrite (Rsum_ext _ _ (fun i => M r i * c i - M r (S j) / M p (S j) * (M p i * c i))) in hc by (intros; ring).
      rewrite Rsum_minus, Rsum_scal_l in hc. unfold t. set (a := Rsum (S j) (fun i => M r i * c i)) in *. set (b := Rsum (S j) (fun i => M p i * c i)) in *.
      replace a with (M r (S j) / M p (S j) * b) by lra. field. auto.
    + exists (fun i => if (i =? S j)%nat then 1 else 0). split; [exists (S j); split; [lia|]; rewrite Nat.eqb_refl; lra|].
      intros r hr. rewrite (Rsum_single (S (S j)) (S j)).
      * rewrite (hz r hr). ring.
      * lia.
      * intros i hi ne. destruct (Nat.eqb_spec i (S j)); [lia|ring].
Qed.

(** ** Quadratic forms *)
Definition mv (n : nat) (A : M) (x : nat -> R) : nat -> R := fun i => Rsum n (fun j => A i j * x j).
Definition cv (x : nat -> R) : M := fun i _ => x i.
Lemma qform_mm n A x : qform n A x = mmul n (mtr (cv x)) (mmul n A (cv x)) 0%nat 0%nat.
Proof. unfold qform, mmul, mtr, cv. apply Rsum_ext. intros i _. rewrite <- Rsum_scal_l. apply Rsum_ext. intros; ring. Qed.
Lemma cv_mv n s S z : cv (mv s S z) =[n, 1%nat]= mmul s S (cv z).
Proof. intros i j _ _. reflexivity. Qed.
Lemma qform_conj n s S A z : qform n A (mv s S z) = qform s (mmul n (mtr S) (mmul n A S)) z.
Proof.
  rewrite !qform_mm.
  assert (h : mmul n (mtr (cv (mv s S z))) (mmul n A (cv (mv s S z))) =[1%nat, 1%nat]=
    mmul s (mtr (cv z)) (mmul s (mmul n (mtr S) (mmul n A S)) (cv z))).
  { rewrite (cv_mv n s S z), (mtr_mmul n s 1), !mmul_assoc. reflexivity. }
  apply h; lia.
Qed.
Lemma vnorm2_qform n x : vnorm2 n x = qform n mid x.
Proof. rewrite qform_mm. unfold vnorm2. rewrite (mmul_proper 1 n 1 _ _ (meq_refl _ _ _) _ _ (mmul_1_l n 1 (cv x))) by lia. reflexivity. Qed.
Lemma qform_id n x : qform n mid x = vnorm2 n x. Proof. symmetry. apply vnorm2_qform. Qed.
Lemma vnorm2_conj n s S z : vnorm2 n (mv s S z) = qform s (mmul n (mtr S) S) z.
Proof.
  rewrite vnorm2_qform, qform_conj. apply qform_ext; auto. rewrite mmul_1_l. reflexivity.
Qed.
Lemma qform_sub n A B x : qform n (msub A B) x = qform n A x - qform n B x.
Proof.
  unfold qform. rewrite <- Rsum_minus. apply Rsum_ext. intros i _. rewrite <- Rsum_minus. apply Rsum_ext. intros j _. unfold msub. ring.
Qed.
Lemma qform_diag n d x : qform n (mdiag d) x = Rsum n (fun i => d i * (x i * x i)).
Proof.
  unfold qform. apply Rsum_ext. intros i hi. unfold mdiag. rewrite (Rsum_single n i).
  - rewrite Nat.eqb_refl. ring.
  - auto.
  - intros q hq ne. destruct (Nat.eqb_spec i q); [lia|ring].
Qed.
Lemma qform_bound n E x : Rabs (qform n E x) <= frob n n E * vnorm2 n x.
Proof.
  assert (h1 : qform n E x = Rsum n (fun i => x i * mv n E x i)).
  { unfold qform, mv. apply Rsum_ext. intros i _. rewrite <- Rsum_scal_l. apply Rsum_ext. intros; ring. }
  assert (h2 : qform n E x * qform n E x <= vnorm2 n x * (frob2 n n E * vnorm2 n x)).
  { rewrite h1. eapply Rle_trans; [apply Rsum_CS|]. apply Rmult_le_compat_l; [apply PChol.vnorm2_nonneg|].
    unfold frob2. rewrite <- Rsum_scal_r. apply Rsum_le. intros i _. unfold mv. apply Rsum_CS. }
  pose proof (frob_nonneg n n E) as h3. pose proof (PChol.vnorm2_nonneg n x) as h4.
  rewrite <- (Rabs_pos_eq (frob n n E * vnorm2 n x)) by (apply Rmult_le_pos; auto).
  apply Rsqr_le_abs_0. unfold Rsqr. rewrite <- (frob_sq n n E) in h2. nra.
Qed.
Lemma qform_err n A d x e : frob n n (msub A (mdiag d)) <= e ->
  Rabs (qform n A x - Rsum n (fun i => d i * (x i * x i))) <= e * vnorm2 n x.
Proof.
  intros h. rewrite <- qform_diag, <- qform_sub. eapply Rle_trans; [apply qform_bound|].
  apply Rmult_le_compat_r; auto. apply PChol.vnorm2_nonneg.
Qed.

(** ** Interlacing: the j-th value of the larger space is at least the j-th of the smaller one *)
Lemma ratio_bound l v C W U d d' e e' : 0 < C -> 0 <= W -> 0 <= d -> 0 <= d' -> 0 <= e < 1 -> 0 <= e' < 1 ->
  Rabs (U - C) <= e' * C -> Rabs (U - W) <= e * W -> (l - d') * C <= (v + d) * W ->
  l <= v + d + (Rabs l * (e + e') + d' * (1 + e)) / (1 - e').
Proof.
  intros hC hW hd hd' he he' h1 h2 h3.
  assert (b1 : (1 - e') * C <= U) by (unfold Rabs in h1; destruct (Rcase_abs (U - C)); nra).
  assert (b2 : U <= (1 + e') * C) by (unfold Rabs in h1; destruct (Rcase_abs (U - C)); nra).
  assert (b3 : (1 - e) * W <= U) by (unfold Rabs in h2; destruct (Rcase_abs (U - W)); nra).
  assert (b4 : U <= (1 + e) * W) by (unfold Rabs in h2; destruct (Rcase_abs (U - W)); nra).
  assert (pW : 0 < W) by nra.
  set (rho := C / W). assert (eC : C = rho * W) by (unfold rho; field; lra).
  assert (pr : 0 < rho) by (unfold rho; apply Rdiv_lt_0_compat; auto).
  assert (r1 : (1 - e') * rho <= 1 + e). { apply (Rmult_le_reg_r W); auto. rewrite Rmult_assoc, <- eC. lra. }
  assert (r2 : 1 - e <= (1 + e') * rho). { apply (Rmult_le_reg_r W); auto. rewrite (Rmult_assoc (1 + e')), <- eC. lra. }
  assert (r3 : (l - d') * rho <= v + d). { apply (Rmult_le_reg_r W); auto. rewrite Rmult_assoc, <- eC. lra. }
  assert (r4 : (1 - e') * Rabs (1 - rho) <= e + e').
  { unfold Rabs. destruct (Rcase_abs (1 - rho)); nra. }
  assert (r5 : l <= v + d + Rabs l * Rabs (1 - rho) + d' * rho).
  { rewrite <- Rabs_mult. pose proof (Rle_abs (l * (1 - rho))). nra. }
  assert (p1 : 0 < 1 - e') by lra.
  assert (r6 : Rabs (1 - rho) <= (e + e') / (1 - e')).
  { apply (Rmult_le_reg_l (1 - e')); auto. replace ((1 - e') * ((e + e') / (1 - e'))) with (e + e') by (field; lra). auto. }
  assert (r7 : rho <= (1 + e) / (1 - e')).
  { apply (Rmult_le_reg_l (1 - e')); auto. replace ((1 - e') * ((1 + e) / (1 - e'))) with (1 + e) by (field; lra). auto. }
  replace ((Rabs l * (e + e') + d' * (1 + e)) / (1 - e')) with (Rabs l * ((e + e') / (1 - e')) + d' * ((1 + e) / (1 - e'))) by (field; lra).
  pose proof (Rabs_pos l). nra.
Qed.

Lemma ritz_mono n s k A S X Z V Vi vf lam j d e d' e' :
  X =[n, k]= mmul s S Z -> mmul s V Vi =[s, s]= mid ->
  frob s s (msub (mmul s (mtr V) (mmul s (mmul n (mtr S) (mmul n A S)) V)) (mdiag vf)) <= d ->
  frob s s (msub (mmul s (mtr V) (mmul s (mmul n (mtr S) S) V)) mid) <= e ->
  frob k k (msub (mmul n (mtr X) (mmul n A X)) (mdiag lam)) <= d' ->
  frob k k (msub (mmul n (mtr X) X) mid) <= e' -> e < 1 -> e' < 1 ->
  (forall i, (i <= j)%nat -> lam j <= lam i) -> (forall i, (j <= i)%nat -> (i < s)%nat -> vf i <= vf j) ->
  (j < k)%nat ->
  lam j <= vf j + d + (Rabs (lam j) * (e + e') + d' * (1 + e)) / (1 - e').
Proof.
  intros hX hV h1 h2 h3 h4 he he' hl hv hj.
  destruct (kernel j (mmul s Vi Z)) as (c0 & (i0 & hi0 & hn0) & hc0).
  set (c := fun i => if (i <=? j)%nat then c0 i else 0).
  set (w := mv k (mmul s Vi Z) c).
  assert (hw : forall r, (r < j)%nat -> w r = 0).
  { intros r hr. unfold w, mv. replace k with (j + 1 + (k - (j + 1)))%nat by lia. rewrite Rsum_split.
    rewrite (Rsum_0 (k - (j + 1))). 2:{ intros i hi. unfold c. destruct (Nat.leb_spec (j + 1 + i) j); [lia|ring]. }
    rewrite Rplus_0_r. rewrite <- (hc0 r hr), <- (Nat.add_1_r j). apply Rsum_ext. intros i hi. unfold c. destruct (Nat.leb_spec i j); [reflexivity|lia]. }
  assert (eu : cv (mv k X c) =[n, 1%nat]= cv (mv s (mmul s S V) w)).
  { rewrite (cv_mv n k X c), (cv_mv n s (mmul s S V) w). unfold w. rewrite (cv_mv s k (mmul s Vi Z) c). rewrite hX.
    rewrite !mmul_assoc. rewrite <- (mmul_assoc s s s 1 V Vi (mmul k Z (cv c))), hV, mmul_1_l. reflexivity. }
  set (C := vnorm2 k c). set (W := vnorm2 s w).
  assert (hU : vnorm2 n (mv k X c) = vnorm2 n (mv s (mmul s S V) w)).
  { unfold vnorm2. apply Rsum_ext. intros i hi. pose proof (eu i 0%nat hi ltac:(lia)) as E. unfold cv in E. rewrite E. reflexivity. }
  assert (hQ : qform n A (mv k X c) = qform n A (mv s (mmul s S V) w)).
  { apply qform_ext; [reflexivity|]. intros i hi. exact (eu i 0%nat hi ltac:(lia)). }
  set (U := vnorm2 n (mv k X c)).
  assert (nC : 0 <= C) by apply PChol.vnorm2_nonneg. assert (nW : 0 <= W) by apply PChol.vnorm2_nonneg.
  assert (pC : 0 < C).
  { assert (hle : c i0 * c i0 <= C). { unfold C, vnorm2. apply (Rsum_term_le k (fun i => c i * c i)); [intros; nra|lia]. }
    unfold c in hle at 1 2. destruct (Nat.leb_spec i0 j); [|lia]. nra. }
  assert (pd : 0 <= d) by (eapply Rle_trans; [apply frob_nonneg|exact h1]).
  assert (pe : 0 <= e) by (eapply Rle_trans; [apply frob_nonneg|exact h2]).
  assert (pd' : 0 <= d') by (eapply Rle_trans; [apply frob_nonneg|exact h3]).
  assert (pe' : 0 <= e') by (eapply Rle_trans; [apply frob_nonneg|exact h4]).
  apply (ratio_bound (lam j) (vf j) C W U d d' e e'); auto.
  - unfold U. rewrite vnorm2_conj. change mid with (mdiag (fun _ => 1)) in h4. pose proof (qform_err k _ _ c e' h4) as q.
    fold C in q. cbv beta in q. replace (Rsum k (fun i => 1 * (c i * c i))) with C in q; auto. unfold C, vnorm2. apply Rsum_ext. intros; ring.
  - unfold U. rewrite hU, vnorm2_conj.
    assert (eq1 : mmul n (mtr (mmul s S V)) (mmul s S V) =[s, s]= mmul s (mtr V) (mmul s (mmul n (mtr S) S) V)).
    { rewrite (mtr_mmul n s s), !mmul_assoc. reflexivity. }
    rewrite (qform_ext s _ _ w w eq1) by auto. change mid with (mdiag (fun _ => 1)) in h2. pose proof (qform_err s _ _ w e h2) as q.
    fold W in q. cbv beta in q. replace (Rsum s (fun i => 1 * (w i * w i))) with W in q; auto. unfold W, vnorm2. apply Rsum_ext. intros; ring.
  - assert (lo : (lam j - d') * C <= qform n A (mv k X c)).
    { rewrite qform_conj. pose proof (qform_err k _ _ c d' h3) as q. fold C in q.
      assert (g : lam j * C <= Rsum k (fun i => lam i * (c i * c i))).
      { unfold C, vnorm2. rewrite <- Rsum_scal_l. apply Rsum_le. intros i hi. unfold c. destruct (Nat.leb_spec i j) as [hij|]; [|lra].
        pose proof (hl i hij). nra. }
      unfold Rabs in q. destruct (Rcase_abs _) in q; nra. }
    assert (up : qform n A (mv s (mmul s S V) w) <= (vf j + d) * W).
    { rewrite qform_conj.
      assert (eq1 : mmul n (mtr (mmul s S V)) (mmul n A (mmul s S V)) =[s, s]= mmul s (mtr V) (mmul s (mmul n (mtr S) (mmul n A S)) V)).
      { rewrite (mtr_mmul n s s), !mmul_assoc. reflexivity. }
      rewrite (qform_ext s _ _ w w eq1) by auto. pose proof (qform_err s _ _ w d h1) as q. fold W in q.
      assert (g : Rsum s (fun i => vf i * (w i * w i)) <= vf j * W).
      { unfold W, vnorm2. rewrite <- Rsum_scal_l. apply Rsum_le. intros i hi. destruct (Nat.lt_ge_cases i j) as [hij|hij].
        - rewrite hw by auto. lra.
        - pose proof (hv i hij hi). nra. }
      unfold Rabs in q. destruct (Rcase_abs _) in q; nra. }
    rewrite hQ in lo. lra.
Qed.

Lemma frob_opp r c A : frob r c (fun i j => - A i j) = frob r c A.
Proof. unfold frob, frob2. f_equal. apply Rsum_ext. intros i _. apply Rsum_ext. intros; ring. Qed.
Lemma mmul_opp_mid n r c X A Y : mmul n X (mmul n (fun i j => - A i j) Y) =[r, c]= fun i j => - mmul n X (mmul n A Y) i j.
Proof.
  intros i j _ _. unfold mmul. rewrite <- Rsum_opp. apply Rsum_ext. intros p _.
  rewrite (Rsum_ext n _ (fun k => - (A p k * Y k j))) by (intros; ring). rewrite Rsum_opp. ring.
Qed.
Lemma mmul_opp_r n r c X Y : mmul n X (fun i j => - Y i j) =[r, c]= fun i j => - mmul n X Y i j.
Proof. intros i j _ _. unfold mmul. rewrite <- Rsum_opp. apply Rsum_ext. intros; ring. Qed.

(** Both orders *)
Lemma ritz_gains order n s k A S X Z V Vi vf lam j d e d' e' :
  X =[n, k]= mmul s S Z -> mmul s V Vi =[s, s]= mid ->
  frob s s (msub (mmul s (mtr V) (mmul s (mmul n (mtr S) (mmul n A S)) V)) (mdiag vf)) <= d ->
  frob s s (msub (mmul s (mtr V) (mmul s (mmul n (mtr S) S) V)) mid) <= e ->
  frob k k (msub (mmul n (mtr X) (mmul n A X)) (mdiag lam)) <= d' ->
  frob k k (msub (mmul n (mtr X) X) mid) <= e' -> e < 1 -> e' < 1 ->
  ordered order k lam -> ordered order s vf -> (j < k)%nat -> (j < s)%nat ->
  gains order (lam j) (vf j) (d + (Rabs (lam j) * (e + e') + d' * (1 + e)) / (1 - e')).
Proof.
  intros hX hV h1 h2 h3 h4 he he' hl hv hj hs. destruct order; unfold gains, ordered in *.
  - rewrite <- Rplus_assoc. apply (ritz_mono n s k A S X Z V Vi vf lam j d e d' e'); auto.
  - enough (g : - lam j <= - vf j + d + (Rabs (- lam j) * (e + e') + d' * (1 + e)) / (1 - e')) by (rewrite Rabs_Ropp in g; lra).
    apply (ritz_mono n s k (fun i j => - A i j) S X Z V Vi (fun i => - vf i) (fun i => - lam i) j d e d' e'); auto.
    + eapply Rle_trans; [|exact h1]. right. rewrite <- frob_opp. apply frob_ext.
      intros p q hp hq. unfold msub, mdiag.
      rewrite (mmul_proper s s s _ _ (meq_refl _ _ (mtr V)) _ _ (mmul_proper s s s _ _ (mmul_opp_mid n s s (mtr S) A S) _ _ (meq_refl _ _ V))) by auto.
      rewrite (mmul_opp_mid s s s (mtr V) (mmul n (mtr S) (mmul n A S)) V) by auto. destruct (Nat.eqb p q); ring.
    + eapply Rle_trans; [|exact h3]. right. rewrite <- frob_opp. apply frob_ext.
      intros p q hp hq. unfold msub, mdiag. rewrite (mmul_opp_mid n k k (mtr X) A X) by auto. destruct (Nat.eqb p q); ring.
    + intros i hi. pose proof (hl i j hi hj). lra.
    + intros i hi hi'. pose proof (hv j i hi hi'). lra.
Qed.

(** ** The full solution behind sorted_eig *)
Lemma sorted_ordered order n v v' sg : sorted_by (N:=RN) order n v v' sg -> ordered order n (vent v').
Proof.
  intros (_ & _ & _ & h & _) i j hij hj. destruct (Nat.eq_dec i j) as [->|ne]; [destruct order; lra|].
  specialize (h i j ltac:(lia) hj). unfold before in h. unfold vent.
  destruct order.
  - change (Rltb (vget v' i) (vget v' j) = false) in h. destruct (Rltb_spec (vget v' i) (vget v' j)); [discriminate|lra].
  - change (Rltb (vget v' j) (vget v' i) = false) in h. destruct (Rltb_spec (vget v' j) (vget v' i)); [discriminate|lra].
Qed.

Lemma sorted_full fuel (a b : mr) size order s l v : nr a = s -> nc a = s -> nr b = s -> nc b = s ->
  symmetric s (ent a) -> symmetric s (ent b) -> (1 <= size <= s)%nat -> sorted_eig fuel a (Some b) size order = Ret (l, v) ->
  exists V Vi vf va (a' qa : mr) vb (qb : mr), pencil_runs fuel s (ent a) (ent b) b vb qb a' va qa /\
    mmul s V Vi =[s, s]= mid /\ ordered order s vf /\ (forall j, (j < size)%nat -> vent l j = vf j) /\
    frob s s (msub (mmul s (mtr V) (mmul s (ent a) V)) (mdiag vf)) <= pair_err s (ent a') (ent qa) (vent va) /\
    ((forall j, (j < s)%nat -> lit <= vent vb j) ->
     frob s s (msub (mmul s (mtr V) (mmul s (ent b) V)) mid) <= / lit * pair_err s (ent b) (ent qb) (vent vb)).
Proof.
  intros a1 a2 b1 b2 sa sb hs e.
  pose proof (generalized_spec fuel a b s a1 a2 b1 b2 sa sb) as hg.
  assert (hg' : post (generalized_eig fuel a b) (fun '(va, q) => length va = s /\ nr q = s /\ nc q = s /\
    exists vb (qb : mr) (at_ qa : mr), eigh fuel b = Ret (vb, qb) /\ length vb = s /\ orthogonal s (ent qb) /\
      nr at_ = s /\ nc at_ = s /\ eigh fuel at_ = Ret (va, qa) /\ orthogonal s (ent qa) /\
      ent at_ =[s, s]= mmul s (mtr (scaled qb vb)) (mmul s (ent a) (scaled qb vb)) /\
      ent q =[s, s]= mmul s (scaled qb vb) (ent qa)) noE True) by exact hg.
  pose proof (sorted_spec fuel a (Some b) size order s (fun va q => exists vb (qb : mr) (at_ qa : mr), eigh fuel b = Ret (vb, qb) /\ length vb = s /\ orthogonal s (ent qb) /\
      nr at_ = s /\ nc at_ = s /\ eigh fuel at_ = Ret (va, qa) /\ orthogonal s (ent qa) /\
      ent at_ =[s, s]= mmul s (mtr (scaled qb vb)) (mmul s (ent a) (scaled qb vb)) /\
      ent q =[s, s]= mmul s (scaled qb vb) (ent qa)) a1 ltac:(lia) ltac:(lia) hg') as h.
  rewrite e in h. cbn [post] in h.
  destruct h as (_ & _ & _ & va & q & va' & sg & sn & hG & q1 & q2 & q3 & hso & hl & _).
  destruct hG as (vb & qb & at_ & qa & e1 & e2 & e3 & e4 & e5 & e6 & e7 & e8 & e9).
  pose proof hso as (_ & hp & hvs & _).
  set (d := fun j => / sqrt (Rmax (vent vb j) lit)). set (di := fun j => sqrt (Rmax (vent vb j) lit)).
  assert (hd : forall j, d j * di j = 1).
  { intros j. unfold d, di. apply Rinv_l. apply Rgt_not_eq. apply sqrt_lt_R0. pose proof (Rmax_r (vent vb j) lit). pose proof lit_pos. lra. }
  set (Vi := mmul s (mtr (ent qa)) (mmul s (mdiag di) (mtr (ent qb)))).
  assert (hi : mmul s (ent q) Vi =[s, s]= mid).
  { rewrite e9. unfold Vi. assert (e11 : scaled qb vb =[s, s]= mmul s (ent qb) (mdiag d)).
    { intros i j hi hj. unfold mmul, mdiag. rewrite (Rsum_single s j) by (auto; intros; bd; ring). bd. reflexivity. }
    rewrite e11, !mmul_assoc. destruct e7 as (_ & o2). rewrite <- (mmul_assoc s s s s (ent qa)), o2, mmul_1_l.
    rewrite <- (mmul_assoc s s s s (mdiag d)).
    assert (e12 : mmul s (mdiag d) (mdiag di) =[s, s]= mid).
    { intros i j hi hj. unfold mmul, mdiag, mid. rewrite (Rsum_single s i).
      - rewrite Nat.eqb_refl. destruct (Nat.eqb_spec i j); [apply hd|ring].
      - auto.
      - intros p _ ne. destruct (Nat.eqb_spec i p); [lia|ring]. }
    rewrite e12, mmul_1_l. apply e3. }
  exists (fun i j => ent q i (sg j)), (fun i j => Vi (sg i) j), (vent va'), va, at_, qa, vb, qb.
  split. { unfold pencil_runs. do 4 (split; [auto; reflexivity|]). auto. } split.
  { intros i j hi' hj. unfold mmul. rewrite (Rsum_perm s sg (fun p => ent q i p * Vi p j)) by auto. apply hi; auto. }
  split; [eapply sorted_ordered; eauto|]. split; auto.
  assert (ec : forall B, mmul s (mtr (fun i j => ent q i (sg j))) (mmul s B (fun i j => ent q i (sg j))) =[s, s]=
    mmul s (mtr (csel sg (fun _ => 1) (ent q))) (mmul s B (csel sg (fun _ => 1) (ent q)))).
  { intros B. assert (e10 : csel sg (fun _ => 1) (ent q) =[s, s]= (fun i j => ent q i (sg j))) by (intros i j _ _; unfold csel; ring).
    rewrite e10. reflexivity. }
  split.
  - rewrite <- (gen_err_a s (ent a) qb qa at_ vb (ent q) e8 e9).
    eapply Rle_trans; [|apply (sel_err s s sg (fun _ => 1) (ent q) (ent a) (vent va) (vent va')); auto].
    right. apply frob_ext. rewrite ec. reflexivity.
  - intros hlit. eapply Rle_trans; [|apply (gen_err_b s (ent b) qb qa vb (ent q) e7 e9 hlit)].
    eapply Rle_trans; [|apply (sel_err s s sg (fun _ => 1) (ent q) (ent b) (fun _ => 1) (fun _ => 1)); auto].
    right. apply frob_ext. rewrite ec. reflexivity.
Qed.

(** One step of the iteration *)
Lemma basis_X n k q s X R P : (k <= s)%nat -> X =[n, k]= mmul s (basis k q X R P) mid.
Proof.
  intros hk i j hi hj. unfold mmul, mid. rewrite (Rsum_single s j).
  - rewrite Nat.eqb_refl. unfold basis, mcat. destruct (Nat.ltb_spec j (k + q)); [|lia]. destruct (Nat.ltb_spec j k); [ring|lia].
  - lia.
  - intros p _ ne. destruct (Nat.eqb_spec p j); [lia|ring].
Qed.
Lemma step_gains fuel n k A prec order prev idx lam X lam' X' P' : (1 <= k)%nat -> symmetric n A -> ordered order k lam ->
  lob_step n k A prec (eig_rel fuel k order) prev idx lam X lam' X' P' -> ordered order k lam' /\
  exists s S (b : mr) vb (qb a' : mr) va (qa : mr), (k <= s)%nat /\ S =[n, k]= X /\
    pencil_runs fuel s (mmul n (mtr S) (mmul n A S)) (mmul n (mtr S) S) b vb qb a' va qa /\
    let d := pair_err s (ent a') (ent qa) (vent va) in let e := / lit * pair_err s (ent b) (ent qb) (vent vb) in
    let d' := frob k k (msub (mmul n (mtr X) (mmul n A X)) (mdiag lam)) in let e' := frob k k (msub (mmul n (mtr X) X) mid) in
    ((forall j, (j < s)%nat -> lit <= vent vb j) -> e < 1 -> e' < 1 ->
     forall j, (j < k)%nat -> gains order (lam j) (lam' j) (d + (Rabs (lam j) * (e + e') + d' * (1 + e)) / (1 - e'))).
Proof.
  intros hk hA ho h. unfold lob_step in h. cbv zeta in h.
  destruct h as (W & R & P & V0 & pc & _ & _ & _ & he & hx & _). set (s := (k + length idx + pc)%nat) in *. set (S := basis k (length idx) X R P) in *.
  destruct he as (g & b & v & l & g1 & g2 & b1 & b2 & g3 & b3 & es & -> & ->).
  assert (sg : symmetric s (ent g)). { unfold symmetric. rewrite g3. apply symmetric_conj. auto. }
  assert (sb : symmetric s (ent b)). { unfold symmetric. rewrite b3. rewrite (mtr_mmul s n s), mtr_mtr. reflexivity. }
  destruct (sorted_full fuel g b k order s l v g1 g2 b1 b2 sg sb ltac:(unfold s; lia) es)
    as (V & Vi & vf & va & a' & qa & vb & qb & e1 & e3 & e4 & e5 & e6 & e7).
  split. { intros i j hij hj. rewrite !e5 by lia. apply e4; auto. unfold s; lia. }
  exists s, S, b, vb, qb, a', va, qa. split; [unfold s; lia|]. split.
  { intros i j hi hj. unfold S, basis, mcat. bd; try lia. reflexivity. }
  split. { destruct e1 as (u1 & u2 & u3 & u4 & u5 & u6 & u7 & u8). unfold pencil_runs. do 6 (split; [auto|]). split; auto. rewrite u7, g3. reflexivity. }
  cbv zeta. intros hlit he he' j hj.
  rewrite (e5 j hj). eapply (ritz_gains order n s k A S X mid V Vi vf lam); auto.
  - apply basis_X. unfold s; lia.
  - eapply Rle_trans; [|exact e6]. right. apply frob_ext. rewrite g3. reflexivity.
  - eapply Rle_trans; [|exact (e7 hlit)]. right. apply frob_ext. rewrite b3. reflexivity.
  - lra.
  - lra.
  - unfold s; lia.
Qed.

(** Along a chain *)
Lemma chain_step n k A prec eig (Inv : (nat -> R) * M -> Prop) (Rel : (nat -> R) * M -> (nat -> R) * M -> Prop) :
  (forall prev idx c c' P', Inv c -> lob_step n k A prec eig prev idx (fst c) (snd c) (fst c') (snd c') P' -> Inv c' /\ Rel c c') ->
  forall rest prev cur, Inv cur -> lob_chain n k A prec eig prev cur rest ->
  (forall c, In c (cur :: map snd rest) -> Inv c) /\
  forall i c c', nth_error (cur :: map snd rest) i = Some c -> nth_error (cur :: map snd rest) (S i) = Some c' -> Rel c c'.
Proof.
  intros hst. induction rest as [|[idx nxt] rest IH]; intros prev cur hc hch.
  - split; [intros c [<-|[]]; auto|]. intros [|i] c c' _ e; cbn in e; [discriminate|destruct i; discriminate].
  - cbn [lob_chain] in hch. destruct hch as (P' & hs & hr). destruct (hst _ _ _ _ _ hc hs) as (h1 & h2).
    destruct (IH _ _ h1 hr) as (h3 & h4). cbn [map snd]. split.
    + intros c [<-|hin]; auto.
    + intros [|i] c c' e1 e2; cbn [nth_error] in e1, e2; [injection e1 as <-; injection e2 as <-; auto|]. eapply (h4 i); eauto.
Qed.
Lemma annot_snd k tol rest : forall seen, map snd (annot k tol seen rest) = map (fun h => (vent (fst (fst h)), ent (snd (fst h)))) rest.
Proof. induction rest as [|h rest IH]; intros seen; cbn [annot map]; [reflexivity|]. rewrite IH. reflexivity. Qed.
Lemma start_ordered fuel n k A order W lam X : (1 <= k)%nat -> lob_start fuel n k A order W lam X -> symmetric n A -> ordered order k lam.
Proof.
  intros hk (Q & g & v & l & _ & g1 & g2 & g3 & es & -> & _) hA.
  assert (sg : symmetric k (ent g)). { unfold symmetric. rewrite g3. apply symmetric_conj. auto. }
  assert (hg : post (eigh fuel g) (fun '(v, q) => length v = k /\ nr q = k /\ nc q = k /\ True) noE True).
  { eapply post_mono; [apply eigh_post; [lia|rewrite g1; auto]|]. rewrite g1. intros [va q] hh. tauto. }
  pose proof (sorted_spec fuel g None k order k (fun _ _ => True) g1 hk (le_n k) hg) as h. rewrite es in h. cbn [post] in h.
  destruct h as (_ & _ & _ & va & q & va' & sg' & sn & _ & _ & _ & _ & hso & hl & _).
  pose proof (sorted_ordered _ _ _ _ _ hso) as ho. intros i j hij hj. rewrite !hl by lia. apply ho; auto.
Qed.

(** ** Fuel *)
Lemma starved_eigh fuel k order s : (1 <= k <= s)%nat -> starved fuel k order s ->
  exists m : mr, nr m = s /\ nc m = s /\ eigh fuel m = OutOfFuel.
Proof.
  intros hk (g & b & g1 & g2 & hb & e). set (F := exists m : mr, nr m = s /\ nc m = s /\ eigh fuel m = OutOfFuel).
  assert (he : forall m : mr, nr m = s -> nc m = s ->
    post (eigh fuel m) (fun '(v, q) => length v = s /\ nr q = s /\ nc q = s) noE F).
  { intros m h1 h2. pose proof (eigh_R fuel m (fun '(v, q) => length v = s /\ nr q = s /\ nc q = s) noE True ltac:(lia) I) as h.
    destruct (eigh fuel m) as [[v q]|e'| | |] eqn:em; cbn [post] in *; try apply h; intros; auto; try lia. exists m. auto. }
  assert (hg : post (match b with Some b => generalized_eig fuel g b | None => eigh fuel g end)
     (fun '(v, q) => length v = s /\ nr q = s /\ nc q = s) noE F).
  { destruct b as [b|]; [|auto]. destruct hb as (b1 & b2). unfold generalized_eig.
    step1. eapply post_mono; [apply he; auto|]. intros [vb qb] (h1 & h2 & h3).
    step1. apply col_scale_dims; [dims; lia|]. intros vt t1 t2.
    step1. apply dot2_R; [lia|]. intros av v1 v2 _. step1. apply dot2_R; [dims; lia|]. intros at_ a1 a2 _. dims.
    step1. eapply post_mono; [apply he; lia|]. intros [va qa] (c1 & c2 & c3). step1. apply dot2_R; [lia|]. intros vv d1 d2 _.
    apply post_ret. lia. }
  assert (hs : post (sorted_eig fuel g b k order) (fun _ => True) noE F).
  { unfold sorted_eig. step1. eapply post_mono; [exact hg|]. intros [v q] (h1 & h2 & h3).
    destruct (sort_eig_ok _ num_order_R order v q ltac:(lia) ltac:(right; auto)) as (v' & m' & sg & es & _ & (s1 & _) & s2 & s3 & _).
    step1. rewrite es. cbn [post]. step1. apply post_column; [dims; lia|].
    step1. apply col_scale_dims; [dims; lia|]. intros ve e1 e2.
    step1. unfold vtake. destruct (Nat.leb_spec k (length v')); [|lia]. cbn [post].
    step1. apply post_slice; try lia. step1. exact I. }
  rewrite e in hs. exact hs.
Qed.
Lemma small_fed k order s : (1 <= k <= s)%nat -> (s <= 2)%nat -> ~ starved 1 k order s.
Proof.
  intros hk hs h. destruct (starved_eigh 1 k order s hk h) as (m & m1 & m2 & e).
  destruct (eigh_small m (eig2_total_real _) ltac:(lia) ltac:(lia)) as (r & er). congruence.
Qed.
