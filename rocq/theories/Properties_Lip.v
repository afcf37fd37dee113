(** * C86: computed spectra of nearby and of orthogonally equivalent matrices (exact arithmetic)

    eigvalsh and svd stop at a tolerance, so that two runs on similar matrices need not return the same
    values.  Sorted, they agree position by position up to the two tolerances and the distance of the inputs. *)
From Coq Require Import Reals List Arith Lia Lra Bool ZArith.
From Verif Require Import Scalar Arr MBase MDirect MDecomp MEigh MSvd Inst Hoare Spec Ex RLin PEigh PEighR PSvd PSvdR PBidF PSort PWeyl PValF
  Properties_Eigh Properties_Sort Properties_Svd Properties_Weyl.
Import ListNotations.
Local Open Scope R_scope.

Lemma frob_path r c A B C : frob r c (msub A C) <= frob r c (msub A B) + frob r c (msub B C).
Proof.
  rewrite (frob_ext r c (msub A C) (madd (msub A B) (msub B C))); [apply frob_triangle|]. intros i j hi hj. unfold msub, madd. ring.
Qed.
Lemma lr_sub r c Q W A B :
  msub (mmul r Q (mmul c A (mtr W))) (mmul r Q (mmul c B (mtr W))) =[r, c]= mmul r Q (mmul c (msub A B) (mtr W)).
Proof.
  intros i j hi hj. unfold msub, mmul. rewrite <- Rsum_minus. apply Rsum_ext. intros k hk. rewrite <- Rmult_minus_distr_l. f_equal.
  rewrite <- Rsum_minus. apply Rsum_ext. intros l hl. ring.
Qed.
Lemma lr_frob r c Q W A B : orthogonal r Q -> orthogonal c W ->
  frob r c (msub (mmul r Q (mmul c A (mtr W))) (mmul r Q (mmul c B (mtr W)))) = frob r c (msub A B).
Proof. intros hq hw. rewrite (frob_ext _ _ _ _ (lr_sub r c Q W A B)). apply frob_lr; auto. Qed.
Lemma lr_fac r c d Q W P R s :
  mmul r Q (mmul c (mmul d P (mmul d (mdiag s) (mtr R))) (mtr W)) =[r, c]= mmul d (mmul r Q P) (mmul d (mdiag s) (mtr (mmul c W R))).
Proof.
  rewrite (mtr_mmul c c d W R). rewrite (mmul_assoc r r d c Q P). rewrite (mmul_assoc r d c c P). rewrite (mmul_assoc d d c c (mdiag s)). reflexivity.
Qed.
Lemma lr_ocols r d Q P : orthogonal r Q -> orthonormal_cols r d P -> orthonormal_cols r d (mmul r Q P).
Proof.
  intros (h & _) hp. unfold orthonormal_cols in *. rewrite (mtr_mmul r r d Q P). rewrite (mmul_assoc d r r d). rewrite <- (mmul_assoc r r r d (mtr Q) Q P).
  rewrite h. rewrite mmul_1_l. exact hp.
Qed.

(** the sorted values, and the factorisation of a nearby matrix they belong to *)
Lemma eig_sorted fuel (a : mat RN) vals (o : Order) : nr a = nc a -> symmetric (nr a) (ent a) -> eigvalsh fuel a = Ret vals ->
  exists vals' V, sort_vals vals o = Ret vals' /\ ordered o (nr a) (vent vals') /\ orthogonal (nr a) V /\
    frob (nr a) (nr a) (msub (ent a) (mmul (nr a) V (mmul (nr a) (mdiag (vent vals')) (mtr V)))) <= INR (nr a - 1) * (2 * / IZR (2 ^ 52) * frob (nr a) (nr a) (ent a)).
Proof.
  intros sq hsym hrun. destruct (C20_eigvalsh fuel a vals sq hsym hrun) as (S & _ & (V & hV & eS) & hb).
  assert (hl : length vals = nr a).
  { rewrite eigvalsh_eigh in hrun. destruct (eigh fuel a) as [[v q]| | | |] eqn:e; try discriminate. injection hrun as ->. destruct (C19_orthogonal fuel a vals q sq hsym e) as (? & _). assumption. }
  destruct (C28_sorts RN _ C28_real_ordered o vals (zeros (N:=RN) 0 (length vals))) as (v' & m' & sg & _ & e & hsb & _).
  - cbn [zeros mk nc]. lia.
  - right. auto.
  - rewrite hl in hsb. destruct (sorted_ordered_R o _ vals v' sg hsb) as (ho & he). destruct hsb as (_ & hp & _).
    assert (hd : mdiag (fun k => vent vals (sg k)) =[nr a, nr a]= mdiag (vent v')).
    { intros i j hi hj. unfold mdiag. destruct (i =? j)%nat; auto. symmetry. auto. }
    assert (E : S =[nr a, nr a]= mmul (nr a) (fun i k => V i (sg k)) (mmul (nr a) (mdiag (vent v')) (mtr (fun i k => V i (sg k))))).
    { rewrite eS. rewrite (fac_perm (nr a) (nr a) (nr a) V V (vent vals) sg hp). rewrite hd. reflexivity. }
    exists v', (fun i k => V i (sg k)). split; auto. split; [exact ho|]. split; [apply orth_perm; auto|]. eapply Rle_trans; [|exact hb]. right. apply frob_ext.
    intros p q hp' hq. unfold msub. rewrite (E p q hp' hq). reflexivity.
Qed.
(** eigvalsh: inputs that differ by an orthogonal similarity and a perturbation *)
Theorem C86_eigvalsh fuel fuel' (a b : mat RN) va vb (o : Order) (Q : M) : nr a = nc a -> nr b = nr a -> nc b = nr a ->
  symmetric (nr a) (ent a) -> symmetric (nr a) (ent b) -> orthogonal (nr a) Q -> eigvalsh fuel a = Ret va -> eigvalsh fuel' b = Ret vb ->
  exists va' vb', sort_vals va o = Ret va' /\ sort_vals vb o = Ret vb' /\
    forall k, (k < nr a)%nat -> Rabs (vent va' k - vent vb' k) <=
      frob (nr a) (nr a) (msub (mmul (nr a) Q (mmul (nr a) (ent a) (mtr Q))) (ent b)) +
      INR (nr a - 1) * (2 * / IZR (2 ^ 52) * (frob (nr a) (nr a) (ent a) + frob (nr a) (nr a) (ent b))).
Proof.
  intros sq b1 b2 hsa hsb hQ ra rb.
  destruct (eig_sorted fuel a va o sq hsa ra) as (va' & V & ea & oa & hV & ha).
  destruct (eig_sorted fuel' b vb o ltac:(lia) ltac:(rewrite b1; auto) rb) as (vb' & W & eb & ob & hW & hb). rewrite b1 in *.
  exists va', vb'. split; auto. split; auto. intros k hk. set (n := nr a) in *.
  refine (weyl_ev_o o n _ _ (mmul n Q V) W (vent va') (vent vb') _ (orthogonal_mul n Q V hQ hV) hW oa ob (lr_fac n n n Q Q V V (vent va')) (fun i j _ _ => eq_refl) _ k hk).
  eapply Rle_trans; [apply (frob_path n n _ (mmul n Q (mmul n (ent a) (mtr Q))))|]. rewrite (lr_frob n n Q Q) by auto. rewrite frob_sym.
  pose proof (frob_path n n (mmul n Q (mmul n (ent a) (mtr Q))) (ent b) (mmul n W (mmul n (mdiag (vent vb')) (mtr W)))). lra.
Qed.
Print Assumptions C86_eigvalsh.

Lemma svd_sorted fuel (a : mat RN) fu fv u s vt (o : Order) : svd fuel a fu fv = Ret (u, s, vt) -> let d := Nat.min (nr a) (nc a) in
  exists u' s' vt' P Q, sort_svd (u, s, vt) o = Ret (u', s', vt') /\ ordered o d (vent s') /\ (forall k, (k < d)%nat -> 0 <= vent s' k) /\
    orthonormal_cols (nr a) d P /\ orthonormal_cols (nc a) d Q /\
    frob (nr a) (nc a) (msub (ent a) (mmul d P (mmul d (mdiag (vent s')) (mtr Q)))) <= INR (d - 1) * (10 * / IZR (2 ^ 52) * frob (nr a) (nc a) (ent a)).
Proof.
  intros hrun d. pose proof (C25_flags fuel a fu fv) as hf. rewrite hrun in hf. destruct (svd fuel a true true) as [[[u1 s1] vt1]| | | |] eqn:e1; cbn in hf; try contradiction.
  destruct hf as ((U & Vt & -> & ->) & -> & -> & ->).
  destruct (C24_reproduces fuel a _ _ _ e1) as (U' & Vt' & q1 & q2 & d1 & d2 & d3 & d4 & d5 & (hU & hV & h0 & hb)). injection q1 as <-. injection q2 as <-. fold d in d2, d3, d4, hU, hV, h0, hb.
  destruct (C29_sorts RN _ C28_real_ordered o s1 (keep fu (Some U)) (keep fv (Some Vt))) as (u' & s' & vt' & sg & e & hsb & _).
  - destruct fu; cbn; auto. rewrite d2, d3. lia.
  - destruct fv; cbn; auto. rewrite d4, d3. lia.
  - right. auto.
  - rewrite d3 in hsb. destruct (sorted_ordered_R o _ s1 s' sg hsb) as (ho & he). destruct hsb as (_ & hp & _).
    assert (hd : mdiag (fun k => vent s1 (sg k)) =[d, d]= mdiag (vent s')).
    { intros i j hi hj. unfold mdiag. destruct (i =? j)%nat; auto. symmetry. auto. }
    assert (E : mmul d (ent U) (mmul d (mdiag (vent s1)) (mtr (mtr (ent Vt)))) =[nr a, nc a]=
      mmul d (fun i k => ent U i (sg k)) (mmul d (mdiag (vent s')) (mtr (fun i k => mtr (ent Vt) i (sg k))))).
    { rewrite (fac_perm (nr a) (nc a) d (ent U) (mtr (ent Vt)) (vent s1) sg hp). rewrite hd. reflexivity. }
    exists u', s', vt', (fun i k => ent U i (sg k)), (fun i k => mtr (ent Vt) i (sg k)). split; auto. split; [exact ho|].
    split; [intros k hk; rewrite he by auto; apply h0; apply hp; auto|]. split; [apply ocols_perm; auto|]. split; [apply ocols_perm; auto|].
    eapply Rle_trans; [|exact hb]. right. apply frob_ext. intros p q hp' hq. unfold msub. rewrite <- (E p q hp' hq). reflexivity.
Qed.
(** svd: inputs that differ by orthogonal matrices on the left and on the right and a perturbation; any flags *)
Theorem C86_svd fuel fuel' (a b : mat RN) fu fv gu gv ua sa vta ub sb vtb (o : Order) (Q W : M) : nr b = nr a -> nc b = nc a ->
  orthogonal (nr a) Q -> orthogonal (nc a) W -> svd fuel a fu fv = Ret (ua, sa, vta) -> svd fuel' b gu gv = Ret (ub, sb, vtb) ->
  let d := Nat.min (nr a) (nc a) in
  exists ua' sa' vta' ub' sb' vtb', sort_svd (ua, sa, vta) o = Ret (ua', sa', vta') /\ sort_svd (ub, sb, vtb) o = Ret (ub', sb', vtb') /\
    forall k, (k < d)%nat -> Rabs (vent sa' k - vent sb' k) <=
      frob (nr a) (nc a) (msub (mmul (nr a) Q (mmul (nc a) (ent a) (mtr W))) (ent b)) +
      INR (d - 1) * (10 * / IZR (2 ^ 52) * (frob (nr a) (nc a) (ent a) + frob (nr a) (nc a) (ent b))).
Proof.
  intros b1 b2 hQ hW ra rb d.
  destruct (svd_sorted _ _ _ _ _ _ _ o ra) as (ua' & sa' & vta' & P & R & ea & oa & pa & hP & hR & ha).
  destruct (svd_sorted _ _ _ _ _ _ _ o rb) as (ub' & sb' & vtb' & P' & R' & eb & ob & pb & hP' & hR' & hb). rewrite b1, b2 in *. fold d in oa, pa, hP, hR, ha, ob, pb, hP', hR', hb.
  exists ua', sa', vta', ub', sb', vtb'. split; auto. split; auto. intros k hk. set (r := nr a) in *. set (c := nc a) in *.
  refine (weyl_sv_o o r c d _ _ (mmul r Q P) (mmul c W R) P' R' (vent sa') (vent sb') _ (lr_ocols r d Q P hQ hP) (lr_ocols c d W R hW hR) hP' hR' oa ob pa pb
    (lr_fac r c d Q W P R (vent sa')) (fun i j _ _ => eq_refl) _ k hk).
  eapply Rle_trans; [apply (frob_path r c _ (mmul r Q (mmul c (ent a) (mtr W))))|]. rewrite (lr_frob r c Q W) by auto. rewrite frob_sym.
  pose proof (frob_path r c (mmul r Q (mmul c (ent a) (mtr W))) (ent b) (mmul d P' (mmul d (mdiag (vent sb')) (mtr R')))). lra.
Qed.
Print Assumptions C86_svd.

(** ** Examples: the rows and columns of a symmetric matrix exchanged *)
Definition swap2 : M := fun i j => if (i =? j)%nat then 0 else 1.
Lemma swap2_orth : orthogonal 2 swap2.
Proof. split; intros [|[|i]] [|[|j]] hi hj; try lia; unfold mmul, mtr, swap2, mid; simpl; lra. Qed.
Example C86_hyps : let a := rmat 2 [[2;3];[3;-1]]%Z in let b := rmat 2 [[-1;3];[3;2]]%Z in
  nr a = nc a /\ nr b = nr a /\ nc b = nr a /\ symmetric (nr a) (ent a) /\ symmetric (nr a) (ent b) /\ orthogonal (nr a) swap2 /\
  (exists va, eigvalsh 1 a = Ret va) /\ (exists vb, eigvalsh 1 b = Ret vb) /\
  (exists x, svd 1 a true true = Ret x) /\ (exists y, svd 1 b true true = Ret y) /\
  frob (nr a) (nr a) (msub (mmul (nr a) swap2 (mmul (nr a) (ent a) (mtr swap2))) (ent b)) = 0.
Proof.
  cbv zeta. set (a := rmat 2 [[2;3];[3;-1]]%Z). set (b := rmat 2 [[-1;3];[3;2]]%Z).
  assert (ev : forall m : mat RN, nr m = 2%nat -> nc m = 2%nat -> exists v, eigvalsh 1 m = Ret v).
  { intros m h1 h2. destruct (eigh_small m (eig2_total_real _)) as ([v q] & e); try lia. rewrite eigvalsh_eigh, e. simpl. eauto. }
  do 3 (split; [reflexivity|]).
  split; [intros [|[|i]] [|[|j]] hi hj; simpl in *; try lia; unfold mtr, ent, get; simpl; lra|].
  split; [intros [|[|i]] [|[|j]] hi hj; simpl in *; try lia; unfold mtr, ent, get; simpl; lra|].
  split; [exact swap2_orth|]. split; [apply ev; reflexivity|]. split; [apply ev; reflexivity|].
  split; [apply svd_small; simpl; auto|]. split; [apply svd_small; simpl; auto|].
  unfold frob. rewrite <- sqrt_0. f_equal. unfold frob2. apply Rsum_0. intros i hi. apply Rsum_0. intros j hj. simpl in hi, hj.
  destruct i as [|[|i]]; destruct j as [|[|j]]; try lia; unfold msub, mmul, mtr, swap2, ent, get; simpl; lra.
Qed.
