(** * The dense eigensolvers inside LOBPCG in exact arithmetic: generalized_eig, sorted_eig *)
From Coq Require Import Reals List Arith Lia Lra ZArith.
From Coq Require Import Setoid Morphisms.
From Verif Require Import Scalar Arr MBase MDirect MDecomp MEigh MSvd MLobpcg Inst Hoare Spec SpecL RLin PTri PChol PSort PEighR PSvdR PLob PLobR PRitz.
Import ListNotations.
Local Open Scope R_scope.
Local Notation mr := (mat RN).

Lemma lit_pos : 0 < lit.
Proof. unfold lit. apply Rdiv_lt_0_compat; apply IZR_lt; reflexivity. Qed.

Lemma eigh_post fuel (m : mr) : nr m = nc m -> symmetric (nr m) (ent m) ->
  post (eigh fuel m) (fun '(v, q) => length v = nr m /\ nr q = nr m /\ nc q = nr m /\ orthogonal (nr m) (ent q) /\
    eigh fuel m = Ret (v, q)) noE True.
Proof.
  intros sq hs. pose proof (eigh_R fuel m (fun _ => True) noE True sq I (fun _ _ _ _ _ => I)) as h.
  destruct (eigh fuel m) as [[v q]|e| | |] eqn:e1; cbn [post] in *; auto.
  destruct (eigh_pairs_spec fuel m v q sq hs e1) as (h1 & h2 & h3 & h4 & _). auto.
Qed.

Lemma symmetric_conj n s T A : symmetric n A -> symmetric s (mmul n (mtr T) (mmul n A T)).
Proof.
  intros h. unfold symmetric. rewrite (mtr_mmul s n s), (mtr_mmul n n s), mtr_mtr, mmul_assoc. unfold symmetric in h. rewrite <- h. reflexivity.
Qed.

(** The scaled eigenvectors of B and the transformed matrix *)
Definition scaled (qb : mr) (vb : list RN) : M := whiten (ent qb) (vent vb).

Lemma generalized_spec fuel (a b : mr) s : nr a = s -> nc a = s -> nr b = s -> nc b = s ->
  symmetric s (ent a) -> symmetric s (ent b) ->
  post (generalized_eig fuel a b) (fun '(va, v) => length va = s /\ nr v = s /\ nc v = s /\
    exists vb (qb : mr) (at_ qa : mr), eigh fuel b = Ret (vb, qb) /\ length vb = s /\ orthogonal s (ent qb) /\
      nr at_ = s /\ nc at_ = s /\ eigh fuel at_ = Ret (va, qa) /\ orthogonal s (ent qa) /\
      ent at_ =[s, s]= mmul s (mtr (scaled qb vb)) (mmul s (ent a) (scaled qb vb)) /\
      ent v =[s, s]= mmul s (scaled qb vb) (ent qa)) noE True.
Proof.
  intros a1 a2 b1 b2 sa sb. unfold generalized_eig. step1. eapply post_mono; [apply eigh_post; [lia|rewrite b1; auto]|].
  rewrite b1. intros [vb qb] (h1 & h2 & h3 & h4 & h5).
  step1. unfold col_scale. rewrite length_vmap. bd. cbn [post]. set (t := mk _ _ _).
  assert (t1 : nr t = s) by (unfold t; dims; auto). assert (t2 : nc t = s) by (unfold t; dims; auto).
  assert (t3 : ent t =[s, s]= scaled qb vb).
  { intros i j hi hj. unfold t, ent. rewrite get_mk by lia. rewrite vget_vmap by lia. rn. unfold scaled, whiten, ent, vent. f_equal.
    unfold Rdiv. rewrite Rmult_1_l. reflexivity. }
  step1. apply dot2_R; [lia|]. intros av v1 v2 v3. step1. apply dot2t_R; [lia|]. intros at_ c1 c2 c3.
  rewrite a1, a2, t1, t2 in *. rewrite v2 in *.
  assert (c4 : ent at_ =[s, s]= mmul s (mtr (scaled qb vb)) (mmul s (ent a) (scaled qb vb))) by (rewrite c3, v3, t3; reflexivity).
  assert (sat : symmetric s (ent at_)). { unfold symmetric. rewrite c4. apply symmetric_conj. auto. }
  step1. eapply post_mono; [apply eigh_post; [lia|rewrite c1; auto]|]. rewrite c1. intros [va qa] (q1 & q2 & q3 & q4 & q5).
  step1. apply dot2_R; [lia|]. intros v w1 w2 w3. apply post_ret. rewrite t1, t2, q3 in *.
  split; auto. split; auto. split; auto. exists vb, qb, at_, qa. do 8 (split; [auto|]). rewrite w3, t3. reflexivity.
Qed.

(** ** Selection, order and signs *)
Definition csel (sg : nat -> nat) (sn : nat -> R) (V : M) : M := fun i j => V i (sg j) * sn j.
Lemma signum_R (x : RN) : (nsignum RN x = 1 /\ 0 <= x) \/ (nsignum RN x = -1 /\ x < 0).
Proof. change (nsignum RN x) with (if Rltb x 0 then -1 else 1). destruct (Rltb_spec x 0); [right|left]; split; auto; lra. Qed.

Lemma sorted_spec fuel (a : mr) (b : option mr) size order s (G : list RN -> mr -> Prop) : nr a = s -> (1 <= s)%nat -> (size <= s)%nat ->
  post (match b with Some b => generalized_eig fuel a b | None => eigh fuel a end)
    (fun '(v, q) => length v = s /\ nr q = s /\ nc q = s /\ G v q) noE True ->
  post (sorted_eig fuel a b size order) (fun '(l, v) => length l = size /\ nr v = s /\ nc v = size /\
    exists va (q : mr) va' sg sn, G va q /\ length va = s /\ nr q = s /\ nc q = s /\ sorted_by order s va va' sg /\
      (forall j, (j < size)%nat -> vent l j = vent va' j) /\ (forall j, sn j = 1 \/ sn j = -1) /\
      ent v =[s, size]= csel sg sn (ent q) /\ (forall j, (j < size)%nat -> 0 <= ent v 0%nat j)) noE True.
Proof.
  intros h1 h3 h4 g. unfold sorted_eig. step1.
  eapply post_mono; [exact g|]. intros [va q] (g1 & g2 & g3 & g4).
  destruct (sort_eig_ok _ num_order_R order va q ltac:(lia) ltac:(right; auto)) as (va' & m' & sg & es & _ & hs & s2 & s3 & s4).
  step1. rewrite es. cbn [post]. rewrite g1 in *. pose proof hs as (s1 & _).
  assert (er : column (transpose m') 0%nat = Ret (vmk s (fun j => get m' 0%nat j))).
  { unfold column, col_from. dims. rewrite s2, s3, g2, g3. bd. f_equal. rewrite Nat.sub_0_r. apply vmk_ext. intros j hj. rewrite get_transpose by lia. reflexivity. }
  step1. rewrite er. cbn [post]. step1. unfold col_scale. rewrite length_vmap, length_vmk, s3, g3. bd. cbn [post]. set (ve := mk _ _ _).
  step1. unfold vtake. destruct (Nat.leb_spec size (length va')); [|lia]. cbn [post].
  step1. apply post_slice; try lia; [unfold ve; dims; lia|]. apply post_ret. rewrite length_vmk. dims.
  assert (e1 : nr ve = s) by (unfold ve; dims; lia). assert (e2 : nc ve = s) by (unfold ve; dims; lia).
  split; auto. split; [lia|]. split; [lia|].
  exists va, q, va', sg, (fun j => nsignum RN (get m' 0%nat j)). do 5 (split; [auto|]).
  assert (ee : forall i j, (i < s)%nat -> (j < size)%nat -> ent (mk (nr ve - 0) (size - 0) (fun i0 j0 => get ve (0 + i0) (0 + j0))) i j =
    ent m' i j * nsignum RN (get m' 0%nat j)).
  { intros i j hi hj. unfold ent. rewrite get_mk by lia. cbn [Nat.add]. unfold ve. rewrite get_mk by lia. rewrite vget_vmap by (rewrite length_vmk; lia).
    rewrite vget_vmk by lia. reflexivity. }
  split. { intros j hj. unfold vent. rewrite vget_vmk by auto. reflexivity. }
  split. { intros j. destruct (signum_R (get m' 0%nat j)) as [(e0 & _)|(e0 & _)]; rewrite e0; auto. }
  split.
  - intros i j hi hj. rewrite ee by auto. unfold csel, ent. rewrite s4 by lia. reflexivity.
  - intros j hj. rewrite ee by lia. unfold ent. destruct (signum_R (get m' 0%nat j)) as [(-> & h)|(-> & h)]; lra.
Qed.

Lemma csel_conj n sg sn V A i j : mmul n (mtr (csel sg sn V)) (mmul n A (csel sg sn V)) i j = sn i * sn j * mmul n (mtr V) (mmul n A V) (sg i) (sg j).
Proof.
  unfold mmul, mtr, csel. rewrite <- Rsum_scal_l. apply Rsum_ext. intros p _.
  rewrite (Rsum_ext n (fun k => A p k * (V k (sg j) * sn j)) (fun k => sn j * (A p k * V k (sg j)))) by (intros; ring).
  rewrite Rsum_scal_l. ring.
Qed.
Lemma Rsum_mono n m f : (n <= m)%nat -> (forall i, 0 <= f i) -> Rsum n f <= Rsum m f.
Proof. intros h hf. replace m with (n + (m - n))%nat by lia. rewrite Rsum_split. pose proof (Rsum_nonneg (m - n) (fun i => f (n + i)%nat) (fun i _ => hf (n + i)%nat)). lra. Qed.
Lemma frob2_sel s size sg (E : M) : perm_of s sg -> (size <= s)%nat -> frob2 size size (fun i j => E (sg i) (sg j)) <= frob2 s s E.
Proof.
  intros hp hs. unfold frob2.
  eapply Rle_trans; [apply (Rsum_mono size s); auto; intros; apply Rsum_nonneg; intros; nra|].
  rewrite <- (Rsum_perm s sg (fun i => Rsum s (fun j => E i j * E i j))) by auto. apply Rsum_le. intros i hi.
  rewrite <- (Rsum_perm s sg (fun j => E (sg i) j * E (sg i) j)) by auto. apply Rsum_mono; auto. intros; nra.
Qed.
Lemma sel_err s size sg sn V A v l : perm_of s sg -> (size <= s)%nat -> (forall j, sn j = 1 \/ sn j = -1) ->
  (forall j, (j < size)%nat -> l j = v (sg j)) ->
  frob size size (msub (mmul s (mtr (csel sg sn V)) (mmul s A (csel sg sn V))) (mdiag l)) <=
  frob s s (msub (mmul s (mtr V) (mmul s A V)) (mdiag v)).
Proof.
  intros hp hs hn hl. unfold frob. apply sqrt_le_1_alt. set (E := msub (mmul s (mtr V) (mmul s A V)) (mdiag v)).
  eapply Rle_trans; [|apply (frob2_sel s size sg E hp hs)]. right. unfold frob2. apply Rsum_ext. intros i hi. apply Rsum_ext. intros j hj.
  unfold E, msub, mdiag. rewrite csel_conj. destruct hp as (_ & hinj).
  destruct (Nat.eqb_spec i j) as [->|ne].
  - rewrite Nat.eqb_refl, hl by auto. destruct (hn j) as [->| ->]; ring.
  - destruct (Nat.eqb_spec (sg i) (sg j)) as [e|]; [exfalso; apply ne; apply hinj; auto; lia|].
    destruct (hn i) as [->| ->], (hn j) as [->| ->]; ring.
Qed.

(** ** The errors of generalized_eig *)
Lemma frob_scale_le n (d : nat -> R) c E : (forall i, (i < n)%nat -> 0 <= d i /\ d i * d i <= c) ->
  frob n n (fun i j => d i * E i j * d j) <= c * frob n n E.
Proof.
  intros h. assert (hc : (n = 0)%nat \/ 0 <= c).
  { destruct n as [|n]; auto. right. destruct (h 0%nat ltac:(lia)). nra. }
  destruct hc as [->|hc]; [unfold frob, frob2; cbn; rewrite sqrt_0; lra|].
  rewrite <- (Rabs_pos_eq c hc) at 1. rewrite <- (frob_scal n n c E). apply frob_le_entries. intros p q hp hq.
  unfold mscal. rewrite !Rabs_mult, (Rabs_pos_eq c hc). destruct (h p hp) as (p1 & p2), (h q hq) as (q1 & q2).
  rewrite (Rabs_pos_eq (d p)), (Rabs_pos_eq (d q)) by auto.
  assert (hpq : d p * d q <= c). { pose proof (Rle_0_sqr (d p - d q)) as hh. unfold Rsqr in hh. nra. }
  pose proof (Rabs_pos (E p q)). nra.
Qed.

Section GenErr.
Context (s : nat) (A B : M) (qb qa at_ : mr) (vb : list RN) (V : M).
Context (hb : orthogonal s (ent qb)) (ha : orthogonal s (ent qa)) (hb' : symmetric s B).
Context (hat : ent at_ =[s, s]= mmul s (mtr (scaled qb vb)) (mmul s A (scaled qb vb))) (hv : V =[s, s]= mmul s (scaled qb vb) (ent qa)).
Lemma gen_err_a va : frob s s (msub (mmul s (mtr V) (mmul s A V)) (mdiag va)) = pair_err s (ent at_) (ent qa) va.
Proof.
  unfold pair_err. apply frob_ext. rewrite hv, hat. rewrite (mtr_mmul s s s), !mmul_assoc. reflexivity.
Qed.
Lemma scaled_conj i j : (i < s)%nat -> (j < s)%nat -> mmul s (mtr (scaled qb vb)) (mmul s B (scaled qb vb)) i j =
  / sqrt (Rmax (vent vb i) lit) * mmul s (mtr (ent qb)) (mmul s B (ent qb)) i j * / sqrt (Rmax (vent vb j) lit).
Proof.
  intros hi hj. unfold mmul, mtr, scaled, whiten. rewrite <- Rsum_scal_l, <- Rsum_scal_r. apply Rsum_ext. intros p _.
  rewrite (Rsum_ext s (fun k => B p k * (ent qb k j * / sqrt (Rmax (vent vb j) lit))) (fun k => B p k * ent qb k j * / sqrt (Rmax (vent vb j) lit))) by (intros; ring).
  rewrite Rsum_scal_r. ring.
Qed.
Lemma gen_err_b : (forall j, (j < s)%nat -> lit <= vent vb j) ->
  frob s s (msub (mmul s (mtr V) (mmul s B V)) mid) <= / lit * pair_err s B (ent qb) (vent vb).
Proof.
  intros hl. set (d := fun j => / sqrt (Rmax (vent vb j) lit)).
  set (E := msub (mmul s (mtr (ent qb)) (mmul s B (ent qb))) (mdiag (vent vb))).
  assert (hd : forall j, (j < s)%nat -> 0 < d j /\ d j * d j * vent vb j = 1 /\ d j * d j <= / lit).
  { intros j hj. pose proof lit_pos as lp. pose proof (hl j hj) as h1. unfold d. rewrite Rmax_left by auto.
    assert (hsq : 0 < sqrt (vent vb j)) by (apply sqrt_lt_R0; lra). pose proof (Rinv_0_lt_compat _ hsq).
    assert (e : / sqrt (vent vb j) * / sqrt (vent vb j) = / vent vb j).
    { rewrite <- Rinv_mult, sqrt_sqrt by lra. reflexivity. }
    split; auto. rewrite e. split; [field; lra|]. apply Rinv_le_contravar; auto. }
  assert (e : msub (mmul s (mtr V) (mmul s B V)) mid =[s, s]= mmul s (mtr (ent qa)) (mmul s (fun i j => d i * E i j * d j) (ent qa))).
  { assert (e1 : mmul s (mtr V) (mmul s B V) =[s, s]= mmul s (mtr (ent qa)) (mmul s (mmul s (mtr (scaled qb vb)) (mmul s B (scaled qb vb))) (ent qa))).
    { rewrite hv, (mtr_mmul s s s), !mmul_assoc. reflexivity. }
    assert (e2 : mmul s (mtr (scaled qb vb)) (mmul s B (scaled qb vb)) =[s, s]= madd (fun i j => d i * E i j * d j) mid).
    { intros i j hi hj. rewrite scaled_conj by auto. unfold madd, E, msub, mdiag, mid. fold (d i) (d j).
      destruct (Nat.eqb_spec i j) as [->|]; [|ring]. destruct (hd j hj) as (_ & h2 & _). rewrite <- h2. unfold d. ring. }
    rewrite e1, e2. rewrite mmul_add_l, mmul_add_r, mmul_1_l. destruct ha as (h1 & _). rewrite h1.
    intros i j hi hj. unfold msub, madd. ring. }
  rewrite (frob_ext _ _ _ _ e).
  assert (e3 : frob s s (mmul s (mtr (ent qa)) (mmul s (fun i j => d i * E i j * d j) (ent qa))) = frob s s (fun i j => d i * E i j * d j)).
  { pose proof (frob_conj s (mtr (ent qa)) (fun i j => d i * E i j * d j) (orthogonal_mtr _ _ ha)) as h. rewrite <- h. apply frob_ext.
    rewrite mtr_mtr. reflexivity. }
  rewrite e3. apply frob_scale_le. intros i hi. destruct (hd i hi) as (h1 & _ & h3). split; auto. lra.
Qed.
End GenErr.
