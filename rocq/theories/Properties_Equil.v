(** * C85: diagonal scaling of rows and columns (equilibration), exact arithmetic *)
From Coq Require Import Reals Lra List Arith Lia Bool ZArith Setoid Morphisms.
From Coq.Floats Require Import SpecFloat.
From Verif Require Import Scalar Arr MBase MDirect Inst Hoare Spec RLin PTri PChol PQR Ex.
From Verif Require Import Properties_Triangular Properties_Cholesky Properties_QR Properties_Inverse.
Import ListNotations.
Local Open Scope R_scope.

(** row i multiplied by [d i], column j by [e j] *)
Definition scaled (d e : nat -> R) (A : M) : M := fun i j => d i * A i j * e j.

Lemma scaled_mmul n p q d e f A B : (forall k, (k < n)%nat -> e k * f k = 1) ->
  forall g, mmul n (scaled d e A) (scaled f g B) =[p, q]= scaled d g (mmul n A B).
Proof.
  intros h g i j hi hj. unfold mmul, scaled. rewrite <- Rsum_scal_l, Rmult_comm, <- Rsum_scal_l. apply Rsum_ext. intros k hk.
  transitivity (d i * A i k * B k j * g j * (e k * f k)); [ring|]. rewrite h by auto. ring.
Qed.
Lemma scaled_ext d e A B p q : A =[p, q]= B -> scaled d e A =[p, q]= scaled d e B.
Proof. intros h i j hi hj. unfold scaled. rewrite (h i j) by auto. reflexivity. Qed.
Lemma scaled_mid n d e : (forall k, (k < n)%nat -> d k * e k = 1) -> scaled d e mid =[n, n]= mid.
Proof.
  intros h i j hi hj. unfold scaled, mid. destruct (Nat.eqb_spec i j) as [->|]; [|ring]. rewrite Rmult_1_r. auto.
Qed.
Lemma scaled_qform n d A v : qform n (scaled d d A) v = qform n A (fun i => d i * v i).
Proof. unfold qform, scaled. apply Rsum_ext. intros i hi. rewrite <- ?Rsum_scal_l. apply Rsum_ext. intros j hj. ring. Qed.
Lemma qform_ext n A B v : A =[n, n]= B -> qform n A v = qform n B v.
Proof. intros h. unfold qform. apply Rsum_ext. intros i hi. apply Rsum_ext. intros j hj. rewrite (h i j) by auto. reflexivity. Qed.
Lemma scaled_posdef n d A C : (forall i, (i < n)%nat -> d i <> 0) -> C =[n, n]= scaled d d A -> posdef n A -> posdef n C.
Proof.
  intros hd h hp v hv. rewrite (qform_ext _ _ _ v h), scaled_qform. apply hp. destruct hv as (i & hi & hn). exists i. split; [auto|].
  apply Rmult_integral_contrapositive_currified; auto.
Qed.
Lemma scaled_symmetric n d A C : C =[n, n]= scaled d d A -> symmetric n A -> symmetric n C.
Proof.
  intros h hs i j hi hj. unfold mtr. rewrite (h i j), (h j i) by auto. unfold scaled. pose proof (hs i j hi hj) as e. unfold mtr in e. rewrite e. ring.
Qed.
Lemma scaled_back n d e A C : (forall i, (i < n)%nat -> d i <> 0) -> (forall i, (i < n)%nat -> e i <> 0) ->
  C =[n, n]= scaled d e A -> A =[n, n]= scaled (fun i => / d i) (fun i => / e i) C.
Proof. intros hd he h i j hi hj. unfold scaled at 1. rewrite (h i j) by auto. unfold scaled. field. auto. Qed.
Lemma abs_sign_2 x : x <> 0 -> (Rabs x / x) * (Rabs x / x) = 1.
Proof. intros h. transitivity ((Rabs x * Rabs x) / (x * x)); [field; auto|]. rewrite <- Rabs_mult, Rabs_pos_eq by nra. field. auto. Qed.

(** ** Cholesky *)
(** The factor of [D a D] is [D l S] with S the signs of D; acceptance does not depend on D *)
Theorem C85_cholesky (a c : mat RN) d : nr a = nc a -> symmetric (nr a) (ent a) -> nr c = nr a -> nc c = nr a ->
  (forall i, (i < nr a)%nat -> d i <> 0) -> (forall i j, (i < nr a)%nat -> (j < nr a)%nat -> ent c i j = d i * ent a i j * d j) ->
  match cholesky a with
  | Ret l => exists l', cholesky c = Ret l' /\ nr l' = nr a /\ nc l' = nr a /\
      forall i j, (i < nr a)%nat -> (j < nr a)%nat -> ent l' i j = d i * ent l i j * (Rabs (d j) / d j)
  | _ => cholesky c = Err NotPositiveDefinite
  end.
Proof.
  intros sq hs c1 c2 hd hc. change (ent c =[nr a, nr a]= scaled d d (ent a)) in hc.
  assert (hsc : symmetric (nr c) (ent c)) by (rewrite c1; eapply scaled_symmetric; eauto).
  destruct (C06_cholesky_iff_posdef a sq hs) as (h1 & h2). destruct (C06_cholesky_iff_posdef c ltac:(lia) hsc) as (h3 & h4).
  assert (no : (forall l, cholesky a <> Ret l) -> cholesky c = Err NotPositiveDefinite).
  { intros hn. apply h4. rewrite c1. intros hp. pose proof (scaled_back _ _ _ _ _ hd hd hc) as hb.
    assert (hpa : posdef (nr a) (ent a)) by (eapply scaled_posdef; [|exact hb|exact hp]; intros i hi; apply Rinv_neq_0_compat; auto).
    apply h1 in hpa. destruct hpa as (l & hl). exact (hn l hl). }
  destruct (cholesky a) as [l|er| | |] eqn:el; try (apply no; discriminate).
  assert (hp : posdef (nr a) (ent a)) by (apply h1; eauto).
  assert (hpc : posdef (nr c) (ent c)) by (rewrite c1; eapply scaled_posdef; eauto).
  apply h3 in hpc. destruct hpc as (l' & el'). exists l'. split; [assumption|].
  destruct (C05_cholesky_factor a l hs el) as (_ & l1 & l2 & l3 & l4 & l5). destruct (C05_cholesky_factor c l' hsc el') as (_ & m1 & m2 & _).
  split; [lia|]. split; [lia|]. intros i j hi hj. symmetry.
  revert i j hi hj. change (scaled d (fun j => Rabs (d j) / d j) (ent l) =[nr a, nr a]= ent l'). rewrite <- c1. apply (C06_cholesky_unique c l'); auto.
  - intros i j hi hj hlt. unfold scaled. rewrite (l3 i j) by (try lia; auto). ring.
  - intros i hi. rewrite c1 in hi. unfold scaled. pose proof (l4 i hi). pose proof (Rabs_pos_lt _ (hd i hi)).
    replace (d i * ent l i i * (Rabs (d i) / d i)) with (ent l i i * Rabs (d i)) by (field; auto). apply Rmult_lt_0_compat; auto.
  - rewrite c1. rewrite hc. rewrite <- (scaled_ext _ _ _ _ _ _ l5).
    change (mtr (scaled d (fun j => Rabs (d j) / d j) (ent l))) with (fun i j => d j * ent l j i * (Rabs (d i) / d i)).
    intros i j hi hj. rewrite <- (scaled_mmul (nr a) (nr a) (nr a) d (fun j => Rabs (d j) / d j) (fun j => Rabs (d j) / d j) (ent l) (mtr (ent l)) (fun k hk => abs_sign_2 _ (hd k hk)) d i j hi hj).
    unfold mmul. apply Rsum_ext. intros k hk. unfold scaled, mtr. ring.
Qed.
Theorem C85_invc (a c x : mat RN) d : nr a = nc a -> symmetric (nr a) (ent a) -> nr c = nr a -> nc c = nr a ->
  (forall i, (i < nr a)%nat -> d i <> 0) -> (forall i j, (i < nr a)%nat -> (j < nr a)%nat -> ent c i j = d i * ent a i j * d j) ->
  invc a = Ret x ->
  exists y, invc c = Ret y /\ nr y = nr a /\ nc y = nr a /\
    forall i j, (i < nr a)%nat -> (j < nr a)%nat -> ent y i j = ent x i j / (d i * d j).
Proof.
  intros sq hs c1 c2 hd hc e. change (ent c =[nr a, nr a]= scaled d d (ent a)) in hc. pose proof (invc_posdef a x sq hs e) as hp.
  destruct (C09_invc a sq hs) as (k & _). destruct (k hp) as (x' & ex & x1 & x2 & h1 & h2). rewrite e in ex. injection ex as <-.
  assert (hsc : symmetric (nr c) (ent c)) by (rewrite c1; eapply scaled_symmetric; eauto).
  assert (hpc : posdef (nr c) (ent c)) by (rewrite c1; eapply scaled_posdef; eauto).
  destruct (C09_invc c ltac:(lia) hsc) as (k' & _). destruct (k' hpc) as (y & ey & y1 & y2 & y3 & y4). rewrite c1 in *.
  exists y. repeat (split; [assumption|]). intros i j hi hj.
  assert (hl : mmul (nr a) (scaled (fun i => / d i) (fun i => / d i) (ent x)) (ent c) =[nr a, nr a]= mid).
  { rewrite hc. rewrite scaled_mmul by (intros; field; auto). rewrite (scaled_ext _ _ _ _ _ _ h2). apply scaled_mid. intros; field; auto. }
  rewrite <- (inv_unique _ _ _ _ hl y3 i j hi hj). unfold scaled. field. auto.
Qed.
Theorem C85_solvec (a b c b' x : mat RN) d : nr a = nc a -> symmetric (nr a) (ent a) -> nr c = nr a -> nc c = nr a ->
  (forall i, (i < nr a)%nat -> d i <> 0) -> (forall i j, (i < nr a)%nat -> (j < nr a)%nat -> ent c i j = d i * ent a i j * d j) ->
  nr b' = nr b -> nc b' = nc b -> (forall i j, (i < nr b)%nat -> (j < nc b)%nat -> ent b' i j = d i * ent b i j) ->
  solvec a b = Ret x ->
  exists y, solvec c b' = Ret y /\ nr y = nr a /\ nc y = nc b /\
    forall i j, (i < nr a)%nat -> (j < nc b)%nat -> ent y i j = ent x i j / d i.
Proof.
  intros sq hs c1 c2 hd hc b1 b2 hb ex. change (ent c =[nr a, nr a]= scaled d d (ent a)) in hc.
  destruct (C06_cholesky_iff_posdef a sq hs) as (h1 & h2). destruct (C08_solvec a b sq hs) as (k1 & k2 & k3).
  assert (hp : posdef (nr a) (ent a)).
  { destruct (C05_cholesky_lower_only a sq) as [(hp & l & el & _)|(hn & en)]; [apply h1; eauto|].
    exfalso. rewrite k3 in ex; [discriminate|]. intros hp. apply h1 in hp. destruct hp as (l & el). rewrite en in el. discriminate. }
  destruct (Nat.eq_dec (nr b) (nr a)) as [hr|hr]; [|rewrite (k2 hp hr) in ex; discriminate].
  destruct (k1 hp hr) as (x' & ex' & x1 & x2 & x3 & _). rewrite ex in ex'. injection ex' as <-.
  assert (hsc : symmetric (nr c) (ent c)) by (rewrite c1; eapply scaled_symmetric; eauto).
  assert (hpc : posdef (nr c) (ent c)) by (rewrite c1; eapply scaled_posdef; eauto).
  destruct (C08_solvec c b' ltac:(lia) hsc) as (m1 & _). destruct (m1 hpc ltac:(lia)) as (y & ey & y1 & y2 & y3 & y4). rewrite c1, b2 in *. rewrite hr in *.
  exists y. split; [assumption|]. split; [lia|]. split; [lia|]. intros i j hi hj.
  rewrite <- (y4 (scaled (fun i => / d i) (fun _ => 1) (ent x))); auto.
  - unfold scaled. field. auto.
  - rewrite hc. rewrite scaled_mmul by (intros; field; auto). rewrite (scaled_ext _ _ _ _ _ _ x3). intros p q hp' hq. unfold scaled. rewrite hb by auto. ring.
Qed.

(** ** Triangular systems and QR: rows and columns scaled independently *)
Theorem C85_triangular (t c b b' x : mat RN) (u : UPLO) d e : nr t = nc t -> nr c = nr t -> nc c = nr t -> nr b = nr t ->
  (forall i, (i < nr t)%nat -> ent t i i <> 0) -> (forall i, (i < nr t)%nat -> d i <> 0) -> (forall i, (i < nr t)%nat -> e i <> 0) ->
  (forall i j, (i < nr t)%nat -> (j < nr t)%nat -> ent c i j = d i * ent t i j * e j) ->
  nr b' = nr b -> nc b' = nc b -> (forall i j, (i < nr b)%nat -> (j < nc b)%nat -> ent b' i j = d i * ent b i j) ->
  solve_triangular t b u = Ret x ->
  exists y, solve_triangular c b' u = Ret y /\ nr y = nr t /\ nc y = nc b /\
    forall i j, (i < nr t)%nat -> (j < nc b)%nat -> ent y i j = ent x i j / e i.
Proof.
  intros sq c1 c2 hr ht hd he hc b1 b2 hb ex.
  destruct (C03_solve_triangular t b u sq hr ht) as (x' & ex' & x1 & x2 & x3 & _). rewrite ex in ex'. injection ex' as <-.
  destruct (C03_solve_triangular c b' u ltac:(lia) ltac:(lia)) as (y & ey & y1 & y2 & y3 & y4).
  { intros i hi. rewrite c1 in hi. rewrite hc by auto. repeat apply Rmult_integral_contrapositive_currified; auto. }
  rewrite c1, b2 in *. rewrite hr in *. exists y. split; [assumption|]. split; [lia|]. split; [lia|]. intros i j hi hj.
  rewrite <- (y4 (scaled (fun i => / e i) (fun _ => 1) (ent x))); auto.
  - unfold scaled. field. auto.
  - assert (hu : tri_of u (ent c) =[nr t, nr t]= scaled d e (tri_of u (ent t))).
    { intros p q hp hq. unfold scaled, tri_of. destruct u; rewrite hc by auto; destruct (_ <? _)%nat || destruct (_ <=? _)%nat; ring. }
    rewrite hu. rewrite scaled_mmul by (intros; field; auto). rewrite (scaled_ext _ _ _ _ _ _ x3). intros p q hp' hq. unfold scaled. rewrite hb by auto. ring.
Qed.
Theorem C85_qr_inverse (a c x : mat RN) f d e : nr c = nr a -> nc c = nr a ->
  (forall i, (i < nr a)%nat -> d i <> 0) -> (forall i, (i < nr a)%nat -> e i <> 0) ->
  (forall i j, (i < nr a)%nat -> (j < nr a)%nat -> ent c i j = d i * ent a i j * e j) ->
  qr_into a = Ret f -> qr_inverse f = Ret x ->
  exists g y, qr_into c = Ret g /\ qr_inverse g = Ret y /\ nr y = nr a /\ nc y = nr a /\
    forall i j, (i < nr a)%nat -> (j < nr a)%nat -> ent y i j = ent x i j / (e i * d j).
Proof.
  intros c1 c2 hd he hc ef ex. change (ent c =[nr a, nr a]= scaled d e (ent a)) in hc.
  destruct (qr_inverse_facts a x f ef ex) as (sq & x1 & x2 & hinj & h1 & h2).
  assert (hl : mmul (nr a) (scaled (fun i => / e i) (fun i => / d i) (ent x)) (ent c) =[nr a, nr a]= mid).
  { rewrite hc. rewrite scaled_mmul by (intros; field; auto). rewrite (scaled_ext _ _ _ _ _ _ h2). apply scaled_mid. intros; field; auto. }
  destruct (C14_qr_inverse c ltac:(lia)) as (g & eg & k & _). rewrite c1, c2 in k.
  destruct (k eq_refl (inv_injective _ _ _ hl)) as (y & ey & y1 & y2 & y3 & y4).
  exists g, y. repeat (split; [assumption|]). intros i j hi hj. rewrite <- (inv_unique _ _ _ _ hl y3 i j hi hj). unfold scaled. field. auto.
Qed.
Print Assumptions C85_cholesky.
Print Assumptions C85_invc.
Print Assumptions C85_solvec.
Print Assumptions C85_triangular.
Print Assumptions C85_qr_inverse.

(** ** Binary64: the factor of the scaled matrix is not the scaled factor *)
Theorem C85_binary64_refuted : exists a c : mat FN,
  nr a = 1%nat /\ nc a = 1%nat /\ nr c = 1%nat /\ nc c = 1%nat /\
  SFeqb (get c 0 0) (@nmul FN (@nmul FN (f_of_Z 3) (get a 0 0)) (f_of_Z 3)) = true /\
  match cholesky a, cholesky c with
  | Ret l, Ret l' => SFeqb (get l' 0 0) (@nmul FN (f_of_Z 3) (get l 0 0)) = false /\ SFltb (f_of_Z 0) (get l 0 0) = true
  | _, _ => False
  end.
Proof. exists (fmat 1 [[2]]%Z), (fmat 1 [[18]]%Z). vm_compute. auto 10. Qed.
Print Assumptions C85_binary64_refuted.

(** ** Examples: the hypotheses are met; a scaling with a negative entry *)
Example C85_hyps : let a := rmat 2 [[4;2];[2;5]]%Z in let c := rmat 2 [[4;-6];[-6;45]]%Z in let d := fun i : nat => match i with O => 1 | _ => -3 end in
  nr a = nc a /\ symmetric (nr a) (ent a) /\ posdef (nr a) (ent a) /\ nr c = nr a /\ nc c = nr a /\
  (forall i, (i < nr a)%nat -> d i <> 0) /\ (forall i j, (i < nr a)%nat -> (j < nr a)%nat -> ent c i j = d i * ent a i j * d j).
Proof.
  cbv zeta. destruct C05_nonvacuous as (sq & hs & hp). repeat (split; [assumption || reflexivity|]). split.
  - intros [|i] _; lra.
  - intros [|[|i]] [|[|j]] hi hj; unfold ent, get; simpl in *; try lra; lia.
Qed.
Example C85_run : cholesky (fmat 2 [[4;2];[2;5]]%Z) = Ret (fmat 2 [[2;0];[1;2]]%Z) /\
  cholesky (fmat 2 [[4;-6];[-6;45]]%Z) = Ret (fmat 2 [[2;0];[-3;6]]%Z).
Proof. split; vm_compute; reflexivity. Qed.
Example C85_run_triangular : solve_triangular (fmat 2 [[2;7];[3;4]]%Z) (fmat 1 [[2];[11]]%Z) Lower = Ret (fmat 1 [[1];[2]]%Z) /\
  solve_triangular (fmat 2 [[6;0];[-6;-4]]%Z) (fmat 1 [[6];[-22]]%Z) Lower = Ret (fmat 1 [[1];[4]]%Z).
Proof. split; vm_compute; reflexivity. Qed.
