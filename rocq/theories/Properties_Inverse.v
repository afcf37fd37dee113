(** * C83: the algebra of the computed inverses (exact arithmetic) *)
From Coq Require Import Reals Lra List Arith Lia Bool ZArith Setoid Morphisms.
From Coq.Floats Require Import SpecFloat.
From Verif Require Import Scalar Arr MBase MDirect Inst Hoare Spec RLin PTri PChol PQR Ex.
From Verif Require Import Properties_Cholesky Properties_QR.
Import ListNotations.
Local Open Scope R_scope.

(** ** Auxiliary facts about matrices *)
Lemma inv_injective n A X : mmul n X A =[n, n]= mid -> injective n n A.
Proof.
  intros h v hv j hj. transitivity (mmul n mid (fun k _ => v k) j 0%nat).
  { symmetry. apply (mmul_1_l n 1 (fun k _ => v k)); auto. }
  transitivity (mmul n (mmul n X A) (fun k _ => v k) j 0%nat).
  { unfold mmul at 1 2. apply Rsum_ext. intros k hk. rewrite (h j k) by auto. reflexivity. }
  rewrite (mmul_assoc n n n 1 X A (fun k _ => v k) j 0%nat) by auto. unfold mmul at 1. apply Rsum_0. intros k hk. unfold mmul. rewrite hv by auto. ring.
Qed.
(** a left inverse and a right inverse are the same matrix *)
Lemma inv_unique n A X Y : mmul n X A =[n, n]= mid -> mmul n A Y =[n, n]= mid -> X =[n, n]= Y.
Proof.
  intros h1 h2. rewrite <- (mmul_1_r n n X), <- h2. rewrite <- (mmul_assoc n n n n). rewrite h1. apply mmul_1_l.
Qed.
Lemma zero_or_not n (w : nat -> R) : (forall i, (i < n)%nat -> w i = 0) \/ nonzero_vec n w.
Proof.
  induction n as [|n IH]; [left; intros; lia|]. destruct IH as [h|(i & hi & hn)]; [|right; exists i; split; auto; lia].
  destruct (Req_dec (w n) 0) as [e|e]; [|right; exists n; split; auto; lia].
  left. intros i hi. destruct (Nat.eq_dec i n) as [->|]; auto. apply h. lia.
Qed.
Lemma inv_posdef n A X : mmul n A X =[n, n]= mid -> posdef n A -> posdef n X.
Proof.
  intros h hp v hv. set (w := fun i => Rsum n (fun j => X i j * v j)).
  assert (hw : forall i, (i < n)%nat -> Rsum n (fun j => A i j * w j) = v i).
  { intros i hi. pose proof (mmul_assoc n n n 1 A X (fun k _ => v k) i 0%nat hi ltac:(lia)) as e. unfold mmul at 3 in e.
    change (Rsum n (fun j => A i j * w j) = v i). transitivity (mmul n (mmul n A X) (fun k _ => v k) i 0%nat); [symmetry; exact e|].
    transitivity (mmul n mid (fun k _ => v k) i 0%nat); [|apply (mmul_1_l n 1 (fun k _ => v k)); auto].
    unfold mmul at 1 3. apply Rsum_ext. intros k hk. rewrite (h i k) by auto. reflexivity. }
  assert (eq : qform n X v = qform n A w).
  { unfold qform. transitivity (Rsum n (fun i => v i * w i)).
    - apply Rsum_ext. intros i hi. unfold w. rewrite <- Rsum_scal_l. apply Rsum_ext. intros. ring.
    - apply Rsum_ext. intros i hi. rewrite <- (hw i hi). rewrite Rmult_comm, <- Rsum_scal_l. apply Rsum_ext. intros. ring. }
  rewrite eq. apply hp. destruct (zero_or_not n w) as [hz|]; auto. exfalso. destruct hv as (i & hi & hn). apply hn. rewrite <- (hw i hi).
  apply Rsum_0. intros j hj. rewrite hz by auto. ring.
Qed.
Lemma qr_inverse_facts (a x : mat RN) d : qr_into a = Ret d -> qr_inverse d = Ret x ->
  nr a = nc a /\ nr x = nr a /\ nc x = nr a /\ injective (nr a) (nr a) (ent a) /\
  mmul (nr a) (ent a) (ent x) =[nr a, nr a]= mid /\ mmul (nr a) (ent x) (ent a) =[nr a, nr a]= mid.
Proof.
  intros e ex. pose proof (qr_inverse_class_a a d e) as hc. rewrite ex in hc. destruct hc as (sq & hi & x1 & x2).
  destruct (C11_is_invertible a ltac:(lia)) as (d0 & e0 & h0). rewrite e in e0. injection e0 as <-. rewrite <- sq in h0. pose proof (proj1 h0 hi) as hinj.
  destruct (C14_qr_inverse a ltac:(lia)) as (d1 & e1 & h1 & _). rewrite e in e1. injection e1 as <-.
  destruct (h1 sq hinj) as (y & ey & _ & _ & y1 & y2). rewrite ex in ey. injection ey as <-. tauto.
Qed.
Lemma invc_posdef (a x : mat RN) : nr a = nc a -> symmetric (nr a) (ent a) -> invc a = Ret x -> posdef (nr a) (ent a).
Proof.
  intros sq hs e. destruct (C06_cholesky_iff_posdef a sq hs) as (h1 & _). apply h1. destruct (cholesky a) as [l|er| | |] eqn:el; [eauto|exfalso..].
  all: destruct (C09_invc a sq hs) as (_ & h3); rewrite h3 in e; [discriminate|]; intros hp; apply h1 in hp; destruct hp as (l & hl); discriminate.
Qed.

(** ** QR *)
(** The inverse of the inverse is the matrix *)
Theorem C83_qr_involution (a x : mat RN) d : qr_into a = Ret d -> qr_inverse d = Ret x ->
  exists d' y, qr_into x = Ret d' /\ qr_inverse d' = Ret y /\ nr y = nr a /\ nc y = nr a /\ ent y =[nr a, nr a]= ent a.
Proof.
  intros e ex. destruct (qr_inverse_facts a x d e ex) as (sq & x1 & x2 & hinj & h1 & h2).
  destruct (C14_qr_inverse x ltac:(lia)) as (d' & e' & k & _). rewrite x1, x2 in k.
  destruct (k eq_refl (inv_injective _ _ _ h1)) as (y & ey & y1 & y2 & y3 & y4).
  exists d', y. repeat (split; [assumption|]). symmetry. apply (inv_unique _ (ent x)); auto.
Qed.
(** Solving is multiplication by the inverse *)
Theorem C83_qr_solve (a x b z : mat RN) d : qr_into a = Ret d -> qr_inverse d = Ret x -> qr_solve d b = Ret z ->
  nr z = nr a /\ nc z = nc b /\ ent z =[nr a, nc b]= mmul (nr a) (ent x) (ent b).
Proof.
  intros e ex ez. destruct (qr_inverse_facts a x d e ex) as (sq & x1 & x2 & hinj & h1 & h2).
  pose proof (C15_solve_class RN a b d e) as hc. rewrite ez in hc. destruct hc as (hb & _ & z1 & z2).
  destruct (C12_qr_least_squares a b ltac:(lia) ltac:(rewrite <- sq; auto) hb) as (d0 & z0 & e0 & ez0 & _ & _ & _ & _ & _ & hz).
  rewrite e in e0. injection e0 as <-. rewrite ez in ez0. injection ez0 as <-. specialize (hz sq). rewrite <- sq in hz.
  split; [lia|]. split; [lia|]. rewrite <- hz. rewrite <- (mmul_assoc _ (nr a) (nr a)). rewrite h2. symmetry. apply mmul_1_l.
Qed.
(** The inverse of the transpose is the transpose of the inverse *)
Theorem C83_qr_transpose (a t x : mat RN) d : qr_into a = Ret d -> qr_inverse d = Ret x ->
  nr t = nc a -> nc t = nr a -> ent t =[nr a, nr a]= mtr (ent a) ->
  exists d' y, qr_into t = Ret d' /\ qr_inverse d' = Ret y /\ nr y = nr a /\ nc y = nr a /\ ent y =[nr a, nr a]= mtr (ent x).
Proof.
  intros e ex t1 t2 ht. destruct (qr_inverse_facts a x d e ex) as (sq & x1 & x2 & hinj & h1 & h2).
  assert (hl : mmul (nr a) (mtr (ent x)) (ent t) =[nr a, nr a]= mid).
  { rewrite ht. rewrite <- (mtr_mmul (nr a) (nr a) (nr a)). rewrite h1. apply mtr_mid. }
  destruct (C14_qr_inverse t ltac:(lia)) as (d' & e' & k & _). rewrite t1, t2, <- sq in k.
  destruct (k eq_refl (inv_injective _ _ _ hl)) as (y & ey & y1 & y2 & y3 & y4).
  exists d', y. repeat (split; [assumption|]). symmetry. apply (inv_unique _ (ent t)); auto.
Qed.
(** The inverse of a product is the product of the inverses in the other order *)
Theorem C83_qr_product (a b p x y : mat RN) d e : nr b = nr a -> qr_into a = Ret d -> qr_inverse d = Ret x -> qr_into b = Ret e -> qr_inverse e = Ret y ->
  nr p = nr a -> nc p = nr a -> ent p =[nr a, nr a]= mmul (nr a) (ent a) (ent b) ->
  exists f z, qr_into p = Ret f /\ qr_inverse f = Ret z /\ nr z = nr a /\ nc z = nr a /\ ent z =[nr a, nr a]= mmul (nr a) (ent y) (ent x).
Proof.
  intros hn ed ex ee ey p1 p2 hp. destruct (qr_inverse_facts a x d ed ex) as (sq & x1 & x2 & _ & h1 & h2).
  destruct (qr_inverse_facts b y e ee ey) as (sq' & y1 & y2 & _ & h3 & h4). rewrite hn in *.
  assert (hl : mmul (nr a) (mmul (nr a) (ent y) (ent x)) (ent p) =[nr a, nr a]= mid).
  { rewrite hp. rewrite (mmul_assoc _ (nr a) (nr a)). rewrite <- (mmul_assoc _ (nr a) (nr a) _ (ent x)). rewrite h2. rewrite mmul_1_l. exact h4. }
  destruct (C14_qr_inverse p ltac:(lia)) as (f & ef & k & _). rewrite p1, p2 in k.
  destruct (k eq_refl (inv_injective _ _ _ hl)) as (z & ez & z1 & z2 & z3 & z4).
  exists f, z. repeat (split; [assumption|]). symmetry. apply (inv_unique _ (ent p)); auto.
Qed.

(** ** Cholesky *)
(** The inverse of a symmetric positive definite matrix is symmetric and positive definite, and its inverse is the matrix *)
Theorem C83_invc (a x : mat RN) : nr a = nc a -> symmetric (nr a) (ent a) -> invc a = Ret x ->
  nr x = nr a /\ nc x = nr a /\ symmetric (nr a) (ent x) /\ posdef (nr a) (ent x) /\
  exists y, invc x = Ret y /\ nr y = nr a /\ nc y = nr a /\ ent y =[nr a, nr a]= ent a.
Proof.
  intros sq hs e. pose proof (invc_posdef a x sq hs e) as hp.
  destruct (C09_invc a sq hs) as (k & _). destruct (k hp) as (x' & ex & x1 & x2 & h1 & h2). rewrite e in ex. injection ex as <-.
  assert (hsx : symmetric (nr a) (ent x)).
  { assert (ht : mmul (nr a) (mtr (ent a)) (mtr (ent x)) =[nr a, nr a]= mid).
    { rewrite <- (mtr_mmul (nr a) (nr a) (nr a)). rewrite h2. apply mtr_mid. }
    unfold symmetric in *. apply (inv_unique _ (ent a)); auto. intros i j hi hj. rewrite <- (ht i j hi hj). unfold mmul. apply Rsum_ext. intros q hq. f_equal. apply hs; auto. }
  pose proof (inv_posdef _ _ _ h1 hp) as hpx. repeat (split; [assumption|]).
  destruct (C09_invc x ltac:(lia) ltac:(rewrite x1; auto)) as (k' & _). rewrite x1 in k'. destruct (k' hpx) as (y & ey & y1 & y2 & y3 & y4).
  exists y. repeat (split; [assumption|]). symmetry. apply (inv_unique _ (ent x)); auto.
Qed.
Theorem C83_solvec (a b x z : mat RN) : nr a = nc a -> symmetric (nr a) (ent a) -> invc a = Ret x -> solvec a b = Ret z ->
  nr z = nr a /\ nc z = nc b /\ ent z =[nr a, nc b]= mmul (nr a) (ent x) (ent b).
Proof.
  intros sq hs e ez. pose proof (invc_posdef a x sq hs e) as hp.
  destruct (C09_invc a sq hs) as (k & _). destruct (k hp) as (x' & ex & x1 & x2 & h1 & h2). rewrite e in ex. injection ex as <-.
  destruct (C08_solvec a b sq hs) as (k1 & k2 & _). destruct (Nat.eq_dec (nr b) (nr a)) as [hb|hb]; [|rewrite (k2 hp hb) in ez; discriminate].
  destruct (k1 hp hb) as (z' & ez' & z1 & z2 & z3 & z4). rewrite ez in ez'. injection ez' as <-. split; [lia|]. split; [lia|].
  symmetry. apply z4. rewrite <- (mmul_assoc _ (nr a) (nr a)). rewrite h1. apply mmul_1_l.
Qed.
Print Assumptions C83_qr_involution.
Print Assumptions C83_qr_solve.
Print Assumptions C83_qr_transpose.
Print Assumptions C83_qr_product.
Print Assumptions C83_invc.
Print Assumptions C83_solvec.

(** ** Binary64: the inverse of [[2, 1], [1, 2]] is not symmetric, and its inverse is not the matrix *)
Theorem C83_binary64_symmetric_refuted : exists a : mat FN,
  SFeqb (get a 0 1) (get a 1 0) = true /\
  match invc a with
  | Ret x => SFeqb (get x 0 1) (get x 1 0) = false /\
      match invc x with
      | Ret y => SFltb (get y 0 0) (get a 0 0) = true \/ SFltb (get a 0 0) (get y 0 0) = true
      | _ => False
      end
  | _ => False
  end.
Proof. exists (fmat 2 [[2; 1]; [1; 2]]%Z). vm_compute. auto. Qed.
Print Assumptions C83_binary64_symmetric_refuted.

(** ** Examples: the hypotheses are met *)
Example C83_invc_example : let a := rmat 2 [[4;2];[2;5]]%Z in
  nr a = nc a /\ symmetric (nr a) (ent a) /\ exists x z, invc a = Ret x /\ solvec a (rmat 1 [[1];[2]]%Z) = Ret z.
Proof.
  destruct C05_nonvacuous as (sq & hs & hp). split; auto. split; auto.
  destruct (C09_invc _ sq hs) as (k & _). destruct (k hp) as (x & ex & _).
  destruct (C08_solvec _ (rmat 1 [[1];[2]]%Z) sq hs) as (k' & _). destruct (k' hp eq_refl) as (z & ez & _). eauto.
Qed.
Example C83_qr_example : let a := rmat 2 [[1;2];[3;4]]%Z in
  exists d x z, qr_into a = Ret d /\ qr_inverse d = Ret x /\ qr_solve d (rmat 1 [[1];[2]]%Z) = Ret z.
Proof.
  destruct C14_nonvacuous as (hle & sq & hi). cbv zeta in *.
  destruct (C14_qr_inverse _ hle) as (d & e & k & _). destruct (k sq hi) as (x & ex & _).
  destruct (C12_qr_least_squares _ (rmat 1 [[1];[2]]%Z) hle hi eq_refl) as (d' & z & e' & ez & _). rewrite e in e'. injection e' as <-.
  exists d, x, z. auto.
Qed.
