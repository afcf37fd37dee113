(** * Proofs about qr.rs *)
From Coq Require Import Reals List Arith Lia Lra Bool Setoid Morphisms.
From Verif Require Import Scalar Arr MBase MDirect Inst Hoare Spec RLin PTri PChol PHouse.
Import ListNotations.
Open Scope res_scope.

(** ** Any scalar semantics: shapes, errors, safety *)
Section Generic.
Context {N : Num}.
Notation vec := (list N).
Notation mtx := (mat N).

Lemma qr_into_safe (a : mtx) : nc a <= nr a ->
  wp (qr_into a) (fun d => nr (qr d) = nr a /\ nc (qr d) = nc a /\ length (qdiag d) = nc a).
Proof.
  intros h. unfold qr_into. bd. step1.
  eapply post_for' with (I := fun i (st : mtx * vec) =>
     nr (fst st) = nr a /\ nc (fst st) = nc a /\ length (snd st) = nc a).
  - simpl. dims. auto.
  - intros i [m d] hi (h1 & h2 & h3). simpl in *. step1.
    eapply post_mono; [apply clear_column_safe; lia|]. intros [m' x] (g1 & g2). simpl in *.
    steps. simpl. dims. repeat split; congruence.
  - intros [m d] h'. simpl in *. auto.
Qed.

Definition qr_wf (d : qrdecomp N) : Prop := nc (qr d) <= nr (qr d) /\ length (qdiag d) = nc (qr d).

Lemma qt_mul_safe (d : qrdecomp N) (b : mtx) : qr_wf d -> nr b = nr (qr d) ->
  wp (qt_mul d b) (fun b' => nr b' = nr b /\ nc b' = nc b).
Proof.
  intros (w1 & w2) hb. unfold qt_mul.
  eapply post_for' with (I := fun _ b' => nr b' = nr b /\ nc b' = nc b); auto.
  intros i s hi (h1 & h2). steps.
  eapply post_mono; [apply reflect_cols_ok; simpl; dlia|]. intros y (y1 & y2 & _).
  steps.
Qed.

Lemma qr_generate_q_safe (d : qrdecomp N) : qr_wf d ->
  wp (qr_generate_q d) (fun q => nr q = nr (qr d) /\ nc q = nc (qr d)).
Proof.
  intros (w1 & w2). unfold qr_generate_q.
  eapply post_mono; [apply assemble_q_safe; [lia|]|].
  - intros i hi. apply post_idx1; auto. lia.
  - intros q (h1 & h2). split; auto. lia.
Qed.

Lemma qr_solve_class (d : qrdecomp N) (b : mtx) : qr_wf d ->
  match qr_solve d b with
  | Ret x => nr b = nr (qr d) /\ is_invertible d = true /\ nr x = nc (qr d) /\ nc x = nc b
  | Err (WrongRows e x) => nr b <> nr (qr d) /\ e = nr (qr d) /\ x = nr b
  | Err NonInvertible => nr b = nr (qr d) /\ is_invertible d = false
  | _ => False
  end.
Proof.
  intros (w1 & w2). unfold qr_solve.
  destruct (Nat.eqb_spec (nr (qr d)) (nr b)) as [e|e]; simpl; auto.
  destruct (is_invertible d) eqn:hi; simpl; auto.
  assert (h : wp (let* b0 := qt_mul d b in
    let* b1 := slice b0 0 (nc (qr d)) 0 (nc b0) in
    let* r := slice (qr d) 0 (nc (qr d)) 0 (nc (qr d)) in
    solve_triangular_system r b1 Upper (fun i => let* x := at1 (qdiag d) i in Ret (nabs N x)))
    (fun x => nr x = nc (qr d) /\ nc x = nc b)).
  { step1. eapply post_mono; [apply qt_mul_safe; [split|]; auto|]. intros b0 (h1 & h2).
    step1. apply post_slice; try lia. step1. apply post_slice; try lia.
    eapply post_mono; [apply solve_system_safe; dims; try lia|].
    - intros i hi'. dims. steps.
    - intros x (x1 & x2). dims. lia. }
  destruct (let* b0 := qt_mul d b in _); simpl in h; unfold noE in h; auto; tauto.
Qed.

Lemma qr_solve_tr_class (d : qrdecomp N) (b : mtx) : qr_wf d ->
  match qr_solve_tr d b with
  | Ret x => nr b = nc (qr d) /\ is_invertible d = true /\ nr x = nr (qr d) /\ nc x = nc b
  | Err (WrongRows e x) => nr b <> nc (qr d) /\ e = nc (qr d) /\ x = nr b
  | Err NonInvertible => nr b = nc (qr d) /\ is_invertible d = false
  | _ => False
  end.
Proof.
  intros (w1 & w2). unfold qr_solve_tr.
  destruct (Nat.eqb_spec (nc (qr d)) (nr b)) as [e|e]; simpl; auto.
  destruct (is_invertible d) eqn:hi; simpl; auto.
  assert (h : wp (let* r := slice (qr d) 0 (nc (qr d)) 0 (nc (qr d)) in
    let* b0 := solve_triangular_system (transpose r) b Lower
                (fun i => let* x := at1 (qdiag d) i in Ret (nabs N x)) in
    let* q := qr_generate_q d in dot2 q b0)
    (fun x => nr x = nr (qr d) /\ nc x = nc b)).
  { step1. apply post_slice; try lia. step1.
    eapply post_mono; [apply solve_system_safe; dims; try lia|].
    - intros i hi'. dims. steps.
    - intros x (x1 & x2). step1.
      eapply post_mono; [apply qr_generate_q_safe; split; auto|]. intros q (q1 & q2).
      steps. }
  destruct (let* r := slice _ _ _ _ _ in _); simpl in h; unfold noE in h; auto; tauto.
Qed.

Lemma qr_class (a : mtx) :
  match qr_into a with
  | Ret d => nc a <= nr a /\ nr (qr d) = nr a /\ nc (qr d) = nc a /\ qr_wf d
  | Err e => nr a < nc a /\ e = NotThin (nr a) (nc a)
  | _ => False
  end.
Proof.
  destruct (le_lt_dec (nc a) (nr a)) as [h|h].
  - destruct (wp_ret _ _ (qr_into_safe a h)) as (d & -> & h1 & h2 & h3).
    repeat split; auto; lia.
  - unfold qr_into. bd. simpl. auto.
Qed.

Lemma least_squares_class (a b : mtx) :
  match least_squares a b with
  | Ret x => nr b = nr a /\ nr x = nc a /\ nc x = nc b
  | Err (WrongRows e x) => nr b <> nr a /\ e = nr a /\ x = nr b
  | Err NonInvertible => nr b = nr a /\
      exists d, qr_into (if Nat.leb (nc a) (nr a) then a else transpose a) = Ret d /\ is_invertible d = false
  | _ => False
  end.
Proof.
  unfold least_squares. destruct (Nat.leb_spec (nc a) (nr a)) as [h|h].
  - pose proof (qr_class a) as hq. destruct (qr_into a) as [d|e| | |]; simpl; try lia; auto.
    destruct hq as (_ & h1 & h2 & hw). pose proof (qr_solve_class d b hw) as hs.
    destruct (qr_solve d b) as [x|[]| | |]; simpl in *; try (intuition congruence).
    split; [intuition congruence|]. exists d. intuition.
  - pose proof (qr_class (transpose a)) as hq.
    destruct (qr_into (transpose a)) as [d|e| | |]; simpl in *; try (dims; lia); auto.
    destruct hq as (_ & h1 & h2 & hw). pose proof (qr_solve_tr_class d b hw) as hs.
    dims. destruct (qr_solve_tr d b) as [x|[]| | |]; simpl in *; try (intuition congruence).
    split; [intuition congruence|]. exists d. intuition.
Qed.

Lemma qr_inverse_class (d : qrdecomp N) : qr_wf d ->
  match qr_inverse d with
  | Ret x => nr (qr d) = nc (qr d) /\ is_invertible d = true /\ nr x = nr (qr d) /\ nc x = nr (qr d)
  | Err (NotSquare r c) => nr (qr d) <> nc (qr d) /\ r = nr (qr d) /\ c = nc (qr d)
  | Err NonInvertible => nr (qr d) = nc (qr d) /\ is_invertible d = false
  | _ => False
  end.
Proof.
  intros hw. unfold qr_inverse, check_square.
  destruct (Nat.eqb_spec (nr (qr d)) (nc (qr d))) as [e|e]; simpl; auto.
  pose proof (qr_solve_class d (eye (length (qdiag d))) hw) as hs.
  destruct hw as (w1 & w2). rewrite w2 in *. unfold eye in hs. dims.
  fold (@eye N (nc (qr d))) in hs.
  destruct (qr_solve d _) as [x|[]| | |]; simpl in *; intuition (try congruence; try lia).
Qed.

Lemma qr_into_decomp_safe (d : qrdecomp N) : qr_wf d ->
  wp (qr_into_decomp d) (fun p => nr (fst p) = nr (qr d) /\ nc (fst p) = nc (qr d) /\
     nr (snd p) = nc (qr d) /\ nc (snd p) = nc (qr d)).
Proof.
  intros hw. unfold qr_into_decomp. step1.
  eapply post_mono; [apply qr_generate_q_safe; auto|]. intros q (q1 & q2). step1.
  unfold qr_into_r. destruct hw as (w1 & w2). step1. apply post_slice; try lia. step1. step1.
  eapply post_mono; [apply triangular_inplace_ok; dims; lia|]. intros r (r1 & r2 & _). dims.
  rewrite r1, r2, w2. bd. simpl. dims. lia.
Qed.

Lemma qr_decomp_shapes (a : mtx) d : qr_into a = Ret d ->
  exists q r, qr_into_decomp d = Ret (q, r) /\
    nr q = nr a /\ nc q = nc a /\ nr r = nc a /\ nc r = nc a.
Proof.
  intros e. pose proof (qr_class a) as h. rewrite e in h. destruct h as (_ & h1 & h2 & hw).
  destruct (wp_ret _ _ (qr_into_decomp_safe d hw)) as ((q, r) & e' & g). cbn [fst snd] in g.
  exists q, r. rewrite <- h1, <- h2. tauto.
Qed.
Lemma qr_solve_class_a (a b : mtx) d : qr_into a = Ret d ->
  match qr_solve d b with
  | Ret x => nr b = nr a /\ is_invertible d = true /\ nr x = nc a /\ nc x = nc b
  | Err (WrongRows e x) => nr b <> nr a /\ e = nr a /\ x = nr b
  | Err NonInvertible => nr b = nr a /\ is_invertible d = false
  | _ => False
  end.
Proof.
  intros e. pose proof (qr_class a) as h. rewrite e in h. destruct h as (_ & h1 & h2 & hw).
  rewrite <- h1, <- h2. apply qr_solve_class; auto.
Qed.
Lemma qr_solve_tr_class_a (a b : mtx) d : qr_into a = Ret d ->
  match qr_solve_tr d b with
  | Ret x => nr b = nc a /\ is_invertible d = true /\ nr x = nr a /\ nc x = nc b
  | Err (WrongRows e x) => nr b <> nc a /\ e = nc a /\ x = nr b
  | Err NonInvertible => nr b = nc a /\ is_invertible d = false
  | _ => False
  end.
Proof.
  intros e. pose proof (qr_class a) as h. rewrite e in h. destruct h as (_ & h1 & h2 & hw).
  rewrite <- h1, <- h2. apply qr_solve_tr_class; auto.
Qed.
Lemma qr_inverse_class_a (a : mtx) d : qr_into a = Ret d ->
  match qr_inverse d with
  | Ret x => nr a = nc a /\ is_invertible d = true /\ nr x = nr a /\ nc x = nr a
  | Err (NotSquare r c) => nr a <> nc a /\ r = nr a /\ c = nc a
  | Err NonInvertible => nr a = nc a /\ is_invertible d = false
  | _ => False
  end.
Proof.
  intros e. pose proof (qr_class a) as h. rewrite e in h. destruct h as (_ & h1 & h2 & hw).
  rewrite <- h1, <- h2. apply qr_inverse_class; auto.
Qed.
End Generic.

(** ** Exact arithmetic *)
Local Open Scope R_scope.

(** The i-th reflector recorded in (m, d), the full orthogonal factor and the triangular factor *)
Definition qP (m : mat RN) (d : nat -> R) (i : nat) : M := hh (i + 0) (sgn (d i)) (axis_of (i + 0) m i).
Definition rpart (m : mat RN) (d : nat -> R) : M := fun p q =>
  if Nat.ltb p q then ent m p q else if Nat.eqb p q then Rabs (d q) else 0.
Definition wpart (m : mat RN) (d : nat -> R) (i : nat) : M := fun p q =>
  if Nat.ltb q i then rpart m d p q else ent m p q.

Record qr_ok (A : M) (n c : nat) (d : qrdecomp RN) : Prop := {
  qo_le : (c <= n)%nat;
  qo_nr : nr (qr d) = n;
  qo_nc : nc (qr d) = c;
  qo_len : length (qdiag d) = c;
  qo_refl : forall i, (i < c)%nat ->
     reflector n (i + 0) (sgn (vent (qdiag d) i)) (axis_of (i + 0) (qr d) i);
  qo_eq : A =[n, c]= mmul n (hprod n (qP (qr d) (vent (qdiag d))) c) (rpart (qr d) (vent (qdiag d)))
}.

Lemma axis_of_ext k m m' i n : (forall p, (p < n)%nat -> ent m p i = ent m' p i) ->
  forall p, (p < n)%nat -> axis_of k m i p = axis_of k m' i p.
Proof. intros h p hp. unfold axis_of. bd; auto. Qed.
Lemma hh_ext n k s w w' : (forall p, (p < n)%nat -> w p = w' p) -> hh k s w =[n, n]= hh k s w'.
Proof. intros h i j hi hj. unfold hh. rewrite !h by auto. reflexivity. Qed.
Lemma reflector_ext n k s w w' : (k <= n)%nat -> (forall p, (p < n)%nat -> w p = w' p) ->
  reflector n k s w -> reflector n k s w'.
Proof.
  intros hk h [h1 h2 h3]. split; auto.
  - intros i hi. rewrite <- h by lia. auto.
  - destruct h3 as [h3|h3]; [left|right].
    + rewrite <- h3. apply Rsum_ext. intros. rewrite h by auto. reflexivity.
    + intros. rewrite <- h by auto. auto.
Qed.

Lemma qr_into_real (a : mat RN) : (nc a <= nr a)%nat ->
  wp (qr_into a) (fun d => qr_ok (ent a) (nr a) (nc a) d).
Proof.
  intros hle. unfold qr_into. bd. set (n := nr a). set (c := nc a). fold n c in hle.
  step1.
  eapply post_for' with (I := fun i (st : mat RN * list RN) => let m := fst st in let d := vent (snd st) in
     nr m = n /\ nc m = c /\ length (snd st) = c /\
     (forall j, (j < i)%nat -> reflector n (j + 0) (sgn (d j)) (axis_of (j + 0) m j)) /\
     ent a =[n, c]= mmul n (hprod n (qP m d) i) (wpart m d i)).
  - cbn [fst snd]. repeat split; auto; try (intros; lia).
    + apply length_vzeros.
    + cbn [hprod]. rewrite mmul_1_l. intros p q hp hq. reflexivity.
  - intros i [m d] hi (h1 & h2 & h3 & h4 & h5). cbn [fst snd] in *. cbv zeta. step1.
    eapply post_mono; [apply clear_column_real; lia|]. intros [m' x]. cbn [fst snd].
    unfold clear_post. rewrite h1, h2. intros (g1 & g2 & g3 & g4 & g5 & g6).
    step1. apply post_set1; [lia|]. apply post_ret. cbn [fst snd].
    set (d' := vupd d i x).
    assert (hd' : forall j, (j < c)%nat -> vent d' j = if Nat.eqb j i then x else vent d j).
    { intros j hj. unfold vent, d'. rewrite vget_vupd by lia. reflexivity. }
    assert (ld : length d' = c) by (unfold d'; rewrite length_vupd; auto).
    clearbody d'.
    assert (hcol : forall j, (j < i)%nat -> forall p, (p < n)%nat -> ent m' p j = ent m p j).
    { intros j hj p hp. apply g4; auto; lia. }
    assert (hPi : hh (i + 0) (sgn x) (axis_of (i + 0) m' i) = qP m' (vent d') i).
    { unfold qP. rewrite hd' by lia. rewrite Nat.eqb_refl. reflexivity. }
    assert (hprev : hprod n (qP m' (vent d')) i =[n, n]= hprod n (qP m (vent d)) i).
    { apply hprod_ext. intros j hj. unfold qP. rewrite hd' by lia. bd.
      apply hh_ext. apply axis_of_ext. auto. }
    assert (hW : wpart m' (vent d') (S i) =[n, c]= mmul n (qP m' (vent d') i) (wpart m (vent d) i)).
    { intros p q hp hq. rewrite <- hPi.
      assert (e1 : forall X, mmul n (hh (i + 0) (sgn x) (axis_of (i + 0) m' i)) X p q =
         mmul n (hh (i + 0) (sgn x) (axis_of (i + 0) m' i)) (fun l _ => X l q) p q) by reflexivity.
      destruct (lt_eq_lt_dec q i) as [[lt|e]|lt].
      - (* finished columns are fixed *)
        rewrite (hh_apply n c) by (auto; apply axis_of_zero).
        assert (hz : forall l, (i <= l)%nat -> wpart m (vent d) i l q = 0).
        { intros l hl. unfold wpart, rpart. bd. reflexivity. }
        rewrite (Rsum_0 n).
        2:{ intros l hl. destruct (le_lt_dec i l) as [g|g].
            - rewrite hz by lia. ring.
            - rewrite axis_of_zero by lia. ring. }
        rewrite Nat.add_0_r.
        assert (e : wpart m' (vent d') (S i) p q = wpart m (vent d) i p q).
        { unfold wpart, rpart. rewrite hd' by lia. rewrite (hcol q) by lia. bd; auto. }
        rewrite e. destruct (Nat.ltb_spec p i); auto. rewrite hz by lia. ring.
      - (* the column being cleared *)
        subst q. rewrite e1.
        transitivity (mmul n (hh (i + 0) (sgn x) (axis_of (i + 0) m' i)) (ent m) p i).
        2:{ rewrite e1. unfold mmul. apply Rsum_ext. intros l hl. unfold wpart. bd. reflexivity. }
        rewrite g6 by auto. rewrite Nat.add_0_r. unfold wpart, rpart. rewrite hd' by lia.
        rewrite Nat.eqb_refl. destruct (Nat.ltb_spec i (S i)); [|lia].
        destruct (Nat.ltb_spec p i); auto. apply g4; auto. lia.
      - unfold wpart at 1. bd. rewrite g5 by auto. unfold mmul. apply Rsum_ext. intros l hl.
        unfold wpart. bd. reflexivity. }
    repeat split; auto; try congruence.
    + intros p hp. apply axis_of_zero; auto.
    + apply sgn_sq.
    + destruct (Nat.eq_dec j i) as [->|ne].
      * apply g3.
      * destruct (h4 j ltac:(lia)) as [_ _ hu].
        destruct hu as [hu|hu]; [left|right].
        -- rewrite <- hu. apply Rsum_ext. intros p hp.
           rewrite (axis_of_ext _ m' m j n) by (auto; intros; apply hcol; lia). reflexivity.
        -- intros p hp. rewrite (axis_of_ext _ m' m j n) by (auto; intros; apply hcol; lia). auto.
    + cbn [hprod].
      assert (hinv : mmul n (qP m' (vent d') i) (qP m' (vent d') i) =[n, n]= mid).
      { rewrite <- hPi. apply hh_invol. exact g3. }
      rewrite hW, h5, hprev.
      rewrite (mmul_assoc n n n c (hprod n (qP m (vent d)) i)).
      rewrite <- (mmul_assoc n n n c (qP m' (vent d') i)), hinv, mmul_1_l. reflexivity.
  - intros [m d] (h1 & h2 & h3 & h4 & h5). cbn [fst snd] in *. apply post_ret.
    constructor; auto. cbn [qr qdiag]. rewrite h5.
    assert (e : wpart m (vent d) (0 + c) =[n, c]= rpart m (vent d)).
    { intros p q hp hq. unfold wpart. bd. reflexivity. }
    rewrite e. reflexivity.
Qed.

Lemma upper_injective_inv U m : upper_tri m m U -> injective m m U -> forall i, (i < m)%nat -> U i i <> 0.
Proof.
  intros hU hinj.
  assert (h : forall i, (i <= m)%nat -> forall j, (j < i)%nat -> U j j <> 0).
  { induction i; intros hi j hj; [lia|].
    destruct (Nat.eq_dec j i) as [->|]; [|apply IHi; lia].
    intros e.
    destruct (upper_solvable i U (fun p => U p i)) as (y & hy).
    - intros p q hp hq h. apply hU; lia.
    - intros p hp. apply IHi; lia.
    - assert (hz : (if Nat.ltb i i then y i else if Nat.eqb i i then -1 else 0) = 0).
      { apply (hinj (fun q => if Nat.ltb q i then y q else if Nat.eqb q i then -1 else 0)); [|lia].
        intros p hp. replace m with (S i + (m - S i))%nat by lia. rewrite Rsum_split.
        rewrite (Rsum_0 (m - S i)). 2:{ intros l hl. bd. ring. }
        cbn [Rsum]. bd.
        rewrite (Rsum_ext i _ (fun q => U p q * y q)) by (intros; bd; auto).
        destruct (lt_eq_lt_dec p i) as [[lt|eq]|gt].
        - rewrite hy by auto. ring.
        - subst p. rewrite e. rewrite Rsum_0; [ring|]. intros. rewrite hU by lia. ring.
        - rewrite (hU p i) by lia. rewrite Rsum_0; [ring|]. intros. rewrite hU by lia. ring. }
      revert hz. bd. lra. }
  intros i hi. apply (h m); auto.
Qed.

(** *** Linear algebra of a factorisation A = Q R with Q orthogonal and R upper triangular *)
Section Factor.
Context (n c : nat) (A Q R : M).
Context (hle : (c <= n)%nat) (hQ : orthogonal n Q) (hR : forall p q, (q < c)%nat -> (q < p)%nat -> R p q = 0)
        (hA : A =[n, c]= mmul n Q R).

Lemma mmul_trunc r k P X : (forall p q, (c <= p < n)%nat -> (q < k)%nat -> X p q = 0) ->
  mmul n P X =[r, k]= mmul c P X.
Proof.
  intros hX i j hi hj. unfold mmul. rewrite <- (Rsum_if_lt n c) by auto.
  apply Rsum_ext. intros l hl. bd; auto. rewrite hX by lia. ring.
Qed.

Lemma factor_thin : A =[n, c]= mmul c Q R.
Proof. rewrite hA. apply mmul_trunc. intros. apply hR; lia. Qed.

Lemma factor_orthonormal : orthonormal_cols n c Q.
Proof. unfold orthonormal_cols. destruct hQ as [h _]. intros i j hi hj. apply h; lia. Qed.

Lemma factor_QtA : mmul n (mtr Q) A =[n, c]= R.
Proof.
  rewrite hA. rewrite <- (mmul_assoc n n n c (mtr Q)). destruct hQ as [h _]. rewrite h, mmul_1_l. reflexivity.
Qed.

Lemma factor_injective : injective n c A <-> injective c c R.
Proof.
  split; intros h x hx.
  - apply h. intros i hi. set (X := fun (q : nat) (_ : nat) => x q).
    change (mmul c A X i O = 0).
    assert (e : mmul c A X =[n, 1]= fun _ _ => 0).
    { rewrite hA, (mmul_assoc n n c 1 Q).
      assert (e : mmul c R X =[n, 1]= fun _ _ => 0).
      { intros p q hp hq. unfold mmul, X. destruct (le_lt_dec c p) as [g|g]; [|apply hx; auto].
        apply Rsum_0. intros l hl. rewrite hR by lia. ring. }
      rewrite e. intros p q hp hq. unfold mmul. apply Rsum_0. intros. ring. }
    apply e; auto.
  - apply h. intros i hi. set (X := fun (q : nat) (_ : nat) => x q).
    change (mmul c R X i O = 0).
    assert (e : mmul c R X =[n, 1]= fun _ _ => 0).
    { rewrite <- factor_QtA. rewrite (mmul_assoc n n c 1 (mtr Q)).
      assert (e : mmul c A X =[n, 1]= fun _ _ => 0).
      { intros p q hp hq. unfold mmul, X. apply hx; auto. }
      rewrite e. intros p q hp hq. unfold mmul. apply Rsum_0. intros. ring. }
    apply e; lia.
Qed.

Lemma factor_full_rank : injective n c A <-> forall i, (i < c)%nat -> R i i <> 0.
Proof.
  rewrite factor_injective.
  assert (hu : upper_tri c c R) by (intros i j hi hj h; apply hR; auto).
  split; [apply upper_injective_inv|apply upper_injective]; auto.
Qed.

(** Back substitution with Q^T b solves the normal equations *)
Lemma factor_normal k x b : mmul c R x =[c, k]= mmul n (mtr Q) b ->
  mmul n (mtr A) (msub (mmul c A x) b) =[c, k]= (fun _ _ => 0).
Proof.
  intros hx. destruct hQ as [q1 q2].
  set (e := msub (mmul c R x) (mmul n (mtr Q) b)).
  assert (he : msub (mmul c A x) b =[n, k]= mmul n Q e).
  { unfold e. rewrite mmul_sub_r. rewrite <- (mmul_assoc n n n k Q), q2, mmul_1_l.
    rewrite hA, (mmul_assoc n n c k Q). reflexivity. }
  rewrite he. rewrite <- (mmul_assoc c n n k (mtr A)).
  assert (h1 : mmul n (mtr A) Q =[c, n]= mtr R).
  { rewrite <- (mtr_mtr n n Q) at 1. rewrite <- (mtr_mmul n n c (mtr Q) A).
    intros i j hi hj. unfold mtr. apply factor_QtA; auto. }
  rewrite h1. intros i j hi hj. unfold mmul, mtr. apply Rsum_0. intros l hl.
  destruct (le_lt_dec c l) as [g|g].
  - rewrite hR by lia. ring.
  - unfold e, msub. rewrite hx by auto. ring.
Qed.

Lemma factor_square_solve k x b : n = c -> mmul c R x =[c, k]= mmul n (mtr Q) b -> mmul c A x =[n, k]= b.
Proof.
  intros e hx. rewrite hA, (mmul_assoc n n c k Q). rewrite <- e in hx at 1. rewrite hx.
  rewrite <- (mmul_assoc n n n k Q). destruct hQ as [_ q2]. rewrite q2, mmul_1_l. reflexivity.
Qed.

Lemma factor_tr_solve k y b : mmul c (mtr R) y =[c, k]= b -> mmul n (mtr A) (mmul c Q y) =[c, k]= b.
Proof.
  intros hy. rewrite factor_thin at 1. rewrite (mtr_mmul n c c Q R).
  rewrite (mmul_assoc c c n k (mtr R)). rewrite <- (mmul_assoc c n c k (mtr Q)).
  pose proof factor_orthonormal as ho. unfold orthonormal_cols in ho. rewrite ho, mmul_1_l. exact hy.
Qed.
End Factor.

(** Pythagoras for a residual orthogonal to the columns of A *)
Lemma lsq_pythagoras n c A b x y :
  (forall j, (j < c)%nat -> Rsum n (fun i => A i j * (Rsum c (fun k => A i k * x k) - b i)) = 0) ->
  resid2 n c A b y = resid2 n c A b x + vnorm2 n (fun i => Rsum c (fun j => A i j * (y j - x j))).
Proof.
  intros h. unfold resid2, vnorm2.
  set (r := fun i => Rsum c (fun k => A i k * x k) - b i).
  set (z := fun i => Rsum c (fun j => A i j * (y j - x j))).
  assert (hz : forall i, Rsum c (fun j => A i j * y j) - b i = r i + z i).
  { intros i. unfold r, z. replace (Rsum c (fun j => A i j * y j)) with
      (Rsum c (fun j => A i j * x j) + Rsum c (fun j => A i j * (y j - x j))); [ring|].
    rewrite <- Rsum_plus. apply Rsum_ext. intros. ring. }
  rewrite (Rsum_ext n _ (fun i => r i * r i + z i * z i + 2 * (z i * r i)))
    by (intros; rewrite hz; ring).
  rewrite !Rsum_plus, Rsum_scal_l.
  assert (hc : Rsum n (fun i => z i * r i) = 0).
  { unfold z. rewrite (Rsum_ext n _ (fun i => Rsum c (fun j => (y j - x j) * (A i j * r i)))).
    2:{ intros. rewrite <- Rsum_scal_r. apply Rsum_ext. intros. ring. }
    rewrite Rsum_swap. apply Rsum_0. intros j hj. rewrite Rsum_scal_l, h by auto. ring. }
  rewrite hc. unfold r, z. ring.
Qed.

Lemma lsq_optimal n c A b x :
  (forall j, (j < c)%nat -> Rsum n (fun i => A i j * (Rsum c (fun k => A i k * x k) - b i)) = 0) ->
  forall y, resid2 n c A b x <= resid2 n c A b y /\
    (injective n c A -> resid2 n c A b y <= resid2 n c A b x -> forall j, (j < c)%nat -> y j = x j).
Proof.
  intros h y. pose proof (lsq_pythagoras n c A b x y h) as e.
  pose proof (vnorm2_nonneg n (fun i => Rsum c (fun j => A i j * (y j - x j)))) as hn.
  split; [lra|]. intros hinj hy j hj.
  assert (h0 : vnorm2 n (fun i => Rsum c (fun j => A i j * (y j - x j))) = 0) by lra.
  assert (y j - x j = 0); [|lra].
  apply (hinj (fun q => y q - x q)); auto. intros i hi. apply (Rsum_sq_0 n) with (i := i) in h0; auto.
Qed.

(** A solution of A^T x = b in the range of A has minimal norm *)
Lemma min_norm n c A b x w :
  (forall i, (i < n)%nat -> x i = Rsum c (fun j => A i j * w j)) ->
  (forall j, (j < c)%nat -> Rsum n (fun i => A i j * x i) = b j) ->
  forall z, (forall j, (j < c)%nat -> Rsum n (fun i => A i j * z i) = b j) ->
  vnorm2 n x <= vnorm2 n z /\ (vnorm2 n z <= vnorm2 n x -> forall i, (i < n)%nat -> z i = x i).
Proof.
  intros hx hb z hz.
  assert (e : vnorm2 n z = vnorm2 n x + vnorm2 n (fun i => z i - x i)).
  { unfold vnorm2.
    rewrite (Rsum_ext n (fun i => z i * z i) (fun i => x i * x i + (z i - x i) * (z i - x i) + 2 * (x i * (z i - x i))))
      by (intros; ring).
    rewrite !Rsum_plus, Rsum_scal_l.
    assert (hc : Rsum n (fun i => x i * (z i - x i)) = 0).
    { rewrite (Rsum_ext n _ (fun i => Rsum c (fun j => w j * (A i j * z i - A i j * x i)))).
      2:{ intros i hi. rewrite (hx i) at 1 by auto. rewrite <- Rsum_scal_r. apply Rsum_ext. intros. ring. }
      rewrite Rsum_swap. apply Rsum_0. intros j hj. rewrite Rsum_scal_l, Rsum_minus, hz, hb by auto. ring. }
    rewrite hc. ring. }
  pose proof (vnorm2_nonneg n (fun i => z i - x i)). split; [lra|].
  intros hle i hi. assert (h0 : vnorm2 n (fun i => z i - x i) = 0) by lra.
  assert (z i - x i = 0); [|lra]. exact (Rsum_sq_0 n _ h0 i hi).
Qed.

(** *** The reflectors of a decomposition *)
Lemma apply_reflector (b : mat RN) k (v : list RN) s w : (k <= nr b)%nat -> length v = (nr b - k)%nat ->
  (forall p, (p < k)%nat -> w p = 0) -> (forall p, (k <= p < nr b)%nat -> w p = vent v (p - k)) ->
  wp (let* rows := slice b k (nr b) 0 (nc b) in
      let* rows := reflect_cols (Refl v (n0 RN)) rows in
      Ret (put b k 0 (mscale rows s)))
     (fun b' => nr b' = nr b /\ nc b' = nc b /\
        ent b' =[nr b, nc b]= mmul (nr b) (hh k s w) (ent b)).
Proof.
  intros hk hv hw0 hw1. step1. apply post_slice; try lia. step1.
  eapply post_mono; [apply reflect_cols_ok; simpl; dims; lia|].
  intros y (y1 & y2 & y3). dims. cbn [axis bias] in y3. apply post_ret.
  repeat split.
  intros i j hi hj. rewrite (hh_apply (nr b) (nc b)) by auto.
  unfold ent at 1. rewrite get_put by auto. dims. rewrite y1, y2.
  destruct (Nat.ltb_spec i k); bd; auto. cbn [andb]. bd. rewrite get_mscale by lia.
  rewrite y3 by lia. rewrite refl_entry_R. rn.
  rewrite (Rsum_shift (nr b) k w (fun l => ent b l j) (vent v)) by auto.
  rewrite Rmult_comm. f_equal. rewrite get_mk by lia.
  replace (k + (i - k))%nat with i by lia. rewrite !Nat.sub_0_r, Nat.add_0_l. change (@get RN b i j) with (ent b i j).
  f_equal. f_equal. rewrite hw1 by lia. change (vent v (i - k)) with (@vget RN v (i - k)). f_equal.
  rewrite Rminus_0_r. apply Rsum_ext. intros l hl. rewrite get_mk by lia. reflexivity.
Qed.

Section Ok.
Context (A : M) (n c : nat) (d : qrdecomp RN) (ok : qr_ok A n c d).
Let dg := vent (qdiag d).
Let Q := hprod n (qP (qr d) dg) c.
Let R := rpart (qr d) dg.

Lemma ok_wf : qr_wf d.
Proof. destruct ok. split; congruence || lia. Qed.
Lemma ok_Q : orthogonal n Q.
Proof. apply hprod_orthogonal. intros i hi. apply hh_orthogonal. apply (qo_refl _ _ _ _ ok); auto. Qed.
Lemma ok_R p q : (q < c)%nat -> (q < p)%nat -> R p q = 0.
Proof. intros. unfold R, rpart. bd. reflexivity. Qed.
Lemma ok_A : A =[n, c]= mmul n Q R.
Proof. apply (qo_eq _ _ _ _ ok). Qed.
Lemma ok_Rd i : R i i = Rabs (dg i).
Proof. unfold R, rpart. bd. reflexivity. Qed.

Lemma qr_generate_q_real :
  wp (qr_generate_q d) (fun q => nr q = n /\ nc q = c /\ ent q =[n, c]= Q).
Proof.
  destruct ok as [h0 h1 h2 h3 h4 h5]. unfold qr_generate_q.
  eapply post_mono; [apply (assemble_q_real (qr d) 0 _ dg); [lia|]|].
  - intros i hi. unfold idx1. bd. reflexivity.
  - cbv zeta. rewrite h1, h2. replace (Nat.min n c - 0)%nat with c by lia.
    replace (Nat.min n c) with c by lia. intros q (g1 & g2 & g3). auto.
Qed.

Lemma qr_into_r_real :
  wp (qr_into_r d) (fun r => nr r = c /\ nc r = c /\ ent r =[c, c]= R).
Proof.
  destruct ok as [h0 h1 h2 h3 h4 h5]. unfold qr_into_r. step1. apply post_slice; try lia.
  step1. step1. eapply post_mono; [apply triangular_inplace_ok; dims; lia|].
  intros r (r1 & r2 & r3 & r4). dims. rewrite r1, r2, h3, h2 in *. bd. apply post_ret.
  dims. repeat split; try lia. intros i j hi hj. unfold ent. rewrite get_mk by lia.
  unfold R, rpart. bd; subst; auto.
  - rewrite r4 by (simpl; lia). rewrite get_mk by lia. reflexivity.
  - rewrite r3 by (simpl; lia). reflexivity.
Qed.

Lemma qr_decomp_real :
  exists q r, qr_into_decomp d = Ret (q, r) /\
    nr q = n /\ nc q = c /\ nr r = c /\ nc r = c /\
    orthonormal_cols n c (ent q) /\ upper_tri c c (ent r) /\
    (forall i, (i < c)%nat -> 0 <= ent r i i) /\ mmul c (ent q) (ent r) =[n, c]= A.
Proof.
  destruct (wp_ret _ _ qr_generate_q_real) as (q & eq & q1 & q2 & q3).
  destruct (wp_ret _ _ qr_into_r_real) as (r & er & r1 & r2 & r3).
  exists q, r. unfold qr_into_decomp. rewrite eq, er. cbn [bind].
  split; [reflexivity|]. repeat (split; [auto|]).
  - unfold orthonormal_cols. rewrite q3. apply (factor_orthonormal n c Q); [apply (qo_le _ _ _ _ ok)|apply ok_Q].
  - intros i j hi hj h. rewrite r3 by auto. apply ok_R; auto.
  - intros i hi. rewrite r3 by auto. rewrite ok_Rd. apply Rabs_pos.
  - rewrite q3, r3. symmetry. apply (factor_thin n c A Q R); [apply (qo_le _ _ _ _ ok)|exact ok_R|apply ok_A].
Qed.

Lemma is_invertible_diag : is_invertible d = true <-> forall i, (i < c)%nat -> dg i <> 0.
Proof.
  unfold is_invertible. rewrite forallb_forall. rewrite <- (qo_len _ _ _ _ ok). split.
  - intros h i hi e. specialize (h (vget (qdiag d) i) (nth_In _ _ hi)).
    rewrite nz_R in h. change (vget (qdiag d) i) with (dg i) in h. rewrite e in h.
    destruct (Reqb_spec 0 0); [discriminate|lra].
  - intros h x hx. destruct (In_nth _ _ (n0 RN) hx) as (i & hi & e).
    rewrite nz_R. destruct (Reqb_spec x 0) as [e0|]; auto. exfalso. apply (h i hi).
    unfold dg, vent, vget. congruence.
Qed.

Lemma is_invertible_rank : is_invertible d = true <-> injective n c A.
Proof.
  rewrite is_invertible_diag.
  rewrite (factor_full_rank n c A Q R (qo_le _ _ _ _ ok) ok_Q ok_R ok_A).
  split; intros h i hi.
  - rewrite ok_Rd. apply Rabs_no_R0. auto.
  - intros e. apply (h i hi). rewrite ok_Rd, e. apply Rabs_R0.
Qed.

Lemma qt_mul_real (b : mat RN) : nr b = n ->
  wp (qt_mul d b) (fun b' => nr b' = n /\ nc b' = nc b /\ ent b' =[n, nc b]= mmul n (mtr Q) (ent b)).
Proof.
  intros hb. destruct ok as [h0 h1 h2 h3 h4 h5]. unfold qt_mul. rewrite h2.
  eapply post_for' with (I := fun i b' => nr b' = n /\ nc b' = nc b /\
     ent b' =[n, nc b]= mmul n (mtr (hprod n (qP (qr d) dg) i)) (ent b)).
  - repeat split; auto. cbn [hprod]. rewrite mtr_mid, mmul_1_l. reflexivity.
  - intros i b1 hi (g1 & g2 & g3). step1. apply post_col_from; try lia.
    pose proof (apply_reflector b1 i (vmk (nr (qr d) - i) (fun p => get (qr d) (i + p)%nat i)) (sgn (dg i))
                  (axis_of (i + 0) (qr d) i)) as hap.
    rewrite g1, g2 in hap.
    unfold idx1. rewrite h3. bd. cbn [bind]. rewrite g1, g2. change (nsignum RN (vget (qdiag d) i)) with (sgn (dg i)).
    eapply post_mono; [apply hap|].
    + lia.
    + dims. lia.
    + intros p hp. apply axis_of_zero. lia.
    + intros p hp. unfold axis_of. rewrite Nat.add_0_r. bd. unfold vent. rewrite vget_vmk by lia.
      replace (i + (p - i))%nat with p by lia. reflexivity.
    + intros b2 (e1 & e2 & e3). repeat split; auto. rewrite e3, g3.
      cbn [hprod]. rewrite (mtr_mmul n n n). rewrite (mmul_assoc n n n (nc b) (mtr (qP (qr d) dg i))).
      assert (e : mtr (qP (qr d) dg i) =[n, n]= hh i (sgn (dg i)) (axis_of (i + 0) (qr d) i)).
      { unfold qP. rewrite hh_sym by (intros; apply axis_of_zero; auto). rewrite Nat.add_0_r. reflexivity. }
      rewrite e. reflexivity.
  - intros b' (g1 & g2 & g3). auto.
Qed.

Lemma r_slice_part (r : mat RN) : (forall i j, (i < c)%nat -> (j < c)%nat -> ent r i j = ent (qr d) i j) ->
  tri_part Upper (fun i => Rabs (dg i)) (ent r) =[c, c]= R.
Proof.
  intros h i j hi hj. unfold tri_part, R, rpart. bd; subst; auto.
Qed.
Lemma rt_slice_part (r : mat RN) : (forall i j, (i < c)%nat -> (j < c)%nat -> ent r i j = ent (qr d) j i) ->
  tri_part Lower (fun i => Rabs (dg i)) (ent r) =[c, c]= mtr R.
Proof.
  intros h i j hi hj. unfold tri_part, R, rpart, mtr. bd; subst; auto.
Qed.

Lemma diag_abs i : (i < c)%nat -> (let* x := at1 (qdiag d) i in Ret (nabs RN x)) = Ret (Rabs (dg i)).
Proof. intros hi. pose proof (qo_len _ _ _ _ ok). unfold at1. bd. reflexivity. Qed.

Lemma qr_solve_real (b : mat RN) : nr b = n -> injective n c A ->
  exists x, qr_solve d b = Ret x /\ nr x = c /\ nc x = nc b /\
    mmul c R (ent x) =[c, nc b]= mmul n (mtr Q) (ent b).
Proof.
  intros hb hinj. apply is_invertible_rank in hinj.
  apply wp_ret. unfold qr_solve. rewrite hinj. destruct ok as [h0 h1 h2 h3 h4 h5].
  rewrite h1, h2, hb, Nat.eqb_refl. cbn [negb].
  step1. eapply post_mono; [apply qt_mul_real; auto|]. intros b1 (g1 & g2 & g3).
  step1. apply post_slice; try lia. step1. apply post_slice; try lia.
  eapply post_mono; [apply (solve_system_correct _ _ Upper (fun i => Rabs (dg i))); dims; try lia|].
  - intros i hi. apply diag_abs. lia.
  - intros i hi. apply Rabs_no_R0. apply is_invertible_diag; auto. lia.
  - intros x (x1 & x2 & x3). dims. rewrite !Nat.sub_0_r in *. rewrite g2 in *.
    repeat split; auto.
    rewrite r_slice_part in x3.
    2:{ intros i j hi hj. unfold ent. rewrite get_mk by lia. reflexivity. }
    rewrite x3. intros i j hi hj. unfold ent at 1. rewrite get_mk by lia. cbn [Nat.add].
    change (@get RN b1 i j) with (ent b1 i j). apply g3; lia.
Qed.

Lemma qr_solve_tr_real (b : mat RN) : nr b = c -> injective n c A ->
  exists x y, qr_solve_tr d b = Ret x /\ nr x = n /\ nc x = nc b /\
    mmul c (mtr R) y =[c, nc b]= ent b /\ ent x =[n, nc b]= mmul c Q y.
Proof.
  intros hb hinj. apply is_invertible_rank in hinj.
  assert (h : wp (qr_solve_tr d b) (fun x => nr x = n /\ nc x = nc b /\ exists y,
     mmul c (mtr R) y =[c, nc b]= ent b /\ ent x =[n, nc b]= mmul c Q y)).
  2:{ apply wp_ret in h. destruct h as (x & e & x1 & x2 & y & y1 & y2). exists x, y. auto. }
  unfold qr_solve_tr. rewrite hinj.
  pose proof (qo_le _ _ _ _ ok) as h0. pose proof (qo_nr _ _ _ _ ok) as h1. pose proof (qo_nc _ _ _ _ ok) as h2.
  rewrite h2, hb, Nat.eqb_refl. cbn [negb].
  step1. apply post_slice; try lia. step1.
  eapply post_mono; [apply (solve_system_correct _ _ Lower (fun i => Rabs (dg i))); dims; try lia|].
  - intros i hi. apply diag_abs. lia.
  - intros i hi. apply Rabs_no_R0. apply is_invertible_diag; auto. lia.
  - intros y (y1 & y2 & y3). dims. rewrite !Nat.sub_0_r in *.
    rewrite rt_slice_part in y3.
    2:{ intros i j hi hj. unfold ent. rewrite get_transpose by (dims; lia). rewrite get_mk by lia. reflexivity. }
    step1. eapply post_mono; [apply qr_generate_q_real|]. intros q (q1 & q2 & q3).
    apply post_dot2; [lia|]. dims. rewrite q1, y2. repeat split; auto.
    exists (ent y). split; auto. intros i j hi hj. unfold ent at 1. rewrite get_mk by lia.
    rewrite sumn_R. rewrite q2. unfold mmul. apply Rsum_ext. intros l hl. rn.
    change (@get RN q i l) with (ent q i l). rewrite q3 by auto. reflexivity.
Qed.
End Ok.

(** *** Statements about the API *)
Lemma ok_invert_zero A n c d : qr_ok A n c d -> is_invertible d = false <-> ~ injective n c A.
Proof.
  intros ok. rewrite <- (is_invertible_rank A n c d ok). destruct (is_invertible d); split; intros; try easy.
Qed.

Lemma qr_factorises (a : mat RN) : (nc a <= nr a)%nat ->
  exists d q r, qr_into a = Ret d /\ qr_generate_q d = Ret q /\ qr_into_r d = Ret r /\
    qr_into_decomp d = Ret (q, r) /\
    nr q = nr a /\ nc q = nc a /\ nr r = nc a /\ nc r = nc a /\
    orthonormal_cols (nr a) (nc a) (ent q) /\ upper_tri (nc a) (nc a) (ent r) /\
    (forall i, (i < nc a)%nat -> 0 <= ent r i i) /\
    mmul (nc a) (ent q) (ent r) =[nr a, nc a]= ent a.
Proof.
  intros h. destruct (wp_ret _ _ (qr_into_real a h)) as (d & e & ok).
  destruct (qr_decomp_real _ _ _ _ ok) as (q & r & e2 & h2).
  exists d, q, r. split; auto. revert e2. unfold qr_into_decomp.
  destruct (qr_generate_q d) as [q'| | | |]; cbn [bind]; try discriminate.
  destruct (qr_into_r d) as [r'| | | |]; cbn [bind]; try discriminate.
  intros e2. injection e2 as -> ->. auto.
Qed.

Lemma qr_unique (a : mat RN) (d : qrdecomp RN) (q r : mat RN) (Q R : M) :
  injective (nr a) (nc a) (ent a) -> qr_into a = Ret d -> qr_into_decomp d = Ret (q, r) ->
  orthonormal_cols (nr a) (nc a) Q -> upper_tri (nc a) (nc a) R ->
  (forall i, (i < nc a)%nat -> 0 < R i i) -> mmul (nc a) Q R =[nr a, nc a]= ent a ->
  Q =[nr a, nc a]= ent q /\ R =[nc a, nc a]= ent r.
Proof.
  intros hinj e1 e2 hQ hR hRd hA.
  pose proof (qr_class a) as hc. rewrite e1 in hc. destruct hc as (hle & _).
  destruct (wp_ret _ _ (qr_into_real a hle)) as (d' & e1' & ok). rewrite e1 in e1'. injection e1' as <-.
  destruct (qr_decomp_real _ _ _ _ ok) as (q' & r' & e2' & _ & _ & _ & _ & g1 & g2 & g3 & g4).
  rewrite e2 in e2'. injection e2' as <- <-.
  set (n := nr a) in *. set (c := nc a) in *.
  assert (hgram : forall Q' R', orthonormal_cols n c Q' -> mmul c Q' R' =[n, c]= ent a ->
             mmul c (mtr R') R' =[c, c]= mmul n (mtr (ent a)) (ent a)).
  { intros Q' R' h1 h2. rewrite <- h2, (mtr_mmul n c c Q' R').
    rewrite (mmul_assoc c c n c (mtr R')), <- (mmul_assoc c n c c (mtr Q')).
    unfold orthonormal_cols in h1. rewrite h1, mmul_1_l. reflexivity. }
  assert (hrd : forall i, (i < c)%nat -> 0 < ent r i i).
  { assert (hi : injective c c (ent r)).
    { intros x hx. apply hinj. intros i hi. set (X := fun (q : nat) (_ : nat) => x q).
      change (mmul c (ent a) X i O = 0). 
      assert (e : mmul c (ent a) X =[n, 1]= fun _ _ => 0); [|apply e; auto].
      rewrite <- g4, (mmul_assoc n c c 1 (ent q)).
      assert (e : mmul c (ent r) X =[c, 1]= fun _ _ => 0) by (intros p k hp hk; apply hx; auto).
      rewrite e. intros p k hp hk. unfold mmul. apply Rsum_0. intros; ring. }
    intros i hi'. pose proof (upper_injective_inv (ent r) c g2 hi i hi'). specialize (g3 i hi'). lra. }
  assert (eR : mtr R =[c, c]= mtr (ent r)).
  { apply chol_unique.
    - intros i j hi hj h. unfold mtr. auto.
    - intros i j hi hj h. unfold mtr. auto.
    - intros i hi. unfold mtr. auto.
    - intros i hi. unfold mtr. auto.
    - rewrite (mtr_mtr c c R), (mtr_mtr c c (ent r)). rewrite (hgram Q R), (hgram (ent q) (ent r)); auto. reflexivity. }
  assert (eR' : R =[c, c]= ent r) by (intros i j hi hj; apply (eR j i); auto).
  split; auto.
  assert (e : mmul c (mtr R) (mtr Q) =[c, n]= mmul c (mtr R) (mtr (ent q))).
  { rewrite <- (mtr_mmul n c c Q R). rewrite eR' at 2. rewrite <- (mtr_mmul n c c (ent q) (ent r)).
    rewrite hA, g4. reflexivity. }
  assert (hli : injective c c (mtr R)).
  { apply lower_injective.
    - intros i j hi hj h. unfold mtr. auto.
    - intros i hi. unfold mtr. specialize (hRd i hi). lra. }
  pose proof (injective_mmul c c n (mtr R) _ _ hli e) as et.
  intros i j hi hj. apply (et j i); auto.
Qed.

Lemma qr_invertible_iff (a : mat RN) : (nc a <= nr a)%nat ->
  exists d, qr_into a = Ret d /\ (is_invertible d = true <-> injective (nr a) (nc a) (ent a)).
Proof.
  intros h. destruct (wp_ret _ _ (qr_into_real a h)) as (d & e & ok).
  exists d. split; auto. apply (is_invertible_rank _ _ _ _ ok).
Qed.

Lemma qr_solve_spec (a b : mat RN) : (nc a <= nr a)%nat -> injective (nr a) (nc a) (ent a) -> nr b = nr a ->
  exists d x, qr_into a = Ret d /\ qr_solve d b = Ret x /\ least_squares a b = Ret x /\
    nr x = nc a /\ nc x = nc b /\
    mmul (nr a) (mtr (ent a)) (msub (mmul (nc a) (ent a) (ent x)) (ent b)) =[nc a, nc b]= (fun _ _ => 0) /\
    (forall k y, (k < nc b)%nat ->
       let bk := fun i => ent b i k in let xk := fun j => ent x j k in
       resid2 (nr a) (nc a) (ent a) bk xk <= resid2 (nr a) (nc a) (ent a) bk y /\
       (resid2 (nr a) (nc a) (ent a) bk y <= resid2 (nr a) (nc a) (ent a) bk xk ->
        forall j, (j < nc a)%nat -> y j = xk j)) /\
    (nr a = nc a -> mmul (nc a) (ent a) (ent x) =[nr a, nc b]= ent b).
Proof.
  intros hle hinj hb. destruct (wp_ret _ _ (qr_into_real a hle)) as (d & e & ok).
  destruct (qr_solve_real _ _ _ _ ok b hb hinj) as (x & ex & x1 & x2 & x3).
  pose proof (ok_Q _ _ _ _ ok) as oQ. pose proof (ok_A _ _ _ _ ok) as oA.
  set (Q := hprod _ _ _) in *. set (R := rpart _ _) in *.
  assert (oR : forall p q, (q < nc a)%nat -> (q < p)%nat -> R p q = 0).
  { intros p q hp. apply (ok_R (nc a) d p q hp). }
  assert (hnorm : mmul (nr a) (mtr (ent a)) (msub (mmul (nc a) (ent a) (ent x)) (ent b)) =[nc a, nc b]= (fun _ _ => 0)).
  { apply (factor_normal (nr a) (nc a) (ent a) Q R); auto. }
  exists d, x. unfold least_squares. rewrite (proj2 (Nat.leb_le _ _) hle), e. cbn [bind].
  do 6 (split; [auto|]). split.
  - intros k y hk. set (bk := fun i => ent b i k). set (xk := fun j => ent x j k).
    assert (hn : forall j, (j < nc a)%nat ->
        Rsum (nr a) (fun i => ent a i j * (Rsum (nc a) (fun k => ent a i k * xk k) - bk i)) = 0).
    { intros j hj. apply (hnorm j k hj hk). }
    destruct (lsq_optimal _ _ _ _ _ hn y) as (h1 & h2). split; [exact h1|exact (h2 hinj)].
  - intros sq. apply (factor_square_solve (nr a) (nc a) (ent a) Q R); auto.
Qed.

Lemma mmul_entry n A B i j : mmul n A B i j = Rsum n (fun k => A i k * B k j). Proof. reflexivity. Qed.

Lemma qr_solve_tr_spec (a b : mat RN) : (nc a <= nr a)%nat -> injective (nr a) (nc a) (ent a) -> nr b = nc a ->
  exists d x, qr_into a = Ret d /\ qr_solve_tr d b = Ret x /\ nr x = nr a /\ nc x = nc b /\
    mmul (nr a) (mtr (ent a)) (ent x) =[nc a, nc b]= ent b /\
    (forall k z, (k < nc b)%nat ->
       (forall j, (j < nc a)%nat -> Rsum (nr a) (fun i => ent a i j * z i) = ent b j k) ->
       vnorm2 (nr a) (fun i => ent x i k) <= vnorm2 (nr a) z /\
       (vnorm2 (nr a) z <= vnorm2 (nr a) (fun i => ent x i k) -> forall i, (i < nr a)%nat -> z i = ent x i k)).
Proof.
  intros hle hinj hb. destruct (wp_ret _ _ (qr_into_real a hle)) as (d & e & ok).
  destruct (qr_solve_tr_real _ _ _ _ ok b hb hinj) as (x & y & ex & x1 & x2 & x3 & x4).
  pose proof (ok_Q _ _ _ _ ok) as oQ. pose proof (ok_A _ _ _ _ ok) as oA.
  set (Q := hprod _ _ _) in *. set (R := rpart _ _) in *.
  assert (oR : forall p q, (q < nc a)%nat -> (q < p)%nat -> R p q = 0).
  { intros p q hp. apply (ok_R (nc a) d p q hp). }
  assert (hs : mmul (nr a) (mtr (ent a)) (ent x) =[nc a, nc b]= ent b).
  { rewrite x4. apply (factor_tr_solve (nr a) (nc a) (ent a) Q R); auto. }
  exists d, x. do 5 (split; [auto|]).
  intros k z hk hz.
  destruct (upper_solvable (nc a) R (fun i => y i k)) as (w & hw).
  - intros i j hi hj h. apply oR; auto.
  - apply (factor_full_rank (nr a) (nc a) (ent a) Q R); auto.
  - apply (min_norm (nr a) (nc a) (ent a) (fun j => ent b j k) (fun i => ent x i k) w); auto.
    + intros i hi. rewrite x4 by auto.
      pose proof (factor_thin (nr a) (nc a) (ent a) Q R hle oR oA) as hth.
      set (W := fun (q : nat) (_ : nat) => w q).
      change (mmul (nc a) Q y i k = mmul (nc a) (ent a) W i k).
      assert (eW : mmul (nc a) (ent a) W =[nr a, nc b]= mmul (nc a) Q (mmul (nc a) R W)).
      { rewrite hth, (mmul_assoc (nr a) (nc a) (nc a) (nc b) Q). reflexivity. }
      rewrite eW by auto. unfold mmul at 1 2. apply Rsum_ext. intros l hl. f_equal.
      symmetry. apply hw; auto.
    + intros j hj. exact (hs j k hj hk).
Qed.

Lemma least_squares_wide (a b : mat RN) : (nr a < nc a)%nat ->
  injective (nc a) (nr a) (mtr (ent a)) -> nr b = nr a ->
  exists x, least_squares a b = Ret x /\ nr x = nc a /\ nc x = nc b /\
    mmul (nc a) (ent a) (ent x) =[nr a, nc b]= ent b /\
    (forall k z, (k < nc b)%nat ->
       (forall j, (j < nr a)%nat -> Rsum (nc a) (fun i => ent a j i * z i) = ent b j k) ->
       vnorm2 (nc a) (fun i => ent x i k) <= vnorm2 (nc a) z /\
       (vnorm2 (nc a) z <= vnorm2 (nc a) (fun i => ent x i k) -> forall i, (i < nc a)%nat -> z i = ent x i k)).
Proof.
  intros hlt hinj hb.
  assert (ht : ent (transpose a) =[nc a, nr a]= mtr (ent a)).
  { intros i j hi hj. unfold ent, mtr. rewrite get_transpose by auto. reflexivity. }
  destruct (qr_solve_tr_spec (transpose a) b) as (d & x & e1 & e2 & x1 & x2 & x3 & x4).
  - dims. lia.
  - dims. intros x hx. apply hinj. intros i hi. rewrite <- (hx i hi). apply Rsum_ext.
    intros j hj. rewrite ht by auto. reflexivity.
  - dims. auto.
  - dims. exists x. unfold least_squares. destruct (Nat.leb_spec (nc a) (nr a)); [lia|].
    rewrite e1. cbn [bind]. do 3 (split; [auto|]). split.
    + intros i j hi hj. rewrite <- x3 by auto. unfold mmul. apply Rsum_ext. intros k hk.
      f_equal. symmetry. apply (ht k i); auto.
    + intros k z hk hz. apply x4; auto. intros j hj. rewrite <- hz by auto. apply Rsum_ext.
      intros i hi. rewrite ht by auto. reflexivity.
Qed.

Lemma qr_inverse_spec (a : mat RN) : (nc a <= nr a)%nat ->
  exists d, qr_into a = Ret d /\
  (nr a = nc a -> injective (nr a) (nr a) (ent a) ->
   exists x, qr_inverse d = Ret x /\ nr x = nr a /\ nc x = nr a /\
     mmul (nr a) (ent a) (ent x) =[nr a, nr a]= mid /\
     mmul (nr a) (ent x) (ent a) =[nr a, nr a]= mid) /\
  (nr a = nc a -> ~ injective (nr a) (nr a) (ent a) -> qr_inverse d = Err NonInvertible) /\
  (nr a <> nc a -> qr_inverse d = Err (NotSquare (nr a) (nc a))).
Proof.
  intros hle. destruct (wp_ret _ _ (qr_into_real a hle)) as (d & e & ok).
  exists d. split; auto.
  assert (hd : nr (qr d) = nr a /\ nc (qr d) = nc a /\ length (qdiag d) = nc a) by (destruct ok; auto).
  destruct hd as (d1 & d2 & d3). split; [|split].
  - intros sq hinj.
    destruct (qr_solve_spec a (eye (nr a)) hle) as (d' & x & e' & ex & _ & x1 & x2 & _ & _ & x3).
    + rewrite sq in hinj at 2. auto.
    + reflexivity.
    + rewrite e in e'. injection e' as <-. exists x.
      unfold qr_inverse, check_square. rewrite d1, d2, d3, sq, Nat.eqb_refl. cbn [bind].
      rewrite <- sq, ex. specialize (x3 sq). unfold eye in x2, x3. dims. rewrite <- sq in *.
      assert (h1 : mmul (nr a) (ent a) (ent x) =[nr a, nr a]= mid).
      { rewrite x3. intros i j hi hj. unfold ent. rewrite get_mk by auto. reflexivity. }
      repeat (split; [auto|]).
      apply (injective_mmul (nr a) (nr a) (nr a) (ent a)); auto.
      rewrite <- (mmul_assoc (nr a) (nr a) (nr a) (nr a) (ent a)), h1, mmul_1_l, mmul_1_r. reflexivity.
  - intros sq hni. pose proof (qr_inverse_class d (ok_wf _ _ _ _ ok)) as hc.
    assert (hi : is_invertible d = false).
    { apply (ok_invert_zero _ _ _ _ ok). rewrite <- sq. auto. }
    rewrite hi, d1, d2 in hc. destruct (qr_inverse d) as [x|[]| | |]; try easy; try (intuition congruence).
  - intros ne. pose proof (qr_inverse_class d (ok_wf _ _ _ _ ok)) as hc.
    rewrite d1, d2 in hc. destruct (qr_inverse d) as [x|[]| | |]; try easy; try (intuition congruence).
Qed.

Lemma injective_ext r c A B : A =[r, c]= B -> injective r c A -> injective r c B.
Proof.
  intros h hA x hx. apply hA. intros i hi. rewrite <- (hx i hi). apply Rsum_ext. intros. rewrite h; auto.
Qed.

Lemma least_squares_rank (a b : mat RN) : nr b = nr a ->
  ((exists x, least_squares a b = Ret x) <->
   if Nat.leb (nc a) (nr a) then injective (nr a) (nc a) (ent a) else injective (nc a) (nr a) (mtr (ent a))) /\
  ((exists x, least_squares a b = Ret x) \/ least_squares a b = Err NonInvertible).
Proof.
  intros hb. pose proof (least_squares_class a b) as hc.
  split.
  2:{ destruct (least_squares a b) as [x|[]| | |]; try easy; try (intuition congruence); eauto. }
  destruct (Nat.leb_spec (nc a) (nr a)) as [h|h].
  - split.
    + intros (x & e). unfold least_squares in e.
      rewrite (proj2 (Nat.leb_le _ _) h) in e.
      destruct (qr_invertible_iff a h) as (d & ed & hi). rewrite ed in e. cbn [bind] in e.
      apply hi. pose proof (qr_solve_class_a a b d ed) as hs. rewrite e in hs. tauto.
    + intros hi. destruct (qr_solve_spec a b h hi hb) as (d & x & _ & _ & e & _). eauto.
  - assert (ht : ent (transpose a) =[nc a, nr a]= mtr (ent a)).
    { intros i j hi hj. unfold ent, mtr. rewrite get_transpose by auto. reflexivity. }
    split.
    + intros (x & e). unfold least_squares in e.
      rewrite (proj2 (Nat.leb_gt _ _) h) in e.
      destruct (qr_invertible_iff (transpose a)) as (d & ed & hi); [dims; lia|].
      rewrite ed in e. cbn [bind] in e.
      apply (injective_ext _ _ _ _ ht). apply hi.
      pose proof (qr_solve_tr_class_a (transpose a) b d ed) as hs. rewrite e in hs. tauto.
    + intros hi. destruct (least_squares_wide a b h hi hb) as (x & e & _). eauto.
Qed.
