(** * Proofs about cholesky.rs *)
From Coq Require Import Reals List Arith Lia Lra Bool.
From Verif Require Import Scalar Arr MBase MDirect Inst Hoare Spec RLin PTri.
Import ListNotations.
Open Scope res_scope.

Section Generic.
Context {N : Num}.
Notation vec := (list N).
Notation mtx := (mat N).

(** One row: entries (j, 0..j) are the only ones written *)
Lemma chol_inner_ok (m : mtx) j k : nr m = nc m -> k < j -> j < nr m ->
  wp (for_ k 0 (fun i s => let* x := at2 m k i in let* y := at2 m j i in
        Ret (nadd N s (nmul N x y))) (n0 N))
     (fun s => s = sumn k (fun i => nmul N (get m k i) (get m j i))).
Proof.
  intros sq hk hj.
  eapply post_for' with (I := fun i s => s = sumn i (fun i => nmul N (get m k i) (get m j i))); auto.
  intros i s hi ->. steps. reflexivity.
Qed.

Lemma chol_loop_frame (m : mtx) j d0 : nr m = nc m -> j < nr m ->
  wp (for_ j 0 (chol_step j) (m, d0)) (fun st =>
    nr (fst st) = nr m /\ nc (fst st) = nc m /\
    forall a b, a < nr m -> b < nc m -> (a <> j \/ j <= b) -> get (fst st) a b = get m a b).
Proof.
  intros sq hj.
  eapply post_for' with (I := fun k st => nr (fst st) = nr m /\ nc (fst st) = nc m /\
    forall a b, a < nr m -> b < nc m -> (a <> j \/ j <= b) -> get (fst st) a b = get m a b).
  - simpl. auto.
  - intros k [m1 d] hk (h1 & h2 & h3). simpl in h1, h2, h3. unfold chol_step.
    apply post_bind. eapply post_mono; [apply chol_inner_ok; lia|]. intros s _.
    steps. simpl. repeat split; auto. intros a b ha hb ho.
    rewrite get_upd by lia. bd; auto; try lia.
  - intros [m1 d] h. exact h.
Qed.

Definition chol_frame (m m' : mtx) : Prop :=
  nr m' = nr m /\ nc m' = nc m /\ forall a b, a < nr m -> b < nc m -> a < b -> get m' a b = get m a b.

Lemma chol_row_frame (m : mtx) j : nr m = nc m -> j < nr m ->
  chol_frame m (fst (chol_row j m)) /\
  (forall a b, a < nr m -> b < nc m -> a <> j -> get (fst (chol_row j m)) a b = get m a b) /\
  (snd (chol_row j m) = Ret tt \/ snd (chol_row j m) = Err NotPositiveDefinite).
Proof.
  intros sq hj. unfold chol_row.
  destruct (wp_ret _ _ (chol_loop_frame m j (n0 N) sq hj)) as ([m1 d] & -> & h1 & h2 & h3).
  simpl in h1, h2, h3. unfold at2. rewrite h1, h2. bd.
  destruct (nle N _ (n0 N)).
  - simpl. repeat split; auto. intros. apply h3; auto. lia.
  - unfold atm2. rewrite h1, h2. bd. simpl.
    repeat split; auto; intros; rewrite get_upd by lia; bd; auto; apply h3; auto; lia.
Qed.

Lemma chol_rows_frame cnt : forall (m : mtx) j, nr m = nc m -> j + cnt = nr m ->
  chol_frame m (fst (chol_rows cnt j m)) /\
  (snd (chol_rows cnt j m) = Ret tt \/ snd (chol_rows cnt j m) = Err NotPositiveDefinite).
Proof.
  induction cnt as [|c IH]; intros m j sq hj.
  - simpl. repeat split; auto.
  - destruct (chol_row_frame m j sq ltac:(lia)) as (f1 & _ & f2).
    cbn [chol_rows]. destruct (chol_row j m) as [m1 r]. simpl in f1, f2.
    destruct f1 as (g1 & g2 & g3). destruct f2 as [->| ->].
    + destruct (IH m1 (S j) ltac:(lia) ltac:(lia)) as ((k1 & k2 & k3) & k4).
      split; auto. repeat split; try congruence.
      intros. rewrite k3 by lia. auto.
    + simpl. repeat split; auto.
Qed.

(** Two runs agreeing on the lower triangle *)
Definition low_eq (m m' : mtx) : Prop :=
  nr m = nr m' /\ nc m = nc m' /\ forall a b, a < nr m -> b <= a -> get m a b = get m' a b.

Lemma chol_row_low (m m' : mtx) j : nr m = nc m -> j < nr m -> low_eq m m' ->
  low_eq (fst (chol_row j m)) (fst (chol_row j m')) /\ snd (chol_row j m) = snd (chol_row j m').
Proof.
  intros sq hj he. unfold chol_row.
  assert (hs : sim (fun s s' => low_eq (fst s) (fst s') /\ snd s = snd s' /\ nr (fst s) = nr m /\ nc (fst s) = nc m)
                 (for_ j 0 (chol_step j) (m, n0 N)) (for_ j 0 (chol_step j) (m', n0 N))).
  { eapply sim_mono.
    - apply (sim_for (fun _ s s' => low_eq (fst s) (fst s') /\ snd s = snd s' /\ nr (fst s) = nr m /\ nc (fst s) = nc m)).
      + simpl. auto.
      + intros k [m1 d] [m1' d'] hk ((h1 & h2 & h3) & hd & h4 & h5). simpl in *. subst d'.
        unfold chol_step.
        destruct (wp_ret _ _ (chol_inner_ok m1 j k ltac:(lia) ltac:(lia) ltac:(lia))) as (s & -> & es).
        destruct (wp_ret _ _ (chol_inner_ok m1' j k ltac:(lia) ltac:(lia) ltac:(lia))) as (s' & -> & es').
        assert (s = s') as <-.
        { subst. apply sumn_ext. intros. rewrite !h3 by lia. reflexivity. }
        simpl. unfold at2, atm2. rewrite <- h1, <- h2, h4, h5. bd. simpl.
        rewrite !h3 by lia. split; [|auto]. split; [simpl; auto|]. split; [simpl; auto|].
        intros a b ha hb. dims. rewrite !get_upd by lia. rewrite h3 by lia. reflexivity.
    - intros a b h. exact h. }
  destruct (wp_ret _ _ (chol_loop_frame m j (n0 N) sq hj)) as ([m1 d] & e1 & _).
  destruct he as (h1 & h2 & h3).
  destruct (wp_ret _ _ (chol_loop_frame m' j (n0 N) ltac:(lia) ltac:(lia))) as ([m1' d'] & e1' & _).
  rewrite e1, e1' in *. simpl in hs. destruct hs as ((g1 & g2 & g3) & <- & g4 & g5).
  unfold at2, atm2. rewrite <- g1, <- g2, g4, g5. bd.
  rewrite g3 by lia. destruct (nle N _ _); simpl.
  - repeat split; auto.
  - split; auto. repeat split; auto. intros a b ha hb. dims. rewrite !get_upd by lia.
    rewrite g3 by lia. reflexivity.
Qed.

Lemma chol_rows_low cnt : forall (m m' : mtx) j, nr m = nc m -> j + cnt = nr m -> low_eq m m' ->
  low_eq (fst (chol_rows cnt j m)) (fst (chol_rows cnt j m')) /\
  snd (chol_rows cnt j m) = snd (chol_rows cnt j m').
Proof.
  induction cnt as [|c IH]; intros m m' j sq hj he.
  - simpl. auto.
  - destruct (chol_row_low m m' j sq ltac:(lia) he) as (f1 & f2).
    destruct (chol_row_frame m j sq ltac:(lia)) as ((d1 & d2 & _) & _ & _).
    cbn [chol_rows]. destruct (chol_row j m) as [m1 r], (chol_row j m') as [m1' r'].
    simpl in *. subst r'. destruct r; simpl; auto. apply IH; auto; lia.
Qed.

Lemma cholesky_upper_untouched (m : mtx) a b : a < nr m -> b < nc m -> a < b ->
  get (fst (cholesky_inplace_dirty m)) a b = get m a b.
Proof.
  intros ha hb hab. unfold cholesky_inplace_dirty, check_square.
  destruct (Nat.eqb_spec (nr m) (nc m)) as [e|e]; simpl; auto.
  apply (chol_rows_frame (nr m) m 0 e eq_refl); auto.
Qed.
Lemma cholesky_dirty_shape (m : mtx) :
  nr (fst (cholesky_inplace_dirty m)) = nr m /\ nc (fst (cholesky_inplace_dirty m)) = nc m.
Proof.
  unfold cholesky_inplace_dirty, check_square.
  destruct (Nat.eqb_spec (nr m) (nc m)) as [e|e]; simpl; auto.
  destruct (chol_rows_frame (nr m) m 0 e eq_refl) as ((h1 & h2 & _) & _); auto.
Qed.
Lemma cholesky_class (m : mtx) :
  match snd (cholesky_inplace_dirty m) with
  | Ret _ => nr m = nc m
  | Err NotPositiveDefinite => nr m = nc m
  | Err e => nr m <> nc m /\ e = NotSquare (nr m) (nc m)
  | _ => False
  end.
Proof.
  unfold cholesky_inplace_dirty, check_square.
  destruct (Nat.eqb_spec (nr m) (nc m)) as [e|e]; simpl; auto.
  destruct (chol_rows_frame (nr m) m 0 e eq_refl) as (_ & [->| ->]); auto.
Qed.
Lemma cholesky_dirty_frame (a : mtx) :
  let '(a', outcome) := cholesky_inplace_dirty a in
  nr a' = nr a /\ nc a' = nc a /\
  (forall i j, i < nr a -> j < nc a -> i < j -> get a' i j = get a i j) /\
  match outcome with
  | Ret _ | Err NotPositiveDefinite => nr a = nc a
  | Err e => nr a <> nc a /\ e = NotSquare (nr a) (nc a)
  | _ => False
  end.
Proof.
  pose proof (cholesky_upper_untouched a) as h1. pose proof (cholesky_dirty_shape a) as (h2 & h3).
  pose proof (cholesky_class a) as h4.
  destruct (cholesky_inplace_dirty a) as [a' o]. simpl in *. repeat split; auto.
Qed.
Lemma cholesky_low (m m' : mtx) : nr m = nr m' -> nc m = nc m' ->
  (forall i j, i < nr m -> j < nc m -> j <= i -> get m i j = get m' i j) ->
  snd (cholesky_inplace_dirty m) = snd (cholesky_inplace_dirty m') /\
  forall i j, i < nr m -> j < nc m -> j <= i ->
    get (fst (cholesky_inplace_dirty m)) i j = get (fst (cholesky_inplace_dirty m')) i j.
Proof.
  intros h1 h2 h3. unfold cholesky_inplace_dirty, check_square. rewrite <- h1, <- h2.
  destruct (Nat.eqb_spec (nr m) (nc m)) as [e|e]; simpl.
  - assert (hl : low_eq m m') by (repeat split; auto; intros; apply h3; lia).
    destruct (chol_rows_low (nr m) m m' 0 e eq_refl hl) as ((g1 & g2 & g3) & g4).
    split; auto. intros i j hi hj hij. apply g3; auto.
    destruct (chol_rows_frame (nr m) m 0 e eq_refl) as ((k1 & _) & _). lia.
  - split; auto.
Qed.
End Generic.

(** ** Exact arithmetic *)
Local Open Scope R_scope.

Definition chol_inv (A : M) (n j : nat) (m : mat RN) : Prop :=
  nr m = n /\ nc m = n /\
  (forall p q, (p < j)%nat -> (q <= p)%nat ->
     Rsum (S q) (fun i => ent m p i * ent m q i) = A p q) /\
  (forall p, (p < j)%nat -> 0 < ent m p p) /\
  (forall p q, (p < n)%nat -> (q < n)%nat -> (j <= p \/ p < q)%nat -> ent m p q = A p q).

Lemma chol_loop_real A n j (m : mat RN) : (j < n)%nat -> chol_inv A n j m ->
  wp (for_ j 0 (chol_step j) (m, n0 RN)) (fun st => let m1 := fst st in
    nr m1 = n /\ nc m1 = n /\
    (forall a b, (a < n)%nat -> (b < n)%nat -> (a <> j \/ j <= b)%nat -> ent m1 a b = ent m a b) /\
    (forall q, (q < j)%nat -> Rsum (S q) (fun i => ent m1 j i * ent m q i) = A j q) /\
    snd st = Rsum j (fun i => ent m1 j i * ent m1 j i)).
Proof.
  intros hj (i1 & i2 & i3 & i4 & i5).
  eapply post_for' with (I := fun k st => let m1 := fst st in
    nr m1 = n /\ nc m1 = n /\
    (forall a b, (a < n)%nat -> (b < n)%nat -> (a <> j \/ k <= b)%nat -> ent m1 a b = ent m a b) /\
    (forall q, (q < k)%nat -> Rsum (S q) (fun i => ent m1 j i * ent m q i) = A j q) /\
    snd st = Rsum k (fun i => ent m1 j i * ent m1 j i)).
  - simpl. repeat split; auto; intros; lia.
  - intros k [m1 d] hk (h1 & h2 & h3 & h4 & h5). cbn [fst snd] in h1, h2, h3, h4, h5. unfold chol_step.
    apply post_bind. eapply post_mono; [apply chol_inner_ok; lia|]. intros s hs.
    rewrite sumn_R in hs. steps. cbn [fst snd]. cbv zeta.
    set (y := ndiv RN (nsub RN (get m1 j k) s) (get m1 k k)).
    assert (hy : y = (ent m1 j k - s) / ent m1 k k) by reflexivity.
    assert (hs' : s = Rsum k (fun i => ent m1 k i * ent m1 j i)) by exact hs.
    assert (hg : forall a b, (a < n)%nat -> (b < n)%nat ->
       ent (upd m1 j k y) a b = if ((a =? j) && (b =? k))%nat%bool then y else ent m1 a b).
    { intros. unfold ent. rewrite get_upd by lia. reflexivity. }
    clearbody y.
    repeat split; auto.
    + intros a b ha hb ho. rewrite hg by auto. bd; try apply h3; auto; lia.
    + intros q hq. destruct (Nat.eq_dec q k) as [->|ne].
      * simpl. rewrite hg by lia. rewrite !Nat.eqb_refl. cbn [andb].
        assert (e1 : Rsum k (fun i => ent (upd m1 j k y) j i * ent m k i) = s).
        { rewrite hs'. apply Rsum_ext. intros i hi. rewrite hg by lia. bd.
          rewrite (h3 k i) by lia. lra. }
        rewrite e1, hy. rewrite <- (i5 j k) by lia. rewrite (h3 j k) by lia.
        rewrite (h3 k k) by lia. field. specialize (i4 k). intros e0. rewrite e0 in i4.
        assert (0 < 0) by (apply i4; lia). lra.
      * rewrite <- h4 by lia. apply Rsum_ext. intros i hi. rewrite hg by lia. bd. reflexivity.
    + rn. rewrite h5. simpl. rewrite hg by lia. rewrite !Nat.eqb_refl. cbn [andb].
      f_equal. apply Rsum_ext. intros i hi. rewrite hg by lia. bd. reflexivity.
  - intros st h. exact h.
Qed.

(** What a failing pivot means *)
Definition chol_fail (A : M) (n : nat) : Prop :=
  exists j (L : M) (r : nat -> R), (j < n)%nat /\
    (forall p q, (p < j)%nat -> (q <= p)%nat -> Rsum (S q) (fun i => L p i * L q i) = A p q) /\
    (forall p, (p < j)%nat -> 0 < L p p) /\
    (forall q, (q < j)%nat -> Rsum (S q) (fun i => r i * L q i) = A j q) /\
    A j j - Rsum j (fun i => r i * r i) <= 0.

Lemma chol_row_real A n j (m : mat RN) : (j < n)%nat -> chol_inv A n j m ->
  (snd (chol_row j m) = Ret tt /\ chol_inv A n (S j) (fst (chol_row j m))) \/
  (snd (chol_row j m) = Err NotPositiveDefinite /\ chol_fail A n).
Proof.
  intros hj hi. unfold chol_row.
  destruct (wp_ret _ _ (chol_loop_real A n j m hj hi)) as ([m1 d] & -> & h1 & h2 & h3 & h4 & h5).
  cbn [fst snd] in h1, h2, h3, h4, h5. destruct hi as (i1 & i2 & i3 & i4 & i5).
  unfold at2. rewrite h1, h2. bd.
  assert (hd : nsub RN (get m1 j j) d = A j j - Rsum j (fun i => ent m1 j i * ent m1 j i)).
  { rewrite h5. rn. rewrite <- (i5 j j) by lia. rewrite <- (h3 j j) by lia. reflexivity. }
  rewrite hd. set (x := A j j - _) in *.
  change (nle RN x (n0 RN)) with (Rleb x 0). destruct (Rleb_spec x 0).
  - right. split; auto. exists j, (ent m), (ent m1 j). repeat split; auto.
  - left. unfold atm2. rewrite h1, h2. bd. simpl.
    set (y := nsqrt RN x).
    assert (hg : forall a b, (a < n)%nat -> (b < n)%nat ->
       ent (upd m1 j j y) a b = if ((a =? j) && (b =? j))%nat%bool then y else ent m1 a b).
    { intros. unfold ent. rewrite get_upd by lia. reflexivity. }
    assert (hy : y * y = x) by (apply sqrt_sqrt; lra).
    assert (hy0 : 0 < y) by (apply sqrt_lt_R0; lra).
    split; auto. clearbody y. repeat split; auto.
    + intros p q hp hq. destruct (Nat.eq_dec p j) as [->|ne].
      * destruct (Nat.eq_dec q j) as [->|ne2].
        -- simpl. rewrite hg by lia. rewrite !Nat.eqb_refl. cbn [andb]. rewrite hy. unfold x.
           rewrite (Rsum_ext j _ (fun i => ent m1 j i * ent m1 j i)); [lra|].
           intros i hi. rewrite hg by lia. bd. reflexivity.
        -- rewrite <- h4 by lia. apply Rsum_ext. intros i hi. rewrite !hg by lia. bd.
           rewrite (h3 q i) by lia. reflexivity.
      * rewrite <- i3 by lia. apply Rsum_ext. intros i hi. rewrite !hg by lia. bd.
        rewrite !h3 by lia. reflexivity.
    + intros p hp. rewrite hg by lia. bd; auto. rewrite h3 by lia. apply i4. lia.
    + intros p q hp hq ho. rewrite hg by lia. bd; (rewrite h3 by lia; apply i5; lia).
Qed.

Lemma chol_rows_real A n cnt : forall j (m : mat RN), (j + cnt = n)%nat -> chol_inv A n j m ->
  (snd (chol_rows cnt j m) = Ret tt /\ chol_inv A n n (fst (chol_rows cnt j m))) \/
  (snd (chol_rows cnt j m) = Err NotPositiveDefinite /\ chol_fail A n).
Proof.
  induction cnt as [|c IH]; intros j m hj hi.
  - simpl. left. split; auto. rewrite Nat.add_0_r in hj. subst. auto.
  - cbn [chol_rows].
    destruct (chol_row_real A n j m ltac:(lia) hi) as [[e1 e2]|[e1 e2]];
      destruct (chol_row j m) as [m1 r]; simpl in e1, e2; subst r.
    + apply IH; auto. lia.
    + right. auto.
Qed.

Lemma chol_dirty_real (a : mat RN) : nr a = nc a ->
  (exists l, cholesky_dirty a = Ret l /\ chol_inv (ent a) (nr a) (nr a) l) \/
  (cholesky_dirty a = Err NotPositiveDefinite /\ chol_fail (ent a) (nr a)).
Proof.
  intros sq. unfold cholesky_dirty, cholesky_inplace_dirty, check_square.
  rewrite <- sq, Nat.eqb_refl.
  assert (h0 : chol_inv (ent a) (nr a) 0 a).
  { repeat split; auto; intros; lia. }
  destruct (chol_rows_real (ent a) (nr a) (nr a) 0 a eq_refl h0) as [[e1 e2]|[e1 e2]];
    destruct (chol_rows (nr a) 0 a) as [m1 r]; simpl in e1, e2; subst r; simpl; eauto.
Qed.

(** Lower-triangular part of an array read as a matrix *)
Lemma lower_gram n (L : M) p q : lower_tri n n L -> (p < n)%nat -> (q < n)%nat ->
  mmul n L (mtr L) p q = Rsum (S (Nat.min p q)) (fun i => L p i * L q i).
Proof.
  intros hl hp hq. unfold mmul, mtr.
  rewrite <- (Rsum_if_lt n (S (Nat.min p q)) (fun i => L p i * L q i)) by lia.
  apply Rsum_ext. intros i hi. destruct (Nat.ltb_spec i (S (Nat.min p q))); auto.
  destruct (le_lt_dec p q).
  - rewrite (hl p i) by lia. lra.
  - rewrite (hl q i) by lia. lra.
Qed.

Lemma sym_of_lower_sym n A : symmetric n (sym_of_lower A).
Proof. intros i j hi hj. unfold mtr, sym_of_lower. bd; auto. assert (i = j) by lia. subst; auto. Qed.
Lemma sym_of_lower_id n A : symmetric n A -> sym_of_lower A =[n, n]= A.
Proof. intros hs i j hi hj. unfold sym_of_lower. bd; auto. rewrite (hs i j) by auto. reflexivity. Qed.

Lemma chol_inv_gram A n l : chol_inv A n n l ->
  mmul n (tri_of Lower (ent l)) (mtr (tri_of Lower (ent l))) =[n, n]= sym_of_lower A.
Proof.
  intros (h1 & h2 & h3 & h4 & h5) p q hp hq.
  rewrite lower_gram; auto.
  2: { intros i j hi hj h. unfold tri_of. bd. auto. }
  unfold sym_of_lower. destruct (Nat.leb_spec q p).
  - rewrite Nat.min_r by lia. rewrite <- h3 by lia. apply Rsum_ext. intros i hi.
    unfold tri_of. bd. reflexivity.
  - rewrite Nat.min_l by lia. rewrite <- h3 by lia. apply Rsum_ext. intros i hi.
    unfold tri_of. bd. lra.
Qed.

(** x^T (L L^T) x = |L^T x|^2 *)
Lemma qform_gram n L A x : mmul n L (mtr L) =[n, n]= A ->
  qform n A x = vnorm2 n (fun k => Rsum n (fun i => L i k * x i)).
Proof.
  intros h. unfold qform, vnorm2.
  rewrite (Rsum_ext n _ (fun i => Rsum n (fun j => Rsum n (fun k => x i * L i k * (L j k * x j))))).
  2:{ intros i hi. apply Rsum_ext. intros j hj. rewrite <- h by auto. unfold mmul, mtr.
      rewrite <- Rsum_scal_l, <- Rsum_scal_r. apply Rsum_ext. intros. ring. }
  rewrite (Rsum_ext n _ (fun i => Rsum n (fun k => Rsum n (fun j => x i * L i k * (L j k * x j)))))
    by (intros; apply Rsum_swap).
  rewrite Rsum_swap. apply Rsum_ext. intros k hk.
  rewrite <- Rsum_scal_r. apply Rsum_ext. intros i hi. rewrite Rsum_scal_l. ring.
Qed.
Lemma vnorm2_nonneg n x : 0 <= vnorm2 n x.
Proof. apply Rsum_nonneg. intros. apply sqn. Qed.

Lemma gram_posdef n L A : lower_tri n n L -> (forall i, (i < n)%nat -> 0 < L i i) ->
  mmul n L (mtr L) =[n, n]= A -> posdef n A.
Proof.
  intros hl hd h x (i & hi & hx). rewrite (qform_gram n L A x h).
  destruct (Rle_lt_or_eq_dec 0 (vnorm2 n (fun k => Rsum n (fun i => L i k * x i)))) as [lt|eq]; auto.
  - apply vnorm2_nonneg.
  - exfalso. apply hx.
    assert (hu : injective n n (mtr L)).
    { apply upper_injective.
      - intros a b ha hb hab. apply hl; auto.
      - intros a ha. unfold mtr. specialize (hd a ha). lra. }
    apply (hu x); auto. intros k hk. symmetry in eq. apply (Rsum_sq_0 n _ eq k hk).
Qed.

(** A failing pivot yields a vector with non-positive quadratic form *)
Lemma upper_solvable n U r : upper_tri n n U -> (forall i, (i < n)%nat -> U i i <> 0) ->
  exists y, forall i, (i < n)%nat -> Rsum n (fun k => U i k * y k) = r i.
Proof.
  intros hu hd.
  set (a := mk (N:=RN) n n U). set (b := mk (N:=RN) n 1 (fun i _ => r i)).
  destruct (solve_triangular_unique a b Upper) as (x & _ & _ & _ & hx & _); auto.
  { intros i hi. unfold ent, a. rewrite get_mk by auto. apply hd; auto. }
  exists (fun k => ent x k O). intros i hi.
  specialize (hx i 0%nat hi ltac:(simpl; lia)). unfold mmul in hx.
  change (nr a) with n in hx.
  assert (eb : ent b i O = r i) by (unfold ent, b; rewrite get_mk by (auto; lia); reflexivity).
  rewrite eb in hx.
  rewrite <- hx. apply Rsum_ext. intros k hk. unfold tri_of.
  destruct (Nat.ltb_spec k i).
  - rewrite hu by lia. ring.
  - unfold ent, a. rewrite get_mk by lia. reflexivity.
Qed.

Lemma qform_ext n A B x y : A =[n, n]= B -> (forall i, (i < n)%nat -> x i = y i) ->
  qform n A x = qform n B y.
Proof.
  intros h hx. unfold qform. apply Rsum_ext. intros i hi. apply Rsum_ext. intros j hj.
  rewrite h, !hx by auto. reflexivity.
Qed.

Lemma qform_lead n j A x : (j < n)%nat -> symmetric n A -> (forall i, (j < i)%nat -> x i = 0) ->
  qform n A x = qform j A x + 2 * x j * Rsum j (fun i => A j i * x i) + x j * A j j * x j.
Proof.
  intros hj hs hx. unfold qform.
  replace n with (S j + (n - S j))%nat by lia. rewrite Rsum_split.
  rewrite (Rsum_0 (n - S j)).
  2:{ intros. apply Rsum_0. intros. rewrite (hx (S j + i)%nat) by lia. ring. }
  rewrite (Rsum_ext (S j) _ (fun i => Rsum (S j) (fun k => x i * A i k * x k))).
  2:{ intros i hi. rewrite Rsum_split. rewrite (Rsum_0 (n - S j)); [ring|].
      intros. rewrite (hx (S j + i0)%nat) by lia. ring. }
  simpl. rewrite Rsum_plus. rewrite (Rsum_scal_r j (x j)).
  rewrite (Rsum_ext j (fun i => x i * A i j) (fun i => A j i * x i)).
  2:{ intros i hi. rewrite (hs i j) by lia. unfold mtr. ring. }
  rewrite (Rsum_ext j (fun k => x j * A j k * x k) (fun k => x j * (A j k * x k))) by (intros; ring).
  rewrite Rsum_scal_l. ring.
Qed.

Lemma chol_fail_not_posdef A n : chol_fail A n -> ~ posdef n (sym_of_lower A).
Proof.
  intros (j & L & r & hj & h1 & h2 & h3 & h4) hp.
  set (L' := tri_of Lower L).
  assert (hl : lower_tri j j L').
  { intros a b ha hb hab. unfold L', tri_of. bd. auto. }
  destruct (upper_solvable j (mtr L') r) as (y & hy).
  { intros a b ha hb hab. apply hl; auto. }
  { intros i hi. unfold mtr, L', tri_of. bd. specialize (h2 i hi). lra. }
  assert (hg : mmul j L' (mtr L') =[j, j]= sym_of_lower A).
  { intros p q hp' hq. rewrite lower_gram; auto. unfold sym_of_lower. destruct (Nat.leb_spec q p).
    - rewrite Nat.min_r by lia. rewrite <- h1 by lia. apply Rsum_ext. intros i hi.
      unfold L', tri_of. bd. reflexivity.
    - rewrite Nat.min_l by lia. rewrite <- h1 by lia. apply Rsum_ext. intros i hi.
      unfold L', tri_of. bd. lra. }
  set (x := fun i => if Nat.ltb i j then - y i else if Nat.eqb i j then 1 else 0).
  assert (hx : 0 < qform n (sym_of_lower A) x).
  { apply hp. exists j. split; auto. unfold x. rewrite Nat.ltb_irrefl, Nat.eqb_refl. lra. }
  assert (xlow : forall i, (i < j)%nat -> x i = - y i) by (intros; unfold x; bd; auto).
  assert (xj : x j = 1) by (unfold x; bd; auto).
  rewrite (qform_lead n j) in hx; auto.
  2: apply sym_of_lower_sym.
  2: intros; unfold x; bd; auto.
  rewrite xj in hx. rewrite (qform_gram j L' _ x hg) in hx.
  assert (e1 : vnorm2 j (fun k => Rsum j (fun i => L' i k * x i)) = Rsum j (fun i => r i * r i)).
  { unfold vnorm2. apply Rsum_ext. intros k hk.
    rewrite (Rsum_ext j _ (fun i => - 1 * (mtr L' k i * y i))).
    - rewrite Rsum_scal_l, hy by auto. ring.
    - intros i hi. rewrite xlow by auto. unfold mtr. ring. }
  assert (e2 : Rsum j (fun i => sym_of_lower A j i * x i) = - Rsum j (fun i => r i * r i)).
  { rewrite (Rsum_ext j _ (fun i => - 1 * Rsum j (fun k => r k * (L' i k * y i)))).
    - rewrite Rsum_scal_l, Rsum_swap.
      rewrite (Rsum_ext j _ (fun k => r k * r k)); [ring|].
      intros k hk. rewrite Rsum_scal_l. f_equal. rewrite <- hy by auto. reflexivity.
    - intros i hi. rewrite xlow by auto. unfold sym_of_lower. bd. rewrite <- h3 by auto.
      rewrite <- (Rsum_if_lt j (S i) (fun k => r k * L i k)) by lia.
      rewrite (Rsum_ext j (fun k => r k * (L' i k * y i)) (fun k => (if (k <? S i)%nat then r k * L i k else 0) * y i)).
      + rewrite Rsum_scal_r. ring.
      + intros k hk. unfold L', tri_of. bd; ring. }
  rewrite e1, e2 in hx. unfold sym_of_lower in hx. rewrite Nat.leb_refl in hx. lra.
Qed.

(** Uniqueness of the factor *)
Lemma chol_unique n L L' :
  lower_tri n n L -> lower_tri n n L' ->
  (forall i, (i < n)%nat -> 0 < L i i) -> (forall i, (i < n)%nat -> 0 < L' i i) ->
  mmul n L (mtr L) =[n, n]= mmul n L' (mtr L') -> L =[n, n]= L'.
Proof.
  intros hl hl' hd hd' h.
  assert (hg : forall p q, (p < n)%nat -> (q <= p)%nat ->
     Rsum (S q) (fun i => L p i * L q i) = Rsum (S q) (fun i => L' p i * L' q i)).
  { intros p q hp hq. specialize (h p q hp ltac:(lia)).
    rewrite !lower_gram in h by (auto; lia). rewrite Nat.min_r in h by lia. exact h. }
  assert (hall : forall p, (p < n)%nat -> forall q, (q < n)%nat -> L p q = L' p q).
  { induction p as [p IH] using lt_wf_ind. intros hp.
    assert (hlow : forall q, (q <= p)%nat -> L p q = L' p q).
    { induction q as [q IHq] using lt_wf_ind. intros hq.
      specialize (hg p q hp hq). simpl in hg.
      destruct (Nat.eq_dec q p) as [->|ne].
      - rewrite (Rsum_ext p (fun i => L p i * L p i) (fun i => L' p i * L' p i)) in hg.
        2:{ intros i hi. rewrite (IHq i) by lia. reflexivity. }
        pose proof (hd p hp). pose proof (hd' p hp).
        assert (hz : (L p p - L' p p) * (L p p + L' p p) = 0) by lra.
        apply Rmult_integral in hz. destruct hz; lra.
      - rewrite (Rsum_ext q (fun i => L p i * L q i) (fun i => L' p i * L' q i)) in hg.
        2:{ intros i hi. rewrite (IHq i), (IH q) by lia. reflexivity. }
        rewrite (IH q ltac:(lia) ltac:(lia) q) in hg by lia.
        pose proof (hd' q ltac:(lia)).
        apply (Rmult_eq_reg_r (L' q q)); lra. }
    intros q hq. destruct (le_lt_dec q p); auto. rewrite hl, hl' by lia. reflexivity. }
  intros p q hp hq. apply hall; auto.
Qed.

Lemma cholesky_low_part (a l : mat RN) : nr a = nc a -> cholesky_dirty a = Ret l ->
  chol_inv (ent a) (nr a) (nr a) l ->
  exists l', cholesky a = Ret l' /\ nr l' = nr a /\ nc l' = nr a /\
    ent l' =[nr a, nr a]= tri_of Lower (ent l).
Proof.
  intros sq e (h1 & h2 & _). unfold cholesky. rewrite e. simpl bind.
  destruct (wp_ret _ _ (triangular_inplace_ok l Lower ltac:(lia))) as (l' & e' & g1 & g2 & g3 & g4).
  exists l'. repeat split; auto; try lia.
  intros i j hi hj. unfold tri_of. destruct (Nat.ltb_spec i j).
  - apply (g3 i j); simpl; lia.
  - apply (g4 i j); simpl; lia.
Qed.

Lemma cholesky_spec (a : mat RN) : nr a = nc a ->
  (posdef (nr a) (sym_of_lower (ent a)) /\
   exists l, cholesky a = Ret l /\ nr l = nr a /\ nc l = nr a /\
     lower_tri (nr a) (nr a) (ent l) /\ (forall i, (i < nr a)%nat -> 0 < ent l i i) /\
     mmul (nr a) (ent l) (mtr (ent l)) =[nr a, nr a]= sym_of_lower (ent a)) \/
  (~ posdef (nr a) (sym_of_lower (ent a)) /\ cholesky a = Err NotPositiveDefinite).
Proof.
  intros sq. destruct (chol_dirty_real a sq) as [(l & e & hi)|(e & hf)].
  - left. destruct (cholesky_low_part a l sq e hi) as (l' & e' & g1 & g2 & g3).
    assert (k1 : lower_tri (nr a) (nr a) (ent l')).
    { intros i j h1 h2 hij. rewrite g3 by auto. unfold tri_of. bd. auto. }
    assert (k2 : forall i, (i < nr a)%nat -> 0 < ent l' i i).
    { intros i h1. rewrite g3 by auto. unfold tri_of. bd. apply hi. auto. }
    assert (k3 : mmul (nr a) (ent l') (mtr (ent l')) =[nr a, nr a]= sym_of_lower (ent a)).
    { rewrite g3. apply chol_inv_gram. auto. }
    split; [eapply gram_posdef; eauto|].
    exists l'. repeat split; auto.
  - right. split; [apply chol_fail_not_posdef; auto|].
    unfold cholesky. rewrite e. reflexivity.
Qed.

Lemma posdef_injective n A : posdef n A -> injective n n A.
Proof.
  intros hp x hx j hj. destruct (Req_dec (x j) 0) as [|ne]; auto. exfalso.
  assert (h : 0 < qform n A x) by (apply hp; exists j; auto).
  unfold qform in h. rewrite Rsum_0 in h; [lra|]. intros i hi.
  rewrite (Rsum_ext n _ (fun k => x i * (A i k * x k))) by (intros; ring).
  rewrite Rsum_scal_l, hx by auto. ring.
Qed.

Lemma solvec_wrong_rows (a b l : mat RN) : cholesky_dirty a = Ret l -> nr l = nc l -> nr b <> nr l ->
  solvec a b = Err (WrongRows (nr l) (nr b)).
Proof.
  intros e sq hb. unfold solvec. rewrite e. simpl bind.
  unfold solve_triangular at 1, solve_triangular_system, check_square. bd. simpl. bd. reflexivity.
Qed.

Lemma solvec_spec (a b : mat RN) : nr a = nc a ->
  let A := sym_of_lower (ent a) in
  (posdef (nr a) A /\ nr b = nr a /\
   exists x, solvec a b = Ret x /\ nr x = nr b /\ nc x = nc b /\
     mmul (nr a) A (ent x) =[nr a, nc b]= ent b /\
     forall y, mmul (nr a) A y =[nr a, nc b]= ent b -> y =[nr a, nc b]= ent x) \/
  (posdef (nr a) A /\ nr b <> nr a /\ solvec a b = Err (WrongRows (nr a) (nr b))) \/
  (~ posdef (nr a) A /\ solvec a b = Err NotPositiveDefinite).
Proof.
  intros sq A. set (n := nr a).
  destruct (chol_dirty_real a sq) as [(l & e & hi)|(e & hf)].
  2:{ right; right. split; [apply chol_fail_not_posdef; auto|]. unfold solvec. rewrite e. reflexivity. }
  pose proof (chol_inv_gram _ _ _ hi) as hg. fold n A in hg.
  destruct hi as (h1 & h2 & h3 & h4 & h5). fold n in h1, h2, h3, h4, h5.
  set (L := tri_of Lower (ent l)) in *.
  assert (hl : lower_tri n n L) by (intros i j ? ? ?; unfold L, tri_of; bd; auto).
  assert (hd : forall i, (i < n)%nat -> 0 < L i i) by (intros i ?; unfold L, tri_of; bd; auto).
  assert (hp : posdef n A) by (eapply gram_posdef; eauto).
  destruct (Nat.eq_dec (nr b) n) as [hb|hb].
  2:{ right; left. split; auto. split; auto. rewrite <- h1. apply solvec_wrong_rows; auto; lia. }
  left. split; auto. split; auto.
  unfold solvec. rewrite e. simpl bind.
  destruct (solve_triangular_unique l b Lower ltac:(lia) ltac:(lia)) as (y & -> & y1 & y2 & y3 & _).
  { intros i hi. specialize (h4 i). rewrite h1 in hi. specialize (h4 hi). lra. }
  simpl bind. rewrite h1 in y3. fold L in y3.
  destruct (solve_triangular_unique (transpose l) y Upper) as (x & -> & x1 & x2 & x3 & _).
  { dims; lia. }
  { dims; lia. }
  { intros i hi. dims. rewrite h2 in hi. unfold ent. rewrite get_transpose by lia. specialize (h4 i hi). unfold ent in h4. lra. }
  exists x. dims. rewrite h2 in x3.
  assert (hu : tri_of Upper (ent (transpose l)) =[n, n]= mtr L).
  { intros i j ? ?. unfold L, mtr, tri_of. unfold ent. rewrite get_transpose by lia. reflexivity. }
  rewrite hu, y2 in x3.
  assert (hA : mmul n A (ent x) =[n, nc b]= ent b).
  { rewrite <- hg, (mmul_assoc n n n (nc b) L), x3. exact y3. }
  repeat split; auto; try lia.
  intros z hz. eapply injective_mmul; [apply posdef_injective; exact hp|].
  rewrite hA. exact hz.
Qed.

Lemma invc_spec (a : mat RN) : nr a = nc a ->
  let A := sym_of_lower (ent a) in
  (posdef (nr a) A /\
   exists x, invc a = Ret x /\ nr x = nr a /\ nc x = nr a /\
     mmul (nr a) A (ent x) =[nr a, nr a]= mid /\ mmul (nr a) (ent x) A =[nr a, nr a]= mid) \/
  (~ posdef (nr a) A /\ invc a = Err NotPositiveDefinite).
Proof.
  intros sq A. unfold invc. set (n := nr a) in *.
  assert (he : ent (eye n) =[n, n]= mid).
  { intros i j ? ?. unfold ent, eye. rewrite get_mk by auto. reflexivity. }
  destruct (solvec_spec a (eye n) sq) as [(hp & _ & x & e & h1 & h2 & h3 & _)|[(hp & hb & _)|h]].
  - left. split; auto. exists x. fold n A in h3. change (nc (eye n)) with n in *.
    change (nr (eye n)) with n in *. rewrite he in h3. repeat split; auto.
    assert (hs : A =[n, n]= mtr A) by apply sym_of_lower_sym.
    assert (ht : mmul n (mtr (ent x)) A =[n, n]= mid).
    { rewrite hs, <- (mtr_mmul n n n A (ent x)), h3. apply mtr_mid. }
    assert (hx : ent x =[n, n]= mtr (ent x)).
    { rewrite <- (mmul_1_l n n (ent x)), <- ht at 1.
      rewrite (mmul_assoc n n n n (mtr (ent x))), h3. apply mmul_1_r. }
    rewrite hx. exact ht.
  - exfalso. apply hb. reflexivity.
  - right. exact h.
Qed.

(** ** Statements for symmetric matrices *)
Lemma posdef_ext n A B : A =[n, n]= B -> posdef n A -> posdef n B.
Proof. intros h hp x hx. rewrite <- (qform_ext n A B x x h); auto. Qed.

Lemma cholesky_factor (a l : mat RN) : symmetric (nr a) (ent a) -> cholesky a = Ret l ->
  nr a = nc a /\ nr l = nr a /\ nc l = nr a /\ lower_tri (nr a) (nr a) (ent l) /\
  (forall i, (i < nr a)%nat -> 0 < ent l i i) /\
  mmul (nr a) (ent l) (mtr (ent l)) =[nr a, nr a]= ent a.
Proof.
  intros hs e.
  assert (sq : nr a = nc a).
  { pose proof (cholesky_class a) as h. unfold cholesky, cholesky_dirty in e.
    destruct (cholesky_inplace_dirty a) as [m r]. simpl in h. destruct r as [[]|[]| | |]; simpl in e; try discriminate; tauto. }
  destruct (cholesky_spec a sq) as [(_ & l' & e' & h1 & h2 & h3 & h4 & h5)|(_ & e')]; [|congruence].
  assert (l' = l) by congruence. subst l'. repeat split; auto.
  rewrite h5. apply sym_of_lower_id. auto.
Qed.
Lemma cholesky_iff (a : mat RN) : nr a = nc a -> symmetric (nr a) (ent a) ->
  ((exists l, cholesky a = Ret l) <-> posdef (nr a) (ent a)) /\
  (~ posdef (nr a) (ent a) -> cholesky a = Err NotPositiveDefinite).
Proof.
  intros sq hs. pose proof (sym_of_lower_id _ _ hs) as hid.
  destruct (cholesky_spec a sq) as [(hp & l' & e' & _)|(hp & e')].
  - split; [split; eauto|]; intros.
    + eapply posdef_ext; eauto.
    + exfalso. apply H. eapply posdef_ext; eauto.
  - split; [split|]; intros.
    + destruct H. congruence.
    + exfalso. apply hp. eapply posdef_ext; [symmetry|]; eauto.
    + auto.
Qed.
Lemma cholesky_factor_unique (a l : mat RN) (L : M) :
  symmetric (nr a) (ent a) -> cholesky a = Ret l ->
  lower_tri (nr a) (nr a) L -> (forall i, (i < nr a)%nat -> 0 < L i i) ->
  mmul (nr a) L (mtr L) =[nr a, nr a]= ent a -> L =[nr a, nr a]= ent l.
Proof.
  intros hs e hl hd hL. destruct (cholesky_factor a l hs e) as (_ & _ & _ & k1 & k2 & k3).
  apply chol_unique; auto. rewrite hL, k3. reflexivity.
Qed.
Lemma cholesky_not_square {N : Num} (a : mat N) : nr a <> nc a ->
  cholesky a = Err (NotSquare (nr a) (nc a)) /\
  (forall b, solvec a b = Err (NotSquare (nr a) (nc a))) /\ invc a = Err (NotSquare (nr a) (nc a)).
Proof.
  intros h. unfold invc, solvec, cholesky, cholesky_dirty, cholesky_inplace_dirty, check_square. bd.
  simpl. auto.
Qed.
Lemma solvec_sym (a b : mat RN) : nr a = nc a -> symmetric (nr a) (ent a) ->
  (posdef (nr a) (ent a) -> nr b = nr a ->
   exists x, solvec a b = Ret x /\ nr x = nr b /\ nc x = nc b /\
     mmul (nr a) (ent a) (ent x) =[nr a, nc b]= ent b /\
     forall y, mmul (nr a) (ent a) y =[nr a, nc b]= ent b -> y =[nr a, nc b]= ent x) /\
  (posdef (nr a) (ent a) -> nr b <> nr a -> solvec a b = Err (WrongRows (nr a) (nr b))) /\
  (~ posdef (nr a) (ent a) -> solvec a b = Err NotPositiveDefinite).
Proof.
  intros sq hs. pose proof (sym_of_lower_id _ _ hs) as hid.
  assert (hiff : posdef (nr a) (ent a) <-> posdef (nr a) (sym_of_lower (ent a))).
  { split; apply posdef_ext; auto. now symmetry. }
  rewrite hiff.
  destruct (solvec_spec a b sq) as [(hp & hb & x & e & h1 & h2 & h3 & h4)|[(hp & hb & e)|(hp & e)]];
    (split; [|split]); try tauto.
  intros _ _. exists x. repeat split; auto.
  - rewrite <- hid at 1. exact h3.
  - intros y hy. apply h4. rewrite hid. exact hy.
Qed.
Lemma invc_sym (a : mat RN) : nr a = nc a -> symmetric (nr a) (ent a) ->
  (posdef (nr a) (ent a) ->
   exists x, invc a = Ret x /\ nr x = nr a /\ nc x = nr a /\
     mmul (nr a) (ent a) (ent x) =[nr a, nr a]= mid /\
     mmul (nr a) (ent x) (ent a) =[nr a, nr a]= mid) /\
  (~ posdef (nr a) (ent a) -> invc a = Err NotPositiveDefinite).
Proof.
  intros sq hs. pose proof (sym_of_lower_id _ _ hs) as hid.
  assert (hiff : posdef (nr a) (ent a) <-> posdef (nr a) (sym_of_lower (ent a))).
  { split; apply posdef_ext; auto. now symmetry. }
  rewrite hiff.
  destruct (invc_spec a sq) as [(hp & x & e & h1 & h2 & h3 & h4)|(hp & e)]; split; try tauto.
  intros _. exists x. repeat split; auto.
  - rewrite <- hid at 1. exact h3.
  - rewrite <- hid at 1. exact h4.
Qed.
