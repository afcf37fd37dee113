(** * Proofs about givens.rs *)
From Coq Require Import Reals List Arith Lia Lra Bool Setoid Morphisms.
From Verif Require Import Scalar Arr MBase MDirect MDecomp MEigh Inst Hoare Spec RLin.
Import ListNotations.
Open Scope res_scope.

(** ** Any scalar semantics *)
Section Generic.
Context {N : Num}.
Notation vec := (list N).
Notation mtx := (mat N).
Local Open Scope num_scope.

(** lhs * self on a two-column matrix *)
Lemma rotate_rows_ok (g : givens N) (m : mtx) : nc m = 2%nat ->
  wp (rotate_rows g m) (fun m' => nr m' = nr m /\ nc m' = 2%nat /\
    forall i, (i < nr m)%nat ->
      get m' i 0 = get m i 0 * rc g + rs g * get m i 1 /\
      get m' i 1 = - rs g * get m i 0 + get m i 1 * rc g).
Proof.
  intros h. unfold rotate_rows. rewrite h. cbn [Nat.eqb negb].
  eapply post_for' with (I := fun k m' => nr m' = nr m /\ nc m' = 2%nat /\
    forall i, (i < nr m)%nat ->
      if Nat.ltb i k
      then get m' i 0 = get m i 0 * rc g + rs g * get m i 1 /\
           get m' i 1 = - rs g * get m i 0 + get m i 1 * rc g
      else get m' i 0 = get m i 0 /\ get m' i 1 = get m i 1).
  - do 2 (split; [auto|]). intros i hi. destruct (Nat.ltb_spec i 0); [lia|auto].
  - intros k m' hk (h1 & h2 & h3). unfold rotate_row. steps.
    split; auto. split; auto. intros i hi.
    pose proof (h3 i hi) as h4. repeat (rewrite get_upd by (dims; lia)).
    destruct (Nat.eqb_spec i k) as [->|ne].
    + destruct (Nat.ltb_spec k k); [lia|]. destruct (Nat.ltb_spec k (S k)); [|lia].
      destruct h4 as (e1 & e2). cbn [Nat.eqb andb]. rewrite e1, e2. auto.
    + cbn [andb]. destruct (Nat.ltb_spec i (S k)), (Nat.ltb_spec i k); try lia; auto.
  - intros m' (h1 & h2 & h3). split; auto. split; auto. intros i hi. specialize (h3 i hi).
    destruct (Nat.ltb_spec i (0 + nr m)); [auto|lia].
Qed.

Lemma rotate_rows_class (g : givens N) (m : mtx) :
  match rotate_rows g m with
  | Ret m' => nc m = 2%nat /\ nr m' = nr m /\ nc m' = 2%nat
  | Err e => nc m <> 2%nat /\ e = WrongColumns 2 (nc m)
  | _ => False
  end.
Proof.
  destruct (Nat.eq_dec (nc m) 2) as [h|h].
  - destruct (wp_ret _ _ (rotate_rows_ok g m h)) as (m' & -> & h1 & h2 & _). auto.
  - unfold rotate_rows. bd. auto.
Qed.

(** self * rhs on a two-row matrix *)
Lemma rotate_cols_ok (g : givens N) (m : mtx) : nr m = 2%nat ->
  wp (rotate_cols g m) (fun m' => nr m' = 2%nat /\ nc m' = nc m /\
    forall j, (j < nc m)%nat ->
      get m' 0 j = get m 0 j * rc g + - rs g * get m 1 j /\
      get m' 1 j = - (- rs g) * get m 0 j + get m 1 j * rc g).
Proof.
  intros h. unfold rotate_cols.
  destruct (wp_ret _ _ (rotate_rows_ok (inverse g) (transpose m) h)) as (t & -> & h1 & h2 & h3).
  dims. apply post_ret. dims. do 2 (split; [auto|]). intros j hj.
  destruct (h3 j hj) as (e1 & e2). rewrite !get_transpose in e1, e2 by lia.
  rewrite !get_transpose by lia. rewrite e1, e2. auto.
Qed.

Lemma rotate_cols_class (g : givens N) (m : mtx) :
  match rotate_cols g m with
  | Ret m' => nr m = 2%nat /\ nr m' = 2%nat /\ nc m' = nc m
  | Err e => nr m <> 2%nat /\ e = WrongRows 2 (nr m)
  | _ => False
  end.
Proof.
  unfold rotate_cols. pose proof (rotate_rows_class (inverse g) (transpose m)) as h. dims.
  destruct (rotate_rows (inverse g) (transpose m)) as [a|e| | |]; auto.
  - destruct h as (h1 & h2 & h3). dims. auto.
  - destruct h as (h1 & ->). auto.
Qed.

(** Columns c, c+1 of q times self *)
Lemma rotate_q_ok (g : givens N) (q : mtx) (c : nat) : (c + 1 < nc q)%nat ->
  wp (rotate_q g (Some q) c) (fun o => exists q', o = Some q' /\ nr q' = nr q /\ nc q' = nc q /\
    forall i j, (i < nr q)%nat -> (j < nc q)%nat -> get q' i j =
      if Nat.eqb j c then get q i c * rc g + rs g * get q i (c + 1)
      else if Nat.eqb j (c + 1) then - rs g * get q i c + get q i (c + 1) * rc g
      else get q i j).
Proof.
  intros h. unfold rotate_q. step1. apply post_slice; try lia.
  step1. apply post_unwrap. 
  eapply post_mono; [apply rotate_rows_ok; dims; lia|]. dims.
  intros m' (h1 & h2 & h3). apply post_ret. eexists. split; [reflexivity|]. dims.
  do 2 (split; [auto|]). intros i j hi hj. rewrite get_put by auto. rewrite h1, h2.
  destruct (h3 i ltac:(lia)) as (e1 & e2).
  rewrite !get_mk in e1, e2 by lia. rewrite !Nat.add_0_l in *. rewrite Nat.add_0_r in e1, e2.
  bd; auto; try lia; subst; auto.
  - rewrite Nat.sub_0_r. replace (c - c)%nat with O by lia. auto.
  - rewrite Nat.sub_0_r. replace (c + 1 - c)%nat with 1%nat by lia. auto.
Qed.

Lemma rotate_q_shape (g : givens N) (q : option mtx) n c : (c + 1 < n)%nat ->
  (match q with Some q => nc q = n | None => True end) ->
  wp (rotate_q g q c) (fun o => match q, o with
     | Some q, Some q' => nr q' = nr q /\ nc q' = n | None, None => True | _, _ => False end).
Proof.
  intros h hq. destruct q as [q|]; [|exact I].
  eapply post_mono; [apply rotate_q_ok; lia|]. intros o (q' & -> & h1 & h2 & _). split; congruence.
Qed.

End Generic.

(** ** Exact arithmetic *)
Local Open Scope R_scope.

(** The rotation in the (a, b) plane: row a is c e_a - s e_b, row b is s e_a + c e_b *)
Definition gm (a b : nat) (c s : R) : M := fun p q =>
  if Nat.eqb p a then (if Nat.eqb q a then c else if Nat.eqb q b then - s else 0)
  else if Nat.eqb p b then (if Nat.eqb q a then s else if Nat.eqb q b then c else 0)
  else mid p q.

Section Gm.
Context (n a b : nat) (ha : (a < n)%nat) (hb : (b < n)%nat) (ne : a <> b) (c s : R).

Lemma gm_apply X p q : (p < n)%nat -> mmul n (gm a b c s) X p q =
  if Nat.eqb p a then c * X a q - s * X b q
  else if Nat.eqb p b then s * X a q + c * X b q else X p q.
Proof.
  intros hp. unfold mmul, gm. bd.
  - rewrite (Rsum_two n a b) by (auto; intros l hl h1 h2; bd; ring). bd. ring.
  - rewrite (Rsum_two n a b) by (auto; intros l hl h1 h2; bd; ring). bd. ring.
  - rewrite (Rsum_single n p); auto; unfold mid.
    + bd. ring.
    + intros l hl h1. bd. ring.
Qed.

Lemma gm_apply_r X p q : (q < n)%nat -> mmul n X (mtr (gm a b c s)) p q =
  if Nat.eqb q a then c * X p a - s * X p b
  else if Nat.eqb q b then s * X p a + c * X p b else X p q.
Proof.
  intros hq. pose proof (gm_apply (mtr X) q p hq) as h. unfold mtr in h at 2 3 4 5 6.
  rewrite <- h. unfold mmul, mtr. apply Rsum_ext. intros. ring.
Qed.

Lemma gm_orthogonal : c * c + s * s = 1 -> orthogonal n (gm a b c s).
Proof.
  intros h. split.
  - intros p q hp hq. 
    assert (e : mmul n (mtr (gm a b c s)) (gm a b c s) p q =
       if Nat.eqb q a then c * mtr (gm a b c s) p a + s * mtr (gm a b c s) p b
       else if Nat.eqb q b then - s * mtr (gm a b c s) p a + c * mtr (gm a b c s) p b
       else mtr (gm a b c s) p q).
    { unfold mmul. unfold gm at 2. bd.
      - rewrite (Rsum_two n a b) by (auto; intros l hl h1 h2; unfold mid; bd; ring). bd. ring.
      - rewrite (Rsum_two n a b) by (auto; intros l hl h1 h2; unfold mid; bd; ring). bd. ring.
      - rewrite (Rsum_single n q) by (auto; intros l hl h1; unfold mid; bd; ring). unfold mid. bd. ring. }
    rewrite e. unfold mtr, gm, mid. bd; try lra; subst; try lia.
  - intros p q hp hq. rewrite gm_apply_r by auto. unfold gm, mid. bd; try lra; subst; try lia.
Qed.
End Gm.

(** Applying a rotation on both sides of a factorisation leaves the product unchanged *)
Lemma rot_invariant n W T G : orthogonal n G ->
  mmul n (mmul n W (mtr G)) (mmul n (mmul n G (mmul n T (mtr G))) (mtr (mmul n W (mtr G))))
  =[n, n]= mmul n W (mmul n T (mtr W)).
Proof.
  intros [h1 h2]. rewrite (mtr_mmul n n n W), mtr_mtr.
  rewrite (mmul_assoc n n n n W), (mmul_assoc n n n n G), (mmul_assoc n n n n T).
  rewrite <- (mmul_assoc n n n n (mtr G) G (mtr W)), h1, mmul_1_l.
  rewrite <- (mmul_assoc n n n n (mtr G) G), h1, mmul_1_l. reflexivity.
Qed.

(** ** givens.rs over the reals *)
Lemma hypot_pos x y : y <> 0 -> 0 < sqrt (x * x + y * y).
Proof. intros h. apply sqrt_lt_R0. pose proof (sqn x). assert (0 < y * y) by nra. lra. Qed.

(** cancel_y: G (x, y)^T = (r, 0)^T *)
Lemma cancel_y_real (x y : R) : 
  match @cancel_y RN x y with
  | Some (g, r) => y <> 0 /\ 0 < r /\ r * r = x * x + y * y /\ rc g * rc g + rs g * rs g = 1 /\
       rc g * x - rs g * y = r /\ rs g * x + rc g * y = 0
  | None => y = 0
  end.
Proof.
  unfold cancel_y. change (nis_zero RN y) with (Reqb y 0).
  destruct (Reqb_spec y 0) as [h|h]; cbn [negb]; auto.
  change (nhypot RN x y) with (sqrt (x * x + y * y)). pose proof (hypot_pos x y h) as hp.
  set (r := sqrt (x * x + y * y)) in *. cbn [rc rs].
  assert (e : r * r = x * x + y * y) by (apply sqrt_sqrt; nra).
  change (ndiv RN) with Rdiv. change (nopp RN) with Ropp.
  split; auto. split; auto. split; auto. split; [|split].
  - field_simplify_eq; [|lra]. lra.
  - field_simplify_eq; [|lra]. lra.
  - field. lra.
Qed.

(** cancel_x: G (x, y)^T = (0, r)^T *)
Lemma cancel_x_real (x y : R) : 
  match @cancel_x RN x y with
  | Some (g, r) => x <> 0 /\ 0 < r /\ r * r = x * x + y * y /\ rc g * rc g + rs g * rs g = 1 /\
       rc g * x - rs g * y = 0 /\ rs g * x + rc g * y = r
  | None => x = 0
  end.
Proof.
  unfold cancel_x. pose proof (cancel_y_real y x) as h. destruct (@cancel_y RN y x) as [[g r]|]; auto.
  cbn [rc rs]. change (nmul RN) with Rmult. change (nopp RN) with Ropp. change (n1 RN) with 1.
  destruct h as (h1 & h2 & h3 & h4 & h5 & h6). do 2 (split; [auto|]). repeat split; lra.
Qed.

Lemma try_new_real (c s eps : R) : 0 <= eps ->
  match @try_new RN c s eps with
  | Some (g, r) => eps < r /\ r * r = c * c + s * s /\ rc g * rc g + rs g * rs g = 1 /\
        rc g * r = c /\ rs g * r = s
  | None => sqrt (c * c + s * s) <= eps
  end.
Proof.
  intros he. unfold try_new. change (nhypot RN c s) with (sqrt (c * c + s * s)).
  change (nlt RN) with Rltb. set (r := sqrt (c * c + s * s)).
  assert (e : r * r = c * c + s * s) by (apply sqrt_sqrt; nra).
  destruct (Rltb_spec eps r); [|lra]. cbn [rc rs]. change (ndiv RN) with Rdiv.
  split; auto. split; auto. split; [|split].
  - field_simplify_eq; [|lra]. lra.
  - field. lra.
  - field. lra.
Qed.

Lemma givens_new_real (c s : R) :
  let '(g, r) := @givens_new RN c s in
  0 <= r /\ r * r = c * c + s * s /\ rc g * rc g + rs g * rs g = 1 /\ rc g * r = c /\ rs g * r = s.
Proof.
  unfold givens_new. change (n0 RN) with 0. pose proof (try_new_real c s 0 (Rle_refl 0)) as h.
  destruct (@try_new RN c s 0) as [[g r]|].
  - destruct h as (h1 & h2 & h3 & h4 & h5). repeat split; auto; lra.
  - unfold identity. cbn [rc rs]. change (n1 RN) with 1. change (n0 RN) with 0.
    pose proof (sqrt_pos (c * c + s * s)) as hp.
    assert (e : sqrt (c * c + s * s) * sqrt (c * c + s * s) = c * c + s * s) by (apply sqrt_sqrt; nra).
    assert (h0 : sqrt (c * c + s * s) = 0) by lra. rewrite h0 in e.
    pose proof (sqn c). pose proof (sqn s).
    assert (c * c = 0) by lra. assert (s * s = 0) by lra.
    assert (c = 0) by nra. assert (s = 0) by nra. subst. repeat split; lra.
Qed.

(** rotate_q with the inverse rotation multiplies by the transposed rotation matrix *)
Lemma rotate_q_real (g : givens RN) (q : mat RN) (c : nat) : (c + 1 < nc q)%nat ->
  wp (rotate_q g (Some q) c) (fun o => exists q', o = Some q' /\ nr q' = nr q /\ nc q' = nc q /\
    ent q' =[nr q, nc q]= mmul (nc q) (ent q) (mtr (gm c (c + 1) (rc g) (- rs g)))).
Proof.
  intros h. eapply post_mono; [apply rotate_q_ok; auto|]. intros o (q' & e & h1 & h2 & h3).
  exists q'. do 3 (split; [auto|]). intros i j hi hj. unfold ent at 1. rewrite h3 by auto.
  rewrite gm_apply_r by (auto; lia). unfold ent. rn. bd; auto; ring.
Qed.
