(** * Proofs about reflection.rs and householder.rs *)
From Coq Require Import Reals List Arith Lia Lra Bool Setoid Morphisms.
From Verif Require Import Scalar Arr MBase MDirect Inst Hoare Spec RLin PTri.
Import ListNotations.
Open Scope res_scope.

Section Generic.
Context {N : Num}.
Notation vec := (list N).
Notation mtx := (mat N).

Definition refl_entry (v : nat -> N) (b : N) (n : nat) (m : nat -> nat -> N) (i j : nat) : N :=
  nadd N (m i j) (nmul N (nmul N (nsub N (sumn n (fun k => nmul N (v k) (m k j))) b)
                            (nopp N ntwo)) (v i)).

Lemma reflect_cols_ok (r : reflection N) (m : mtx) : length (axis r) = nr m ->
  wp (reflect_cols r m) (fun x => nr x = nr m /\ nc x = nc m /\
    forall i j, i < nr m -> j < nc m ->
      get x i j = refl_entry (vget (axis r)) (bias r) (nr m) (get m) i j).
Proof.
  intros hl. unfold reflect_cols.
  eapply post_for' with (I := fun q x => nr x = nr m /\ nc x = nc m /\
    forall i j, i < nr m -> j < nc m ->
      get x i j = if j <? q then refl_entry (vget (axis r)) (bias r) (nr m) (get m) i j else get m i j).
  - repeat split; auto.
  - intros q x hq (h1 & h2 & h3). unfold reflect_col. steps. dims. repeat split; auto.
    intros i j hi hj. rewrite get_put_col by lia. dims.
    destruct (Nat.eqb_spec j q) as [->|].
    + bd. rewrite Nat.sub_0_r. rewrite vget_vmk by lia. rewrite vget_vmk by lia.
      rewrite h3 by lia. bd. unfold refl_entry. rewrite hl.
      rewrite (sumn_ext (nr m) _ (fun k => nmul N (vget (axis r) k) (get m k q))); auto.
      intros k hk. rewrite vget_vmk by lia. rewrite h3 by lia. bd. reflexivity.
    + rewrite andb_false_r. rewrite h3 by auto. bd; auto.
  - intros x (h1 & h2 & h3). repeat split; auto. intros. rewrite h3 by auto. bd. auto.
Qed.

Lemma reflect_rows_ok (r : reflection N) (m : mtx) : length (axis r) = nc m ->
  wp (reflect_rows r m) (fun x => nr x = nr m /\ nc x = nc m /\
    forall i j, i < nr m -> j < nc m ->
      get x i j = refl_entry (vget (axis r)) (bias r) (nc m) (fun a b => get (transpose m) a b) j i).
Proof.
  intros hl. unfold reflect_rows. step1.
  eapply post_mono; [apply reflect_cols_ok; dims; auto|]. intros x (h1 & h2 & h3). dims.
  step1. dims. repeat split; auto. intros. rewrite get_transpose by lia. rewrite h3 by auto. reflexivity.
Qed.

Lemma reflection_axis_ok (c : vec) : 0 < length c ->
  wp (reflection_axis_mut c) (fun r => length (fst r) = length c).
Proof.
  intros h. unfold reflection_axis_mut. step1. step1; auto. bd. simpl.
  destruct (negb _); simpl; dims; auto.
Qed.

Lemma clear_column_safe (m : mtx) i s : i + s < nr m -> i < nc m ->
  wp (clear_column m i s) (fun r => nr (fst r) = nr m /\ nc (fst r) = nc m).
Proof.
  intros h1 h2. unfold clear_column. steps.
  eapply post_mono; [apply reflection_axis_ok; dims; lia|]. intros [ax on] hl. simpl in hl. dims.
  destruct on as [x|]; [|simpl; auto].
  step1. apply post_slice; try dlia. step1.
  eapply post_mono; [apply reflect_cols_ok; simpl; dlia|]. intros y (g1 & g2 & _). step1. simpl. auto.
Qed.
Lemma clear_row_safe (m : mtx) i s : i + s < nc m -> i < nr m ->
  wp (clear_row m i s) (fun r => nr (fst r) = nr m /\ nc (fst r) = nc m).
Proof.
  intros h1 h2. unfold clear_row. step1.
  eapply post_mono; [apply clear_column_safe; dims; auto|].
  intros [t x] (g1 & g2). simpl in *. dims. auto.
Qed.

Lemma assemble_q_safe (m : mtx) s df : s <= Nat.min (nr m) (nc m) ->
  (forall i, i < Nat.min (nr m) (nc m) - s -> wp (df i) (fun _ => True)) ->
  wp (assemble_q m s df) (fun q => nr q = nr m /\ nc q = Nat.min (nr m) (nc m)).
Proof.
  intros hs hd. unfold assemble_q. step1. step1; auto.
  eapply post_for_rev with (I := fun _ q => nr q = nr m /\ nc q = Nat.min (nr m) (nc m)).
  - destruct (Nat.eqb_spec (nr m) (nc m)); unfold eye; dims; split; auto; lia.
  - intros i q hi (h1 & h2). steps.
    eapply post_mono; [apply reflect_cols_ok; simpl; dlia|]. intros y (g1 & g2 & _).
    step1. eapply post_mono; [apply hd; auto|]. intros d _. step1. dims. auto.
  - auto.
Qed.
End Generic.

(** ** Exact arithmetic: reflectors as matrices *)
Local Open Scope R_scope.

Definition sgn (x : R) : R := if Rltb x 0 then -1 else 1.
Lemma sgn_sq x : sgn x * sgn x = 1. Proof. unfold sgn. destruct (Rltb x 0); lra. Qed.
Lemma sgn_mul_abs x : sgn x * x = Rabs x.
Proof.
  unfold sgn. destruct (Rltb_spec x 0).
  - rewrite Rabs_left; lra.
  - rewrite Rabs_right; lra.
Qed.
Lemma sgn_0 : sgn 0 = 1. Proof. unfold sgn. destruct (Rltb_spec 0 0); lra. Qed.

(** hh k s w: identity on the rows before k, s (I - 2 w w^T) on the rest *)
Definition hh (k : nat) (s : R) (w : nat -> R) : M := fun i j =>
  if Nat.ltb i k then mid i j else s * (mid i j - 2 * (w i * w j)).

Record reflector (n k : nat) (s : R) (w : nat -> R) : Prop := {
  hh_zero : forall i, (i < k)%nat -> w i = 0;
  hh_sign : s * s = 1;
  hh_unit : Rsum n (fun i => w i * w i) = 1 \/ (forall i, (i < n)%nat -> w i = 0)
}.

Lemma hh_apply n c k s w X : (forall i, (i < k)%nat -> w i = 0) ->
  mmul n (hh k s w) X =[n, c]= (fun i j =>
    if Nat.ltb i k then X i j else s * (X i j - 2 * (w i * Rsum n (fun l => w l * X l j)))).
Proof.
  intros hz i j hi hj. unfold mmul, hh. destruct (Nat.ltb_spec i k).
  - unfold mid. rewrite (Rsum_single n i); auto; [rewrite Nat.eqb_refl; lra|].
    intros l hl ne. bd. lra.
  - rewrite (Rsum_ext n _ (fun l => s * ((if Nat.eqb l i then 1 else 0) * X l j) - (2 * s * w i) * (w l * X l j))).
    + rewrite Rsum_minus, !Rsum_scal_l, Rsum_delta by auto. ring.
    + intros l hl. unfold mid. rewrite (Nat.eqb_sym i l). ring.
Qed.

Lemma hh_sym n k s w : (forall i, (i < k)%nat -> w i = 0) -> mtr (hh k s w) =[n, n]= hh k s w.
Proof.
  intros hz i j hi hj. unfold mtr, hh, mid.
  destruct (Nat.ltb_spec i k), (Nat.ltb_spec j k); bd; subst; auto; try lia;
   rewrite ?(hz i), ?(hz j) by lia; try ring.
Qed.

Lemma hh_invol n k s w : reflector n k s w -> mmul n (hh k s w) (hh k s w) =[n, n]= mid.
Proof.
  intros [hz hs hu]. rewrite hh_apply by auto. intros i j hi hj.
  assert (e : Rsum n (fun l => w l * hh k s w l j) = s * (w j - 2 * Rsum n (fun l => w l * w l) * w j)).
  { rewrite (Rsum_ext n _ (fun l => s * ((if Nat.eqb l j then 1 else 0) * w l) - (2 * s * w j) * (w l * w l))).
    - rewrite Rsum_minus, !Rsum_scal_l, Rsum_delta by auto. ring.
    - intros l hl. unfold hh, mid. destruct (Nat.ltb_spec l k).
      + rewrite (hz l) by auto. ring.
      + ring. }
  rewrite e. unfold hh. destruct (Nat.ltb_spec i k); auto.
  destruct hu as [hu|hu].
  - rewrite hu. replace (s * (s * (mid i j - 2 * (w i * w j)) - 2 * (w i * (s * (w j - 2 * 1 * w j)))))
      with ((s * s) * mid i j) by ring. rewrite hs. ring.
  - rewrite (hu i), (hu j) by auto.
    replace (s * (s * (mid i j - 2 * (0 * 0)) - 2 * (0 * (s * (0 - 2 * Rsum n (fun l => w l * w l) * 0)))))
      with ((s * s) * mid i j) by ring. rewrite hs. ring.
Qed.

Lemma hh_orthogonal n k s w : reflector n k s w -> orthogonal n (hh k s w).
Proof.
  intros h. pose proof (hh_invol _ _ _ _ h). pose proof (hh_sym n k s w (hh_zero _ _ _ _ h)) as e.
  split; rewrite e; auto.
Qed.

(** Products P_0 P_1 ... P_{k-1} *)
Fixpoint hprod (n : nat) (P : nat -> M) (k : nat) : M :=
  match k with
  | O => mid
  | S k => mmul n (hprod n P k) (P k)
  end.
Lemma hprod_orthogonal n P k : (forall i, (i < k)%nat -> orthogonal n (P i)) -> orthogonal n (hprod n P k).
Proof.
  induction k; intros h; simpl; [apply orthogonal_mid|].
  apply orthogonal_mul; auto.
Qed.
Lemma hprod_ext n P Q k : (forall i, (i < k)%nat -> P i =[n, n]= Q i) -> hprod n P k =[n, n]= hprod n Q k.
Proof.
  induction k; intros h; simpl; [reflexivity|]. rewrite (IHk) by auto. rewrite h by lia. reflexivity.
Qed.
Lemma hprod_S_l n P k : hprod n P (S k) =[n, n]= mmul n (P O) (hprod n (fun i => P (S i)) k).
Proof.
  induction k.
  - simpl. rewrite mmul_1_l, mmul_1_r. reflexivity.
  - change (hprod n P (S (S k))) with (mmul n (hprod n P (S k)) (P (S k))).
    rewrite IHk. simpl. rewrite (mmul_assoc n n n n (P O)). reflexivity.
Qed.

(** ** reflection_axis_mut in exact arithmetic *)
Lemma dot1_R (u v : list RN) : length u = length v ->
  dot1 u v = Ret (Rsum (length u) (fun i => vent u i * vent v i)).
Proof.
  intros h. unfold dot1. rewrite h, Nat.eqb_refl. reflexivity.
Qed.

Lemma nz_R x : nis_zero RN x = Reqb x 0. Proof. reflexivity. Qed.

Lemma reflection_axis_real (c : list RN) : (0 < length c)%nat ->
  let n := length c in
  wp (reflection_axis_mut c) (fun r => let v := vent (fst r) in
    length (fst r) = n /\
    match snd r with
    | None => (forall i, (i < n)%nat -> vent c i = 0) /\ (forall i, (i < n)%nat -> v i = 0)
    | Some x => x <> 0 /\ Rsum n (fun i => v i * v i) = 1 /\
        (forall i, (i < n)%nat ->
           sgn x * (vent c i - 2 * (v i * Rsum n (fun l => v l * vent c l))) =
           if Nat.eqb i 0 then Rabs x else 0)
    end).
Proof.
  intros hn n. unfold reflection_axis_mut. rewrite dot1_R by auto. fold n. cbn [bind].
  set (q := Rsum n (fun i => vent c i * vent c i)).
  assert (hq : 0 <= q) by (apply Rsum_nonneg; intros; apply sqn).
  fold n in hn. destruct (Nat.ltb_spec 0 n) as [_|]; [|lia]. cbn [bind].
  set (f := @vget RN c 0). set (nrm := nsqrt RN q).
  assert (hnrm : nrm * nrm = q) by (apply sqrt_sqrt; auto).
  assert (hnrm0 : 0 <= nrm) by apply sqrt_pos.
  assert (hf : f = vent c 0) by reflexivity.
  change (nsignum RN f) with (sgn f). rn. rewrite ntwo_R.
  set (nn := (q + Rabs f * nrm) * 2).
  destruct (Reqb_spec nn 0) as [e0|e0]; simpl negb; cbv iota.
  - (* zero column *)
    assert (hq0 : q = 0).
    { assert (0 <= Rabs f * nrm) by (apply Rmult_le_pos; auto using Rabs_pos). unfold nn in e0. lra. }
    assert (hz : forall i, (i < n)%nat -> vent c i = 0) by (intros i hi; apply (Rsum_sq_0 n _ hq0 i hi)).
    assert (hn0 : nrm = 0) by nra.
    apply post_ret. simpl. rewrite length_vupd. split; auto. split; auto.
    intros i hi. unfold vent. rewrite vget_vupd by auto. destruct (Nat.eqb_spec i 0).
    + rewrite hn0, hf, hz by auto. ring.
    + apply hz; auto.
  - apply post_ret. simpl fst. simpl snd. cbv zeta. rewrite length_vmap, length_vupd. split; auto.
    set (sf := sgn f). assert (hsf : sf * sf = 1) by apply sgn_sq.
    assert (hsff : sf * f = Rabs f) by apply sgn_mul_abs.
    assert (hn1 : 0 < nrm).
    { destruct (Rle_lt_or_eq_dec 0 nrm hnrm0); auto. exfalso. apply e0. unfold nn.
      rewrite <- hnrm, <- e. ring. }
    assert (hnn : 0 < nn).
    { unfold nn. assert (0 <= Rabs f * nrm) by (apply Rmult_le_pos; auto using Rabs_pos).
      assert (0 < q) by (rewrite <- hnrm; apply Rmult_lt_0_compat; auto). lra. }
    set (d := sqrt nn). assert (hd : d * d = nn) by (apply sqrt_sqrt; lra).
    assert (hd0 : 0 < d) by (apply sqrt_lt_R0; auto).
    set (v := vent _).
    assert (hv : forall i, (i < n)%nat -> v i = (vent c i + (if Nat.eqb i 0 then sf * nrm else 0)) / d).
    { intros i hi. unfold v, vent. rewrite vget_vmap by (rewrite length_vupd; auto).
      rewrite vget_vupd by auto. destruct (Nat.eqb_spec i 0) as [->|]; rn; [reflexivity|].
      change (@vget RN c i) with (vent c i). unfold Rdiv. ring. }
    clearbody v.
    assert (hvv : Rsum n (fun i => v i * v i) = 1).
    { rewrite (Rsum_ext n _ (fun i => (vent c i * vent c i + (if Nat.eqb i 0 then 1 else 0) * (2 * f * sf * nrm + nrm * nrm)) * / nn)).
      - rewrite Rsum_scal_r, Rsum_plus, Rsum_delta by auto. fold q.
        rewrite hnrm. replace (q + (2 * f * sf * nrm + q)) with (2 * (q + (sf * f) * nrm)) by ring.
        rewrite hsff. unfold nn. field. unfold nn in e0. lra.
      - intros i hi. rewrite hv by auto. destruct (Nat.eqb_spec i 0) as [->|].
        + rewrite <- hf, <- hd. field_simplify; try lra.
          replace (sf ^ 2) with 1 by (rewrite <- hsf; ring). field. lra.
        + rewrite <- hd. field. lra. }
    assert (hvc : Rsum n (fun l => v l * vent c l) = d / 2).
    { rewrite (Rsum_ext n _ (fun i => (vent c i * vent c i + (if Nat.eqb i 0 then 1 else 0) * (f * sf * nrm)) * / d)).
      - rewrite Rsum_scal_r, Rsum_plus, Rsum_delta by auto. fold q.
        replace (f * sf) with (sf * f) by ring. rewrite hsff.
        apply (Rmult_eq_reg_r (2 * d)); [|lra].
        replace (d / 2 * (2 * d)) with nn by (rewrite <- hd; field). unfold nn. field. lra.
      - intros i hi. rewrite hv by auto. destruct (Nat.eqb_spec i 0) as [->|].
        + rewrite <- hf. field. lra.
        + field. lra. }
    split; [|split]; auto.
    + assert (sf <> 0) by nra. assert (0 < sf * nrm \/ sf * nrm < 0).
      { unfold sf, sgn. destruct (Rltb f 0); [right|left]; lra. }
      lra.
    + intros i hi. rewrite hvc, hv by auto.
      assert (hs : sgn (- (sf * nrm)) = - sf).
      { unfold sf, sgn. destruct (Rltb_spec f 0); match goal with |- context [Rltb ?x 0] => destruct (Rltb_spec x 0) end; lra. }
      rewrite hs.
      replace (vent c i - 2 * ((vent c i + (if (i =? 0)%nat then sf * nrm else 0)) / d * (d / 2)))
        with (- (if (i =? 0)%nat then sf * nrm else 0)) by (field; lra).
      destruct (Nat.eqb_spec i 0).
      * rewrite Rabs_Ropp, Rabs_mult, (Rabs_right nrm) by lra.
        replace (Rabs sf) with 1.
        2:{ unfold sf, sgn. destruct (Rltb f 0); [rewrite Rabs_left|rewrite Rabs_right]; lra. }
        replace (- sf * - (sf * nrm)) with ((sf * sf) * nrm) by ring. rewrite hsf. ring.
      * ring.
Qed.

(** The reflection axis stored in column i of an array, from row k down *)
Definition axis_of (k : nat) (m : mat RN) (i : nat) : nat -> R := fun p =>
  if Nat.ltb p k then 0 else ent m p i.

Lemma axis_of_zero k m i p : (p < k)%nat -> axis_of k m i p = 0.
Proof. intros. unfold axis_of. bd. auto. Qed.

Lemma Rsum_shift n k (w X : nat -> R) v : (k <= n)%nat ->
  (forall p, (p < k)%nat -> w p = 0) -> (forall p, (k <= p < n)%nat -> w p = v (p - k)%nat) ->
  Rsum n (fun l => w l * X l) = Rsum (n - k) (fun l => v l * X (k + l)%nat).
Proof.
  intros hk h0 h1. rewrite (Rsum_ext n _ (fun l => if Nat.leb k l then v (l - k)%nat * X l else 0)).
  - rewrite Rsum_if_ge by auto. apply Rsum_ext. intros l hl.
    replace (k + l - k)%nat with l by lia. reflexivity.
  - intros l hl. destruct (Nat.leb_spec k l).
    + rewrite h1 by lia. reflexivity.
    + rewrite h0 by lia. ring.
Qed.

Definition clear_post (m : mat RN) (i k : nat) (m' : mat RN) (x : R) : Prop :=
  nr m' = nr m /\ nc m' = nc m /\
  reflector (nr m) k (sgn x) (axis_of k m' i) /\
  (forall p q, (p < nr m)%nat -> (q < nc m)%nat -> (q < i \/ (q = i /\ p < k))%nat ->
     ent m' p q = ent m p q) /\
  (forall p q, (p < nr m)%nat -> (q < nc m)%nat -> (i < q)%nat ->
     ent m' p q = mmul (nr m) (hh k (sgn x) (axis_of k m' i)) (ent m) p q) /\
  (forall p, (p < nr m)%nat ->
     mmul (nr m) (hh k (sgn x) (axis_of k m' i)) (ent m) p i =
     if Nat.ltb p k then ent m p i else if Nat.eqb p k then Rabs x else 0).

Lemma refl_entry_R v b n m i j :
  @refl_entry RN v b n m i j = m i j - 2 * (v i * (Rsum n (fun k => v k * m k j) - b)).
Proof.
  unfold refl_entry. rewrite sumn_R. rn. rewrite ntwo_R. ring.
Qed.

Lemma clear_column_real (m : mat RN) i s : (i + s < nr m)%nat -> (i < nc m)%nat ->
  wp (clear_column m i s) (fun r => clear_post m i (i + s) (fst r) (snd r)).
Proof.
  intros hk hi. unfold clear_column. set (k := (i + s)%nat) in *. set (n := nr m).
  step1. apply post_col_from; try lia. step1.
  set (ax := vmk _ _). assert (hax : length ax = (n - k)%nat) by apply length_vmk.
  eapply post_mono; [apply reflection_axis_real; lia|]. rewrite hax.
  intros [v on]. cbn [fst snd]. cbv zeta. intros (hl & hon).
  set (m1 := put_col m k i v).
  assert (hm1 : forall p q, (p < nr m)%nat -> (q < nc m)%nat -> ent m1 p q =
     if (Nat.leb k p && Nat.eqb q i)%bool then vent v (p - k) else ent m p q).
  { intros p q hp hq. unfold ent, m1. rewrite get_put_col by auto. fold n in hp. bd; auto. }
  assert (hvax : forall p, (k <= p < n)%nat -> vent ax (p - k) = ent m p i).
  { intros p hp. unfold vent, ax. rewrite vget_vmk by (fold n; lia). unfold ent. f_equal. lia. }
  destruct on as [x|].
  - (* a proper reflection *)
    destruct hon as (hx & huu & hcol).
    cbn [nr nc]. step1. unfold m1 at 1 2 3. apply post_slice; dims; try lia.
    step1. set (sub := mk _ _ _).
    eapply post_mono; [apply reflect_cols_ok; unfold sub; dims; simpl; fold n; lia|].
    intros y (y1 & y2 & y3). apply post_ret. cbn [fst snd]. unfold clear_post.
    unfold sub in y1, y2, y3. dims. fold n in y1, y3. change (nr m1) with n in *. change (nc m1) with (nc m) in *.
    cbn [axis bias] in y3. fold m1 in y3.
    change (nsignum RN x) with (sgn x).
    set (m2 := put m1 k (i + 1) (mscale y (sgn x))).
    assert (hm2 : forall p q, (p < n)%nat -> (q < nc m)%nat -> ent m2 p q =
       if (Nat.leb k p && Nat.ltb i q)%bool then sgn x * ent y (p - k)%nat (q - (i + 1))%nat else ent m1 p q).
    { intros p q hp hq. unfold ent, m2. rewrite get_put by auto. dims.
      rewrite y1, y2. bd; auto.
      rewrite get_mscale by lia. rn. ring. }
    assert (hwv : forall p, (k <= p < n)%nat -> axis_of k m2 i p = vent v (p - k)).
    { intros p hp. unfold axis_of. bd. rewrite hm2 by lia. bd. rewrite hm1 by (fold n; lia). bd. reflexivity. }
    assert (hw0 : forall p, (p < k)%nat -> axis_of k m2 i p = 0) by (intros; apply axis_of_zero; auto).
    set (w := axis_of k m2 i) in *.
    assert (hww : Rsum n (fun l => w l * w l) = 1).
    { rewrite (Rsum_shift n k w w (vent v)) by (auto; lia). rewrite <- huu. apply Rsum_ext.
      intros l hl'. rewrite hwv by lia. f_equal. f_equal. lia. }
    assert (hwX : forall X : nat -> R, Rsum n (fun l => w l * X l) = Rsum (n - k) (fun l => vent v l * X (k + l)%nat)).
    { intros X. apply Rsum_shift; auto. lia. }
    repeat split; auto.
    + apply sgn_sq.
    + intros p q hp hq ho. rewrite hm2 by auto. bd; rewrite hm1 by auto; bd; auto.
    + intros p q hp hq ho. fold n in hp |- *. rewrite (hh_apply n (nc m)) by auto.
      rewrite hm2 by auto. destruct (Nat.leb_spec k p).
      * bd. f_equal. unfold ent at 1. rewrite y3 by lia. rewrite refl_entry_R.
        rewrite hwX. rewrite hwv by lia.
        rewrite get_mk by lia. change (@get RN m1) with (ent m1).
        rewrite hm1 by (fold n; lia). bd.
        replace (i + 1 + (q - (i + 1)))%nat with q by lia. replace (k + (p - k))%nat with p by lia.
        f_equal. f_equal. f_equal.
        rn. rewrite Rminus_0_r. apply Rsum_ext. intros l hl'. f_equal.
        rewrite get_mk by lia. change (@get RN m1) with (ent m1).
        rewrite hm1 by (fold n; lia). bd. f_equal. lia.
      * bd. rewrite hm1 by auto. bd. reflexivity.
    + intros p hp. fold n in hp |- *. rewrite (hh_apply n (nc m)) by auto.
      destruct (Nat.ltb_spec p k); auto.
      rewrite hwv, hwX by lia. specialize (hcol (p - k)%nat ltac:(lia)).
      rewrite hvax in hcol by lia.
      rewrite (Rsum_ext (n - k) _ (fun l => vent v l * vent ax l)).
      2:{ intros l hl'. f_equal. rewrite <- hvax by lia. f_equal. lia. }
      rewrite hcol. bd; auto.
  - (* zero column: nothing happens *)
    destruct hon as (hc & hv). apply post_ret. cbn [fst snd]. unfold clear_post.
    assert (hm : forall p q, (p < n)%nat -> (q < nc m)%nat -> ent m1 p q = ent m p q).
    { intros p q hp hq. rewrite hm1 by auto. bd; auto. subst.
      rewrite hv by lia. rewrite <- hvax by lia. rewrite hc by lia. reflexivity. }
    assert (hw : forall p, (p < n)%nat -> axis_of k m1 i p = 0).
    { intros p hp. unfold axis_of. bd; auto. rewrite hm1 by auto. bd. apply hv. lia. }
    assert (hs : sgn (n0 RN) = 1) by apply sgn_0.
    set (w := axis_of k m1 i) in *. rewrite hs.
    assert (hP : forall p q, (p < n)%nat -> (q < nc m)%nat -> mmul n (hh k 1 w) (ent m) p q = ent m p q).
    { intros p q hp hq. rewrite (hh_apply n (nc m)) by (auto; intros; apply hw; lia).
      bd; auto. rewrite hw by auto. ring. }
    repeat split; auto; try lra.
    + intros; apply hw; lia.
    + intros p q hp hq ho. fold n. rewrite hP by auto. apply hm; auto.
    + intros p hp. fold n. rewrite hP by auto. bd; auto.
      * subst p. rewrite <- hvax by lia. rewrite hc by lia. rn. now rewrite Rabs_R0.
      * rewrite <- hvax by lia. rewrite hc by (fold n in hp; lia). reflexivity.
Qed.

(** ** assemble_q in exact arithmetic *)
Lemma assemble_q_real (m : mat RN) s df d :
  let n := nr m in let dim := Nat.min (nr m) (nc m) in
  let P := fun i => hh (i + s) (sgn (d i)) (axis_of (i + s) m i) in
  (s <= dim)%nat ->
  (forall i, (i < dim - s)%nat -> df i = Ret (d i)) ->
  wp (assemble_q m s df) (fun q => nr q = n /\ nc q = dim /\ ent q =[n, dim]= hprod n P (dim - s)).
Proof.
  intros n dim P hs hd. unfold assemble_q. fold n. fold dim.
  step1. step1; auto. set (cnt := (dim - s)%nat) in *.
  assert (hdim : (dim <= n)%nat) by (unfold dim, n; lia).
  assert (hdimc : (dim <= nc m)%nat) by (unfold dim, n; lia).
  eapply post_for_rev with (I := fun k q => nr q = n /\ nc q = dim /\
    ent q =[n, dim]= hprod n (fun j => P (k + j)%nat) (cnt - k) /\
    (forall a b, (a < n)%nat -> (b < dim)%nat -> (b < k + s)%nat -> ent q a b = mid a b)).
  - rewrite Nat.sub_diag. cbn [hprod].
    destruct (Nat.eqb_spec n (nc m)) as [e|e].
    + assert (dim = n) by (unfold dim; fold n; lia). unfold eye. dims.
      repeat split; auto; intros a b ha hb; intros; unfold ent; rewrite get_mk by lia; reflexivity.
    + dims. repeat split; auto; intros a b ha hb; intros; unfold ent; rewrite get_mk by lia; reflexivity.
  - intros k q hk (h1 & h2 & h3 & h4).
    step1. apply post_col_from; try (fold n; lia).
    step1. apply post_slice; try lia.
    step1. eapply post_mono; [apply reflect_cols_ok; simpl; dims; fold n; lia|].
    intros y (y1 & y2 & y3). dims. cbn [axis bias] in y3. rewrite h1, h2 in *.
    rewrite hd by auto. cbn [bind]. apply post_ret. change (nsignum RN (d k)) with (sgn (d k)).
    set (q' := put q (k + s) k (mscale y (sgn (d k)))).
    assert (hq' : forall a b, (a < n)%nat -> (b < dim)%nat -> ent q' a b =
       if (Nat.leb (k + s) a && Nat.leb k b)%bool then sgn (d k) * ent y (a - (k + s))%nat (b - k)%nat else ent q a b).
    { intros a b ha hb. unfold ent, q'. rewrite get_put by lia. dims. rewrite y1, y2.
      bd; auto. rewrite get_mscale by lia. rn. ring. }
    set (w := axis_of (k + s) m k).
    assert (hw0 : forall p, (p < k + s)%nat -> w p = 0) by (intros; apply axis_of_zero; auto).
    assert (hwX : forall X : nat -> R, Rsum n (fun l => w l * X l) =
                   Rsum (n - (k + s)) (fun l => ent m (k + s + l)%nat k * X (k + s + l)%nat)).
    { intros X. apply (Rsum_shift n (k + s) w X (fun l => ent m (k + s + l)%nat k)); auto; [lia|].
      intros p hp. unfold w, axis_of. bd. f_equal. lia. }
    assert (hcol : forall a b, (a < n)%nat -> (b < dim)%nat -> (b < k + s)%nat ->
               mmul n (P k) (ent q) a b = mid a b).
    { intros a b ha hb hbk. unfold P. rewrite (hh_apply n dim) by auto. fold w.
      rewrite h4 by lia. destruct (Nat.ltb_spec a (k + s)); auto.
      rewrite Rsum_0.
      - unfold mid. bd. ring.
      - intros l hl. rewrite h4 by lia. unfold mid. bd; subst; [rewrite hw0 by lia|]; ring. }
    assert (hP : ent q' =[n, dim]= mmul n (P k) (ent q)).
    { intros a b ha hb. rewrite hq' by auto.
      destruct (Nat.leb_spec (k + s) a).
      - destruct (Nat.leb_spec k b); cbn [andb].
        + unfold P. rewrite (hh_apply n dim) by auto. fold w. bd. f_equal.
          unfold ent at 1. rewrite y3 by lia. rewrite refl_entry_R. rewrite hwX.
          rewrite vget_vmk by (fold n; lia). rewrite get_mk by lia.
          replace (k + s + (a - (k + s)))%nat with a by lia. replace (k + (b - k))%nat with b by lia.
          change (@get RN q a b) with (ent q a b). f_equal. f_equal. 
          replace (w a) with (ent m a k) by (unfold w, axis_of; bd; auto).
          change (@get RN m a k) with (ent m a k). f_equal. rn. rewrite Rminus_0_r.
          apply Rsum_ext. intros l hl. rewrite vget_vmk by (fold n; lia). rewrite get_mk by lia.
          replace (k + (b - k))%nat with b by lia. reflexivity.
        + rewrite hcol by lia. rewrite h4 by lia. reflexivity.
      - cbn [andb]. unfold P. rewrite (hh_apply n dim) by auto. fold w. bd. reflexivity. }
    assert (d1 : nr q' = n) by (unfold q'; dims; auto).
    assert (d2 : nc q' = dim) by (unfold q'; dims; auto).
    clearbody q'. repeat split; auto.
    + rewrite hP, h3. replace (cnt - k)%nat with (S (cnt - S k)) by lia.
      pose proof (hprod_S_l n (fun j => P (k + j)%nat) (cnt - S k)) as e.
      pose proof (meq_sub _ _ n dim _ _ (le_n n) hdim e) as e'. rewrite e'.
      rewrite Nat.add_0_r.
      assert (e2 : hprod n (fun i => P (k + S i)%nat) (cnt - S k) =[n, n]= hprod n (fun j => P (S k + j)%nat) (cnt - S k)).
      { apply hprod_ext. intros i hi. replace (k + S i)%nat with (S k + i)%nat by lia. reflexivity. }
      rewrite (meq_sub _ _ n dim _ _ (le_n n) hdim e2). reflexivity.
    + intros a b ha hb hbk. rewrite hP by auto. apply hcol; auto.
  - intros q (h1 & h2 & h3 & _). repeat split; auto.
    rewrite Nat.sub_0_r in h3. exact h3.
Qed.
