(** * Proofs about bidiagonal.rs *)
From Coq Require Import Reals List Arith Lia Lra Bool Setoid Morphisms.
From Verif Require Import Scalar Arr MBase MDirect MDecomp Inst Hoare Spec RLin PTri PHouse PQR PTrid.
Import ListNotations.
Open Scope res_scope.

(** ** Any scalar semantics *)
Section Generic.
Context {N : Num}.
Notation vec := (list N).
Notation mtx := (mat N).

Definition bid_wf (r c : nat) (b : bidecomp N) : Prop :=
  nr (uv b) = r /\ nc (uv b) = c /\ length (bi_diag b) = Nat.min r c /\
  length (bi_off b) = Nat.min r c - 1 /\ upper_diag b = (c <=? r) /\ 1 <= Nat.min r c.

Lemma bidiagonal_safe (a : mtx) : 1 <= Nat.min (nr a) (nc a) ->
  wp (bidiagonal a) (bid_wf (nr a) (nc a)).
Proof.
  intros h. unfold bidiagonal. set (dm := Nat.min (nr a) (nc a)) in *.
  destruct (Nat.eqb_spec dm 0); [lia|].
  step1.
  eapply post_for' with (I := fun _ (st : mtx * vec * vec) => nr (fst (fst st)) = nr a /\
     nc (fst (fst st)) = nc a /\ length (snd (fst st)) = dm /\ length (snd st) = dm - 1).
  - cbn [fst snd]. dims. auto.
  - intros i [[m d] o] hi. cbn [fst snd]. intros (h1 & h2 & h3 & h4).
    destruct (Nat.leb_spec (nc a) (nr a)).
    + step1. eapply post_mono; [apply clear_column_safe; lia|]. intros [m1 x]. cbn [fst]. intros (g1 & g2).
      step1. apply post_set1; [lia|].
      step1. eapply post_mono; [apply clear_row_safe; lia|]. intros [m2 y]. cbn [fst]. intros (g3 & g4).
      step1. apply post_set1; [lia|]. apply post_ret. cbn [fst snd]. dims. repeat split; lia.
    + step1. eapply post_mono; [apply clear_row_safe; lia|]. intros [m1 x]. cbn [fst]. intros (g1 & g2).
      step1. apply post_set1; [lia|].
      step1. eapply post_mono; [apply clear_column_safe; lia|]. intros [m2 y]. cbn [fst]. intros (g3 & g4).
      step1. apply post_set1; [lia|]. apply post_ret. cbn [fst snd]. dims. repeat split; lia.
  - intros [[m d] o]. cbn [fst snd]. intros (h1 & h2 & h3 & h4).
    destruct (Nat.leb_spec (nc a) (nr a)).
    + step1. eapply post_mono; [apply clear_column_safe; lia|]. intros [m1 x]. cbn [fst]. intros (g1 & g2).
      step1. apply post_set1; [lia|]. apply post_ret. unfold bid_wf. simpl. dims. fold dm. bd. repeat split; auto; lia.
    + step1. eapply post_mono; [apply clear_row_safe; lia|]. intros [m1 x]. cbn [fst]. intros (g1 & g2).
      step1. apply post_set1; [lia|]. apply post_ret. unfold bid_wf. simpl. dims. fold dm. bd. repeat split; auto; lia.
Qed.

Lemma bidiagonal_class (a : mtx) :
  match bidiagonal a with
  | Ret b => 1 <= Nat.min (nr a) (nc a) /\ bid_wf (nr a) (nc a) b
  | Err e => e = EmptyMatrix /\ (nr a = 0 \/ nc a = 0)
  | _ => False
  end.
Proof.
  destruct (le_lt_dec 1 (Nat.min (nr a) (nc a))) as [h|h].
  - destruct (wp_ret _ _ (bidiagonal_safe a h)) as (b & -> & hb). auto.
  - unfold bidiagonal. destruct (Nat.eqb_spec (Nat.min (nr a) (nc a)) 0); [|lia]. split; [auto|lia].
Qed.

Lemma generate_u_safe r c (b : bidecomp N) : bid_wf r c b ->
  wp (generate_u b) (fun u => nr u = r /\ nc u = Nat.min r c).
Proof.
  intros (h1 & h2 & h3 & h4 & h5 & h6). unfold generate_u.
  destruct (upper_diag b); (eapply post_mono; [apply assemble_q_safe; [lia|]|]).
  - intros i hi. apply post_idx1; auto. lia.
  - intros q (q1 & q2). lia.
  - intros i hi. apply post_idx1; auto. lia.
  - intros q (q1 & q2). lia.
Qed.

Lemma generate_vt_safe r c (b : bidecomp N) : bid_wf r c b ->
  wp (generate_vt b) (fun u => nr u = Nat.min r c /\ nc u = c).
Proof.
  intros (h1 & h2 & h3 & h4 & h5 & h6). unfold generate_vt. step1.
  destruct (upper_diag b); (eapply post_mono; [apply assemble_q_safe; [dims; lia|]|]).
  - intros i hi. dims. apply post_idx1; auto. lia.
  - intros q (q1 & q2). apply post_ret. dims. lia.
  - intros i hi. dims. apply post_idx1; auto. lia.
  - intros q (q1 & q2). apply post_ret. dims. lia.
Qed.

Lemma into_b_ok r c (b : bidecomp N) : bid_wf r c b ->
  wp (into_b b) (fun t => nr t = Nat.min r c /\ nc t = Nat.min r c /\
    forall p q, p < Nat.min r c -> q < Nat.min r c -> get t p q =
      if p =? q then nabs N (vget (bi_diag b) p)
      else if upper_diag b
           then if q =? p + 1 then nabs N (vget (bi_off b) p) else n0 N
           else if p =? q + 1 then nabs N (vget (bi_off b) q) else n0 N).
Proof.
  intros (h1 & h2 & h3 & h4 & h5 & h6). unfold into_b, bi_into_diagonals. rewrite h3.
  set (dm := Nat.min r c) in *.
  assert (hl : length (vmap (nabs N) (bi_off b)) = dm - 1) by (unfold vmap; rewrite length_vmk; auto).
  assert (hfd : forall p q, p < dm -> q < dm -> get (from_diag (vmap (nabs N) (bi_diag b))) p q =
     if p =? q then nabs N (vget (bi_diag b) p) else n0 N).
  { intros p q hp hq. unfold from_diag, vmap. rewrite length_vmk, h3. rewrite get_mk by lia.
    bd; auto. rewrite vget_vmk by lia. auto. }
  assert (dr : nr (from_diag (vmap (nabs N) (bi_diag b))) = dm) by (unfold from_diag, vmap; dims; auto).
  assert (dc : nc (from_diag (vmap (nabs N) (bi_diag b))) = dm) by (unfold from_diag, vmap; dims; auto).
  set (fd := from_diag _) in *. clearbody fd.
  set (off := vmap (nabs N) (bi_off b)) in *.
  assert (hoff : forall i, i < dm - 1 -> vget off i = nabs N (vget (bi_off b) i)).
  { intros i hi. unfold off, vmap. rewrite vget_vmk by lia. auto. }
  clearbody off. destruct (upper_diag b).
  - step1. apply post_slice; try lia. dims. replace (Nat.min (dm - 0) (dm - 1)) with (dm - 1) by lia.
    rewrite hl, Nat.eqb_refl. apply post_ret. dims. repeat split; auto.
    intros p q hp hq. rewrite get_put by lia. dims.
    destruct (Nat.eqb_spec p q) as [->|ne].
    + bd; cbn [andb]; try (rewrite get_mk by lia; bd; rewrite get_mk by lia;
        rewrite hfd by lia; replace (1 + (q - 1)) with q by lia; rewrite ?Nat.sub_0_r; bd; auto);
      rewrite hfd by lia; bd; auto.
    + bd; cbn [andb]; try (rewrite get_mk by lia; bd; try (rewrite hoff by lia; f_equal; f_equal; lia);
        rewrite get_mk by lia; rewrite hfd by lia; bd; auto); rewrite ?hfd by lia; bd; auto.
  - step1. apply post_slice; try lia. dims. replace (Nat.min (dm - 1) (dm - 0)) with (dm - 1) by lia.
    rewrite hl, Nat.eqb_refl. apply post_ret. dims. repeat split; auto.
    intros p q hp hq. rewrite get_put by lia. dims.
    destruct (Nat.eqb_spec p q) as [->|ne].
    + bd; cbn [andb]; try (rewrite get_mk by lia; bd; rewrite get_mk by lia;
        rewrite hfd by lia; replace (1 + (q - 1)) with q by lia; rewrite ?Nat.sub_0_r; bd; auto);
      rewrite hfd by lia; bd; auto.
    + bd; cbn [andb]; try (rewrite get_mk by lia; bd; try (rewrite hoff by lia; f_equal; f_equal; lia);
        rewrite get_mk by lia; rewrite hfd by lia; bd; auto); rewrite ?hfd by lia; bd; auto.
Qed.
End Generic.

(** ** Exact arithmetic *)
Local Open Scope R_scope.

(** clear_post on entry functions *)
Definition axisf (k : nat) (X : M) (i : nat) : nat -> R := fun p => if Nat.ltb p k then 0 else X p i.
Definition cpost (n c : nat) (X : M) (i k : nat) (X' : M) (x : R) : Prop :=
  reflector n k (sgn x) (axisf k X' i) /\
  (forall p q, (p < n)%nat -> (q < c)%nat -> (q < i \/ (q = i /\ p < k))%nat -> X' p q = X p q) /\
  (forall p q, (p < n)%nat -> (q < c)%nat -> (i < q)%nat ->
     X' p q = mmul n (hh k (sgn x) (axisf k X' i)) X p q) /\
  (forall p, (p < n)%nat -> mmul n (hh k (sgn x) (axisf k X' i)) X p i =
     if Nat.ltb p k then X p i else if Nat.eqb p k then Rabs x else 0).

Lemma clear_post_cpost m i k m' x : clear_post m i k m' x ->
  nr m' = nr m /\ nc m' = nc m /\ cpost (nr m) (nc m) (ent m) i k (ent m') x.
Proof. intros (h1 & h2 & h3). auto. Qed.

Lemma cpost_ext n c X Y i k X' Y' x : (i < c)%nat -> (k <= n)%nat -> X =[n, c]= Y -> X' =[n, c]= Y' ->
  cpost n c X i k X' x -> cpost n c Y i k Y' x.
Proof.
  intros hi hk h h' (h1 & h2 & h3 & h4).
  assert (ha : forall p, (p < n)%nat -> axisf k X' i p = axisf k Y' i p).
  { intros p hp. unfold axisf. bd; auto. }
  assert (hH : hh k (sgn x) (axisf k X' i) =[n, n]= hh k (sgn x) (axisf k Y' i)) by (apply hh_ext; auto).
  split; [|split; [|split]].
  - eapply reflector_ext; [exact hk|exact ha|exact h1].
  - intros p q hp hq g. rewrite <- h, <- h' by auto. auto.
  - intros p q hp hq g. rewrite <- h' by auto. rewrite h3 by auto.
    unfold mmul. apply Rsum_ext. intros l hl. rewrite hH, h by auto. auto.
  - intros p hp. rewrite <- (h p i) by auto. rewrite <- h4 by auto.
    unfold mmul. apply Rsum_ext. intros l hl. rewrite hH, h by auto. auto.
Qed.

Definition bL (X : M) (dd : nat -> R) (j : nat) : M := hh (j + 0) (sgn (dd j)) (axisf (j + 0) X j).
Definition bR (X : M) (oo : nat -> R) (j : nat) : M := hh (j + 1) (sgn (oo j)) (axisf (j + 1) (mtr X) j).
(** What is left after a left and b right reflections *)
Definition bW (X : M) (dd oo : nat -> R) (a b : nat) : M := fun p q =>
  if Nat.ltb p b
  then if Nat.eqb q p then Rabs (dd p) else if Nat.eqb q (p + 1) then Rabs (oo p) else 0
  else if Nat.ltb q a then if Nat.eqb q p then Rabs (dd p) else 0
  else X p q.

Definition binv (A : M) (r c a b : nat) (X : M) (dd oo : nat -> R) : Prop :=
  (forall j, (j < a)%nat -> reflector r (j + 0) (sgn (dd j)) (axisf (j + 0) X j)) /\
  (forall j, (j < b)%nat -> reflector c (j + 1) (sgn (oo j)) (axisf (j + 1) (mtr X) j)) /\
  A =[r, c]= mmul r (hprod r (bL X dd) a) (mmul c (bW X dd oo a b) (mtr (hprod c (bR X oo) b))).

Definition fupd (f : nat -> R) (i : nat) (x : R) : nat -> R := fun j => if Nat.eqb j i then x else f j.

Lemma binv_left A r c i X X1 dd dd' oo x : (i < r)%nat -> (i < c)%nat -> binv A r c i i X dd oo ->
  cpost r c X i i X1 x -> (forall j, (j <= i)%nat -> dd' j = fupd dd i x j) -> binv A r c (S i) i X1 dd' oo.
Proof.
  intros hr hc (h1 & h2 & h3) (g1 & g2 & g3 & g4) hdd. unfold fupd in hdd.
  assert (hdl : forall j, (j < i)%nat -> dd' j = dd j) by (intros; rewrite hdd by lia; bd; auto).
  assert (hdi : dd' i = x) by (rewrite hdd by lia; bd; auto).
  set (w := axisf i X1 i) in *. set (s := sgn x) in *.
  assert (hw0 : forall p, (p < i)%nat -> w p = 0) by (intros; unfold w, axisf; bd; auto).
  assert (hPi : bL X1 dd' i = hh i s w) by (unfold bL; rewrite hdi, Nat.add_0_r; reflexivity).
  assert (hrow : forall p q, (p < i)%nat -> (q < c)%nat -> X1 p q = X p q).
  { intros p q hp hq. destruct (le_lt_dec q i).
    - apply g2; lia.
    - rewrite g3 by lia. rewrite (hh_apply r c) by (auto; lia). bd. auto. }
  assert (hLa : forall j, (j < i)%nat -> forall p, (p < r)%nat -> axisf (j + 0) X1 j p = axisf (j + 0) X j p).
  { intros j hj p hp. unfold axisf. bd; auto. apply g2; lia. }
  assert (hRa : forall j, (j < i)%nat -> forall p, (p < c)%nat -> axisf (j + 1) (mtr X1) j p = axisf (j + 1) (mtr X) j p).
  { intros j hj p hp. unfold axisf, mtr. bd; auto. }
  split; [|split].
  - intros j hj. destruct (Nat.eq_dec j i) as [->|].
    + rewrite hdi, Nat.add_0_r. exact g1.
    + rewrite hdl by lia. eapply reflector_ext; [lia| |apply h1; lia].
      intros p hp. symmetry. apply hLa; auto. lia.
  - intros j hj. eapply reflector_ext; [lia| |apply h2; lia]. intros p hp. symmetry. apply hRa; auto.
  - cbn [hprod]. rewrite hPi.
    assert (hL : hprod r (bL X1 dd') i =[r, r]= hprod r (bL X dd) i).
    { apply hprod_ext. intros j hj. unfold bL. rewrite hdl by auto. apply hh_ext. intros. apply hLa; auto. }
    assert (hR : hprod c (bR X1 oo) i =[c, c]= hprod c (bR X oo) i).
    { apply hprod_ext. intros j hj. unfold bR. apply hh_ext. intros. apply hRa; auto. }
    assert (hW : bW X1 dd' oo (S i) i =[r, c]= mmul r (hh i s w) (bW X dd oo i i)).
    { intros p q hp hq. rewrite (hh_apply r c) by auto.
      destruct (Nat.ltb_spec p i) as [lt|ge].
      - unfold bW. bd; auto. rewrite hdl by auto. auto.
      - destruct (lt_eq_lt_dec q i) as [[qi|qi]|qi].
        + rewrite Rsum_0.
          * unfold bW; bd; ring.
          * intros l hl. destruct (le_lt_dec i l); [|rewrite hw0 by auto; ring]. unfold bW; bd; ring.
        + subst q. specialize (g4 p hp). rewrite (hh_apply r c) in g4 by auto.
          destruct (Nat.ltb_spec p i); [lia|].
          replace (bW X dd oo i i p i) with (X p i) by (unfold bW; bd; auto).
          rewrite (Rsum_ext r _ (fun l => w l * X l i)).
          * rewrite g4. unfold bW; bd; try reflexivity; try lia; congruence.
          * intros l hl. destruct (le_lt_dec i l); [|rewrite hw0 by auto; ring]. unfold bW; bd; auto.
        + replace (bW X1 dd' oo (S i) i p q) with (X1 p q) by (unfold bW; bd; auto).
          rewrite g3 by auto. rewrite (hh_apply r c) by auto. destruct (Nat.ltb_spec p i); [lia|].
          replace (bW X dd oo i i p q) with (X p q) by (unfold bW; bd; auto).
          f_equal. f_equal. f_equal. f_equal. apply Rsum_ext. intros l hl.
          destruct (le_lt_dec i l); [|rewrite hw0 by auto; ring]. unfold bW; bd; auto. }
    assert (hinv : mmul r (hh i s w) (hh i s w) =[r, r]= mid) by (apply hh_invol; exact g1).
    rewrite hW, hL, hR, h3.
    rewrite (mmul_assoc r r r c (hprod r (bL X dd) i)).
    rewrite (mmul_assoc r r c c (hh i s w)).
    rewrite <- (mmul_assoc r r r c (hh i s w)), hinv, mmul_1_l. reflexivity.
Qed.

Lemma binv_right A r c i X1 X2 dd oo oo' y : (i < r)%nat -> (i + 1 < c)%nat -> binv A r c (S i) i X1 dd oo ->
  cpost c r (mtr X1) i (i + 1) (mtr X2) y -> (forall j, (j <= i)%nat -> oo' j = fupd oo i y j) ->
  binv A r c (S i) (S i) X2 dd oo'.
Proof.
  intros hr hc (h1 & h2 & h3) (g1 & g2 & g3 & g4) hoo. unfold fupd in hoo.
  assert (hol : forall j, (j < i)%nat -> oo' j = oo j) by (intros; rewrite hoo by lia; bd; auto).
  assert (hoi : oo' i = y) by (rewrite hoo by lia; bd; auto).
  set (k := (i + 1)%nat) in *.
  set (w := axisf k (mtr X2) i) in *. set (s := sgn y) in *.
  assert (hw0 : forall p, (p < k)%nat -> w p = 0) by (intros; unfold w, axisf; bd; auto).
  assert (hPi : bR X2 oo' i = hh k s w) by (unfold bR; rewrite hoi; reflexivity).
  assert (hcol : forall p q, (p < r)%nat -> (q < k)%nat -> X2 p q = X1 p q).
  { intros p q hp hq. destruct (le_lt_dec p i).
    - apply (g2 q p); lia.
    - change (mtr X2 q p = mtr X1 q p). rewrite g3 by lia. rewrite (hh_apply c r) by (auto; lia). bd. auto. }
  assert (hLa : forall j, (j < S i)%nat -> forall p, (p < r)%nat -> axisf (j + 0) X2 j p = axisf (j + 0) X1 j p).
  { intros j hj p hp. unfold axisf. bd; auto. apply hcol; lia. }
  assert (hRa : forall j, (j < i)%nat -> forall p, (p < c)%nat -> axisf (j + 1) (mtr X2) j p = axisf (j + 1) (mtr X1) j p).
  { intros j hj p hp. unfold axisf. bd; auto. apply g2; lia. }
  split; [|split].
  - intros j hj. eapply reflector_ext; [lia| |apply h1; lia]. intros p hp. symmetry. apply hLa; auto.
  - intros j hj. destruct (Nat.eq_dec j i) as [->|].
    + rewrite hoi. exact g1.
    + rewrite hol by lia. eapply reflector_ext; [lia| |apply h2; lia].
      intros p hp. symmetry. apply hRa; auto. lia.
  - assert (hL : hprod r (bL X2 dd) (S i) =[r, r]= hprod r (bL X1 dd) (S i)).
    { apply hprod_ext. intros j hj. unfold bL. apply hh_ext. intros. apply hLa; auto. }
    rewrite hL. set (HL := hprod r (bL X1 dd) (S i)) in *. cbn [hprod]. rewrite hPi.
    assert (hR : hprod c (bR X2 oo') i =[c, c]= hprod c (bR X1 oo) i).
    { apply hprod_ext. intros j hj. unfold bR. rewrite hol by auto. apply hh_ext. intros. apply hRa; auto. }
    assert (hW : bW X2 dd oo' (S i) (S i) =[r, c]= mmul c (bW X1 dd oo (S i) i) (hh k s w)).
    { intros p q hp hq. rewrite (hh_apply_r c r) by auto.
      destruct (Nat.ltb_spec q k) as [lt|ge].
      - unfold bW. bd; auto; subst; try lia. rewrite hol by lia. auto.
      - destruct (lt_eq_lt_dec p i) as [[pi|pi]|pi].
        + rewrite Rsum_0.
          * unfold bW; bd; ring.
          * intros l hl. destruct (le_lt_dec k l); [|rewrite hw0 by auto; ring]. unfold bW; bd; ring.
        + subst p. specialize (g4 q hq). rewrite (hh_apply c r) in g4 by auto.
          destruct (Nat.ltb_spec q k); [lia|]. unfold mtr in g4 at 1.
          replace (bW X1 dd oo (S i) i i q) with (X1 i q) by (unfold bW; bd; auto).
          rewrite (Rsum_ext c _ (fun l => w l * mtr X1 l i)).
          * rewrite g4. unfold bW; bd; try reflexivity; try lia; congruence.
          * intros l hl. destruct (le_lt_dec k l); [|rewrite hw0 by auto; ring]. unfold bW; bd; auto.
        + replace (bW X2 dd oo' (S i) (S i) p q) with (mtr X2 q p) by (unfold bW; bd; auto).
          rewrite g3 by auto. rewrite (hh_apply c r) by auto. destruct (Nat.ltb_spec q k); [lia|].
          replace (bW X1 dd oo (S i) i p q) with (mtr X1 q p) by (unfold bW; bd; auto).
          f_equal. f_equal. f_equal. f_equal. apply Rsum_ext. intros l hl.
          destruct (le_lt_dec k l); [|rewrite hw0 by auto; ring]. unfold bW; bd; auto. }
    assert (hinv : mmul c (hh k s w) (hh k s w) =[c, c]= mid) by (apply hh_invol; exact g1).
    assert (hsymP : mtr (hh k s w) =[c, c]= hh k s w) by (apply hh_sym; auto).
    rewrite hW, hR, h3. rewrite (mtr_mmul c c c (hprod c (bR X1 oo) i)), hsymP.
    rewrite (mmul_assoc r c c c (bW X1 dd oo (S i) i)).
    rewrite <- (mmul_assoc c c c c (hh k s w)), hinv, mmul_1_l. reflexivity.
Qed.

(** The result, seen from the tall side (X is the array when rows >= cols, its transpose otherwise) *)
Definition bid_ok (A : M) (r c : nat) (X : M) (dd oo : nat -> R) : Prop := binv A r c c (c - 1) X dd oo.

Lemma clear_row_real (m : mat RN) i s : (i + s < nc m)%nat -> (i < nr m)%nat ->
  wp (clear_row m i s) (fun r => nr (fst r) = nr m /\ nc (fst r) = nc m /\
     cpost (nc m) (nr m) (mtr (ent m)) i (i + s) (mtr (ent (fst r))) (snd r)).
Proof.
  intros h1 h2. unfold clear_row. step1.
  eapply post_mono; [apply clear_column_real; dims; auto|]. intros [t x]. cbn [fst snd].
  intros h. apply clear_post_cpost in h. dims. destruct h as (d1 & d2 & h).
  apply post_ret. cbn [fst snd]. dims. split; auto. split; auto.
  eapply cpost_ext; [exact h2|lia| | |exact h].
  - intros p q hp hq. unfold ent, mtr. rewrite get_transpose by auto. reflexivity.
  - intros p q hp hq. unfold ent, mtr. rewrite get_transpose by lia. reflexivity.
Qed.

Lemma mtr2 (X : M) : mtr (mtr X) = X. Proof. reflexivity. Qed.

Lemma bidiagonal_real (a : mat RN) : (1 <= Nat.min (nr a) (nc a))%nat ->
  wp (bidiagonal a) (fun b => bid_wf (nr a) (nc a) b /\
    if Nat.leb (nc a) (nr a)
    then bid_ok (ent a) (nr a) (nc a) (ent (uv b)) (vent (bi_diag b)) (vent (bi_off b))
    else bid_ok (mtr (ent a)) (nc a) (nr a) (mtr (ent (uv b))) (vent (bi_diag b)) (vent (bi_off b))).
Proof.
  intros hm. unfold bidiagonal. set (r := nr a) in *. set (c := nc a) in *.
  set (dm := Nat.min r c) in *. destruct (Nat.eqb_spec dm 0); [lia|].
  assert (hvu : forall (v : list RN) i x j, (j <= i)%nat -> (i < length v)%nat -> vent (vupd v i x) j = fupd (vent v) i x j).
  { intros v i x j hj hi. unfold vent, fupd. rewrite vget_vupd by lia. reflexivity. }
  destruct (Nat.leb_spec c r) as [tall|wide].
  - step1. eapply post_for' with (I := fun i (st : mat RN * list RN * list RN) =>
      nr (fst (fst st)) = r /\ nc (fst (fst st)) = c /\ length (snd (fst st)) = dm /\ length (snd st) = (dm - 1)%nat /\
      binv (ent a) r c i i (ent (fst (fst st))) (vent (snd (fst st))) (vent (snd st))).
    + cbn [fst snd]. dims. do 4 (split; auto). 
      split; [intros; lia|split; [intros; lia|]]. cbn [hprod]. rewrite mmul_1_l, mtr_mid, mmul_1_r.
      intros p q hp hq. reflexivity.
    + intros i [[m d] o] hi. cbn [fst snd]. intros (h1 & h2 & h3 & h4 & h5).
      step1. eapply post_mono; [apply clear_column_real; lia|]. intros [m1 x]. cbn [fst snd].
      intros g. apply clear_post_cpost in g. rewrite h1, h2, Nat.add_0_r in g. destruct g as (g1 & g2 & g3).
      step1. apply post_set1; [lia|].
      step1. eapply post_mono; [apply clear_row_real; lia|]. intros [m2 y]. cbn [fst snd].
      rewrite g1, g2. intros (k1 & k2 & k3).
      step1. apply post_set1; [lia|]. apply post_ret. cbn [fst snd]. dims.
      do 4 (split; auto).
      eapply binv_right; [lia|lia| |exact k3|intros; apply hvu; lia].
      eapply binv_left; [lia|lia|exact h5|exact g3|intros; apply hvu; lia].
    + intros [[m d] o]. cbn [fst snd]. intros (h1 & h2 & h3 & h4 & h5).
      step1. eapply post_mono; [apply clear_column_real; lia|]. intros [m1 x]. cbn [fst snd].
      intros g. apply clear_post_cpost in g. rewrite h1, h2, Nat.add_0_r in g. destruct g as (g1 & g2 & g3).
      step1. apply post_set1; [lia|]. apply post_ret. cbn [uv bi_off bi_diag upper_diag]. split.
      * unfold bid_wf. cbn [uv bi_off bi_diag upper_diag]. dims. fold dm. bd. repeat split; auto; lia.
      * unfold bid_ok. assert (ec : c = dm) by lia.
        assert (hb : binv (ent a) r c (S (dm - 1)) (dm - 1) (ent m1) (vent (vupd d (dm - 1) x)) (vent o)).
        { eapply binv_left; [lia|lia|exact h5|exact g3|intros; apply hvu; lia]. }
        replace (S (dm - 1)) with c in hb by lia. rewrite ec at 3. exact hb.
  - step1. eapply post_for' with (I := fun i (st : mat RN * list RN * list RN) =>
      nr (fst (fst st)) = r /\ nc (fst (fst st)) = c /\ length (snd (fst st)) = dm /\ length (snd st) = (dm - 1)%nat /\
      binv (mtr (ent a)) c r i i (mtr (ent (fst (fst st)))) (vent (snd (fst st))) (vent (snd st))).
    + cbn [fst snd]. dims. do 4 (split; auto). 
      split; [intros; lia|split; [intros; lia|]]. cbn [hprod]. rewrite mmul_1_l, mtr_mid, mmul_1_r.
      intros p q hp hq. reflexivity.
    + intros i [[m d] o] hi. cbn [fst snd]. intros (h1 & h2 & h3 & h4 & h5).
      step1. eapply post_mono; [apply clear_row_real; lia|]. intros [m1 x]. cbn [fst snd].
      rewrite h1, h2, Nat.add_0_r. intros (g1 & g2 & g3).
      step1. apply post_set1; [lia|].
      step1. eapply post_mono; [apply clear_column_real; lia|]. intros [m2 y]. cbn [fst snd].
      intros g. apply clear_post_cpost in g. rewrite g1, g2 in g. destruct g as (k1 & k2 & k3).
      step1. apply post_set1; [lia|]. apply post_ret. cbn [fst snd]. dims.
      do 4 (split; auto).
      eapply binv_right with (X1 := mtr (ent m1)); [lia|lia| |exact k3|intros; apply hvu; lia].
      eapply binv_left; [lia|lia|exact h5|exact g3|intros; apply hvu; lia].
    + intros [[m d] o]. cbn [fst snd]. intros (h1 & h2 & h3 & h4 & h5).
      step1. eapply post_mono; [apply clear_row_real; lia|]. intros [m1 x]. cbn [fst snd].
      rewrite h1, h2, Nat.add_0_r. intros (g1 & g2 & g3).
      step1. apply post_set1; [lia|]. apply post_ret. cbn [uv bi_off bi_diag upper_diag]. split.
      * unfold bid_wf. cbn [uv bi_off bi_diag upper_diag]. dims. fold dm. bd. repeat split; auto; lia.
      * unfold bid_ok. assert (ec : r = dm) by lia.
        assert (hb : binv (mtr (ent a)) c r (S (dm - 1)) (dm - 1) (mtr (ent m1)) (vent (vupd d (dm - 1) x)) (vent o)).
        { eapply binv_left; [lia|lia|exact h5|exact g3|intros; apply hvu; lia]. }
        replace (S (dm - 1)) with r in hb by lia. rewrite ec at 3. exact hb.
Qed.

Definition bidiag (dd oo : nat -> R) : M := fun p q =>
  if Nat.eqb q p then Rabs (dd p) else if Nat.eqb q (p + 1) then Rabs (oo p) else 0.

Lemma orthogonal_cols n c Q : (c <= n)%nat -> orthogonal n Q -> orthonormal_cols n c Q.
Proof. intros h [h1 _]. unfold orthonormal_cols in *. intros p q hp hq. apply h1; lia. Qed.

Lemma bid_ok_spec A r c X dd oo : (c <= r)%nat -> (1 <= c)%nat -> bid_ok A r c X dd oo ->
  let U := hprod r (bL X dd) c in let V := hprod c (bR X oo) (c - 1) in
  orthonormal_cols r c U /\ orthogonal c V /\
  A =[r, c]= mmul c U (mmul c (bidiag dd oo) (mtr V)).
Proof.
  intros hrc hc (h1 & h2 & h3) U V.
  assert (hW : forall p q, (p < r)%nat -> (q < c)%nat -> bW X dd oo c (c - 1) p q =
    if Nat.ltb p c then bidiag dd oo p q else 0).
  { intros p q hp hq. unfold bW, bidiag. bd; auto; try lia; subst; lia. }
  split; [|split].
  - apply orthogonal_cols; auto. apply hprod_orthogonal. intros j hj. apply hh_orthogonal. apply h1. auto.
  - apply hprod_orthogonal. intros j hj. apply hh_orthogonal. apply h2. auto.
  - rewrite h3. fold U V.
    rewrite (mmul_trunc r c hrc r c).
    + intros p q hp hq. unfold mmul. apply Rsum_ext. intros l hl. f_equal.
      apply Rsum_ext. intros k hk. rewrite hW by lia. bd. auto.
    + intros p q hp hq. unfold mmul. apply Rsum_0. intros l hl. rewrite hW by lia. bd. ring.
Qed.

Lemma bidiagonal_spec (a : mat RN) : (1 <= nr a)%nat -> (1 <= nc a)%nat ->
  let r := nr a in let c := nc a in let d := Nat.min r c in
  exists b u bm vt, bidiagonal a = Ret b /\ generate_u b = Ret u /\ into_b b = Ret bm /\ generate_vt b = Ret vt /\
    nr u = r /\ nc u = d /\ nr bm = d /\ nc bm = d /\ nr vt = d /\ nc vt = c /\
    orthonormal_cols r d (ent u) /\ orthonormal_cols c d (mtr (ent vt)) /\
    mmul d (ent u) (mmul d (ent bm) (ent vt)) =[r, c]= ent a /\
    upper_diag b = Nat.leb c r /\
    (forall i j, (i < d)%nat -> (j < d)%nat -> i <> j ->
       (if Nat.leb c r then j <> (i + 1)%nat else i <> (j + 1)%nat) -> ent bm i j = 0) /\
    (forall i j, (i < d)%nat -> (j < d)%nat -> 0 <= ent bm i j).
Proof.
  intros hr hc r c d.
  assert (hd : (1 <= Nat.min (nr a) (nc a))%nat) by lia. fold r c in hr, hc, hd. fold d in hd.
  destruct (wp_ret _ _ (bidiagonal_real a hd)) as (b & e & wf & ok). fold r c in wf, ok.
  destruct (wp_ret _ _ (into_b_ok _ _ _ wf)) as (bm & eb & b1 & b2 & b3). fold d in b1, b2, b3.
  destruct (wf) as (w1 & w2 & w3 & w4 & w5 & w6). fold d in w3, w4, w6.
  rewrite w5 in b3.
  assert (hz : forall i j, (i < d)%nat -> (j < d)%nat -> i <> j ->
       (if Nat.leb c r then j <> (i + 1)%nat else i <> (j + 1)%nat) -> ent bm i j = 0).
  { intros i j hi hj h1 h2. unfold ent. rewrite b3 by auto. bd; auto. }
  assert (hnn : forall i j, (i < d)%nat -> (j < d)%nat -> 0 <= ent bm i j).
  { intros i j hi hj. unfold ent. rewrite b3 by auto. bd; first [apply Rabs_pos | apply Rle_refl]. }
  exists b. unfold generate_u, generate_vt. rewrite w5 in *.
  destruct (Nat.leb_spec c r) as [tall|wide].
  - assert (ed : d = c) by lia.
    destruct (bid_ok_spec _ _ _ _ _ _ tall hc ok) as (hU & hV & hA).
    set (U := hprod r _ _) in *. set (V := hprod c _ _) in *.
    assert (hu : wp (assemble_q (uv b) 0 (fun i => idx1 (bi_diag b) i)) (fun u => nr u = r /\ nc u = c /\ ent u =[r, c]= U)).
    { eapply post_mono; [apply (assemble_q_real (uv b) 0 _ (vent (bi_diag b))); [lia|]|].
      - intros i hi. unfold idx1. bd. reflexivity.
      - cbv zeta. rewrite w1, w2. replace (Nat.min r c) with c by lia. rewrite Nat.sub_0_r.
        intros u (u1 & u2 & u3). auto. }
    assert (hv : wp (assemble_q (transpose (uv b)) 1 (fun i => idx1 (bi_off b) i)) (fun u => nr u = c /\ nc u = c /\ ent u =[c, c]= V)).
    { eapply post_mono; [apply (assemble_q_real (transpose (uv b)) 1 _ (vent (bi_off b))); [dims; lia|]|].
      - dims. intros i hi. unfold idx1. bd. reflexivity.
      - cbv zeta. dims. rewrite w1, w2. replace (Nat.min c r) with c by lia.
        intros u (u1 & u2 & u3). do 2 (split; [auto|]). rewrite u3. apply hprod_ext. intros j hj.
        unfold bR. apply hh_ext. intros p hp. unfold axis_of, axisf, mtr, ent. bd; auto.
        rewrite get_transpose by lia. reflexivity. }
    destruct (wp_ret _ _ hu) as (u & eu & u1 & u2 & u3).
    destruct (wp_ret _ _ hv) as (v & ev & v1 & v2 & v3).
    exists u, bm, (transpose v). rewrite eu, ev. cbn [bind]. dims. rewrite ed in *.
    assert (hvt : ent (transpose v) =[c, c]= mtr V).
    { intros p q hp hq. unfold ent, mtr. rewrite get_transpose by lia. apply v3; auto. }
    assert (hb : ent bm =[c, c]= bidiag (vent (bi_diag b)) (vent (bi_off b))).
    { intros p q hp hq. unfold ent. rewrite b3 by auto. unfold bidiag. bd; auto; try lia. }
    do 10 (split; [solve [auto]|]). split; [|split; [|split; [|split; [auto|split; auto]]]].
    + unfold orthonormal_cols in *. rewrite u3. exact hU.
    + unfold orthonormal_cols. rewrite hvt, mtr_mtr. destruct hV; auto.
    + rewrite u3, hb, hvt. symmetry. exact hA.
  - assert (ed : d = r) by lia.
    assert (rc : (r <= c)%nat) by lia.
    destruct (bid_ok_spec _ _ _ _ _ _ rc hr ok) as (hU & hV & hA).
    set (U := hprod c _ _) in *. set (V := hprod r _ _) in *.
    assert (hu : wp (assemble_q (transpose (uv b)) 0 (fun i => idx1 (bi_diag b) i)) (fun u => nr u = c /\ nc u = r /\ ent u =[c, r]= U)).
    { eapply post_mono; [apply (assemble_q_real (transpose (uv b)) 0 _ (vent (bi_diag b))); [lia|]|].
      - dims. intros i hi. unfold idx1. bd. reflexivity.
      - cbv zeta. dims. rewrite w1, w2. replace (Nat.min c r) with r by lia. rewrite Nat.sub_0_r.
        intros u (u1 & u2 & u3). do 2 (split; [auto|]). intros p q hp hq. rewrite u3 by auto.
        assert (he : hprod c (fun i => hh (i + 0) (sgn (vent (bi_diag b) i)) (axis_of (i + 0) (transpose (uv b)) i)) r =[c, c]= U).
        { apply hprod_ext. intros j hj. apply hh_ext. intros p' hp'. unfold axis_of, axisf, mtr, ent. bd; auto.
          rewrite get_transpose by lia. reflexivity. }
        apply he; lia. }
    assert (hv : wp (assemble_q (uv b) 1 (fun i => idx1 (bi_off b) i)) (fun u => nr u = r /\ nc u = r /\ ent u =[r, r]= V)).
    { eapply post_mono; [apply (assemble_q_real (uv b) 1 _ (vent (bi_off b))); [dims; lia|]|].
      - dims. intros i hi. unfold idx1. bd. reflexivity.
      - cbv zeta. rewrite w1, w2. replace (Nat.min r c) with r by lia.
        intros u (u1 & u2 & u3). auto. }
    destruct (wp_ret _ _ hu) as (u & eu & u1 & u2 & u3).
    destruct (wp_ret _ _ hv) as (v & ev & v1 & v2 & v3).
    exists v, bm, (transpose u). rewrite eu, ev. cbn [bind]. dims. rewrite ed in *.
    assert (hvt : ent (transpose u) =[r, c]= mtr U).
    { intros p q hp hq. unfold ent, mtr. rewrite get_transpose by lia. apply u3; auto. }
    assert (hb : ent bm =[r, r]= mtr (bidiag (vent (bi_diag b)) (vent (bi_off b)))).
    { intros p q hp hq. unfold ent. rewrite b3 by auto. unfold mtr, bidiag. bd; auto; try lia. subst. auto. }
    do 10 (split; [solve [auto]|]). split; [|split; [|split; [|split; [auto|split; auto]]]].
    + unfold orthonormal_cols in *. rewrite v3. destruct hV; auto.
    + unfold orthonormal_cols in *. rewrite hvt, mtr_mtr. exact hU.
    + rewrite v3, hb, hvt.
      assert (hA' : ent a =[r, c]= mtr (mmul r U (mmul r (bidiag (vent (bi_diag b)) (vent (bi_off b))) (mtr V)))).
      { intros p q hp hq. unfold mtr at 1. rewrite <- hA by auto. reflexivity. }
      rewrite hA', mtr_mmul, mtr_mmul, mtr_mtr. rewrite <- (mmul_assoc r r r c). reflexivity.
Qed.

Lemma bidiag_diagonals {N : Num} (a : mat N) (b : bidecomp N) : bidiagonal a = Ret b ->
  let d := Nat.min (nr a) (nc a) in
  exists bm, into_b b = Ret bm /\ nr bm = d /\ nc bm = d /\
    let '(dg, off) := bi_into_diagonals b in
    length dg = d /\ length off = (d - 1)%nat /\
    (forall i, (i < d)%nat -> vget dg i = get bm i i) /\
    (forall i, (i + 1 < d)%nat -> vget off i = if upper_diag b then get bm i (i + 1)%nat else get bm (i + 1)%nat i).
Proof.
  intros e d. pose proof (bidiagonal_class a) as h. rewrite e in h. destruct h as (h0 & wf).
  destruct (wp_ret _ _ (into_b_ok _ _ _ wf)) as (bm & eb & b1 & b2 & b3). fold d in b1, b2, b3.
  destruct wf as (w1 & w2 & w3 & w4 & w5 & w6). fold d in w3, w4.
  exists bm. do 3 (split; [auto|]). unfold bi_into_diagonals, vmap. rewrite !length_vmk.
  do 2 (split; [auto|]). split.
  - intros i hi. rewrite vget_vmk, b3 by lia. bd. auto.
  - intros i hi. rewrite vget_vmk by lia. destruct (upper_diag b); rewrite b3 by lia; bd; auto.
Qed.
