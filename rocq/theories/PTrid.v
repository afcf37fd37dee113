(** * Proofs about tridiagonal.rs *)
From Coq Require Import Reals List Arith Lia Lra Bool Setoid Morphisms.
From Verif Require Import Scalar Arr MBase MDirect MDecomp Inst Hoare Spec RLin PTri PHouse.
Import ListNotations.
Open Scope res_scope.

(** ** Any scalar semantics *)
Section Generic.
Context {N : Num}.
Notation vec := (list N).
Notation mtx := (mat N).

Lemma length_vput (v : vec) k w : length (vput v k w) = length v.
Proof. unfold vput. apply length_vmk. Qed.

Lemma tridiag_step_safe n i (st : mtx * vec * vec) : i + 1 < n ->
  nr (fst (fst st)) = n -> nc (fst (fst st)) = n -> length (snd (fst st)) = n - 1 -> length (snd st) = n - 1 ->
  wp (tridiag_step i st) (fun st' => nr (fst (fst st')) = n /\ nc (fst (fst st')) = n /\
     length (snd (fst st')) = n - 1 /\ length (snd st') = n - 1).
Proof.
  destruct st as [[m off] p]. cbn [fst snd]. intros hi h1 h2 h3 h4. unfold tridiag_step.
  step1. apply post_col_from; try lia. step1.
  eapply post_mono; [apply reflection_axis_ok; dlia|]. intros [ax o]. cbn [fst snd]. dims. intros hl.
  step1. apply post_set1; [lia|].
  destruct o as [x|].
  - step1. dims. apply post_slice; dims; try lia. step1. apply post_vfrom; [lia|].
    step1. unfold as_col, as_row. apply post_gemv0; dims; try lia.
    step1. apply post_dot1; dims; try lia.
    step1. apply post_gemm1; dims; try lia.
    step1. apply post_gemm1; dims; try lia.
    step1. apply post_gemm1; dims; try lia.
    apply post_ret. cbn [fst snd]. rewrite length_vput. dims. auto.
  - apply post_ret. cbn [fst snd]. dims. auto.
Qed.

Lemma sym_tridiagonal_safe (a : mtx) : nr a = nc a -> 1 <= nr a ->
  wp (sym_tridiagonal a) (fun d => nr (diag_matrix d) = nr a /\ nc (diag_matrix d) = nr a /\
     length (off_diagonal d) = nr a - 1).
Proof.
  intros sq hn. unfold sym_tridiagonal. step1. step1; [|lia]. intros _. bd. step1.
  eapply post_for' with (I := fun _ (st : mtx * vec * vec) => nr (fst (fst st)) = nr a /\
     nc (fst (fst st)) = nr a /\ length (snd (fst st)) = nr a - 1 /\ length (snd st) = nr a - 1).
  - cbn [fst snd]. dims. lia.
  - intros i st hi (h1 & h2 & h3 & h4). apply tridiag_step_safe; auto. lia.
  - intros [[m off] p] (h1 & h2 & h3 & h4). cbn [fst snd] in *. apply post_ret. auto.
Qed.

Lemma sym_tridiagonal_class (a : mtx) :
  match sym_tridiagonal a with
  | Ret d => nr a = nc a /\ 1 <= nr a /\ nr (diag_matrix d) = nr a /\ nc (diag_matrix d) = nr a /\
             length (off_diagonal d) = nr a - 1
  | Err (NotSquare r c) => nr a <> nc a /\ r = nr a /\ c = nc a
  | Err EmptyMatrix => nr a = 0 /\ nc a = 0
  | _ => False
  end.
Proof.
  destruct (Nat.eq_dec (nr a) (nc a)) as [e|e].
  - destruct (le_lt_dec 1 (nr a)) as [h|h].
    + destruct (wp_ret _ _ (sym_tridiagonal_safe a e h)) as (d & -> & hd). tauto.
    + unfold sym_tridiagonal, check_square. bd. cbn [bind]. bd. lia.
  - unfold sym_tridiagonal, check_square. bd. cbn [bind]. auto.
Qed.

Lemma tri_into_matrix_ok (d : tridecomp N) n : 1 <= n ->
  nr (diag_matrix d) = n -> nc (diag_matrix d) = n -> length (off_diagonal d) = n - 1 ->
  wp (tri_into_matrix d) (fun t => nr t = n /\ nc t = n /\
    forall p q, p < n -> q < n -> get t p q =
      if p =? q then get (diag_matrix d) p p
      else if p =? q + 1 then nabs N (vget (off_diagonal d) q)
      else if q =? p + 1 then nabs N (vget (off_diagonal d) p)
      else n0 N).
Proof.
  intros hn h1 h2 h3. unfold tri_into_matrix. step1. step1.
  eapply post_mono; [apply triangular_inplace_ok; lia|]. intros m (m1 & m2 & m3 & m4).
  step1. step1. eapply post_mono; [apply triangular_inplace_ok; lia|]. intros t (t1 & t2 & t3 & t4).
  rewrite m1, m2, h1, h2 in *. rewrite h3.
  eapply post_for' with (I := fun i (t : mtx) => nr t = n /\ nc t = n /\
    forall p q, p < n -> q < n -> get t p q =
      if p =? q then get (diag_matrix d) p p
      else if p =? q + 1 then if q <? i then nabs N (vget (off_diagonal d) q) else n0 N
      else if q =? p + 1 then if p <? i then nabs N (vget (off_diagonal d) p) else n0 N
      else n0 N).
  - repeat split; auto. intros p q hp hq.
    destruct (lt_eq_lt_dec p q) as [[lt|e]|gt].
    + rewrite t3 by (simpl; lia). bd; auto.
    + subst. bd. rewrite t4 by (simpl; lia). rewrite m4 by (simpl; lia). auto.
    + rewrite t4 by (simpl; lia). rewrite m3 by (simpl; lia). bd; auto.
  - intros i x hi (x1 & x2 & x3). step1. apply post_set2; try lia. apply post_set2; dims; try lia.
    repeat split; auto. intros p q hp hq. rewrite get_upd by (dims; lia). rewrite get_upd by lia.
    rewrite x3 by auto. bd; subst; auto; f_equal; f_equal; lia.
  - intros x (x1 & x2 & x3). repeat split; auto. intros p q hp hq. rewrite x3 by auto. bd; auto.
Qed.
End Generic.

(** ** Exact arithmetic *)
Local Open Scope R_scope.

Lemma hh_apply_r n r k s w X : (forall i, (i < k)%nat -> w i = 0) ->
  mmul n X (hh k s w) =[r, n]= (fun i j =>
    if Nat.ltb j k then X i j else s * (X i j - 2 * (w j * Rsum n (fun l => w l * X i l)))).
Proof.
  intros hz i j hi hj.
  pose proof (hh_sym n k s w hz) as hs.
  transitivity (mmul n (hh k s w) (mtr X) j i).
  - unfold mmul. apply Rsum_ext. intros l hl. rewrite <- (hs j l hj hl). unfold mtr. ring.
  - rewrite (hh_apply n r k s w (mtr X) hz j i hj hi). reflexivity.
Qed.

Definition trid_post (m : mat RN) (off : list RN) (i : nat) (m' : mat RN) (off' : list RN) : Prop :=
  let n := nr m in let k := (i + 1)%nat in
  exists x, off' = vupd off i x /\
  nr m' = n /\ nc m' = nc m /\
  let w := axis_of k m' i in
  reflector n k (sgn x) w /\
  (forall a b, (a < n)%nat -> (b < n)%nat -> (a < k \/ b < i)%nat -> ent m' a b = ent m a b) /\
  (forall a, (a < n)%nat -> mmul n (hh k (sgn x) w) (ent m) a i =
     if Nat.ltb a k then ent m a i else if Nat.eqb a k then Rabs x else 0) /\
  (forall a b, (k <= a < n)%nat -> (k <= b < n)%nat ->
     ent m' a b = ent m a b - 2 * (Rsum n (fun l => w l * ent m a l)) * w b
       - 2 * w a * (Rsum n (fun l => w l * ent m b l))
       + 4 * (Rsum n (fun a => w a * Rsum n (fun l => w l * ent m a l))) * w a * w b).

Lemma sumn1 (f : nat -> RN) : @sumn RN 1 f = f O.
Proof. rewrite sumn_R. cbn [Rsum]. apply Rplus_0_l. Qed.

Lemma tridiag_step_real (m : mat RN) off p i : nr m = nc m -> (i + 1 < nr m)%nat ->
  length off = (nr m - 1)%nat -> length p = (nr m - 1)%nat ->
  wp (tridiag_step i (m, off, p)) (fun st => trid_post m off i (fst (fst st)) (snd (fst st)) /\
     length (snd st) = length p).
Proof.
  intros sq hi ho hp. unfold tridiag_step. set (k := (i + 1)%nat) in *. set (n := nr m) in *.
  step1. apply post_col_from; try lia. fold n.
  set (c := vmk _ _). assert (hc : length c = (n - k)%nat) by apply length_vmk.
  step1. eapply post_mono; [apply reflection_axis_real; lia|]. rewrite hc.
  intros [v on]. cbn [fst snd]. cbv zeta. intros (hl & hon).
  set (m1 := put_col m k i v).
  assert (hm1 : forall a b, (a < n)%nat -> (b < n)%nat -> ent m1 a b =
     if (Nat.leb k a && Nat.eqb b i)%bool then vent v (a - k) else ent m a b).
  { intros a b ha hb. unfold ent, m1. rewrite get_put_col by (fold n; lia). bd; auto. }
  assert (hvc : forall a, (k <= a < n)%nat -> vent c (a - k) = ent m a i).
  { intros a ha. unfold vent, c. rewrite vget_vmk by lia. unfold ent. f_equal. lia. }
  step1. apply post_set1; [lia|].
  destruct on as [x|].
  - destruct hon as (hx & huu & hcol).
    change (nr m1) with n. replace (nc m1) with n by (unfold m1; dims; auto).
    step1. apply post_slice; unfold m1; dims; fold n; try lia. fold m1.
    step1. apply post_vfrom; [lia|].
    step1. apply post_gemv0; dims; try lia.
    set (pv := vmk (n - k) _).
    assert (lpv : length pv = (n - k)%nat) by apply length_vmk.
    step1. apply post_dot1; [lia|].
    unfold as_col, as_row.
    step1. apply post_gemm1; dims; try lia. 
    step1. apply post_gemm1; dims; try lia. 
    step1. apply post_gemm1; dims; try lia.
    apply post_ret. cbn [fst snd]. 
    split. 2:{ unfold vput. apply length_vmk. }
    unfold trid_post. fold n. fold k. exists x. split; [reflexivity|].
    set (m2 := put m1 k k _).
    assert (hm2 : forall a b, (a < n)%nat -> (b < n)%nat -> (a < k \/ b < k)%nat -> ent m2 a b = ent m1 a b).
    { intros a b ha hb h. unfold m2, ent. rewrite get_put by (unfold m1; dims; fold n; lia).
      bd; auto. }
    assert (hwv : forall a, (k <= a < n)%nat -> axis_of k m2 i a = vent v (a - k)).
    { intros a ha. unfold axis_of. bd. rewrite hm2 by lia. rewrite hm1 by lia. bd. reflexivity. }
    assert (hw0 : forall a, (a < k)%nat -> axis_of k m2 i a = 0) by (intros; apply axis_of_zero; auto).
    assert (hm2' : forall a b, (k <= a < n)%nat -> (k <= b < n)%nat -> ent m2 a b =
      ent m a b - vent pv (a - k) * vent v (b - k) - vent v (a - k) * vent pv (b - k)
      + 2 * Rsum (n - k) (fun l => vent v l * vent pv l) * (vent v (a - k) * vent v (b - k))).
    { intros a b ha hb. unfold m2, ent at 1. rewrite get_put by (unfold m1; dims; fold n; lia). dims.
      bd. cbn [andb]. rewrite hl, lpv.
      rewrite get_mk by lia. rewrite get_mk by lia. rewrite get_mk by lia. rewrite get_mk by lia.
      rewrite !sumn1. repeat (rewrite get_mk by lia).
      rewrite sumn_R.
      change (get m1) with (ent m1). rewrite hm1 by lia. bd. cbn [andb].
      replace (k + (a - k))%nat with a by lia. replace (k + (b - k))%nat with b by lia.
      change (@vget RN) with vent. rn. ring. }
    assert (hpv : forall a, (k <= a < n)%nat -> vent pv (a - k) =
      2 * Rsum (n - k) (fun l => vent v l * ent m a (k + l)%nat)).
    { intros a ha. unfold vent at 1, pv. rewrite vget_vmk by lia. rewrite sumn_R. rewrite ntwo_R. rn.
      f_equal. apply Rsum_ext. intros l hl'. rewrite get_mk by lia. change (get m1) with (ent m1).
      rewrite hm1 by lia. bd. cbn [andb]. change (@vget RN) with vent.
      replace (k + (a - k))%nat with a by lia. ring. }
    set (w := axis_of k m2 i) in *.
    assert (hwX : forall X : nat -> R, Rsum n (fun l => w l * X l) = Rsum (n - k) (fun l => vent v l * X (k + l)%nat)).
    { intros X. apply Rsum_shift; auto. lia. }
    assert (d1 : nr m2 = n) by reflexivity. assert (d2 : nc m2 = nc m) by reflexivity.
    clearbody m2. split; [auto|]. split; [auto|]. fold w. split; [|split; [|split]].
    + split.
      * exact hw0.
      * apply sgn_sq.
      * left. rewrite hwX. rewrite <- huu. apply Rsum_ext.
        intros l hl'. rewrite hwv by lia. f_equal. f_equal. lia.
    + intros a b ha hb h. rewrite hm2 by lia. rewrite hm1 by auto. bd; auto.
    + intros a ha. rewrite (hh_apply n n) by (auto; lia).
      destruct (Nat.ltb_spec a k); auto.
      rewrite hwv, hwX by lia. specialize (hcol (a - k)%nat ltac:(lia)).
      rewrite hvc in hcol by lia.
      rewrite (Rsum_ext (n - k) _ (fun l => vent v l * vent c l)).
      2:{ intros l hl'. f_equal. rewrite <- hvc by lia. f_equal. lia. }
      rewrite hcol. bd; auto.
    + intros a b ha hb. rewrite hm2' by auto. rewrite !hpv by auto.
      rewrite (hwX (fun a0 => Rsum n (fun l => w l * ent m a0 l))).
      rewrite (hwX (fun l => ent m a l)), (hwX (fun l => ent m b l)). rewrite !hwv by auto.
      replace (Rsum (n - k) (fun l => vent v l * vent pv l)) with
        (2 * Rsum (n - k) (fun l => vent v l * Rsum n (fun l0 => w l0 * ent m (k + l)%nat l0))).
      * ring.
      * rewrite <- Rsum_scal_l. apply Rsum_ext. intros l hl'.
        replace (vent pv l) with (vent pv (k + l - k)) by (f_equal; lia).
        rewrite hpv by lia. rewrite hwX. ring.
  - destruct hon as (hcz & hv). apply post_ret. cbn [fst snd]. split; auto.
    unfold trid_post. fold n. fold k. exists 0. split; [reflexivity|].
    assert (hm : forall a b, (a < n)%nat -> (b < n)%nat -> ent m1 a b = ent m a b).
    { intros a b ha hb. rewrite hm1 by auto. bd; auto. subst.
      rewrite hv by lia. rewrite <- hvc by lia. rewrite hcz by lia. reflexivity. }
    assert (hw : forall a, (a < n)%nat -> axis_of k m1 i a = 0).
    { intros a ha. unfold axis_of. bd; auto. rewrite hm1 by lia. bd. apply hv. lia. }
    set (w := axis_of k m1 i) in *. rewrite sgn_0.
    assert (d1 : nr m1 = n) by reflexivity. assert (d2 : nc m1 = nc m) by reflexivity.
    split; [auto|]. split; [auto|]. split; [|split; [|split]].
    + split; [intros; apply hw; lia|lra|right; auto].
    + intros; apply hm; auto.
    + intros a ha. rewrite (hh_apply n n) by (auto; try lia; intros; apply hw; lia).
      rewrite (hw a) by auto. bd; try ring.
      * subst. rewrite <- hvc, hcz by lia. rewrite Rabs_R0. ring.
      * rewrite <- hvc, hcz by lia. ring.
    + intros a b ha hb. rewrite hm by lia. rewrite !hw by lia. ring.
Qed.

(** The matrix represented after i steps *)
Definition tP (m : mat RN) (off : nat -> R) (j : nat) : M := hh (j + 1) (sgn (off j)) (axis_of (j + 1) m j).
Definition tridiag (d off : nat -> R) : M := fun p q =>
  if Nat.eqb p q then d p
  else if Nat.eqb p (q + 1) then off q
  else if Nat.eqb q (p + 1) then off p else 0.
Definition tW (m : mat RN) (off : nat -> R) (i : nat) : M := fun p q =>
  if (Nat.ltb p i || Nat.ltb q i)%bool then tridiag (fun j => ent m j j) (fun j => Rabs (off j)) p q
  else ent m p q.

Record trid_ok (A : M) (n : nat) (d : tridecomp RN) : Prop := {
  to_n : (1 <= n)%nat;
  to_nr : nr (diag_matrix d) = n;
  to_nc : nc (diag_matrix d) = n;
  to_len : length (off_diagonal d) = (n - 1)%nat;
  to_refl : forall j, (j < n - 1)%nat ->
     reflector n (j + 1) (sgn (vent (off_diagonal d) j)) (axis_of (j + 1) (diag_matrix d) j);
  to_eq : let H := hprod n (tP (diag_matrix d) (vent (off_diagonal d))) (n - 1) in
     A =[n, n]= mmul n H (mmul n (tridiag (fun j => ent (diag_matrix d) j j)
                                   (fun j => Rabs (vent (off_diagonal d) j))) (mtr H))
}.

Lemma sym_tridiagonal_real (a : mat RN) : nr a = nc a -> (1 <= nr a)%nat -> symmetric (nr a) (ent a) ->
  wp (sym_tridiagonal a) (fun d => trid_ok (ent a) (nr a) d).
Proof.
  intros sq hn hs. unfold sym_tridiagonal. step1. step1; [|lia]. intros _. bd. set (n := nr a) in *. step1.
  eapply post_for' with (I := fun i (st : mat RN * list RN * list RN) =>
     let m := fst (fst st) in let off := vent (snd (fst st)) in
     nr m = n /\ nc m = n /\ length (snd (fst st)) = (n - 1)%nat /\ length (snd st) = (n - 1)%nat /\
     (forall j, (j < i)%nat -> reflector n (j + 1) (sgn (off j)) (axis_of (j + 1) m j)) /\
     (forall p q, (i <= p < n)%nat -> (i <= q < n)%nat -> ent m p q = ent m q p) /\
     ent a =[n, n]= mmul n (hprod n (tP m off) i) (mmul n (tW m off i) (mtr (hprod n (tP m off) i)))).
  - cbn [fst snd]. cbv zeta. repeat split; auto; try (intros; lia); try apply length_vzeros.
    + intros p q hp hq. apply hs; lia.
    + cbn [hprod]. rewrite mmul_1_l, mtr_mid, mmul_1_r. intros p q hp hq. reflexivity.
  - intros i [[m off] pp] hi. cbn [fst snd]. cbv zeta. intros (h1 & h2 & h3 & h4 & h5 & h6 & h7).
    eapply post_mono; [apply tridiag_step_real; rewrite ?h1; lia|].
    intros [[m' off'] pp']. cbn [fst snd]. unfold trid_post. rewrite h1, h2.
    intros ((x & eo & g1 & g2 & g3 & g4 & g5 & g6) & g7).
    assert (hd' : forall j, (j < n - 1)%nat -> vent off' j = if Nat.eqb j i then x else vent off j).
    { intros j hj. unfold vent. rewrite eo. rewrite vget_vupd by lia. reflexivity. }
    assert (lo : length off' = (n - 1)%nat) by (rewrite eo, length_vupd; auto).
    clear eo. set (k := (i + 1)%nat) in *.
    assert (hext : forall j, (j < i)%nat -> forall p, (p < n)%nat -> axis_of (j + 1) m' j p = axis_of (j + 1) m j p).
    { intros j hj p hp. unfold axis_of. bd; auto. apply g4; lia. }
    set (w := axis_of k m' i) in *. set (s := sgn x) in *.
    assert (hPi : tP m' (vent off') i = hh k s w).
    { unfold tP. rewrite hd' by lia. rewrite Nat.eqb_refl. reflexivity. }
    assert (hw0 : forall p, (p < k)%nat -> w p = 0) by (intros; apply axis_of_zero; auto).
    assert (hss : s * s = 1) by apply sgn_sq.
    (* the trailing block stays symmetric *)
    assert (hsym' : forall p q, (k <= p < n)%nat -> (k <= q < n)%nat -> ent m' p q = ent m' q p).
    { intros p q hp hq. rewrite (g6 p q), (g6 q p) by lia. rewrite (h6 p q) by lia. ring. }
    assert (hoff : forall j, (j < i)%nat -> vent off' j = vent off j).
    { intros j hj. rewrite hd' by lia. bd. auto. }
    assert (hoi : vent off' i = x) by (rewrite hd' by lia; bd; auto).
    assert (hcolsum : Rsum n (fun l => w l * ent m i l) = Rsum n (fun l => w l * ent m l i)).
    { apply Rsum_ext. intros l hl. destruct (le_lt_dec k l).
      - rewrite (h6 i l) by lia. reflexivity.
      - rewrite hw0 by lia. ring. }
    assert (hW : tW m' (vent off') (S i) =[n, n]=
       mmul n (hh k s w) (mmul n (tW m (vent off) i) (hh k s w))).
    { assert (hval : forall p q, (p < n)%nat -> (q < n)%nat -> mmul n (tW m (vent off) i) (hh k s w) p q =
        if Nat.ltb q k then tW m (vent off) i p q
        else s * (tW m (vent off) i p q - 2 * (w q * Rsum n (fun l => w l * tW m (vent off) i p l)))).
      { intros p q hp hq. apply (hh_apply_r n n); auto. }
      set (W := tW m (vent off) i) in *.
      assert (hfar : forall p q, (p < i)%nat -> (k <= q)%nat -> W p q = 0).
      { intros p q hp hq. unfold W, tW, tridiag. bd. reflexivity. }
      assert (hfar' : forall p q, (q < i)%nat -> (k <= p)%nat -> W p q = 0).
      { intros p q hp hq. unfold W, tW, tridiag. bd. reflexivity. }
      assert (hWm : forall p q, (i <= p)%nat -> (i <= q)%nat -> W p q = ent m p q).
      { intros p q hp hq. unfold W, tW. bd. reflexivity. }
      assert (hsumW : forall p, (i <= p)%nat -> Rsum n (fun l => w l * W p l) = Rsum n (fun l => w l * ent m p l)).
      { intros p hp. apply Rsum_ext. intros l hl. destruct (le_lt_dec k l).
        - rewrite hWm by lia. auto.
        - rewrite hw0 by lia. ring. }
      intros p q hp hq. rewrite (hh_apply n n) by auto.
      destruct (le_lt_dec k p) as [kp|kp]; destruct (le_lt_dec k q) as [kq|kq].
      - (* trailing block *)
        bd.
        assert (e1 : Rsum n (fun l => w l * mmul n W (hh k s w) l q) =
           s * (Rsum n (fun l => w l * ent m q l)
                - 2 * (w q * Rsum n (fun a => w a * Rsum n (fun l => w l * ent m a l))))).
        { rewrite (Rsum_ext n _ (fun l => s * (w l * ent m q l) - s * (2 * w q) * (w l * Rsum n (fun l' => w l' * ent m l l')))).
          - rewrite Rsum_minus, !Rsum_scal_l. ring.
          - intros l hl. rewrite hval by auto. bd.
            destruct (le_lt_dec k l).
            + rewrite hsumW by lia. rewrite hWm by lia. rewrite (h6 l q) by lia. ring.
            + rewrite (hw0 l) by lia. ring. }
        rewrite e1. rewrite hval by auto. bd. rewrite hsumW by lia. rewrite hWm by lia.
        unfold tW. bd. cbn [orb]. rewrite g6 by lia.
        transitivity (s * s * (ent m p q - 2 * Rsum n (fun l => w l * ent m p l) * w q -
           2 * w p * Rsum n (fun l => w l * ent m q l) +
           4 * Rsum n (fun a0 : nat => w a0 * Rsum n (fun l => w l * ent m a0 l)) * w p * w q)).
        + rewrite hss. ring.
        + ring.
      - (* below the diagonal block *)
        destruct (Nat.ltb_spec p k); [lia|].
        rewrite (Rsum_ext n _ (fun l => w l * W l q)).
        2:{ intros l hl. rewrite hval by auto. bd. auto. }
        rewrite hval by auto. destruct (Nat.ltb_spec q k); [|lia].
        destruct (Nat.eq_dec q i) as [->|nq].
        + transitivity (mmul n (hh k s w) (ent m) p i).
          * rewrite g5 by auto. unfold tW, tridiag. rewrite hoi. bd; auto.
          * rewrite (hh_apply n n) by auto. bd. rewrite hWm by lia.
            f_equal. f_equal. f_equal. f_equal. apply Rsum_ext. intros l hl.
            destruct (le_lt_dec k l); [rewrite hWm by lia; auto|rewrite hw0 by lia; ring].
        + rewrite hfar' by lia. rewrite Rsum_0.
          * unfold tW, tridiag. bd. ring.
          * intros l hl. destruct (le_lt_dec k l); [rewrite hfar' by lia|rewrite hw0 by lia]; ring.
      - (* right of the diagonal block *)
        destruct (Nat.ltb_spec p k); [|lia]. rewrite hval by auto. destruct (Nat.ltb_spec q k); [lia|].
        destruct (Nat.eq_dec p i) as [->|np].
        + rewrite hsumW by lia. rewrite hWm by lia. rewrite (h6 i q) by lia. rewrite hcolsum.
          transitivity (mmul n (hh k s w) (ent m) q i).
          * rewrite g5 by auto. unfold tW, tridiag. rewrite hoi. bd; auto.
          * rewrite (hh_apply n n) by auto. bd. reflexivity.
        + rewrite hfar by lia. rewrite Rsum_0.
          * unfold tW, tridiag. bd. ring.
          * intros l hl. destruct (le_lt_dec k l); [rewrite hfar by lia|rewrite hw0 by lia]; ring.
      - destruct (Nat.ltb_spec p k); [|lia]. rewrite hval by auto. destruct (Nat.ltb_spec q k); [|lia].
        unfold W, tW, tridiag. rewrite (g4 p q), (g4 p p) by lia.
        bd; cbn [orb]; subst; auto; try (rewrite hoff by lia; reflexivity); try (f_equal; lia); lia. }
    assert (hprev : hprod n (tP m' (vent off')) i =[n, n]= hprod n (tP m (vent off)) i).
    { apply hprod_ext. intros j hj. unfold tP. rewrite hoff by lia.
      intros p q hp hq. unfold hh. rewrite !hext by auto. reflexivity. }
    assert (hinv : mmul n (hh k s w) (hh k s w) =[n, n]= mid) by (apply hh_invol; exact g3).
    assert (hsymP : mtr (hh k s w) =[n, n]= hh k s w) by (apply hh_sym; auto).
    repeat split; auto; try lia.
    + intros p hp. apply axis_of_zero. lia.
    + apply sgn_sq.
    + destruct (Nat.eq_dec j i) as [->|ne].
      * apply g3.
      * destruct (h5 j ltac:(lia)) as [_ _ hu].
        destruct hu as [hu|hu]; [left|right].
        -- rewrite <- hu. apply Rsum_ext. intros p hp. rewrite hext by lia. reflexivity.
        -- intros p hp. rewrite hext by lia. auto.
    + intros p q hp hq. apply hsym'; lia.
    + cbn [hprod]. rewrite hPi. set (HH := hprod n (tP m' (vent off')) i) in *.
      rewrite <- hprev in h7. rewrite hW, h7.
      set (P := hh k s w) in *. set (W := tW m (vent off) i).
      rewrite (mtr_mmul n n n HH P), hsymP.
      rewrite (mmul_assoc n n n n HH).
      rewrite <- (mmul_assoc n n n n P (mmul n P (mmul n W P))).
      rewrite <- (mmul_assoc n n n n P P (mmul n W P)), hinv, mmul_1_l.
      rewrite (mmul_assoc n n n n W P).
      rewrite <- (mmul_assoc n n n n P P), hinv, mmul_1_l. reflexivity.
  - intros [[m off] pp]. cbn [fst snd]. cbv zeta. intros (h1 & h2 & h3 & h4 & h5 & h6 & h7).
    apply post_ret. constructor; cbn [diag_matrix off_diagonal]; auto.
    cbv zeta. replace (0 + (n - 1))%nat with (n - 1)%nat in h7 by lia. rewrite h7.
    assert (e : tW m (vent off) (n - 1) =[n, n]= tridiag (fun j => ent m j j) (fun j => Rabs (vent off j))).
    { intros p q hp hq. unfold tW, tridiag. bd; auto. }
    rewrite e. reflexivity.
Qed.

Section Ok.
Context (A : M) (n : nat) (d : tridecomp RN) (ok : trid_ok A n d).
Let off := vent (off_diagonal d).
Let H := hprod n (tP (diag_matrix d) off) (n - 1).

Lemma trid_H : orthogonal n H.
Proof. apply hprod_orthogonal. intros i hi. apply hh_orthogonal. apply (to_refl _ _ _ ok); auto. Qed.

Lemma tri_generate_q_real : wp (tri_generate_q d) (fun q => nr q = n /\ nc q = n /\ ent q =[n, n]= H).
Proof.
  destruct ok as [h0 h1 h2 h3 h4 h5]. unfold tri_generate_q.
  eapply post_mono; [apply (assemble_q_real (diag_matrix d) 1 _ off); [lia|]|].
  - intros i hi. unfold idx1. bd. reflexivity.
  - cbv zeta. rewrite h1, h2. replace (Nat.min n n) with n by lia. intros q (g1 & g2 & g3). auto.
Qed.

Lemma tri_matrix_real : wp (tri_into_matrix d) (fun t => nr t = n /\ nc t = n /\
  ent t =[n, n]= tridiag (fun j => ent (diag_matrix d) j j) (fun j => Rabs (off j))).
Proof.
  destruct ok as [h0 h1 h2 h3 h4 h5].
  eapply post_mono; [apply (tri_into_matrix_ok d n); auto|]. intros t (t1 & t2 & t3).
  auto.
Qed.
End Ok.

Lemma tridiag_sym n d off : symmetric n (tridiag d off).
Proof.
  intros p q hp hq. unfold mtr, tridiag. bd; subst; auto; try lia.
Qed.

Lemma tridiagonal_spec (a : mat RN) : nr a = nc a -> (1 <= nr a)%nat -> symmetric (nr a) (ent a) ->
  exists d q t, sym_tridiagonal a = Ret d /\ tri_generate_q d = Ret q /\ tri_into_matrix d = Ret t /\
    nr q = nr a /\ nc q = nr a /\ nr t = nr a /\ nc t = nr a /\
    orthogonal (nr a) (ent q) /\ symmetric (nr a) (ent t) /\
    (forall i j, (i < nr a)%nat -> (j < nr a)%nat -> (i + 1 < j \/ j + 1 < i)%nat -> ent t i j = 0) /\
    (forall i, (i + 1 < nr a)%nat -> 0 <= ent t i (i + 1)%nat) /\
    mmul (nr a) (ent q) (mmul (nr a) (ent t) (mtr (ent q))) =[nr a, nr a]= ent a.
Proof.
  intros sq hn hs. destruct (wp_ret _ _ (sym_tridiagonal_real a sq hn hs)) as (d & e & ok).
  destruct (wp_ret _ _ (tri_generate_q_real _ _ _ ok)) as (q & eq & q1 & q2 & q3).
  destruct (wp_ret _ _ (tri_matrix_real _ _ _ ok)) as (t & et & t1 & t2 & t3).
  exists d, q, t. do 7 (split; [auto|]). split; [|split; [|split; [|split]]].
  - apply (orthogonal_proper _ _ _ (meq_sym _ _ _ _ q3)). apply (trid_H _ _ _ ok).
  - unfold symmetric. rewrite t3. apply tridiag_sym.
  - intros i j hi hj h. rewrite t3 by auto. unfold tridiag. bd. reflexivity.
  - intros i hi. rewrite t3 by lia. unfold tridiag. bd. apply Rabs_pos.
  - rewrite q3, t3. symmetry. apply (to_eq _ _ _ ok).
Qed.

Lemma tridiag_diagonals {N : Num} (a : mat N) (d : tridecomp N) : sym_tridiagonal a = Ret d ->
  exists t, tri_into_matrix d = Ret t /\ nr t = nr a /\ nc t = nr a /\
    let '(dg, off) := tri_into_diagonals d in
    length dg = nr a /\ length off = (nr a - 1)%nat /\
    (forall i, (i < nr a)%nat -> vget dg i = get t i i) /\
    (forall i, (i + 1 < nr a)%nat -> vget off i = get t i (i + 1)%nat /\ vget off i = get t (i + 1)%nat i).
Proof.
  intros e. pose proof (sym_tridiagonal_class a) as h. rewrite e in h.
  destruct h as (h0 & h1 & h2 & h3 & h4).
  destruct (wp_ret _ _ (tri_into_matrix_ok d (nr a) h1 h2 h3 h4)) as (t & et & t1 & t2 & t3).
  exists t. split; auto. split; auto. split; auto. unfold tri_into_diagonals. rewrite h2, h3.
  rewrite Nat.min_id, length_vmk. unfold vmap. rewrite length_vmk.
  split; auto. split; auto. split.
  - intros i hi. rewrite vget_vmk by auto. rewrite t3 by auto. bd. reflexivity.
  - intros i hi. rewrite vget_vmk by lia. rewrite !t3 by lia. split; bd; auto.
Qed.
