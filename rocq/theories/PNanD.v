(** * NaN in the direct solvers: where it goes *)
From Coq Require Import List Arith Lia Bool ZArith.
From Coq.Floats Require Import SpecFloat.
From Verif Require Import Scalar Arr MBase MDirect Inst Hoare Spec PTri PTriF PHouse PQR PCholF PQRF PNan.
Import ListNotations.
Open Scope res_scope.
Notation nan := (S754_nan : FN).

Lemma elim_nan (t x : nat -> FN) b m : (b = nan \/ exists j, j < m /\ (t j = nan \/ x j = nan)) -> elim t x b m = nan.
Proof.
  induction m as [|m IH]; cbn [elim].
  - intros [h|(j & hj & _)]; [auto|lia].
  - intros [h|(j & hj & h)]; [rewrite IH by auto; apply nan_add_l|]. destruct (Nat.eq_dec j m) as [->|ne].
    + destruct h as [->| ->]; [rewrite nan_mul_r|rewrite nan_opp, nan_mul_l]; apply nan_add_r.
    + rewrite IH; [apply nan_add_l|]. right. exists j. split; [lia|auto].
Qed.
Lemma ord_lt u n p : p < n -> ord u n p < n. Proof. destruct u; simpl; lia. Qed.
Lemma ord2 u n p : p < n -> ord u n (ord u n p) = p. Proof. destruct u; simpl; lia. Qed.

(** x solves the triangular system by substitution; a NaN met on the way to row p0 stays from row p0 on *)
Lemma system_nan (a b x : mat FN) u d k : nr a = nc a ->
  (forall p, p < nr a -> get x p k = ndiv FN (row_val a b x u k p (ord u (nr a) p)) (d p)) ->
  forall p0, p0 < nr a -> (get b p0 k = nan \/ d p0 = nan \/ exists j, j < nr a /\ ord u (nr a) j < ord u (nr a) p0 /\ get a p0 j = nan) ->
  forall p, p < nr a -> ord u (nr a) p0 <= ord u (nr a) p -> get x p k = nan.
Proof.
  intros sq hx p0 hp0 h.
  assert (h0 : get x p0 k = nan).
  { rewrite hx by auto. destruct h as [h|[h|(j & hj & ho & h)]].
    - unfold row_val. rewrite elim_nan by auto. apply nan_div_l.
    - rewrite h. apply nan_div_r.
    - unfold row_val. rewrite elim_nan; [apply nan_div_l|]. right. exists (ord u (nr a) j). split; auto. left. rewrite ord2 by auto. exact h. }
  intros p hp ho. destruct (Nat.eq_dec p p0) as [->|ne]; auto.
  rewrite hx by auto. unfold row_val. rewrite elim_nan; [apply nan_div_l|]. right. exists (ord u (nr a) p0). split.
  - assert (ord u (nr a) p0 <> ord u (nr a) p); [|lia]. intros e. apply ne. rewrite <- (ord2 u (nr a) p hp), <- (ord2 u (nr a) p0 hp0). rewrite e. reflexivity.
  - right. rewrite ord2 by auto. exact h0.
Qed.

Lemma solve_triangular_nan (a b x : mat FN) u k p0 p : solve_triangular a b u = Ret x -> k < nc b -> p0 < nr a -> p < nr a ->
  (get b p0 k = nan \/ exists j, j < nr a /\ ord u (nr a) j <= ord u (nr a) p0 /\ get a p0 j = nan) ->
  ord u (nr a) p0 <= ord u (nr a) p -> get x p k = nan.
Proof.
  intros hs hk hp0 hp h ho. assert (hcl := solve_triangular_class a b u). rewrite hs in hcl. destruct hcl as (sq & hb & h1 & h2).
  assert (dg : forall i, i < nr a -> at2 a i i = Ret (get a i i)) by (intros; unfold at2; bd; reflexivity).
  pose proof (post_inv _ _ _ _ _ (solve_system_exact a b u (fun i => at2 a i i) (fun i => get a i i) sq hb dg) hs) as (_ & _ & hx).
  apply (system_nan a b x u (fun i => get a i i) k sq (fun p hp => hx p k hp hk) p0 hp0); auto.
  destruct h as [h|(j & hj & hoj & h)]; auto. right. destruct (Nat.eq_dec j p0) as [->|ne]; auto. right. exists j. split; auto. split; auto.
  assert (ord u (nr a) j <> ord u (nr a) p0); [|lia]. intros e. apply ne. rewrite <- (ord2 u (nr a) j hj), <- (ord2 u (nr a) p0 hp0). rewrite e. reflexivity.
Qed.

(** ** cholesky.rs *)
Lemma chol_nan (a l : mat FN) n p0 q0 : chol_ex a n n l -> q0 <= p0 < n -> get a p0 q0 = nan -> get l p0 q0 = nan /\ forall p, p0 <= p < n -> get l p p = nan.
Proof.
  intros (h1 & h2 & h3 & h4 & h5) hp ha.
  assert (dn : forall p q, p < n -> q < p -> get l p q = nan -> get l p p = nan).
  { intros p q hpn hq e. destruct (h4 p hpn) as (_ & ->). unfold chol_pivot. rewrite (sumn_nan p _ q); [rewrite nan_sub_r; apply nan_sqrt|lia|rewrite e; apply nan_mul_l]. }
  assert (h0 : get l p0 q0 = nan /\ get l p0 p0 = nan).
  { destruct (Nat.eq_dec q0 p0) as [->|ne].
    - assert (e : get l p0 p0 = nan); [|auto]. destruct (h4 p0) as (_ & ->); [lia|]. unfold chol_pivot. rewrite ha, nan_sub_l. apply nan_sqrt.
    - assert (e : get l p0 q0 = nan). { rewrite h3 by lia. unfold chol_off. rewrite ha, nan_sub_l. apply nan_div_l. }
      split; auto. apply (dn p0 q0); auto; lia. }
  split; [apply h0|]. intros p hpp. destruct (Nat.eq_dec p p0) as [->|ne]; [apply h0|].
  apply (dn p p0); try lia. rewrite h3 by lia. unfold chol_off. rewrite (proj2 h0). apply nan_div_r.
Qed.

Lemma solvec_nan (a b x : mat FN) k : solvec a b = Ret x -> k < nc b ->
  ((exists i j, j <= i < nr a /\ get a i j = nan) \/ exists i, i < nr a /\ get b i k = nan) ->
  nr x = nr a /\ nc x = nc b /\ forall p, p < nr a -> get x p k = nan.
Proof.
  intros hs hk h. unfold solvec in hs. apply bind_ret in hs as (l & hc & hs). apply bind_ret in hs as (y & hy & hx).
  destruct (cholesky_dirty_exact a l hc) as (sq & hl). pose proof hl as (l1 & l2 & _).
  pose proof (solve_triangular_class l b Lower) as c1. rewrite hy in c1. destruct c1 as (_ & b1 & y1 & y2).
  pose proof (solve_triangular_class (transpose l) y Upper) as c2. rewrite hx in c2. rewrite nr_transpose, nc_transpose in c2. destruct c2 as (_ & _ & x1 & x2).
  split; [lia|]. split; [lia|]. intros p hp.
  assert (hn : get y (nr a - 1) k = nan).
  { destruct h as [(i & j & hij & h)|(i & hi & h)].
    - apply (solve_triangular_nan l b y Lower k (nr a - 1) (nr a - 1) hy); try lia. right. exists (nr a - 1). split; [lia|]. split; [lia|].
      apply (chol_nan a l (nr a) i j hl hij h). lia.
    - apply (solve_triangular_nan l b y Lower k i (nr a - 1) hy); try lia; auto. simpl. lia. }
  apply (solve_triangular_nan (transpose l) y x Upper k (nr a - 1) p hx); rewrite ?nr_transpose; try lia; auto. rewrite l2. simpl. lia.
Qed.

(** ** qr.rs *)
Definition zdiag (d : list FN) (i : nat) : Prop := exists j, j < i /\ nis_zero FN (vget d j) = true.
Lemma qr_nan (a : mat FN) p q : nc a <= nr a -> p < nr a -> q < nc a -> get a p q = nan ->
  wp (qr_into a) (fun d => zdiag (qdiag d) (nc a) \/ forall j, q <= j < nc a -> vget (qdiag d) j = nan).
Proof.
  intros hle hp hq hn. unfold qr_into. bd. step1.
  eapply post_for' with (I := fun i (st : mat FN * list FN) =>
     nr (fst st) = nr a /\ nc (fst st) = nc a /\ length (snd st) = nc a /\
     (zdiag (snd st) i \/
      if i <=? q then exists p', i <= p' < nr a /\ get (fst st) p' q = nan
      else (forall j, q <= j < i -> vget (snd st) j = nan) /\ block_nan (fst st) i i)).
  - simpl. dims. split; auto. split; auto. split; auto. right. exists p. split; [lia|auto].
  - intros i [m d] hi (h1 & h2 & h3 & h4). cbn [fst snd] in *. step1.
    pose proof (clear_column_safe m i 0 ltac:(lia) ltac:(lia)) as hs. destruct (clear_column m i 0) as [[m' x]| | | |] eqn:ec; simpl in hs; try contradiction.
    apply post_ret. cbn [fst snd] in hs. destruct hs as (g1 & g2). step1. apply post_set1; [lia|]. step1. cbn [fst snd].
    split; [lia|]. split; [lia|]. split; [dims; auto|].
    assert (hz : zdiag d i -> zdiag (vupd d i x) (S i)).
    { intros (j & hj & e). exists j. split; [lia|]. rewrite vget_vupd by lia. destruct (Nat.eqb_spec j i); [lia|auto]. }
    destruct h4 as [h4|h4]; [left; auto|].
    destruct (Nat.leb_spec i q) as [hiq|hiq].
    + destruct h4 as (p' & hp' & e'). destruct (Nat.eq_dec i q) as [->|ne].
      * right. destruct (Nat.leb_spec (S q) q); [lia|]. pose proof (clear_column_nan m q 0 p' ltac:(lia) ltac:(lia) e') as hc. rewrite ec in hc. simpl in hc. destruct hc as (_ & _ & -> & hb).
        split.
        -- intros j hj. replace j with q by lia. rewrite vget_vupd by lia. rewrite Nat.eqb_refl. reflexivity.
        -- intros r c hr hc. apply hb; lia.
      * destruct (clear_column_outcome m i 0 m' x ltac:(lia) ltac:(lia) ec) as (v & o & _ & lv & -> & _ & _ & hg). destruct o as [x'|].
        -- right. destruct (Nat.leb_spec (S i) q); [|lia]. exists (S i). split; [lia|]. rewrite hg by lia. rewrite Nat.add_0_r. bd.
           unfold refl_entry. rewrite (sumn_nan _ _ (p' - i)); [|lia|].
           ++ nn. reflexivity.
           ++ replace (i + (p' - i)) with p' by lia. rewrite e'. nn. reflexivity.
        -- left. exists i. split; [lia|]. rewrite vget_vupd by lia. rewrite Nat.eqb_refl. reflexivity.
    + right. destruct (Nat.leb_spec (S i) q); [lia|]. destruct h4 as (h4 & h5).
      pose proof (clear_column_nan m i 0 i ltac:(lia) ltac:(lia) (h5 i i ltac:(lia) ltac:(lia))) as hc. rewrite ec in hc. simpl in hc. destruct hc as (_ & _ & -> & hb).
      split.
      * intros j hj. rewrite vget_vupd by lia. destruct (Nat.eqb_spec j i); [reflexivity|]. apply h4; lia.
      * intros r c hr hc. apply hb; lia.
  - intros [m d]. cbn [fst snd]. intros (h1 & h2 & h3 & h4). apply post_ret. cbn [qdiag]. destruct h4 as [h4|h4]; [left; auto|]. rewrite Nat.add_0_l in h4.
    destruct (Nat.leb_spec (nc a) q); [lia|]. right. apply h4.
Qed.
Lemma zdiag_inv (d : qrdecomp FN) i : zdiag (qdiag d) i -> i <= length (qdiag d) -> is_invertible d = false.
Proof.
  intros (j & hj & e) hl. unfold is_invertible. destruct (forallb _ _) eqn:ef; auto. rewrite forallb_forall in ef.
  assert (hin : In (vget (qdiag d) j) (qdiag d)) by (unfold vget; apply nth_In; lia). apply ef in hin. rewrite e in hin. discriminate.
Qed.

Lemma qt_mul_nan (d : qrdecomp FN) (b : mat FN) p k : qr_wf d -> nr b = nr (qr d) -> 1 <= nc (qr d) -> p < nr b -> k < nc b -> get b p k = nan ->
  wp (qt_mul d b) (fun b' => nr b' = nr b /\ nc b' = nc b /\ forall p', p' < nr b -> get b' p' k = nan).
Proof.
  intros (w1 & w2) hb hc hp hk hn. unfold qt_mul.
  eapply post_for' with (I := fun i b' => nr b' = nr b /\ nc b' = nc b /\ get b' p k = nan /\ (1 <= i -> forall p', p' < nr b -> get b' p' k = nan)).
  - split; auto. split; auto. split; auto. lia.
  - intros i s hi (h1 & h2 & h3 & h4). step1. apply post_col_from; try lia. step1. apply post_slice; try lia. step1.
    eapply post_mono; [apply reflect_cols_ok; simpl; dlia|]. intros y (y1 & y2 & y3). dims. step1. apply post_idx1; [lia|]. step1. dims. split; auto. split; auto.
    match goal with |- get ?w _ _ = _ /\ _ => set (u2 := w) end.
    assert (hall : forall p', p' < nr b -> get u2 p' k = nan).
    { intros p' hp'. unfold u2. rewrite get_put by lia. dims. rewrite y1, y2. destruct (Nat.leb_spec i p').
      - assert (exists p0, i <= p0 < nr b /\ get s p0 k = nan) as (p0 & hp0 & e0).
        { destruct (Nat.eq_dec i 0) as [->|]; [exists p; split; [lia|auto]|]. exists i. split; [lia|]. apply h4; lia. }
        bd. unfold mscale. rewrite get_mmap by lia. rewrite y3 by lia. unfold refl_entry. rewrite (sumn_nan _ _ (p0 - i)); [nn; reflexivity|lia|].
        rewrite get_mk by lia. replace (i + (p0 - i)) with p0 by lia. replace (0 + (k - 0)) with k by lia. rewrite ?Nat.sub_0_r, ?Nat.add_0_l. rewrite e0. nn. reflexivity.
      - bd. apply h4; lia. }
    split; [apply hall; auto|]. intros _. exact hall.
  - intros s (h1 & h2 & h3 & h4). split; [auto|]. split; [auto|]. apply h4. lia.
Qed.

Lemma qr_solve_nan (a b x : mat FN) (d : qrdecomp FN) k : qr_into a = Ret d -> qr_solve d b = Ret x -> k < nc b ->
  ((exists i j, i < nr a /\ j < nc a /\ get a i j = nan) \/ exists i, i < nr a /\ get b i k = nan) ->
  nr x = nc a /\ nc x = nc b /\ forall p, p < nc a -> get x p k = nan.
Proof.
  intros ed hs hk h. pose proof (qr_solve_class_a a b d ed) as hcl. rewrite hs in hcl. destruct hcl as (b1 & hinv & x1 & x2).
  split; auto. split; auto. intros p hp. pose proof (qr_class a) as hq. rewrite ed in hq. destruct hq as (hle & q1 & q2 & w1 & w2).
  unfold qr_solve in hs. rewrite hinv in hs. destruct (negb _); [discriminate|]. cbn [negb] in hs.
  apply bind_ret in hs as (b2 & e2 & hs). apply bind_ret in hs as (b3 & e3 & hs). apply bind_ret in hs as (r & er & hs).
  pose proof (qt_mul_safe d b (conj w1 w2) ltac:(lia)) as hm. rewrite e2 in hm. simpl in hm. destruct hm as (m1 & m2).
  unfold slice in e3, er. destruct (_ && _) in e3; [|discriminate]. destruct (_ && _) in er; [|discriminate]. injection e3 as <-. injection er as <-.
  set (r := mk _ _ _) in hs. set (b3 := mk _ _ _) in hs.
  assert (r1 : nr r = nc a) by (unfold r; rewrite nr_mk; lia). assert (r2 : nc r = nc a) by (unfold r; rewrite nc_mk; lia).
  assert (b31 : nr b3 = nc a) by (unfold b3; rewrite nr_mk; lia). assert (b32 : nc b3 = nc b) by (unfold b3; rewrite nc_mk; lia).
  assert (dg : forall i, i < nr r -> (let* x := at1 (qdiag d) i in Ret (nabs FN x)) = Ret (nabs FN (vget (qdiag d) i))).
  { intros i hi. unfold at1. destruct (Nat.ltb_spec i (length (qdiag d))); [reflexivity|lia]. }
  pose proof (post_inv _ _ _ _ _ (solve_system_exact r b3 Upper _ (fun i => nabs FN (vget (qdiag d) i)) ltac:(lia) ltac:(lia) dg) hs) as (_ & _ & hx).
  apply (system_nan r b3 x Upper (fun i => nabs FN (vget (qdiag d) i)) k ltac:(lia) (fun p hp => hx p k hp ltac:(lia)) (nc a - 1)); try lia; [|rewrite r1; simpl; lia].
  destruct h as [(i & j & hi & hj & h)|(i & hi & h)].
  - right. left. pose proof (qr_nan a i j hle hi hj h) as hz. rewrite ed in hz. simpl in hz. destruct hz as [hz|hz].
    + rewrite (zdiag_inv d (nc a) hz ltac:(lia)) in hinv. discriminate.
    + rewrite hz by lia. reflexivity.
  - left. pose proof (qt_mul_nan d b i k (conj w1 w2) ltac:(lia) ltac:(lia) ltac:(lia) hk h) as hm. rewrite e2 in hm. simpl in hm. destruct hm as (_ & _ & hm).
    unfold b3. rewrite get_mk by lia. rewrite ?Nat.add_0_l. apply hm. lia.
Qed.

Lemma qr_solve_tr_nan (a b x : mat FN) (d : qrdecomp FN) k : qr_into a = Ret d -> qr_solve_tr d b = Ret x -> k < nc b ->
  ((exists i j, i < nr a /\ j < nc a /\ get a i j = nan) \/ exists i, i < nc a /\ get b i k = nan) ->
  nr x = nr a /\ nc x = nc b /\ forall p, p < nr a -> get x p k = nan.
Proof.
  intros ed hs hk h. pose proof (qr_solve_tr_class_a a b d ed) as hcl. rewrite hs in hcl. destruct hcl as (b1 & hinv & x1 & x2).
  split; auto. split; auto. intros p hp. pose proof (qr_class a) as hq. rewrite ed in hq. destruct hq as (hle & q1 & q2 & w1 & w2).
  assert (hc : 1 <= nc a) by (destruct h as [(i & j & _ & hj & _)|(i & hi & _)]; lia).
  unfold qr_solve_tr in hs. rewrite hinv in hs. destruct (negb _); [discriminate|]. cbn [negb] in hs.
  apply bind_ret in hs as (r & er & hs). apply bind_ret in hs as (y & ey & hs). apply bind_ret in hs as (q & eq & hs).
  unfold slice in er. destruct (_ && _) in er; [|discriminate]. injection er as <-. set (r := mk _ _ _) in ey.
  assert (r1 : nr (transpose r) = nc a) by (unfold r; rewrite nr_transpose, nc_mk; lia). assert (r2 : nc (transpose r) = nc a) by (unfold r; rewrite nc_transpose, nr_mk; lia).
  assert (dg : forall i, i < nr (transpose r) -> (let* x := at1 (qdiag d) i in Ret (nabs FN x)) = Ret (nabs FN (vget (qdiag d) i))).
  { intros i hi. unfold at1. destruct (Nat.ltb_spec i (length (qdiag d))); [reflexivity|lia]. }
  pose proof (post_inv _ _ _ _ _ (solve_system_exact (transpose r) b Lower _ (fun i => nabs FN (vget (qdiag d) i)) ltac:(lia) ltac:(lia) dg) ey) as (y1 & y2 & hy).
  assert (hn : get y (nc a - 1) k = nan).
  { destruct h as [(i & j & hi & hj & h)|(i & hi & h)].
    - apply (system_nan (transpose r) b y Lower (fun i => nabs FN (vget (qdiag d) i)) k ltac:(lia) (fun p hp => hy p k hp ltac:(lia)) (nc a - 1)); try lia.
      right. left. pose proof (qr_nan a i j hle hi hj h) as hz. rewrite ed in hz. simpl in hz. destruct hz as [hz|hz].
      + rewrite (zdiag_inv d (nc a) hz ltac:(lia)) in hinv. discriminate.
      + rewrite hz by lia. reflexivity.
    - apply (system_nan (transpose r) b y Lower (fun i => nabs FN (vget (qdiag d) i)) k ltac:(lia) (fun p hp => hy p k hp ltac:(lia)) i); try lia; auto. rewrite r1. simpl. lia. }
  pose proof (post_inv _ _ _ _ _ (qr_generate_q_safe d (conj w1 w2)) eq) as (e1 & e2).
  unfold dot2 in hs. destruct (Nat.eqb_spec (nc q) (nr y)); [|discriminate]. injection hs as <-. rewrite get_mk by lia.
  apply (sumn_nan _ _ (nc a - 1)); [lia|]. rewrite hn. apply nan_mul_r.
Qed.

Lemma least_squares_nan (a b x : mat FN) k : least_squares a b = Ret x -> k < nc b ->
  ((exists i j, i < nr a /\ j < nc a /\ get a i j = nan) \/ exists i, i < nr a /\ get b i k = nan) ->
  nr x = nc a /\ nc x = nc b /\ forall p, p < nc a -> get x p k = nan.
Proof.
  unfold least_squares. destruct (Nat.leb_spec (nc a) (nr a)) as [hle|hlt]; intros hs hk h; apply bind_ret in hs as (d & ed & hs).
  - apply (qr_solve_nan a b x d k ed hs hk h).
  - pose proof (qr_solve_tr_nan (transpose a) b x d k ed hs hk) as q. rewrite nr_transpose, nc_transpose in q. apply q.
    destruct h as [(i & j & hi & hj & h)|h]; auto. left. exists j, i. split; auto. split; auto. rewrite get_transpose by auto. exact h.
Qed.
Lemma inverse_nan (a x : mat FN) (d : qrdecomp FN) i j : qr_into a = Ret d -> qr_inverse d = Ret x -> i < nr a -> j < nc a -> get a i j = nan ->
  nr x = nc a /\ nc x = nc a /\ forall p k, p < nc a -> k < nc a -> get x p k = nan.
Proof.
  intros ed hs hi hj h. unfold qr_inverse in hs. apply bind_ret in hs as (n & _ & hs). pose proof (qr_class a) as hq. rewrite ed in hq. destruct hq as (hle & q1 & q2 & w1 & w2).
  assert (hk : forall k, k < nc a -> nr x = nc a /\ nc x = nc (eye (N:=FN) (length (qdiag d))) /\ forall p, p < nc a -> get x p k = nan).
  { intros k hk. apply (qr_solve_nan a (eye (length (qdiag d))) x d k ed hs); [unfold eye; rewrite nc_mk; lia|]. left. exists i, j. auto. }
  destruct (hk j hj) as (h1 & h2 & _). unfold eye in h2. rewrite nc_mk in h2. split; auto. split; [lia|]. intros p k hp hk'. apply (hk k hk'); auto.
Qed.

(** ** norm.rs *)
Lemma fold_nan (f : FN -> FN) l : forall acc, (acc = nan \/ exists x, In x l /\ f x = nan) -> fold_left (fun acc x => nadd FN acc (f x)) l acc = nan.
Proof.
  induction l as [|y l IH]; intros acc h; cbn [fold_left].
  - destruct h as [h|(x & [] & _)]. exact h.
  - apply IH. destruct h as [->|(x & [->|hx] & e)]; [left; apply nan_add_l|left; rewrite e; apply nan_add_r|right; eauto].
Qed.
Lemma norms_nan (l : list FN) : In nan l -> norm_l1 l = nan /\ norm_l2 l = nan.
Proof.
  intros h. unfold norm_l1, norm_l2. rewrite (fold_nan (nabs FN)) by (right; exists nan; auto). rewrite (fold_nan (fun x => nmul FN x x)) by (right; exists nan; auto). auto.
Qed.
