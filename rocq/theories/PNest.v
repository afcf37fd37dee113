(** * Factors and solutions of a leading or trailing block *)
From Coq Require Import List Arith Lia Bool.
From Verif Require Import Scalar Arr MBase MDirect Hoare PTri PTriF PChol PCholF PHouse PQR PCols.
Import ListNotations.

Section Nest.
Context {N : Num}.
Notation mtx := (mat N).

(** ** Cholesky *)
Lemma chol_same_row (a a' m m' : mtx) j :
  (forall p q, p < j -> q <= p -> get m p q = get m' p q) ->
  (forall q, q < j -> get a j q = get a' j q) ->
  (forall q, q < j -> get m j q = chol_off a m j q) -> (forall q, q < j -> get m' j q = chol_off a' m' j q) ->
  forall q, q < j -> get m j q = get m' j q.
Proof.
  intros h ha h1 h2. apply (well_founded_induction Wf_nat.lt_wf (fun q => q < j -> get m j q = get m' j q)).
  intros q IH hq. rewrite h1, h2 by auto. unfold chol_off. rewrite ha, (h q q) by auto. f_equal. f_equal.
  apply sumn_ext. intros i hi. rewrite (h q i), IH by lia. reflexivity.
Qed.
Lemma chol_same (a a' m m' : mtx) N1 N2 n n' k j : j <= k -> j <= n -> j <= n' -> (forall p q, p < k -> q <= p -> get a p q = get a' p q) ->
  chol_ex a N1 n m -> chol_ex a' N2 n' m' -> forall p q, p < j -> q <= p -> get m p q = get m' p q.
Proof.
  intros hj hk hk' ha (h1 & h2 & h3 & h4 & h5) (g1 & g2 & g3 & g4 & g5).
  enough (forall s p q, p < s -> p < j -> q <= p -> get m p q = get m' p q) by (intros p q hp hq; apply (H (S p)); lia).
  induction s as [|s IH]; intros p q hs hp hq; [lia|].
  assert (hr : forall q, q < p -> get m p q = get m' p q).
  { apply (chol_same_row a a'); intros; [apply IH; lia|apply ha; lia|apply h3; lia|apply g3; lia]. }
  destruct (Nat.eq_dec q p) as [->|ne]; [|apply hr; lia].
  rewrite (proj2 (h4 p (Nat.lt_le_trans _ _ _ hp hk))), (proj2 (g4 p (Nat.lt_le_trans _ _ _ hp hk'))). f_equal. unfold chol_pivot. rewrite ha by lia. f_equal.
  apply sumn_ext. intros i hi. now rewrite hr.
Qed.
Lemma chol_row_lead (a a' m m' m1 : mtx) n k j : j < k -> k <= n -> (forall p q, p < k -> q <= p -> get a p q = get a' p q) ->
  chol_ex a n j m -> chol_ex a' k j m' -> chol_row j m = (m1, Ret tt) -> exists m1', chol_row j m' = (m1', Ret tt).
Proof.
  intros hj hk ha hm hm' e.
  assert (hx : chol_ex a n (S j) m1) by (eapply chol_row_exact; eauto; lia).
  pose proof (chol_same a a' m m' n k j j k j (Nat.lt_le_incl _ _ hj) (le_n j) (le_n j) ha hm hm') as hs.
  unfold chol_row in e |- *.
  destruct (wp_ret _ _ (chol_loop_exact a n j m (Nat.lt_le_trans _ _ _ hj hk) hm)) as ([x d] & ex & x1 & x2 & x3 & x4 & x5).
  destruct (wp_ret _ _ (chol_loop_exact a' k j m' hj hm')) as ([x' d'] & ex' & y1 & y2 & y3 & y4 & y5).
  rewrite ex in e. rewrite ex'. cbn [fst snd] in *.
  assert (hr : forall q, q < j -> get x j q = get x' j q).
  { apply (chol_same_row a a'); auto; intros; [|apply ha; lia]. rewrite x3, y3 by lia. apply hs; lia. }
  assert (ed : d = d') by (rewrite x5, y5; apply sumn_ext; intros i hi; now rewrite hr).
  assert (ea : get x j j = get x' j j).
  { rewrite x3, y3 by lia. destruct hm as (_ & _ & _ & _ & u). destruct hm' as (_ & _ & _ & _ & v). rewrite u, v by lia. apply ha; lia. }
  unfold at2 in e |- *. rewrite x1, x2 in e. rewrite y1, y2.
  destruct (Nat.ltb_spec j n) in e; [|lia]. destruct (Nat.ltb_spec j k); [|lia]. cbn [andb] in e |- *.
  rewrite <- ea, <- ed. destruct (nle N _ _); [discriminate|]. unfold atm2. rewrite y1, y2. destruct (Nat.ltb_spec j k); [|lia]. cbn. eauto.
Qed.
Lemma chol_rows_lead (a a' : mtx) n k : k <= n -> (forall p q, p < k -> q <= p -> get a p q = get a' p q) ->
  forall cnt j c m m' l, j + cnt = k -> k + c = n -> chol_ex a n j m -> chol_ex a' k j m' ->
  chol_rows (cnt + c) j m = (l, Ret tt) -> exists l', chol_rows cnt j m' = (l', Ret tt).
Proof.
  intros hk ha. induction cnt as [|cnt IH]; intros j c m m' l hj hc hm hm' e; [cbn; eauto|].
  cbn [Nat.add chol_rows] in e |- *. destruct (chol_row j m) as [m1 r] eqn:er. destruct r as [[]| | | |]; try discriminate.
  destruct (chol_row_lead a a' m m' m1 n k j) as (m1' & er'); auto; [lia|]. rewrite er'.
  apply (IH (S j) c m1 m1' l); auto; [lia| |]; eapply chol_row_exact; eauto; lia.
Qed.
Lemma cholesky_dirty_lead (a a' l : mtx) : nr a' = nc a' -> nr a' <= nr a ->
  (forall p q, p < nr a' -> q <= p -> get a p q = get a' p q) -> cholesky_dirty a = Ret l ->
  exists l', cholesky_dirty a' = Ret l' /\ forall p q, p < nr a' -> q <= p -> get l p q = get l' p q.
Proof.
  intros sq' hk ha e. destruct (cholesky_dirty_exact a l e) as (sq & hl). unfold cholesky_dirty, cholesky_inplace_dirty, check_square in e.
  destruct (Nat.eqb_spec (nr a) (nc a)); [|lia].
  destruct (chol_rows (nr a) 0 a) as [m1 r] eqn:hr. destruct r as [[]| | | |]; try discriminate.
  replace (nr a) with (nr a' + (nr a - nr a')) in hr at 1 by lia.
  destruct (chol_rows_lead a a' (nr a) (nr a') hk ha (nr a') 0 (nr a - nr a') a a' m1) as (l' & el); auto; try lia;
    [repeat split; auto; intros; lia .. |].
  assert (e' : cholesky_dirty a' = Ret l').
  { unfold cholesky_dirty, cholesky_inplace_dirty, check_square. rewrite <- sq', Nat.eqb_refl. cbn [negb]. now rewrite el. }
  exists l'. split; auto. destruct (cholesky_dirty_exact a' l' e') as (_ & hl').
  apply (chol_same a a' l l' (nr a) (nr a') (nr a) (nr a') (nr a') (nr a')); auto.
Qed.
(** nothing above the diagonal is written *)
Lemma cholesky_lead (a a' l : mtx) : nr a' = nc a' -> nr a' <= nr a ->
  (forall p q, p < nr a' -> q <= p -> get a p q = get a' p q) -> cholesky a = Ret l ->
  exists l', cholesky a' = Ret l' /\ nr l' = nr a' /\ nc l' = nr a' /\ forall p q, p < nr a' -> q < nr a' -> get l p q = get l' p q.
Proof.
  intros sq' hk ha e. unfold cholesky in e. destruct (cholesky_dirty a) as [d| | | |] eqn:ed; try discriminate. cbn [bind] in e.
  destruct (cholesky_dirty_lead a a' d sq' hk ha ed) as (d' & ed' & hs).
  destruct (cholesky_dirty_exact a d ed) as (sq & h1 & h2 & _). destruct (cholesky_dirty_exact a' d' ed') as (_ & g1 & g2 & _).
  unfold cholesky. rewrite ed'. cbn [bind].
  destruct (wp_ret _ _ (triangular_inplace_ok d Lower ltac:(lia))) as (x & ex & x1 & x2 & x3 & x4). rewrite ex in e. injection e as <-.
  destruct (wp_ret _ _ (triangular_inplace_ok d' Lower ltac:(lia))) as (y & ey & y1 & y2 & y3 & y4). exists y.
  split; auto. split; [lia|]. split; [lia|]. intros p q hp hq. destruct (Nat.le_gt_cases q p) as [h|h].
  - rewrite x4, y4 by (try lia; cbn; lia). apply hs; lia.
  - rewrite x3, y3 by (try lia; cbn; lia). reflexivity.
Qed.

(** ** Triangular systems *)
Definition off (u : UPLO) (n k : nat) : nat := match u with Lower => 0 | Upper => n - k end.
Lemma triangular_corner (a b a' b' x : mtx) u : nr a' = nc a' -> nr b' = nr a' -> nr a' <= nr a -> nc b' = nc b ->
  (forall p q, p < nr a' -> q < nr a' -> get a' p q = get a (off u (nr a) (nr a') + p) (off u (nr a) (nr a') + q)) ->
  (forall p c, p < nr a' -> c < nc b -> get b' p c = get b (off u (nr a) (nr a') + p) c) ->
  solve_triangular a b u = Ret x ->
  exists x', solve_triangular a' b' u = Ret x' /\ nr x' = nr a' /\ nc x' = nc b /\
    forall p c, p < nr a' -> c < nc b -> get x' p c = get x (off u (nr a) (nr a') + p) c.
Proof.
  intros sq' hb' hk hc ha hb e.
  assert (hcl : nr a = nc a /\ nr b = nr a).
  { unfold solve_triangular, solve_triangular_system, check_square in e. destruct (Nat.eqb_spec (nr a) (nc a)); [|discriminate].
    cbn [negb bind] in e. destruct (Nat.eqb_spec (nr b) (nr a)); [auto|discriminate]. }
  destruct hcl as (sq & hbr).
  destruct (wp_ret _ _ (solve_system_exact a b u (fun i => at2 a i i) (fun i => get a i i) sq hbr (at2_diag a sq))) as (y & ey & y1 & y2 & y3).
  unfold solve_triangular in e. rewrite ey in e. injection e as <-.
  destruct (wp_ret _ _ (solve_system_exact a' b' u (fun i => at2 a' i i) (fun i => get a' i i) sq' hb' (at2_diag a' sq'))) as (z & ez & z1 & z2 & z3).
  exists z. split; [exact ez|]. split; [lia|]. split; [lia|]. set (o := off u (nr a) (nr a')) in *.
  assert (ho : forall q, q < nr a' -> o + ord u (nr a') q = ord u (nr a) q /\ ord u (nr a) (o + q) = ord u (nr a') q /\ ord u (nr a') q < nr a' /\ o + q < nr a)
    by (intros q hq; unfold o, off, ord; destruct u; lia).
  enough (H : forall s p c, ord u (nr a') p < s -> p < nr a' -> c < nc b -> get z p c = get y (o + p) c) by (intros p c hp hq; apply (H (S (ord u (nr a') p))); auto).
  induction s as [|s IH]; intros p c hs hp hq; [lia|].
  destruct (ho p hp) as (_ & o2 & o3 & o4). rewrite z3, y3 by lia. rewrite ha, o2 by auto. f_equal. unfold row_val. rewrite hb by auto.
  apply elim_ext. intros q hq'. destruct (ho q ltac:(lia)) as (q1 & _ & q3 & _). rewrite <- q1. split; [apply ha; auto|].
  apply IH; auto. replace (ord u (nr a') (ord u (nr a') q)) with q by (unfold ord in *; destruct u; lia). lia.
Qed.

(** ** QR *)
Lemma vmk_ext n (f g : nat -> N) : (forall i, i < n -> f i = g i) -> vmk n f = vmk n g.
Proof. intros h. unfold vmk. apply map_ext_in. intros i hi. apply in_seq in hi. apply h. lia. Qed.
Definition cleared (m : mtx) (i : nat) (ax : list N) (on : option N) (p q : nat) : N :=
  if q <? i then get m p q
  else if p <? i then get m p q
  else if q =? i then vget ax (p - i)
  else match on with
       | None => get m p q
       | Some x => nmul N (refl_entry (vget ax) (n0 N) (nr m - i) (fun a b => get m (i + a) b) (p - i) q) (nsignum N x)
       end.
Lemma clear_column_exact (m : mtx) i : i < nr m -> i < nc m ->
  wp (clear_column m i 0) (fun r => exists ax on,
    reflection_axis_mut (vmk (nr m - i) (fun p => get m (i + p) i)) = Ret (ax, on) /\
    nr (fst r) = nr m /\ nc (fst r) = nc m /\ snd r = match on with Some x => x | None => n0 N end /\
    forall p q, p < nr m -> q < nc m -> get (fst r) p q = cleared m i ax on p q).
Proof.
  intros h1 h2. unfold clear_column. rewrite Nat.add_0_r. step1. apply post_col_from; try lia. step1.
  set (v := vmk _ _). assert (hv : length v = nr m - i) by (unfold v; dims; lia).
  destruct (wp_ret _ _ (reflection_axis_ok v ltac:(lia))) as ([ax on] & e & hl). rewrite e. cbn [fst] in hl. cbn [post wp].
  destruct on as [x|].
  - step1. apply post_slice; try dlia. step1. eapply post_mono; [apply reflect_cols_ok; cbn; lia|].
    intros y (y1 & y2 & y3). step1. unfold post; cbn [fst snd]. exists ax, (Some x). split; auto. split; auto. split; auto. split; auto.
    intros p q hp hq. cbn in y1, y2. unfold cleared. rewrite get_put by (dims; lia). change (nr (mscale y (nsignum N x))) with (nr y). change (nc (mscale y (nsignum N x))) with (nc y).
    rewrite y1, y2.
    rewrite get_put_col by lia. rewrite hl, hv.
    destruct (Nat.ltb_spec q i).
    { bd; try lia; reflexivity. }
    destruct (Nat.ltb_spec p i).
    { bd; try lia; reflexivity. }
    destruct (Nat.eqb_spec q i).
    { bd; try lia; reflexivity. }
    replace (i <=? p) with true by (symmetry; apply Nat.leb_le; lia).
    replace (p <? i + (nr m - i)) with true by (symmetry; apply Nat.ltb_lt; lia).
    replace (i + 1 <=? q) with true by (symmetry; apply Nat.leb_le; lia).
    replace (q <? i + 1 + (nc m - (i + 1))) with true by (symmetry; apply Nat.ltb_lt; lia). cbn [andb].
    rewrite get_mscale by (rewrite ?y1, ?y2; cbn; lia). f_equal. rewrite y3 by (cbn; lia). unfold refl_entry. cbn [axis bias nr mk put_col].
    rewrite get_mk by (cbn; lia). rewrite get_put_col by lia. replace (i + 1 + (q - (i + 1))) with q by lia.
    destruct (Nat.eqb_spec q i); [lia|]. rewrite !andb_false_r. f_equal. f_equal. f_equal. f_equal. apply sumn_ext. intros k hk.
    rewrite get_mk by (cbn; lia). rewrite get_put_col by lia. replace (i + 1 + (q - (i + 1))) with q by lia.
    destruct (Nat.eqb_spec q i); [lia|]. now rewrite andb_false_r.
  - unfold post; cbn [fst snd]. exists ax, None. split; auto. split; auto. split; auto. split; auto. intros p q hp hq. unfold cleared.
    rewrite get_put_col by lia. rewrite hl, hv. bd; try lia; reflexivity.
Qed.

Lemma for_add {S : Type} c k lo (f : nat -> S -> res S) s : for_ (c + k) lo f s = bind (for_ c lo f s) (fun x => for_ k (lo + c) f x).
Proof.
  revert lo s. induction c as [|c IH]; intros lo s; cbn [for_ Nat.add bind]; [now rewrite Nat.add_0_r|].
  destruct (f lo s); cbn [bind]; auto. rewrite IH. now rewrite Nat.add_succ_r.
Qed.
Definition qr_body (i : nat) (st : mtx * list N) : res (mtx * list N) :=
  let (m, d) := st in bind (clear_column m i 0) (fun r => let (m', x) := r in bind (set1 d i x) (fun d' => Ret (m', d'))).
Definition lead_eq (k : nat) (st st' : mtx * list N) : Prop :=
  nr (fst st) = nr (fst st') /\ k = nc (fst st') /\ k <= nc (fst st) /\ nc (fst st) <= nr (fst st) /\ length (snd st) = nc (fst st) /\ length (snd st') = k /\
  (forall p q, p < nr (fst st) -> q < k -> get (fst st) p q = get (fst st') p q) /\ (forall q, q < k -> vget (snd st) q = vget (snd st') q).

Lemma cleared_same (m m' : mtx) i k ax on p q : nr m = nr m' -> i < nr m -> (forall p q, p < nr m -> q < k -> get m p q = get m' p q) ->
  p < nr m -> q < k -> cleared m i ax on p q = cleared m' i ax on p q.
Proof.
  intros hr hi h hp hq. unfold cleared. rewrite h, <- hr by auto. bd; auto. destruct on; auto. f_equal. unfold refl_entry.
  replace (i + (p - i)) with p by lia. rewrite h by auto. do 4 f_equal. apply sumn_ext. intros a ha. rewrite h by lia. reflexivity.
Qed.
Lemma body_lead k i st st' : i < k -> lead_eq k st st' -> sim (lead_eq k) (qr_body i st) (qr_body i st').
Proof.
  destruct st as [m d], st' as [m' d']. intros hi (h1 & h2 & h3 & h3' & h4 & h5 & h6 & h7). cbn [fst snd] in *. unfold qr_body.
  destruct (wp_ret _ _ (clear_column_exact m i ltac:(lia) ltac:(lia))) as ([x v] & -> & ax & on & e & x1 & x2 & x3 & x4).
  destruct (wp_ret _ _ (clear_column_exact m' i ltac:(lia) ltac:(lia))) as ([x' v'] & -> & ax' & on' & e' & y1 & y2 & y3 & y4).
  cbn [fst snd bind] in *.
  rewrite <- h1, (vmk_ext _ (fun p => get m' (i + p) i) (fun p => get m (i + p) i)) in e' by (intros; symmetry; apply h6; lia).
  rewrite e in e'. injection e' as <- <-. assert (v' = v) as -> by congruence.
  unfold set1. rewrite h4, h5. destruct (Nat.ltb_spec i (nc m)); [|lia]. destruct (Nat.ltb_spec i k); [|lia]. cbn.
  unfold lead_eq. cbn [fst snd]. rewrite !length_vupd. repeat (split; [lia|]). split.
  - intros p q hp hq. rewrite x4, y4 by lia. apply (cleared_same m m' i k); auto; lia.
  - intros q hq. rewrite !vget_vupd by lia. bd; auto.
Qed.
Lemma body_frame i st : i < nr (fst st) -> i < nc (fst st) -> length (snd st) = nc (fst st) ->
  wp (qr_body i st) (fun st' => nr (fst st') = nr (fst st) /\ nc (fst st') = nc (fst st) /\ length (snd st') = length (snd st) /\
    (forall p q, p < nr (fst st) -> q < i -> get (fst st') p q = get (fst st) p q) /\ (forall q, q < i -> vget (snd st') q = vget (snd st) q)).
Proof.
  destruct st as [m d]. cbn [fst snd]. intros h1 h2 h3. unfold qr_body.
  destruct (wp_ret _ _ (clear_column_exact m i h1 h2)) as ([x v] & -> & ax & on & e & x1 & x2 & x3 & x4). cbn [fst snd bind] in *.
  unfold set1. rewrite h3. destruct (Nat.ltb_spec i (nc m)); [|lia]. unfold post; cbn [bind fst snd]. rewrite length_vupd. repeat (split; [lia|]). split.
  - intros p q hp hq. rewrite x4 by lia. unfold cleared. destruct (Nat.ltb_spec q i); [auto|lia].
  - intros q hq. rewrite vget_vupd by lia. bd; auto.
Qed.
Lemma qr_lead (a a' : mtx) d : nr a' = nr a -> nc a' <= nc a -> (forall p q, p < nr a -> q < nc a' -> get a' p q = get a p q) ->
  qr_into a = Ret d -> exists d', qr_into a' = Ret d' /\ nr (qr d') = nr a /\ nc (qr d') = nc a' /\ length (qdiag d') = nc a' /\
    (forall p q, p < nr a -> q < nc a' -> get (qr d') p q = get (qr d) p q) /\
    (forall q, q < nc a' -> vget (qdiag d') q = vget (qdiag d) q).
Proof.
  intros hr hc h e. unfold qr_into in e |- *. rewrite hr. destruct (Nat.ltb_spec (nr a) (nc a)); [discriminate|].
  destruct (Nat.ltb_spec (nr a) (nc a')); [lia|]. fold qr_body in e.
  change (bind (for_ (nc a) 0 qr_body (a, vzeros (nc a))) (fun r => let (m', d) := r in Ret (QRD m' d)) = Ret d) in e.
  change (exists d', bind (for_ (nc a') 0 qr_body (a', vzeros (nc a'))) (fun r => let (m', d) := r in Ret (QRD m' d)) = Ret d' /\ nr (qr d') = nr a /\ nc (qr d') = nc a' /\ length (qdiag d') = nc a' /\
    (forall p q, p < nr a -> q < nc a' -> get (qr d') p q = get (qr d) p q) /\
    (forall q, q < nc a' -> vget (qdiag d') q = vget (qdiag d) q)).
  set (k := nc a') in *. replace (nc a) with (k + (nc a - k)) in e at 1 by lia. rewrite for_add in e.
  assert (hs : sim (lead_eq k) (for_ k 0 qr_body (a, vzeros (nc a))) (for_ k 0 qr_body (a', vzeros k))).
  { apply sim_for with (R := fun _ => lead_eq k).
    - unfold lead_eq. cbn [fst snd]. unfold vzeros. rewrite !length_vmk. repeat (split; [unfold k in *; lia|]). split.
      + intros. symmetry. apply h; lia.
      + intros q hq. rewrite !vget_vmk by lia. reflexivity.
    - intros i s s' hi hs. apply body_lead; auto; lia. }
  assert (hn : wp (for_ k 0 qr_body (a, vzeros (nc a))) (fun st => nr (fst st) = nr a /\ nc (fst st) = nc a /\ length (snd st) = nc a)).
  { eapply post_for' with (I := fun _ st => nr (fst st) = nr a /\ nc (fst st) = nc a /\ length (snd st) = nc a).
    - cbn [fst snd]. unfold vzeros. rewrite length_vmk. auto.
    - intros i s hi (u1 & u2 & u3). eapply post_mono; [apply body_frame; lia|]. intros s' (v1 & v2 & v3 & _). cbn beta. lia.
    - auto. }
  destruct (wp_ret _ _ hn) as ([m d0] & em & m1 & m2 & m3). rewrite em in e, hs. cbn [bind fst snd] in e, m1, m2, m3.
  destruct (for_ k 0 qr_body (a', vzeros k)) as [[m' d']| | | |]; cbn [sim] in hs; try contradiction. destruct hs as (s1 & s2 & s3 & s3' & s4 & s5 & s6 & s7).
  cbn [fst snd bind] in *. exists (QRD m' d'). split; [reflexivity|]. cbn [qr qdiag].
  assert (hf : wp (for_ (nc a - k) (0 + k) qr_body (m, d0)) (fun st => nr (fst st) = nr a /\ nc (fst st) = nc a /\ length (snd st) = nc a /\
     (forall p q, p < nr a -> q < k -> get (fst st) p q = get m p q) /\ (forall q, q < k -> vget (snd st) q = vget d0 q))).
  { eapply post_for' with (I := fun _ st => nr (fst st) = nr a /\ nc (fst st) = nc a /\ length (snd st) = nc a /\
     (forall p q, p < nr a -> q < k -> get (fst st) p q = get m p q) /\ (forall q, q < k -> vget (snd st) q = vget d0 q)).
    - cbn [fst snd]. auto.
    - intros i s hi (u1 & u2 & u3 & u4 & u5). eapply post_mono; [apply body_frame; lia|]. intros s' (v1 & v2 & v3 & v4 & v5). cbn beta.
      repeat (split; [lia|]). split; intros; [rewrite v4 by lia; apply u4; lia|rewrite v5 by lia; apply u5; lia].
    - auto. }
  destruct (wp_ret _ _ hf) as ([mf df] & ef & f1 & f2 & f3 & f4 & f5). rewrite ef in e. cbn [bind] in e. injection e as <-. cbn [qr qdiag fst snd] in *.
  split; [lia|]. split; [lia|]. split; [lia|]. split; intros.
  - rewrite f4 by lia. symmetry. apply s6; lia.
  - rewrite f5 by lia. symmetry. apply s7; lia.
Qed.

Lemma for_rev_add {S : Type} c k (f : nat -> S -> res S) s : for_rev (c + k) f s = bind (for_rev c (fun i => f (i + k)) s) (for_rev k f).
Proof. revert s. induction c as [|c IH]; intros s; cbn [for_rev Nat.add bind]; auto. destruct (f (c + k) s); cbn [bind]; auto. Qed.
Definition q_body (m : mtx) (v : list N) (i : nat) (x : mtx) : res mtx :=
  bind (col_from m (i + 0) i) (fun ax => bind (slice x (i + 0) (nr x) i (nc x)) (fun y => bind (reflect_cols (Refl ax (n0 N)) y) (fun y =>
  bind (idx1 v i) (fun d => Ret (put x (i + 0) i (mscale y (nsignum N d))))))).
Definition q_entry (m : mtx) (v : list N) (i : nat) (x : mtx) (p q : nat) : N :=
  if (i <=? p) && (i <=? q)
  then nmul N (refl_entry (fun a => get m (i + a) i) (n0 N) (nr m - i) (fun a b => get x (i + a) b) (p - i) q) (nsignum N (vget v i))
  else get x p q.
Lemma q_body_exact (m x : mtx) (v : list N) i : nr x = nr m -> i < nr m -> i < nc m -> i < nc x -> i < length v ->
  wp (q_body m v i x) (fun y => nr y = nr m /\ nc y = nc x /\ forall p q, p < nr m -> q < nc x -> get y p q = q_entry m v i x p q).
Proof.
  intros h1 h2 h3 h4 h5. unfold q_body. rewrite Nat.add_0_r. step1. apply post_col_from; try lia. step1. apply post_slice; try lia. step1.
  eapply post_mono; [apply reflect_cols_ok; cbn [axis]; dims; lia|]. intros y (y1 & y2 & y3). step1. apply post_idx1; auto. step1.
  unfold post. split; [auto|]. split; [auto|]. intros p q hp hq. cbn in y1, y2. unfold q_entry. rewrite get_put by lia.
  change (nr (mscale y (nsignum N (vget v i)))) with (nr y). change (nc (mscale y (nsignum N (vget v i)))) with (nc y). rewrite y1, y2.
  replace (p <? i + (nr x - i)) with true by (symmetry; apply Nat.ltb_lt; lia).
  replace (q <? i + (nc x - i)) with true by (symmetry; apply Nat.ltb_lt; lia). rewrite !andb_true_r.
  destruct (Nat.leb_spec i p); [|reflexivity]. destruct (Nat.leb_spec i q); [|reflexivity]. cbn [andb].
  rewrite get_mscale by lia. f_equal. rewrite y3 by (cbn; lia). unfold refl_entry. cbn [axis bias nr mk].
  rewrite get_mk by lia. rewrite vget_vmk by lia. replace (i + (q - i)) with q by lia. rewrite h1. do 4 f_equal.
  apply sumn_ext. intros a ha. rewrite get_mk, vget_vmk by lia. replace (i + (q - i)) with q by lia. reflexivity.
Qed.
Lemma q_unfold (d : qrdecomp N) : qr_wf d -> exists x0, qr_generate_q d = for_rev (nc (qr d)) (q_body (qr d) (qdiag d)) x0 /\
  nr x0 = nr (qr d) /\ nc x0 = nc (qr d) /\ forall p q, p < nr (qr d) -> q < nc (qr d) -> get x0 p q = if p =? q then n1 N else n0 N.
Proof.
  intros (w1 & w2). unfold qr_generate_q, assemble_q. rewrite Nat.min_r by auto. unfold usub. cbn [Nat.leb Nat.ltb bind].
  eexists. rewrite Nat.sub_0_r. split; [reflexivity|].
  destruct (Nat.eqb_spec (nr (qr d)) (nc (qr d))) as [e|]; unfold eye; cbn [nr nc mk].
  - split; [auto|]. split; [auto|]. intros. now rewrite get_mk by lia.
  - split; [auto|]. split; [auto|]. intros. now rewrite get_mk by lia.
Qed.
Lemma q_lead (d d' : qrdecomp N) q : qr_wf d -> qr_wf d' -> nr (qr d') = nr (qr d) -> nc (qr d') <= nc (qr d) ->
  (forall i j, i < nr (qr d) -> j < nc (qr d') -> get (qr d') i j = get (qr d) i j) ->
  (forall j, j < nc (qr d') -> vget (qdiag d') j = vget (qdiag d) j) ->
  qr_generate_q d = Ret q -> exists q', qr_generate_q d' = Ret q' /\
    forall i j, i < nr (qr d) -> j < nc (qr d') -> get q' i j = get q i j.
Proof.
  intros w w' hr hc h1 h2 e. destruct (q_unfold d w) as (x0 & e0 & a1 & a2 & a3). destruct (q_unfold d' w') as (x0' & -> & b1 & b2 & b3).
  rewrite e0 in e. destruct w as (w1 & w2), w' as (w1' & w2'). set (n := nr (qr d)) in *. set (k := nc (qr d')) in *.
  replace (nc (qr d)) with ((nc (qr d) - k) + k) in e at 1 by lia. rewrite for_rev_add in e.
  assert (hf : wp (for_rev (nc (qr d) - k) (fun i => q_body (qr d) (qdiag d) (i + k)) x0) (fun x => nr x = n /\ nc x = nc (qr d) /\
     forall i j, i < n -> j < k -> get x i j = get x0 i j)).
  { eapply post_for_rev with (I := fun _ x => nr x = n /\ nc x = nc (qr d) /\ forall i j, i < n -> j < k -> get x i j = get x0 i j); [auto| |auto].
    intros i x hi (u1 & u2 & u3). eapply post_mono; [apply q_body_exact; unfold n in *; lia|]. cbn beta. intros y (v1 & v2 & v3).
    split; [auto|]. split; [lia|]. intros p j hp hj. rewrite v3 by lia. unfold q_entry.
    destruct (Nat.leb_spec (i + k) j); [lia|]. rewrite andb_false_r. apply u3; lia. }
  destruct (wp_ret _ _ hf) as (x & ex & x1 & x2 & x3). rewrite ex in e. cbn [bind] in e.
  assert (hs : sim (fun y y' => nr y = n /\ nc y = nc (qr d) /\ nr y' = n /\ nc y' = k /\ forall i j, i < n -> j < k -> get y' i j = get y i j)
    (for_rev k (q_body (qr d) (qdiag d)) x) (for_rev k (q_body (qr d') (qdiag d')) x0')).
  { apply sim_for_rev with (R := fun _ y y' => nr y = n /\ nc y = nc (qr d) /\ nr y' = n /\ nc y' = k /\ forall i j, i < n -> j < k -> get y' i j = get y i j).
    - split; [lia|]. split; [lia|]. split; [lia|]. split; [lia|]. intros. rewrite x3, a3, b3 by lia. reflexivity.
    - intros i y y' hi (u1 & u2 & u3 & u4 & u5).
      destruct (wp_ret _ _ (q_body_exact (qr d) y (qdiag d) i u1 ltac:(unfold n in *; lia) ltac:(lia) ltac:(lia) ltac:(lia))) as (z & -> & z1 & z2 & z3).
      destruct (wp_ret _ _ (q_body_exact (qr d') y' (qdiag d') i ltac:(lia) ltac:(unfold n in *; lia) ltac:(lia) ltac:(lia) ltac:(lia))) as (z' & -> & t1 & t2 & t3).
      cbn [sim]. split; [auto|]. split; [lia|]. split; [lia|]. split; [lia|]. intros p j hp hj. rewrite z3, t3 by lia. unfold q_entry. rewrite u5, h2 by auto.
      destruct (Nat.leb_spec i p); [|reflexivity]. destruct (Nat.leb_spec i j); [|reflexivity]. cbn [andb]. f_equal. unfold refl_entry. rewrite hr. fold n.
      rewrite h1, u5 by lia. do 4 f_equal. apply sumn_ext. intros a ha. rewrite h1, u5 by lia. reflexivity. }
  rewrite e in hs. destruct (for_rev k _ x0') as [q'| | | |]; cbn [sim] in hs; try contradiction. exists q'. split; [reflexivity|]. apply hs.
Qed.
Lemma r_exact (d : qrdecomp N) : qr_wf d -> wp (qr_into_r d) (fun r => nr r = nc (qr d) /\ nc r = nc (qr d) /\
  forall i j, i < nc (qr d) -> j < nc (qr d) -> get r i j = if i =? j then nabs N (vget (qdiag d) i) else if i <? j then get (qr d) i j else n0 N).
Proof.
  intros (w1 & w2). unfold qr_into_r. step1. apply post_slice; try lia. step1. step1.
  eapply post_mono; [apply triangular_inplace_ok; dims; lia|]. intros r (r1 & r2 & r3 & r4). cbn in r1, r2. rewrite Nat.sub_0_r in r1, r2.
  rewrite r1, r2, w2, Nat.min_id, Nat.eqb_refl. unfold post. split; [reflexivity|]. split; [reflexivity|]. intros i j hi hj. rewrite get_mk by lia.
  destruct (Nat.eqb_spec i j); [reflexivity|]. destruct (Nat.ltb_spec i j).
  - rewrite r4 by (try (cbn; lia)). rewrite get_mk by lia. reflexivity.
  - rewrite r3 by (try (cbn; lia)). reflexivity.
Qed.
End Nest.
