(** * Right-hand sides related entry by entry: solutions are related in the same way *)
From Coq Require Import List Arith Lia Bool.
From Verif Require Import Scalar Arr MBase MDirect Hoare PTri PTriF PChol PHouse PQR PCols.
Import ListNotations.

(** A relation that the operations on the right-hand side preserve; the other operand is the same on both sides *)
Record lin_ok (N : Num) (L : N -> N -> Prop) : Prop := {
  l_0 : L (n0 N) (n0 N);
  l_add x x' y y' : L x x' -> L y y' -> L (nadd N x y) (nadd N x' y');
  l_sub0 x x' : L x x' -> L (nsub N x (n0 N)) (nsub N x' (n0 N));
  l_mul_r x x' a : L x x' -> L (nmul N x a) (nmul N x' a);
  l_mul_l x x' a : L x x' -> L (nmul N a x) (nmul N a x');
  l_opp x x' : L x x' -> L (nopp N x) (nopp N x');
  l_div x x' a : L x x' -> L (ndiv N x a) (ndiv N x' a) }.

Section Lin.
Context {N : Num} {L : N -> N -> Prop} (hL : lin_ok N L).
Notation mtx := (mat N).

Definition rel_col (j j' : nat) (b b' : mtx) : Prop :=
  nr b = nr b' /\ j < nc b /\ j' < nc b' /\ forall i, i < nr b -> L (get b i j) (get b' i j').

Lemma sumn_rel n (f g : nat -> N) : (forall k, k < n -> L (f k) (g k)) -> L (sumn n f) (sumn n g).
Proof. induction n as [|n IH]; intros h; [apply (l_0 _ _ hL)|]. cbn [sumn]. apply (l_add _ _ hL); auto. Qed.
Lemma elim_rel (t x x' : nat -> N) b b' m : L b b' -> (forall k, k < m -> L (x k) (x' k)) -> L (elim t x b m) (elim t x' b' m).
Proof. intros hb. induction m as [|m IH]; intros h; cbn [elim]; auto. apply (l_add _ _ hL); auto. apply (l_mul_r _ _ hL), (l_opp _ _ hL). auto. Qed.

Lemma system_rel (a b b' : mtx) u diag_fn d j j' : (nr a = nc a -> forall i, i < nr a -> diag_fn i = Ret (d i)) ->
  rel_col j j' b b' ->
  sim (rel_col j j') (solve_triangular_system a b u diag_fn) (solve_triangular_system a b' u diag_fn).
Proof.
  intros hd (h1 & h2 & h3 & h4). destruct (Nat.eq_dec (nr a) (nc a)) as [sq|nsq].
  2:{ unfold solve_triangular_system, check_square. destruct (Nat.eqb_spec (nr a) (nc a)); [contradiction|]. cbn. auto. }
  destruct (Nat.eq_dec (nr b) (nr a)) as [hb|hb].
  2:{ unfold solve_triangular_system, check_square. destruct (Nat.eqb_spec (nr a) (nc a)); [|contradiction]. cbn [negb bind].
      rewrite <- h1. destruct (Nat.eqb_spec (nr b) (nr a)); [contradiction|]. cbn. auto. }
  destruct (wp_ret _ _ (solve_system_exact a b u diag_fn d sq hb (hd sq))) as (x & -> & x1 & x2 & x3).
  destruct (wp_ret _ _ (solve_system_exact a b' u diag_fn d sq (eq_trans (eq_sym h1) hb) (hd sq))) as (x' & -> & y1 & y2 & y3).
  cbn. split; [congruence|]. split; [lia|]. split; [lia|]. rewrite x1, hb.
  assert (hk : forall k, k < nr a -> L (get x (ord u (nr a) k) j) (get x' (ord u (nr a) k) j')).
  { induction k as [k IH] using lt_wf_ind. intros hk. pose proof (ord_lt u _ _ hk) as ho.
    rewrite x3, y3 by auto. rewrite ord_ord by auto. apply (l_div _ _ hL). unfold row_val. apply elim_rel; [apply h4; lia|].
    intros q hq. apply IH; lia. }
  intros i hi. pose proof (hk (ord u (nr a) i) (ord_lt _ _ _ hi)) as e. rewrite ord_ord in e by auto. auto.
Qed.

Lemma triangular_rel (a b b' : mtx) u j j' : rel_col j j' b b' ->
  sim (rel_col j j') (solve_triangular a b u) (solve_triangular a b' u).
Proof. intros h. apply system_rel with (d := fun i => get a i i); auto. intros sq. apply at2_diag; auto. Qed.

Lemma solvec_rel (a b b' : mtx) j j' : rel_col j j' b b' -> sim (rel_col j j') (solvec a b) (solvec a b').
Proof.
  intros h. unfold solvec. apply sim_bind with (R := eq); [apply sim_refl; auto|]. intros l ? <-.
  apply sim_bind with (R := rel_col j j'); [apply triangular_rel; auto|]. intros x x' hx. apply triangular_rel; auto.
Qed.

Lemma reflect_cols_rel (r : reflection N) (m m' : mtx) j j' : bias r = n0 N -> length (axis r) = nr m -> rel_col j j' m m' ->
  sim (rel_col j j') (reflect_cols r m) (reflect_cols r m').
Proof.
  intros hb0 hl (h1 & h2 & h3 & h4).
  destruct (wp_ret _ _ (reflect_cols_ok r m hl)) as (x & -> & x1 & x2 & x3).
  destruct (wp_ret _ _ (reflect_cols_ok r m' (eq_trans hl h1))) as (y & -> & y1 & y2 & y3).
  cbn. split; [congruence|]. split; [lia|]. split; [lia|]. rewrite x1. intros i hi. rewrite x3, y3 by (auto; lia).
  unfold refl_entry. rewrite <- h1, hb0. apply (l_add _ _ hL); auto. apply (l_mul_r _ _ hL), (l_mul_r _ _ hL), (l_sub0 _ _ hL). apply sumn_rel. intros k hk. apply (l_mul_l _ _ hL); auto.
Qed.

Lemma qt_mul_rel (d : qrdecomp N) (b b' : mtx) j j' : qr_wf d -> nr b = nr (qr d) -> rel_col j j' b b' ->
  sim (rel_col j j') (qt_mul d b) (qt_mul d b').
Proof.
  intros (w1 & w2) hb hs. unfold qt_mul.
  eapply sim_mono; [apply sim_for with (R := fun _ x x' => nr x = nr b /\ rel_col j j' x x')|]; [auto| |intros x x' h; apply h].
  intros i x x' hi (hx & h1 & h2 & h3 & h4). apply sim_bind with (R := fun a a' => a = a' /\ length a = nr (qr d) - i).
  { unfold col_from. destruct (_ && _) eqn:e; cbn; auto. split; auto. apply length_vmk. }
  intros ax ? (<- & hax).
  assert (e1 : slice x i (nr x) 0 (nc x) = Ret (mk (nr x - i) (nc x) (fun p q => get x (i + p) q))).
  { destruct (wp_ret (slice x i (nr x) 0 (nc x)) (fun s => s = mk (nr x - i) (nc x) (fun p q => get x (i + p) q))) as (s & -> & ->); auto.
    apply post_slice; try lia. rewrite Nat.sub_0_r. reflexivity. }
  assert (e2 : slice x' i (nr x') 0 (nc x') = Ret (mk (nr x' - i) (nc x') (fun p q => get x' (i + p) q))).
  { destruct (wp_ret (slice x' i (nr x') 0 (nc x')) (fun s => s = mk (nr x' - i) (nc x') (fun p q => get x' (i + p) q))) as (s & -> & ->); auto.
    apply post_slice; try lia. rewrite Nat.sub_0_r. reflexivity. }
  rewrite e1, e2. cbn [bind].
  apply sim_bind with (R := fun y y' => nr y = nr x - i /\ nc y = nc x /\ nc y' = nc x' /\ rel_col j j' y y').
  { set (m := mk _ _ _). set (m' := mk _ _ _).
    assert (hm : length (axis (Refl (N:=N) ax (n0 N))) = nr m) by (cbn; lia).
    assert (hc : rel_col j j' m m').
    { split; [cbn; lia|]. split; [cbn; lia|]. split; [cbn; lia|]. intros p hp. cbn in hp. unfold m, m'. rewrite !get_mk by lia. apply h4. lia. }
    pose proof (reflect_cols_rel (Refl (N:=N) ax (n0 N)) m m' j j' eq_refl hm hc) as hr.
    destruct (wp_ret _ _ (reflect_cols_ok _ m hm)) as (y & ey & y1 & y2 & _).
    destruct (wp_ret _ _ (reflect_cols_ok (Refl (N:=N) ax (n0 N)) m' (eq_trans hm (proj1 hc)))) as (y' & ey' & z1 & z2 & _).
    rewrite ey, ey' in *. cbn in hr |- *. cbn in y1, y2, z2. auto. }
  intros y y' (y1 & y2 & y3 & y4 & y5 & y6 & y7). apply sim_bind with (R := eq); [apply sim_refl; auto|]. intros di ? <-.
  cbn. split; [dims; lia|]. split; [dims; lia|]. split; [dims; lia|]. split; [dims; lia|].
  intros p hp. dims. unfold put. rewrite !get_mk by (dims; lia). 
  change (nr (mscale y (nsignum N di))) with (nr y). change (nr (mscale y' (nsignum N di))) with (nr y').
  change (nc (mscale y (nsignum N di))) with (nc y). change (nc (mscale y' (nsignum N di))) with (nc y').
  rewrite <- y4, y1, y2, y3. replace (j <? 0 + nc x) with true by (symmetry; apply Nat.ltb_lt; lia).
  replace (j' <? 0 + nc x') with true by (symmetry; apply Nat.ltb_lt; lia). rewrite !Nat.sub_0_r. cbn [Nat.leb]. rewrite !andb_true_r.
  destruct (_ && _)%bool eqn:ea; [|apply h4; lia]. apply andb_prop in ea as (ea & eb).
  apply Nat.leb_le in ea. apply Nat.ltb_lt in eb. rewrite !get_mscale by lia. apply (l_mul_r _ _ hL). apply y7. lia.
Qed.

Lemma slice_rel (b b' : mtx) n j j' : n <= nr b -> rel_col j j' b b' ->
  sim (fun x x' => nr x = n /\ rel_col j j' x x') (slice b 0 n 0 (nc b)) (slice b' 0 n 0 (nc b')).
Proof.
  intros hn (h1 & h2 & h3 & h4). unfold slice. rewrite <- h1.
  destruct (Nat.leb_spec n (nr b)); [|lia]. rewrite !Nat.leb_refl. cbn [andb Nat.leb sim].
  unfold rel_col. cbn [nr nc mk]. rewrite !Nat.sub_0_r. repeat (split; auto). intros i hi. rewrite !get_mk by auto. cbn. apply h4. lia.
Qed.

Lemma qr_solve_rel (d : qrdecomp N) (b b' : mtx) j j' : qr_wf d -> rel_col j j' b b' ->
  sim (rel_col j j') (qr_solve d b) (qr_solve d b').
Proof.
  intros hw hs. unfold qr_solve. destruct hs as (h1 & hs). rewrite <- h1. destruct (Nat.eqb_spec (nr (qr d)) (nr b)) as [e|]; [|cbn; auto].
  cbn [negb]. destruct (is_invertible d); [|cbn; auto]. cbn [negb].
  assert (hs' : rel_col j j' b b') by (split; auto).
  apply sim_bind with (R := fun x x' => nr x = nr (qr d) /\ rel_col j j' x x').
  { pose proof (qt_mul_rel d b b' j j' hw (eq_sym e) hs') as hq.
    destruct (wp_ret _ _ (qt_mul_safe d b hw (eq_sym e))) as (x & ex & x1 & x2). rewrite ex in *.
    destruct (qt_mul d b'); cbn in hq |- *; try contradiction. split; [congruence|auto]. }
  intros x x' (hx & hc). eapply sim_bind; [apply slice_rel with (n := nc (qr d)); [destruct hw; lia|exact hc]|].
  intros y y' (hy & hc'). apply sim_bind with (R := fun r r' => r = r' /\ nr r = nc (qr d)).
  { unfold slice. destruct (_ && _)%bool; cbn; auto. split; auto. lia. }
  intros r ? (<- & hr). apply system_rel with (d := fun i => nabs N (vget (qdiag d) i)); auto.
  intros _ i hi. apply diag_fn_ok with (n := nc (qr d)); auto. lia.
Qed.

Lemma qr_solve_tr_rel (d : qrdecomp N) (b b' : mtx) j j' : qr_wf d -> rel_col j j' b b' ->
  sim (rel_col j j') (qr_solve_tr d b) (qr_solve_tr d b').
Proof.
  intros hw (h1 & hs). unfold qr_solve_tr. rewrite <- h1. destruct (Nat.eqb_spec (nc (qr d)) (nr b)) as [e|]; [|cbn; auto].
  cbn [negb]. destruct (is_invertible d); [|cbn; auto]. cbn [negb].
  assert (hs' : rel_col j j' b b') by (split; auto).
  apply sim_bind with (R := fun r r' => r = r' /\ nr r = nc (qr d) /\ nc r = nc (qr d)).
  { unfold slice. destruct (_ && _)%bool; cbn; auto. split; auto. lia. }
  intros r ? (<- & hr & hr'). apply sim_bind with (R := rel_col j j').
  { apply system_rel with (d := fun i => nabs N (vget (qdiag d) i)); auto.
    intros _ i hi. apply diag_fn_ok with (n := nc (qr d)); auto. cbn in hi. lia. }
  intros x x' (x1 & x2 & x3 & x4). apply sim_bind with (R := eq); [apply sim_refl; auto|]. intros q ? <-.
  unfold dot2. rewrite <- x1. destruct (Nat.eqb_spec (nc q) (nr x)) as [eq|]; cbn; auto. split; [reflexivity|]. split; [cbn; lia|]. split; [cbn; lia|].
  intros i hi. cbn in hi. rewrite !get_mk by auto. apply sumn_rel. intros k hk. apply (l_mul_l _ _ hL). apply x4. lia.
Qed.

Lemma least_squares_rel (a b b' : mtx) j j' : rel_col j j' b b' ->
  sim (rel_col j j') (least_squares a b) (least_squares a b').
Proof.
  intros hs. unfold least_squares. destruct (nc a <=? nr a).
  - pose proof (qr_class a) as hc. destruct (qr_into a); cbn; auto. apply qr_solve_rel; auto. apply hc.
  - pose proof (qr_class (transpose a)) as hc. destruct (qr_into (transpose a)); cbn; auto. apply qr_solve_tr_rel; auto. apply hc.
Qed.
End Lin.
