(** * triangular.rs in floating point *)
From Coq Require Import Reals List Arith Lia Lra Bool.
From Verif Require Import Scalar Arr MBase MDirect Inst Hoare Spec SpecF RLin PTri PRound.
Import ListNotations.
Open Scope res_scope.

(** ** The operations performed, for any scalar type *)
Section Generic.
Context {N : Num}.
Notation mtx := (mat N).

(** b - x 0 * t 0 - ... - x (m-1) * t (m-1), in this order *)
Fixpoint elim (t x : nat -> N) (b : N) (m : nat) : N :=
  match m with
  | 0 => b
  | S k => nadd N (elim t x b k) (nmul N (nopp N (x k)) (t k))
  end.
Lemma elim_ext t x t' x' b m : (forall k, k < m -> t k = t' k /\ x k = x' k) ->
  elim t x b m = elim t' x' b m.
Proof.
  intros h. induction m as [|m IH]; simpl; auto.
  rewrite IH by auto. destruct (h m) as [-> ->]; auto.
Qed.

(** k-th index eliminated, and how many are eliminated before index r *)
Definition ord (u : UPLO) (n k : nat) : nat := match u with Lower => k | Upper => n - 1 - k end.

Lemma solve_row_exact (a b : mtx) u diag_fn d k i : nr a = nc a -> nr b = nr a -> k < nc b -> i < nr a ->
  diag_fn i = Ret d ->
  wp (solve_row a u diag_fn k i b) (fun y => nr y = nr b /\ nc y = nc b /\
    forall p j, p < nr b -> j < nc b -> get y p j =
      if Nat.eqb j k then
        if Nat.eqb p i then ndiv N (get b i k) d
        else if match u with Lower => Nat.ltb i p | Upper => Nat.ltb p i end
             then nadd N (get b p k) (nmul N (nopp N (ndiv N (get b i k) d)) (get a p i))
             else get b p k
      else get b p j).
Proof.
  intros sq hb hk hi hd. unfold solve_row. rewrite hd. step1. step1. steps.
  destruct u; simpl is_upper; cbv iota; steps; dims; repeat split; auto; intros p j hp hj.
  - rewrite get_put_col by dlia. dims. simpl.
    destruct (Nat.eqb_spec j k) as [->|nj]; cbn [andb].
    + rewrite andb_true_r. destruct (Nat.ltb_spec p i).
      * rewrite Nat.sub_0_r. rewrite !vget_vmk by lia. rewrite get_upd by lia. bd. auto.
      * rewrite get_upd by lia. bd; auto.
    + rewrite andb_false_r. rewrite get_upd by lia. bd; auto.
  - rewrite get_put_col by dlia. dims.
    destruct (Nat.eqb_spec j k) as [->|nj]; cbn [andb].
    + rewrite andb_true_r. destruct (Nat.leb_spec (i + 1) p).
      * bd. cbn [andb]. rewrite !vget_vmk by lia. rewrite get_upd by lia.
        replace (i + 1 + (p - (i + 1))) with p by lia. bd. auto.
      * cbn [andb]. rewrite get_upd by lia. bd; auto.
    + rewrite andb_false_r. rewrite get_upd by lia. bd; auto.
Qed.

(** row [p] of the solution [x], right-hand side column [k] of [b] *)
Definition row_val (a b x : mtx) (u : UPLO) (k p m : nat) : N :=
  elim (fun q => get a p (ord u (nr a) q)) (fun q => get x (ord u (nr a) q) k) (get b p k) m.

Lemma solve_col_exact (a b : mtx) u diag_fn d k : nr a = nc a -> nr b = nr a -> k < nc b ->
  (forall i, i < nr a -> diag_fn i = Ret (d i)) ->
  wp (if is_upper u then for_rev (nr a) (solve_row a u diag_fn k) b
      else for_ (nr a) 0 (solve_row a u diag_fn k) b) (fun x =>
    nr x = nr b /\ nc x = nc b /\
    (forall i j, i < nr b -> j < nc b -> j <> k -> get x i j = get b i j) /\
    (forall p, p < nr a -> get x p k = ndiv N (row_val a b x u k p (ord u (nr a) p)) (d p))).
Proof.
  intros sq hb hk hd. destruct u; simpl is_upper; cbv iota; unfold row_val, ord; set (n := nr a) in *.
  - eapply post_for_rev with (I := fun i x => nr x = nr b /\ nc x = nc b /\
      (forall p j, p < nr b -> j < nc b -> j <> k -> get x p j = get b p j) /\
      (forall p, p < i -> get x p k = elim (fun q => get a p (n - 1 - q)) (fun q => get x (n - 1 - q) k) (get b p k) (n - i)) /\
      (forall p, i <= p < n -> get x p k =
         ndiv N (elim (fun q => get a p (n - 1 - q)) (fun q => get x (n - 1 - q) k) (get b p k) (n - 1 - p)) (d p))).
    + repeat split; auto; try lia. intros. rewrite Nat.sub_diag. reflexivity.
    + intros i x hi (h1 & h2 & h3 & h4 & h5).
      eapply post_mono; [apply (solve_row_exact a x Upper diag_fn (d i)); auto; lia|].
      intros y (g1 & g2 & g3). repeat split; try congruence.
      * intros p j hp hj ne. rewrite g3 by lia. bd. apply h3; auto.
      * intros p hp. replace (n - i) with (S (n - S i)) by lia. cbn [elim].
        replace (n - 1 - (n - S i)) with i by lia.
        rewrite (elim_ext _ _ (fun q => get a p (n - 1 - q)) (fun q => get x (n - 1 - q) k)).
        -- rewrite <- h4 by lia. rewrite !g3 by lia. bd. reflexivity.
        -- intros q hq. split; auto. rewrite g3 by lia. bd. auto.
      * intros p hp.
        rewrite (elim_ext _ _ (fun q => get a p (n - 1 - q)) (fun q => get x (n - 1 - q) k)).
        -- rewrite g3 by lia. bd.
           ++ subst p. rewrite h4 by lia. f_equal. f_equal. lia.
           ++ apply h5. lia.
        -- intros q hq. split; auto. rewrite g3 by lia. bd. auto.
    + intros x (h1 & h2 & h3 & h4 & h5). repeat split; auto. intros. apply h5. lia.
  - eapply post_for' with (I := fun i x => nr x = nr b /\ nc x = nc b /\
      (forall p j, p < nr b -> j < nc b -> j <> k -> get x p j = get b p j) /\
      (forall p, i <= p < n -> get x p k = elim (fun q => get a p q) (fun q => get x q k) (get b p k) i) /\
      (forall p, p < i -> get x p k = ndiv N (elim (fun q => get a p q) (fun q => get x q k) (get b p k) p) (d p))).
    + repeat split; auto; try lia.
    + intros i x hi (h1 & h2 & h3 & h4 & h5).
      eapply post_mono; [apply (solve_row_exact a x Lower diag_fn (d i)); auto; try lia; apply hd; lia|].
      intros y (g1 & g2 & g3). repeat split; try congruence.
      * intros p j hp hj ne. rewrite g3 by lia. bd. apply h3; auto.
      * intros p hp. cbn [elim].
        rewrite (elim_ext _ _ (fun q => get a p q) (fun q => get x q k)).
        -- rewrite <- h4 by lia. rewrite !g3 by lia. bd. reflexivity.
        -- intros q hq. split; auto. rewrite g3 by lia. bd. auto.
      * intros p hp.
        rewrite (elim_ext _ _ (fun q => get a p q) (fun q => get x q k)).
        -- rewrite g3 by lia. bd.
           ++ subst p. rewrite h4 by lia. reflexivity.
           ++ apply h5. lia.
        -- intros q hq. split; auto. rewrite g3 by lia. bd. auto.
    + intros x (h1 & h2 & h3 & h4 & h5). repeat split; auto.
Qed.

Lemma solve_system_exact (a b : mtx) u diag_fn d : nr a = nc a -> nr b = nr a ->
  (forall i, i < nr a -> diag_fn i = Ret (d i)) ->
  wp (solve_triangular_system a b u diag_fn) (fun x =>
    nr x = nr b /\ nc x = nc b /\
    forall p k, p < nr a -> k < nc b ->
      get x p k = ndiv N (row_val a b x u k p (ord u (nr a) p)) (d p)).
Proof.
  intros sq hb hd. unfold solve_triangular_system. step1. step1; [|lia]. intros _.
  bd; simpl negb; cbv iota.
  eapply post_for' with (I := fun j x => nr x = nr b /\ nc x = nc b /\
    (forall i q, i < nr b -> j <= q < nc b -> get x i q = get b i q) /\
    (forall p q, p < nr a -> q < j ->
       get x p q = ndiv N (row_val a b x u q p (ord u (nr a) p)) (d p))).
  - repeat split; auto; lia.
  - intros k x hk (h1 & h2 & h3 & h4).
    eapply post_mono; [apply (solve_col_exact a x u diag_fn d k); auto; lia|].
    intros y (g1 & g2 & g3 & g4). repeat split; try congruence.
    + intros. rewrite g3 by lia. apply h3; lia.
    + intros p q hp hq. unfold row_val in *. destruct (Nat.eq_dec q k) as [->|].
      * rewrite g4 by auto. rewrite h3 by lia. reflexivity.
      * rewrite g3 by lia. rewrite h4 by lia. f_equal. apply elim_ext.
        intros. split; auto. rewrite g3; auto; try lia. destruct u; unfold ord in *; lia.
  - intros x (h1 & h2 & h3 & h4). repeat split; auto.
Qed.
End Generic.

(** ** Rounding errors *)
Local Open Scope R_scope.

Lemma elim_std (t x : nat -> FN) b m :
  (forall j, (j < m)%nat -> fvalid (t j) /\ fvalid (x j)) -> fvalid b -> ffin (elim t x b m) ->
  ffin b /\ (forall j, (j < m)%nat -> ffin (t j) /\ ffin (x j)) /\
  exists D c e, (forall j, (j < m)%nat -> near (S j) (D j)) /\ near m c /\
    Rabs e <= INR m * (1 + uro) ^ m * eta /\
    fr b = Rsum m (fun j => fr (t j) * D j * fr (x j)) + fr (elim t x b m) * c + e.
Proof.
  intros hv hb. 
  assert (hve : forall k, (k <= m)%nat -> fvalid (elim t x b k)).
  { induction k as [|k IH]; intros hk; simpl; auto. destruct (hv k hk).
    apply fvalid_add; [apply IH; lia|]. apply fvalid_mul; [apply fvalid_opp|]; auto. }
  induction m as [|m IH]; intros hf.
  - split; [exact hf|]. split; [intros; lia|]. exists (fun _ => 1), 1, 0.
    split; [intros; lia|]. split; [apply near_1|]. split; [simpl; rewrite Rabs_R0; lra|].
    simpl. lra.
  - cbn [elim] in hf. destruct (hv m ltac:(lia)) as [vt vx].
    destruct (add_std _ _ (hve m ltac:(lia)) (fvalid_mul _ _ (fvalid_opp _ vx) vt) hf) as (f1 & f2 & d & hd & e1).
    destruct (mul_std _ _ (fvalid_opp _ vx) vt f2) as (f3 & f4 & d' & ep & hd' & hep & e2).
    rewrite ffin_opp in f3. rewrite fr_opp in e2.
    destruct IH as (g1 & g2 & D & c & e & g3 & g4 & g5 & g6); auto.
    split; auto. split.
    { intros j hj. destruct (Nat.eq_dec j m) as [->|]; auto. apply g2. lia. }
    exists (fun j => if Nat.eqb j m then c * (1 + d') else D j), (c * / (1 + d)), (e - c * ep).
    split; [|split; [|split]].
    + intros j hj. destruct (Nat.eqb_spec j m) as [->|].
      * replace (S m) with (m + 1)%nat by lia. apply near_mul; auto. now apply near_dlt.
      * apply g3. lia.
    + replace (S m) with (m + 1)%nat by lia. apply near_mul; auto. now apply near_inv.
    + eapply Rle_trans; [apply Rabs_triang|]. rewrite Rabs_Ropp, Rabs_mult.
      pose proof (near_abs _ _ g4). pose proof (pow_u_mono m (S m) ltac:(lia)). pose proof eta_pos.
      pose proof (pow_u_ge1 m). pose proof (pos_INR m).
      assert (Rabs c * Rabs ep <= (1 + uro) ^ S m * eta)
        by (apply Rmult_le_compat; try apply Rabs_pos; lra).
      assert (INR m * (1 + uro) ^ m * eta <= INR m * (1 + uro) ^ S m * eta).
      { rewrite !Rmult_assoc. apply Rmult_le_compat_l; auto. apply Rmult_le_compat_r; lra. }
      rewrite S_INR. lra.
    + cbn [Rsum]. rewrite Nat.eqb_refl.
      rewrite (Rsum_ext m _ (fun j => fr (t j) * D j * fr (x j))).
      2:{ intros j hj. bd. reflexivity. }
      rewrite g6 at 1. cbn [elim]. rewrite e1, e2. pose proof (dlt_pos _ hd).
      field. lra.
Qed.


Lemma solve_row_std (t x : nat -> FN) b d m xr :
  (forall j, (j < m)%nat -> fvalid (t j) /\ fvalid (x j)) -> fvalid b -> fvalid d -> ffin d ->
  xr = ndiv FN (elim t x b m) d -> ffin xr ->
  ffin b /\ (forall j, (j < m)%nat -> ffin (t j) /\ ffin (x j)) /\ fr d <> 0 /\
  exists D c e, (forall j, (j < m)%nat -> near (S j) (D j)) /\ near (S m) c /\
    Rabs e <= (1 + uro) ^ (S m) * (INR m + Rabs (fr d)) * eta /\
    Rsum m (fun j => fr (t j) * D j * fr (x j)) + fr d * c * fr xr = fr b + e.
Proof.
  intros hv hb hd fd hx fx. subst xr.
  assert (hve : forall k, (k <= m)%nat -> fvalid (elim t x b k)).
  { induction k as [|k IH]; intros hk; simpl; auto. destruct (hv k hk).
    apply fvalid_add; [apply IH; lia|]. apply fvalid_mul; [apply fvalid_opp|]; auto. }
  destruct (div_std _ _ (hve m (le_n m)) hd fd fx) as (f1 & f2 & ph & ep & hph & hep & e1).
  destruct (elim_std t x b m hv hb f1) as (g1 & g2 & D & c & e & g3 & g4 & g5 & g6).
  split; auto. split; auto. split; auto.
  exists D, (c * / (1 + ph)), (c * / (1 + ph) * (fr d * ep) - e).
  assert (hc : near (S m) (c * / (1 + ph))).
  { replace (S m) with (m + 1)%nat by lia. apply near_mul; auto. now apply near_inv. }
  split; auto. split; auto. split.
  - eapply Rle_trans; [apply Rabs_triang|]. rewrite Rabs_Ropp, Rabs_mult, (Rabs_mult (fr d)).
    pose proof (near_abs _ _ hc). pose proof eta_pos. pose proof (pow_u_mono m (S m) ltac:(lia)).
    pose proof (pow_u_ge1 m). pose proof (pos_INR m). pose proof (Rabs_pos (fr d)).
    assert (Rabs (c * / (1 + ph)) * (Rabs (fr d) * Rabs ep) <= (1 + uro) ^ S m * (Rabs (fr d) * eta)).
    { apply Rmult_le_compat; auto; [apply Rabs_pos|apply Rmult_le_pos; apply Rabs_pos|].
      apply Rmult_le_compat_l; auto. }
    assert (INR m * (1 + uro) ^ m * eta <= INR m * (1 + uro) ^ S m * eta).
    { rewrite !Rmult_assoc. apply Rmult_le_compat_l; auto. apply Rmult_le_compat_r; lra. }
    lra.
  - rewrite g6. pose proof (dlt_pos _ hph).
    rewrite e1. field. lra.
Qed.

(** finite choice *)
Lemma fin_choice {A} (a0 : A) n (P : nat -> A -> Prop) :
  (forall i, (i < n)%nat -> exists y, P i y) -> exists f, forall i, (i < n)%nat -> P i (f i).
Proof.
  induction n as [|n IH]; intros h.
  - exists (fun _ => a0). intros; lia.
  - destruct IH as [f hf]; [intros; apply h; lia|]. destruct (h n ltac:(lia)) as [y hy].
    exists (fun i => if Nat.eqb i n then y else f i). intros i hi.
    destruct (Nat.eqb_spec i n) as [->|]; auto. apply hf. lia.
Qed.

Lemma Rsum_rev n m f : (m <= n)%nat ->
  Rsum n (fun j => if Nat.leb (n - m) j then f j else 0) = Rsum m (fun q => f (n - 1 - q)%nat).
Proof.
  induction m as [|m IH]; intros hm.
  - simpl. apply Rsum_0. intros. bd. auto.
  - cbn [Rsum]. rewrite <- IH by lia.
    rewrite <- (Rsum_delta n (n - 1 - m) f) by lia. rewrite <- Rsum_plus. apply Rsum_ext.
    intros j hj. bd; subst; try lia; lra.
Qed.

Lemma elim_valid (t x : nat -> FN) b m :
  (forall j, (j < m)%nat -> fvalid (t j) /\ fvalid (x j)) -> fvalid b -> fvalid (elim t x b m).
Proof.
  intros hv hb. induction m as [|k IH]; simpl; auto. destruct (hv k) as [h1 h2]; auto.
  apply fvalid_add; [apply IH; auto|]. apply fvalid_mul; [apply fvalid_opp|]; auto.
Qed.

Lemma solution_valid (a b x : mat FN) u d : mvalid a -> mvalid b -> nr a = nc a -> nr b = nr a ->
  nr x = nr b -> nc x = nc b -> (forall i, (i < nr a)%nat -> fvalid (d i)) ->
  (forall p k, (p < nr a)%nat -> (k < nc b)%nat ->
      get x p k = ndiv FN (row_val a b x u k p (ord u (nr a) p)) (d p)) -> mvalid x.
Proof.
  intros ha hb sq h1 h2 h3 hd he.
  assert (h : forall k s q, (k < nc b)%nat -> (q < s)%nat -> (q < nr a)%nat ->
            fvalid (get x (ord u (nr a) q) k)).
  { intros k. induction s as [|s IH]; intros q hk hq hn; [lia|].
    assert (ho : (ord u (nr a) q < nr a)%nat) by (destruct u; unfold ord; lia).
    rewrite he by auto. apply fvalid_div; auto. unfold row_val.
    replace (ord u (nr a) (ord u (nr a) q)) with q by (destruct u; unfold ord; lia).
    apply elim_valid; [|apply hb; lia]. intros j hj. split.
    - apply ha; auto. destruct u; unfold ord; lia.
    - apply IH; auto; lia. }
  intros p k hp hk. specialize (h k (S (ord u (nr a) p)) (ord u (nr a) p)).
  replace (ord u (nr a) (ord u (nr a) p)) with p in h by (destruct u; unfold ord; lia).
  apply h; try lia. destruct u; unfold ord; lia.
Qed.

Lemma tri_part_sum u n d A D x p : (p < n)%nat ->
  Rsum n (fun j => tri_part u d A p j * D j * x j) =
  Rsum (ord u n p) (fun q => A p (ord u n q) * D (ord u n q) * x (ord u n q)) + d p * D p * x p.
Proof.
  intros hp. rewrite <- (Rsum_delta n p (fun j => d p * D j * x j)) by auto.
  destruct u; unfold ord.
  - rewrite <- (Rsum_rev n (n - 1 - p) (fun j => A p j * D j * x j)) by lia.
    rewrite <- Rsum_plus. apply Rsum_ext. intros j hj. unfold tri_part.
    bd; subst; try lia; lra.
  - rewrite <- (Rsum_if_lt n p (fun j => A p j * D j * x j)) by lia.
    rewrite <- Rsum_plus. apply Rsum_ext. intros j hj. unfold tri_part.
    bd; subst; try lia; lra.
Qed.

Lemma system_backward (a b x : mat FN) u diag_fn d k :
  nr a = nc a -> nr b = nr a -> mvalid a -> mvalid b ->
  (forall i, (i < nr a)%nat -> diag_fn i = Ret (d i)) ->
  (forall i, (i < nr a)%nat -> fvalid (d i) /\ ffin (d i)) ->
  solve_triangular_system a b u diag_fn = Ret x -> (k < nc b)%nat ->
  (forall i, (i < nr a)%nat -> ffin (get x i k)) ->
  let n := nr a in let T := tri_part u (fun i => fr (d i)) (frm a) in
  mvalid x /\
  (forall i, (i < n)%nat -> ffin (get b i k) /\ fr (d i) <> 0) /\
  (forall i j, (i < n)%nat -> (j < n)%nat -> ~ outside u i j -> i <> j -> ffin (get a i j)) /\
  exists D e, (forall i j, (i < n)%nat -> (j < n)%nat -> near n (D i j)) /\
    (forall i, (i < n)%nat -> Rabs (e i) <= (1 + uro) ^ n * (INR n + Rabs (fr (d i))) * eta) /\
    (forall i, (i < n)%nat -> Rsum n (fun j => T i j * D i j * frm x j k) = frm b i k + e i).
Proof.
  intros sq hb va vb hdf hd hs hk hfx n T.
  pose proof (post_inv _ _ _ _ _ (solve_system_exact a b u diag_fn d sq hb hdf) hs) as (h1 & h2 & h3).
  assert (vx : mvalid x) by (apply (solution_valid a b x u d); auto; intros; apply hd; auto).
  fold n in h3, hfx, hd.
  assert (hrow : forall i, (i < n)%nat -> ffin (get b i k) /\ fr (d i) <> 0 /\
     (forall j, (j < n)%nat -> ~ outside u i j -> i <> j -> ffin (get a i j)) /\
     exists De : (nat -> R) * R, (forall j, (j < n)%nat -> near n (fst De j)) /\
       Rabs (snd De) <= (1 + uro) ^ n * (INR n + Rabs (fr (d i))) * eta /\
       Rsum n (fun j => T i j * fst De j * frm x j k) = frm b i k + snd De).
  { intros i hi. set (m := ord u n i).
    assert (hm : (m < n)%nat) by (unfold m; destruct u; unfold ord; lia).
    destruct (solve_row_std (fun q => get a i (ord u n q)) (fun q => get x (ord u n q) k) (get b i k) (d i) m
                (get x i k)) as (g1 & g2 & g3 & D & c & e & g4 & g5 & g6 & g7).
    - intros j hj. split; [apply va|apply vx]; try lia; destruct u; unfold ord; lia.
    - apply vb; lia.
    - apply hd; auto.
    - apply hd; auto.
    - apply h3; auto.
    - auto.
    - split; [exact g1|]. split; [exact g3|]. split.
      { intros j hj ho hij.
        assert (hq : (ord u n j < m)%nat) by (unfold m; destruct u; unfold ord, outside in *; lia).
        destruct (g2 _ hq) as [hh _].
        replace (ord u n (ord u n j)) with j in hh by (destruct u; unfold ord; lia). exact hh. }
      exists (fun j => if Nat.eqb j i then c else if Nat.ltb (ord u n j) m then D (ord u n j) else 1, e).
      cbn [fst snd]. split; [|split].
      + intros j hj. destruct (Nat.eqb_spec j i); [apply near_mono with (S m); [lia|auto]|].
        destruct (Nat.ltb_spec (ord u n j) m); [|apply near_1].
        apply near_mono with (S (ord u n j)); [lia|auto].
      + eapply Rle_trans; [exact g6|]. apply Rmult_le_compat_r; [left; apply eta_pos|].
        pose proof (pos_INR m). pose proof (Rabs_pos (fr (d i))). pose proof (pow_u_ge1 (S m)).
        apply Rmult_le_compat; try lra; [apply pow_u_mono; lia|].
        pose proof (le_INR m n ltac:(lia)). lra.
      + unfold T. rewrite tri_part_sum by auto. fold m. rewrite Nat.eqb_refl. unfold frm. rewrite <- g7.
        f_equal. apply Rsum_ext. intros q hq.
        replace (ord u n (ord u n q)) with q by (destruct u; unfold m, ord in *; lia).
        destruct (Nat.eqb_spec (ord u n q) i); [destruct u; unfold m, ord in *; lia|]. bd. reflexivity. }
  split; [exact vx|]. split; [intros i hi; destruct (hrow i hi) as (? & ? & _); auto|].
  split; [intros i j hi; destruct (hrow i hi) as (_ & _ & ? & _); auto|].
  destruct (fin_choice (fun _ : nat => 0, 0) n (fun i De => (forall j, (j < n)%nat -> near n (fst De j)) /\
       Rabs (snd De) <= (1 + uro) ^ n * (INR n + Rabs (fr (d i))) * eta /\
       Rsum n (fun j => T i j * fst De j * frm x j k) = frm b i k + snd De)) as [f hf].
  { intros i hi. destruct (hrow i hi) as (_ & _ & _ & h). exact h. }
  exists (fun i => fst (f i)), (fun i => snd (f i)).
  split; [intros i j hi hj; apply (hf i hi); auto|].
  split; intros i hi; apply (hf i hi).
Qed.

Lemma solve_triangular_backward (a b x : mat FN) u k :
  mvalid a -> mvalid b -> (forall i, (i < nr a)%nat -> ffin (get a i i)) ->
  solve_triangular a b u = Ret x -> (k < nc b)%nat ->
  (forall i, (i < nr a)%nat -> ffin (get x i k)) ->
  let n := nr a in let T := tri_of u (frm a) in
  (forall i, (i < n)%nat -> ffin (get b i k) /\ frm a i i <> 0) /\
  (forall i j, (i < n)%nat -> (j < n)%nat -> ~ outside u i j -> ffin (get a i j)) /\
  exists dT db, (forall i j, (i < n)%nat -> (j < n)%nat -> Rabs (dT i j) <= gam n * Rabs (T i j)) /\
    (forall i, (i < n)%nat -> Rabs (db i) <= (1 + uro) ^ n * (INR n + Rabs (frm a i i)) * eta) /\
    (forall i, (i < n)%nat -> Rsum n (fun j => madd T dT i j * frm x j k) = frm b i k + db i).
Proof.
  intros va vb hfd hs hk hfx n T.
  assert (hcl := solve_triangular_class a b u). rewrite hs in hcl. destruct hcl as (sq & hb & h1 & h2).
  destruct (system_backward a b x u (fun i => at2 a i i) (fun i => get a i i) k sq hb va vb)
    as (vx & g1 & g2 & D & e & g3 & g4 & g5); auto.
  - intros. unfold at2. bd. reflexivity.
  - intros. split; auto. apply va; lia.
  - fold n in g1, g2, g3, g4, g5. split; [exact g1|]. split.
    { intros i j hi hj ho. destruct (Nat.eq_dec i j) as [->|]; auto. }
    pose proof (tri_of_part n u (frm a)) as ht.
    exists (fun i j => T i j * (D i j - 1)), e. split; [|split; [exact g4|]].
    + intros i j hi hj. rewrite Rabs_mult, Rmult_comm. apply Rmult_le_compat_r; [apply Rabs_pos|].
      apply (g3 i j hi hj).
    + intros i hi. rewrite <- g5 by auto. apply Rsum_ext. intros j hj. rewrite <- ht by auto.
      fold T. unfold madd. ring.
Qed.
