(** * svd.rs in binary64: a NaN in the first column reaches every entry and the iteration never ends *)
From Coq Require Import ZArith List Arith Lia Bool.
From Coq.Floats Require Import SpecFloat.
From Verif Require Import Scalar Arr MBase MDirect MDecomp MEigh MSvd Inst Hoare PTri PHouse PGivens PTrid PBid PEigh PSvd.
Import ListNotations.
Open Scope res_scope.

Notation nan := (S754_nan : FN).

Lemma nan_add_l (x : FN) : nadd FN nan x = nan. Proof. reflexivity. Qed.
Lemma nan_add_r (x : FN) : nadd FN x nan = nan. Proof. destruct x; reflexivity. Qed.
Lemma nan_sub_l (x : FN) : nsub FN nan x = nan. Proof. reflexivity. Qed.
Lemma nan_sub_r (x : FN) : nsub FN x nan = nan. Proof. destruct x; reflexivity. Qed.
Lemma nan_mul_l (x : FN) : nmul FN nan x = nan. Proof. reflexivity. Qed.
Lemma nan_mul_r (x : FN) : nmul FN x nan = nan. Proof. destruct x; reflexivity. Qed.
Lemma nan_div_l (x : FN) : ndiv FN nan x = nan. Proof. reflexivity. Qed.
Lemma nan_div_r (x : FN) : ndiv FN x nan = nan. Proof. destruct x; reflexivity. Qed.
Lemma nan_opp : nopp FN nan = nan. Proof. reflexivity. Qed.
Lemma nan_abs : nabs FN nan = nan. Proof. reflexivity. Qed.
Lemma nan_sqrt : nsqrt FN nan = nan. Proof. reflexivity. Qed.
Lemma nan_sign : nsignum FN nan = nan. Proof. reflexivity. Qed.
Lemma nan_hypot : nhypot FN nan nan = nan. Proof. reflexivity. Qed.
Lemma nan_le_l (x : FN) : nle FN nan x = false. Proof. reflexivity. Qed.
Lemma nan_le_r (x : FN) : nle FN x nan = false. Proof. destruct x; reflexivity. Qed.
Lemma nan_zero : nis_zero FN nan = false. Proof. reflexivity. Qed.
Ltac nn := rewrite ?nan_abs, ?nan_opp, ?nan_add_l, ?nan_add_r, ?nan_sub_l, ?nan_sub_r, ?nan_mul_l, ?nan_mul_r, ?nan_div_l, ?nan_div_r,
  ?nan_opp, ?nan_abs, ?nan_sqrt, ?nan_sign, ?nan_hypot, ?nan_le_l, ?nan_le_r, ?nan_zero.

Lemma sumn_nan n (f : nat -> FN) k : k < n -> f k = nan -> sumn n f = nan.
Proof.
  induction n as [|n IH]; [lia|]. intros hk hf. cbn [sumn]. destruct (Nat.eq_dec k n) as [->|].
  - rewrite hf. apply nan_add_r.
  - rewrite IH by (auto; lia). apply nan_add_l.
Qed.

(** ** Bidiagonalisation *)
Lemma axis_nan (col : list FN) k : k < length col -> vget col k = nan ->
  wp (reflection_axis_mut col) (fun r => length (fst r) = length col /\ snd r = Some nan /\ forall i, i < length col -> vget (fst r) i = nan).
Proof.
  intros hk hn. unfold reflection_axis_mut, dot1. rewrite Nat.eqb_refl. cbn [bind].
  rewrite (sumn_nan _ _ k hk) by (rewrite hn; reflexivity). destruct (Nat.ltb_spec 0 (length col)); [|lia]. cbn [bind].
  nn. cbn [negb]. apply post_ret. cbn [fst snd]. nn. unfold vmap. dims. split; auto. split; auto.
  intros i hi. rewrite vget_vmk by (dims; lia). nn. reflexivity.
Qed.

Definition block_nan (m : mat FN) (r c : nat) : Prop := forall p q, r <= p < nr m -> c <= q < nc m -> get m p q = nan.

Lemma clear_column_nan (m : mat FN) i s k : i + s <= k < nr m -> i < nc m -> get m k i = nan ->
  wp (clear_column m i s) (fun r => nr (fst r) = nr m /\ nc (fst r) = nc m /\ snd r = nan /\ block_nan (fst r) (i + s) i).
Proof.
  intros hk hi hn. unfold clear_column. step1.
  unfold col_from. destruct (Nat.leb_spec (i + s) (nr m)); [|lia]. destruct (Nat.ltb_spec i (nc m)); [|lia]. cbn [andb].
  apply post_ret. step1. eapply post_mono; [apply (axis_nan _ (k - (i + s)))|].
  - dims. lia.
  - rewrite vget_vmk by lia. replace (i + s + (k - (i + s))) with k by lia. auto.
  - intros [ax on]. cbn [fst snd]. dims. intros (hl & -> & hax).
    step1. apply post_slice; try dlia. step1.
    eapply post_mono; [apply reflect_cols_ok; simpl; dlia|]. intros y (g1 & g2 & _). dims. apply post_ret. cbn [fst snd].
    split; [dims; auto|]. split; [dims; auto|]. split; auto.
    intros p q hp hq. dims. rewrite get_put by (dims; lia). dims. rewrite g1, g2.
    destruct (Nat.eq_dec q i) as [->|ne].
    + destruct (Nat.leb_spec (i + 1) i); [lia|]. rewrite andb_false_r. cbn [andb]. rewrite get_put_col by (dims; lia).
      rewrite hl. bd. apply hax. lia.
    + bd. unfold mscale. rewrite get_mmap by lia. nn. reflexivity.
Qed.

Lemma clear_row_nan (m : mat FN) i s k : i + s <= k < nc m -> i < nr m -> get m i k = nan ->
  wp (clear_row m i s) (fun r => nr (fst r) = nr m /\ nc (fst r) = nc m /\ snd r = nan /\ block_nan (fst r) i (i + s)).
Proof.
  intros hk hi hn. unfold clear_row. step1.
  eapply post_mono; [apply (clear_column_nan (transpose m) i s k); dims; auto; rewrite get_transpose by lia; auto|].
  intros [t x]. cbn [fst snd]. dims. intros (h1 & h2 & h3 & h4). apply post_ret. cbn [fst snd]. dims. split; [lia|]. split; [lia|]. split; auto.
  intros p q hp hq. dims. rewrite get_transpose by lia. apply h4; lia.
Qed.

(** the first column (or row, for a wide matrix) contains a NaN *)
Definition first_nan (m : mat FN) : Prop :=
  if nc m <=? nr m then exists k, k < nr m /\ get m k 0 = nan else exists k, k < nc m /\ get m 0 k = nan.

Lemma bidiagonal_nan (a : mat FN) : 1 <= Nat.min (nr a) (nc a) -> first_nan a ->
  wp (bidiagonal a) (fun b => (forall j, j < Nat.min (nr a) (nc a) -> vget (bi_diag b) j = nan) /\
    (forall j, j < Nat.min (nr a) (nc a) - 1 -> vget (bi_off b) j = nan)).
Proof.
  intros h hf. unfold bidiagonal. set (dm := Nat.min (nr a) (nc a)) in *.
  destruct (Nat.eqb_spec dm 0); [lia|]. unfold first_nan in hf.
  step1.
  eapply post_for' with (I := fun i (st : mat FN * list FN * list FN) => nr (fst (fst st)) = nr a /\
     nc (fst (fst st)) = nc a /\ length (snd (fst st)) = dm /\ length (snd st) = dm - 1 /\
     (forall j, j < i -> vget (snd (fst st)) j = nan) /\ (forall j, j < i -> vget (snd st) j = nan) /\
     (if nc a <=? nr a then exists k, i <= k < nr a /\ get (fst (fst st)) k i = nan else exists k, i <= k < nc a /\ get (fst (fst st)) i k = nan)).
  - cbn [fst snd]. dims. do 4 (split; [lia|]). split; [intros; lia|]. split; [intros; lia|].
    destruct (Nat.leb_spec (nc a) (nr a)); destruct hf as (k & hk & hg); exists k; split; auto; lia.
  - intros i [[m d] o] hi. cbn [fst snd]. intros (h1 & h2 & h3 & h4 & h5 & h6 & h7).
    destruct (Nat.leb_spec (nc a) (nr a)); destruct h7 as (k & hk & hg).
    + step1. eapply post_mono; [apply (clear_column_nan m i 0 k); auto; lia|]. intros [m1 x]. cbn [fst snd]. intros (g1 & g2 & -> & g3).
      step1. apply post_set1; [lia|].
      step1. eapply post_mono; [apply (clear_row_nan m1 i 1 (i + 1)); try lia; apply g3; lia|]. intros [m2 y]. cbn [fst snd]. intros (g4 & g5 & -> & g6).
      step1. apply post_set1; [lia|]. apply post_ret. cbn [fst snd]. dims. do 4 (split; [lia|]).
      split; [|split].
      * intros j hj. rewrite vget_vupd by lia. bd; auto. apply h5. lia.
      * intros j hj. rewrite vget_vupd by lia. bd; auto. apply h6. lia.
      * exists (S i). split; [lia|]. apply g6; lia.
    + step1. eapply post_mono; [apply (clear_row_nan m i 0 k); auto; lia|]. intros [m1 x]. cbn [fst snd]. intros (g1 & g2 & -> & g3).
      step1. apply post_set1; [lia|].
      step1. eapply post_mono; [apply (clear_column_nan m1 i 1 (i + 1)); try lia; apply g3; lia|]. intros [m2 y]. cbn [fst snd]. intros (g4 & g5 & -> & g6).
      step1. apply post_set1; [lia|]. apply post_ret. cbn [fst snd]. dims. do 4 (split; [lia|]).
      split; [|split].
      * intros j hj. rewrite vget_vupd by lia. bd; auto. apply h5. lia.
      * intros j hj. rewrite vget_vupd by lia. bd; auto. apply h6. lia.
      * exists (S i). split; [lia|]. apply g6; lia.
  - intros [[m d] o]. cbn [fst snd]. intros (h1 & h2 & h3 & h4 & h5 & h6 & h7). cbn [Nat.add] in *.
    destruct (Nat.leb_spec (nc a) (nr a)); destruct h7 as (k & hk & hg).
    + step1. eapply post_mono; [apply (clear_column_nan m (dm - 1) 0 k); auto; lia|]. intros [m1 x]. cbn [fst snd]. intros (g1 & g2 & -> & g3).
      step1. apply post_set1; [lia|]. apply post_ret. cbn [bi_diag bi_off]. split; auto.
      intros j hj. rewrite vget_vupd by lia. bd; auto. apply h5. lia.
    + step1. eapply post_mono; [apply (clear_row_nan m (dm - 1) 0 k); auto; lia|]. intros [m1 x]. cbn [fst snd]. intros (g1 & g2 & -> & g3).
      step1. apply post_set1; [lia|]. apply post_ret. cbn [bi_diag bi_off]. split; auto.
      intros j hj. rewrite vget_vupd by lia. bd; auto. apply h5. lia.
Qed.

(** ** The iteration *)
Definition st_nan (n : nat) (st : svd_state FN) : Prop :=
  (forall j, j < n -> vget (sd st) j = nan) /\ (forall j, j < n - 1 -> vget (so st) j = nan).

Lemma delim_end_nan up eps n e st : length (sd st) = n -> length (so st) = n - 1 -> st_nan n st -> e < n ->
  svd_delim_end (N:=FN) up eps e st = Ret (e, st).
Proof.
  intros l1 l2 (h1 & h2) he. destruct e as [|m]; cbn [svd_delim_end]; auto.
  unfold at1. destruct (Nat.ltb_spec m (length (so st))); [|lia]. destruct (Nat.ltb_spec (S m) (length (sd st))); [|lia].
  destruct (Nat.ltb_spec m (length (sd st))); [|lia]. cbn [bind]. rewrite (h1 m), (h1 (S m)), (h2 m) by lia. nn. reflexivity.
Qed.
Lemma delim_start_nan up eps n k s st : length (sd st) = n -> length (so st) = n - 1 -> st_nan n st -> s < n ->
  svd_delim_start (N:=FN) up eps k s st = Ret (0, st).
Proof.
  intros l1 l2 hn. pose proof hn as (h1 & h2). induction s as [|m IH]; intros he; cbn [svd_delim_start]; auto.
  unfold at1. destruct (Nat.ltb_spec m (length (so st))); [|lia]. destruct (Nat.ltb_spec (S m) (length (sd st))); [|lia].
  destruct (Nat.ltb_spec m (length (sd st))); [|lia]. cbn [bind]. rewrite (h1 m), (h1 (S m)), (h2 m) by lia. nn. apply IH. lia.
Qed.
Lemma delimit_nan up eps n st : length (sd st) = n -> length (so st) = n - 1 -> st_nan n st -> 1 < n ->
  svd_delimit (N:=FN) up (n - 1) eps st = Ret (0, n - 1, st).
Proof.
  intros l1 l2 hn h. unfold svd_delimit. rewrite (delim_end_nan up eps n) by (auto; lia). cbn [bind].
  destruct (Nat.eqb_spec (n - 1) 0); [lia|]. unfold usub. destruct (Nat.leb_spec 1 (n - 1)); [|lia]. cbn [bind].
  rewrite (delim_start_nan up eps n) by (auto; lia). reflexivity.
Qed.

Lemma sweep_nan r c n up e k st : ss_shape r c n st -> st_nan n st -> k < e -> e < n ->
  wp (svd_sweep_step (N:=FN) up 0 e k (nan, nan, st)) (fun x => fst x = true /\ fst (snd x) = (nan, nan) /\ ss_shape r c n (snd (snd x)) /\ st_nan n (snd (snd x))).
Proof.
  destruct st as [d o u v]. intros (h1 & h2 & h3 & h4) (n1 & n2) hk he. cbn [sd so su sv] in *.
  unfold svd_sweep_step. cbn [sd so su sv]. step1. apply post_usub; [lia|]. step1.
  eapply post_mono with (Q := fun _ => True).
  { destruct (Nat.eqb_spec k (e - 1)); [exact I|]. apply post_at1; [lia|exact I]. }
  intros m12 _. do 3 (step1; apply post_at1; [lia|]). rewrite (n1 k), (n1 (k + 1)), (n2 k) by lia.
  change (cancel_y nan nan) with (Some (Rot nan nan, nan)). cbv iota.
  step1. apply post_slice; try (simpl; lia). step1. apply post_unwrap.
  eapply post_mono; [apply rotate_rows_ok; dims; auto|]. intros s01 (g1 & g2 & g3). dims.
  step1. eapply post_mono with (Q := fun o' => length o' = n - 1 /\ forall j, j < n - 1 -> vget o' j = nan).
  { destruct (Nat.ltb_spec 0 k); [|apply post_ret; auto]. step1. apply post_usub; [lia|].
    apply post_atm1; [lia|]. dims. split; auto. intros j hj. rewrite vget_vupd by lia. bd; auto. }
  intros o1 (ho1 & hn1). set (sm := put _ 0 0 s01).
  assert (d1 : nr sm = 2) by reflexivity. assert (d2 : nc sm = 3) by reflexivity.
  assert (e0 : get sm 0 0 = nan /\ get sm 1 0 = nan /\ get sm 0 1 = nan /\ get sm 1 1 = nan).
  { destruct (g3 0 ltac:(lia)) as (a1 & a2). destruct (g3 1 ltac:(lia)) as (b1 & b2). cbn [rc rs inverse] in *.
    unfold sm. rewrite !get_put by (simpl; lia). rewrite g1, g2. cbn [Nat.leb Nat.ltb Nat.add andb Nat.sub].
    rewrite a1, a2, b1, b2. nn. auto. }
  destruct e0 as (e00 & e10 & e01 & e11). clearbody sm.
  step1. apply post_at2; [lia|lia|]. step1. apply post_at2; [lia|lia|]. rewrite e00, e10.
  change (cancel_y nan nan) with (Some (Rot nan nan, nan)). cbv iota.
  step1. step1. apply post_slice; try lia. step1. apply post_unwrap.
  eapply post_mono; [apply rotate_cols_ok; dims; auto|]. intros s12 (k1 & k2 & k3). apply post_ret. dims. cbv iota beta.
  step1. apply post_atm2; [dims; lia|dims; lia|]. set (sm2 := upd (put sm 0 1 s12) 0 0 nan).
  assert (d3 : nr sm2 = 2) by (unfold sm2; dims; auto). assert (d4 : nc sm2 = 3) by (unfold sm2; dims; auto).
  assert (t : get sm2 0 0 = nan /\ get sm2 0 1 = nan /\ get sm2 0 2 = nan /\ get sm2 1 1 = nan /\ get sm2 1 2 = nan).
  { destruct (k3 0 ltac:(lia)) as (a1 & a2). destruct (k3 1 ltac:(lia)) as (b1 & b2). cbn [rc rs] in *.
    unfold sm2. rewrite !get_upd by (dims; lia). rewrite !get_put by lia. rewrite k1, k2.
    cbn [Nat.leb Nat.ltb Nat.add andb Nat.sub Nat.eqb]. rewrite a1, a2, b1, b2. nn. auto. }
  destruct t as (t00 & t01 & t02 & t11 & t12). clearbody sm2.
  step1. eapply post_mono with (Q := fun v' => ush n c v').
  { destruct up; (eapply post_mono; [apply (rot_vt_sh _ _ n c); auto; lia|]); intros x (hx & _); exact hx. }
  intros v' hv'. step1.
  eapply post_mono with (Q := fun v' => ush r n v').
  { destruct up; cbn [negb]; (eapply post_mono; [apply (rot_u_sh _ _ r n); auto; lia|]); intros x (hx & _); exact hx. }
  intros u' hu'. do 5 (step1; apply post_at2; [lia|lia|]). rewrite t00, t11, t01, t12, t02.
  step1. apply post_atm1; [lia|]. step1. apply post_atm1; [dims; lia|]. step1. apply post_atm1; [lia|]. step1.
  eapply post_mono with (Q := fun o' => length o' = n - 1 /\ forall j, j < n - 1 -> vget o' j = nan).
  { destruct (Nat.eqb_spec k (e - 1)); cbn [negb].
    - apply post_ret. dims. split; auto. intros j hj. rewrite vget_vupd by lia. bd; auto.
    - apply post_atm1; [dims; lia|]. dims. split; auto. intros j hj. rewrite !vget_vupd by (dims; lia). bd; auto. }
  intros o2 (ho2 & hn2). apply post_ret. cbn [fst snd sd so su sv]. split; auto. split; auto. split.
  - repeat split; cbn [sd so su sv]; dims; auto.
  - split; cbn [sd so]; auto. intros j hj. rewrite !vget_vupd by (dims; lia). bd; auto.
Qed.

Lemma big_nan r c n up st : ss_shape r c n st -> st_nan n st -> 3 <= n ->
  wp (svd_big (N:=FN) up 0 (n - 1) st) (fun st' => ss_shape r c n st' /\ st_nan n st').
Proof.
  intros hs hn h. pose proof hs as (l1 & l2 & _). pose proof hn as (n1 & n2). unfold svd_big.
  step1. apply post_usub; [lia|]. do 3 (step1; apply post_at1; [lia|]). step1. apply post_usub; [lia|].
  do 3 (step1; apply post_at1; [lia|]). step1. rewrite (n1 0), (n2 0) by lia. nn.
  eapply post_mono with (Q := fun s => fst s = (nan, nan) /\ ss_shape r c n (snd s) /\ st_nan n (snd s)).
  2: { intros [xy st'] (_ & q). apply post_ret. exact q. }
  eapply post_for_brk with (I := fun _ s => fst s = (nan, nan) /\ ss_shape r c n (snd s) /\ st_nan n (snd s)).
  - cbn [fst snd]. auto.
  - intros i [xy st1] hi. cbn [fst snd]. intros (-> & g1 & g2).
    eapply post_mono; [apply (sweep_nan r c n up (n - 1) i st1); auto; lia|].
    intros [b [xy' st2]]. cbn [fst snd]. intros (-> & q). exact q.
  - auto.
Qed.

Lemma loop_nan r c n up cu cv eps : 3 <= n -> forall fuel st, ss_shape r c n st -> st_nan n st ->
  svd_loop (N:=FN) fuel up cu cv eps 0 (n - 1) st = OutOfFuel.
Proof.
  intros h. induction fuel as [|fuel IH]; intros st hs hn; cbn [svd_loop]; (destruct (Nat.eqb_spec (n - 1) 0); [lia|]); auto.
  unfold usub. destruct (Nat.leb_spec 0 (n - 1)); [|lia]. cbn [bind]. destruct (Nat.ltb_spec 2 (S (n - 1 - 0))); [|lia].
  destruct (wp_ret _ _ (big_nan r c n up st hs hn h)) as (st' & -> & hs' & hn'). cbn [bind].
  pose proof hs' as (l1 & l2 & _). rewrite (delimit_nan up eps n) by (auto; lia). cbn [bind]. apply IH; auto.
Qed.

(** ** Scaling *)
Lemma max_inf (l : list FN) : In (S754_infinity false) l -> forall x, fold_left (fun a b => nmax FN a b) l x = S754_infinity false.
Proof.
  assert (step : forall k, fold_left (fun a b => nmax FN a b) k (S754_infinity false : FN) = S754_infinity false).
  { induction k as [|b k IH]; auto. cbn [fold_left]. 
    assert (e : nmax FN (S754_infinity false) b = S754_infinity false) by (destruct b as [|[|]| |[|] ? ?]; reflexivity).
    rewrite e. auto. }
  induction l as [|b l IH]; intros h x; [destruct h|]. cbn [fold_left]. destruct h as [->|h]; auto.
  assert (e : nmax FN x (S754_infinity false) = S754_infinity false) by (destruct x as [|[|]| |[|] ? ?]; reflexivity).
  rewrite e. auto.
Qed.
Lemma in_elems (m : mat FN) i j : i < nr m -> j < nc m -> In (get m i j) (elems m).
Proof.
  intros hi hj. unfold elems. apply in_flat_map. exists i. split; [apply in_seq; lia|].
  apply in_map_iff. exists j. split; auto. apply in_seq. lia.
Qed.
Definition nonfinite (x : FN) : Prop := x = nan \/ exists s, x = (S754_infinity s : FN).
Lemma scale_nan (m : mat FN) i j : i < nr m -> j < nc m -> nonfinite (get m i j) -> get (scale_down m (abs_max m)) i j = nan.
Proof.
  intros hi hj hx. unfold scale_down. destruct hx as [hx|(s & hx)].
  - destruct (negb _); auto. rewrite get_mmap by auto. rewrite hx. reflexivity.
  - assert (ha : abs_max m = S754_infinity false).
    { unfold abs_max. apply max_inf. apply in_map_iff. exists (get m i j). split; [rewrite hx; reflexivity|]. apply in_elems; auto. }
    rewrite ha. change (neq FN (S754_infinity false) (n0 FN)) with false. cbn [negb]. rewrite get_mmap by auto. rewrite hx. reflexivity.
Qed.

Definition first_bad (m : mat FN) : Prop :=
  if nc m <=? nr m then exists k, k < nr m /\ nonfinite (get m k 0) else exists k, k < nc m /\ nonfinite (get m 0 k).

Lemma svd_nan fuel (a : mat FN) cu cv eps : 3 <= Nat.min (nr a) (nc a) -> first_bad a -> svd_eps fuel a cu cv eps = OutOfFuel.
Proof.
  intros h hb. unfold svd_eps. destruct (Nat.eqb_spec (nr a) 0) as [|nz1]; [lia|].
  destruct (Nat.eqb_spec (nc a) 0) as [|nz2]; [lia|]. cbn [orb].
  set (m := scale_down a (abs_max a)).
  assert (d1 : nr m = nr a) by apply nr_scale_down. assert (d2 : nc m = nc a) by apply nc_scale_down.
  assert (hf : first_nan m).
  { unfold first_nan, first_bad in *. rewrite d1, d2. destruct (nc a <=? nr a); destruct hb as (k & hk & hx); exists k; split; auto; apply scale_nan; auto; lia. }
  destruct (svd_init m cu cv ltac:(lia) ltac:(lia)) as (b & u & v & eb & hwf & eu & ev & hs & _).
  pose proof (bidiagonal_nan m ltac:(lia) hf) as hn. rewrite eb in hn. cbn [post] in hn. destruct hn as (n1 & n2).
  rewrite eb. cbn [bind]. rewrite eu. cbn [bind]. rewrite ev. cbn [bind].
  rewrite d1, d2 in *. set (n := Nat.min (nr a) (nc a)) in *.
  assert (hsn : st_nan n (SS (fst (bi_into_diagonals b)) (snd (bi_into_diagonals b)) u v)).
  { destruct hwf as (_ & _ & w1 & w2 & _). unfold bi_into_diagonals. split; cbn [fst snd sd so]; intros j hj; unfold vmap.
    - rewrite vget_vmk by lia. rewrite n1 by lia. reflexivity.
    - rewrite vget_vmk by lia. rewrite n2 by lia. reflexivity. }
  destruct (bi_into_diagonals b) as [diag off]. cbn [fst snd] in hs, hsn.
  unfold usub. destruct (Nat.leb_spec 1 n); [|lia]. cbn [bind].
  pose proof hs as (l1 & l2 & _). rewrite (delimit_nan _ eps n) by (auto; lia). cbn [bind].
  rewrite (loop_nan (nr a) (nc a) n) by auto. reflexivity.
Qed.
