(** * eigh.rs and svd.rs: a matrix and a positive multiple of it, in binary64 *)
From Coq Require Import Reals List Arith Lia Lra Bool ZArith.
From Coq.Floats Require Import SpecFloat.
From Flocq Require Import Core BinarySingleNaN.
From Verif Require Import Scalar Arr MBase MDirect MDecomp MEigh MSvd Inst Hoare Spec SpecF SpecH RLin PTri PHouse PQR PTrid PBid PGivens PEigh PEighR PSvd PSvdR PRound PTriF PHouseF PQRF PQRG PCholG PTrdF PBidF PBidG PGivF PApx PEigG PSvdV PSvdG.
Import ListNotations.
Local Open Scope nat_scope.

Section Generic.
Context {N : Num}.
Notation vec := (list N).
Notation mtx := (mat N).

(** ** What the two drivers compute before the values are scaled back *)
Definition svd_core (fuel : nat) (s : mtx) (cu cv : bool) (eps : N) : res (vec * option mtx * option mtx) :=
  let* bd := bidiagonal s in
  let* u := (if cu then let* u := generate_u bd in Ret (Some u) else Ret None) in
  let* vt := (if cv then let* v := generate_vt bd in Ret (Some v) else Ret None) in
  let '(diag, off) := bi_into_diagonals bd in
  let* d1 := usub (Nat.min (nr s) (nc s)) 1 in
  let* (start, end_, st) := svd_delimit (upper_diag bd) d1 eps (SS diag off u vt) in
  let* st := svd_loop fuel (upper_diag bd) cu cv eps start end_ st in
  Ret (sd st, su st, sv st).
Lemma bind_assoc {A B C} (m : res A) (f : A -> res B) (g : B -> res C) : bind (bind m f) g = bind m (fun x => bind (f x) g).
Proof. destruct m; reflexivity. Qed.
Lemma bind_ext {A B} (m : res A) (f g : A -> res B) : (forall x, f x = g x) -> bind m f = bind m g.
Proof. intros h. destruct m; simpl; auto. Qed.
Lemma svd_eps_core fuel (a : mtx) cu cv eps : 1 <= nr a -> 1 <= nc a ->
  svd_eps fuel a cu cv eps =
  (let* (du, v) := svd_core fuel (scale_down a (abs_max a)) cu cv eps in
   let* (s, u) := svd_fix_signs (Nat.min (nr a) (nc a)) (vmap (fun x => nmul N x (abs_max a)) (fst du)) (snd du) in Ret (u, s, v)).
Proof.
  intros h1 h2. unfold svd_eps. destruct (Nat.eqb_spec (nr a) 0); [lia|]. destruct (Nat.eqb_spec (nc a) 0); [lia|]. cbn [orb].
  unfold svd_core. rewrite nr_scale_down, nc_scale_down. rewrite bind_assoc. apply bind_ext. intros bd. rewrite bind_assoc. apply bind_ext. intros u. rewrite bind_assoc. apply bind_ext. intros v.
  destruct (bi_into_diagonals bd) as [d o]. rewrite bind_assoc. apply bind_ext. intros k. rewrite bind_assoc. apply bind_ext. intros [[st e] s]. rewrite bind_assoc. apply bind_ext. intros s'. reflexivity.
Qed.

Lemma svd_core_len fuel (s : mtx) cu cv eps d u v : 1 <= nr s -> 1 <= nc s -> svd_core fuel s cu cv eps = Ret (d, u, v) -> length d = Nat.min (nr s) (nc s).
Proof.
  intros h1 h2 e. unfold svd_core in e. destruct (svd_init s cu cv h1 h2) as (b & u0 & v0 & eb & hb & eu & ev & hs & hfl).
  rewrite eb in e. cbn [bind] in e. rewrite eu in e. cbn [bind] in e. rewrite ev in e. cbn [bind] in e.
  set (n := Nat.min (nr s) (nc s)) in *. destruct (bi_into_diagonals b) as [diag off]. cbn [fst snd] in hs, hfl.
  unfold usub in e. destruct (Nat.leb_spec 1 n); [|lia]. cbn [bind] in e.
  pose proof (svd_delimit_safe _ _ _ (upper_diag b) (n - 1) eps _ hs ltac:(lia)) as hd.
  destruct (svd_delimit _ _ _ _) as [[[s0 e0] st]| | | |]; try discriminate. cbn [bind] in e. destruct hd as (k1 & k2 & k4). cbn [fst snd] in *.
  assert (hfl' : flags cu cv st) by (eapply flags_mono; [exact hfl|apply k4]).
  pose proof (svd_loop_safe _ _ _ (upper_diag b) cu cv eps fuel s0 e0 st (proj1 k4) hfl' ltac:(lia) ltac:(lia)) as hl.
  destruct (svd_loop _ _ _ _ _ _ _ _) as [st1| | | |]; try discriminate. cbn [bind] in e. injection e as <- <- <-. apply hl.
Qed.

(** The sign normalisation acts on u in the same way when the values have the same signs *)
Lemma fix_signs_rel n (d d' : vec) u : length d = n -> length d' = n -> (forall k, k < n -> nis_neg N (vget d k) = nis_neg N (vget d' k)) ->
  sim (fun x y => snd x = snd y /\ length (fst x) = n /\ length (fst y) = n /\ forall k, k < n ->
       vget (fst x) k = (if nis_neg N (vget d k) then nopp N (vget d k) else vget d k) /\
       vget (fst y) k = (if nis_neg N (vget d k) then nopp N (vget d' k) else vget d' k))
    (svd_fix_signs n d u) (svd_fix_signs n d' u).
Proof.
  intros hd hd' hn. unfold svd_fix_signs.
  eapply sim_mono; [eapply sim_for with (R := fun i (s s' : vec * option mtx) => snd s = snd s' /\ length (fst s) = n /\ length (fst s') = n /\ forall k, k < n ->
     vget (fst s) k = (if (Nat.ltb k i) && nis_neg N (vget d k) then nopp N (vget d k) else vget d k) /\
     vget (fst s') k = (if (Nat.ltb k i) && nis_neg N (vget d k) then nopp N (vget d' k) else vget d' k))|].
  - cbn [fst snd]. repeat split; auto.
  - intros i [d1 u1] [d1' u1'] hi. cbn [fst snd]. intros (<- & h1 & h2 & h3).
    unfold idx1. rewrite h1, h2. destruct (Nat.ltb_spec i n); [|lia]. cbn [bind].
    destruct (h3 i ltac:(lia)) as (e1 & e2). assert (z : Nat.ltb i i = false) by (apply Nat.ltb_ge; lia). rewrite z in e1, e2. cbn [andb] in e1, e2. rewrite e1, e2. rewrite <- (hn i) by lia.
    destruct (nis_neg N (vget d i)) eqn:en.
    + unfold set1. rewrite h1, h2. destruct (Nat.ltb_spec i n); [|lia]. cbn [bind].
      eapply sim_bind; [apply sim_eq; reflexivity|intros u2 ? <-]. cbn [sim fst snd]. split; auto.
      unfold vupd. rewrite !length_vmk. split; auto. split; auto. intros k hk. rewrite h1, h2, !vget_vmk by lia.
      destruct (Nat.eqb_spec k i) as [->|]; [destruct (Nat.ltb_spec i (S i)); [|lia]; rewrite en; auto|].
      destruct (h3 k hk) as (-> & ->). destruct (Nat.ltb_spec k i), (Nat.ltb_spec k (S i)); auto; lia.
    + cbn [sim fst snd]. split; auto. split; auto. split; auto. intros k hk. destruct (h3 k hk) as (-> & ->).
      destruct (Nat.ltb_spec k i), (Nat.ltb_spec k (S i)); auto; try lia. assert (k = i) as -> by lia. rewrite en. auto.
  - intros [d1 u1] [d1' u1']. cbn [fst snd]. intros (h0 & h1 & h2 & h3). split; auto. split; auto. split; auto.
    intros k hk. destruct (h3 k hk) as (-> & ->). destruct (Nat.ltb_spec k (0 + n)); [|lia]. auto.
Qed.
End Generic.

(** ** Floats *)
Local Open Scope R_scope.
Lemma f_neg_sign (b : binary_float prec emax) : is_nan b = false -> f_neg (B2SF b) = Bsign b.
Proof. destruct b; auto; discriminate. Qed.
Lemma float_eq (x y : FN) : fokx x -> fokx y -> fr x = fr y -> f_neg x = f_neg y -> x = y.
Proof.
  intros (vx & fx) (vy & fy). tob. rewrite !fr_B2SF. rewrite ffin_B2SF in *.
  assert (nan : forall b : binary_float prec emax, is_finite b = true -> is_nan b = false) by (intros [ | | | ]; auto; discriminate).
  rewrite !f_neg_sign by auto. intros e1 e2. f_equal. apply B2R_Bsign_inj; auto.
Qed.
Lemma neg_pos (x : FN) : 0 < fr x -> f_neg x = false.
Proof.
  destruct x as [s|s| |s m e]; unfold fr; simpl; try lra. intros h. destruct s; auto. exfalso.
  assert (F2R (Float radix2 (Zneg m) e) < 0) by (apply F2R_lt_0; reflexivity). simpl in *. lra.
Qed.
Lemma bdiv_same (a b a' b' : binary_float prec emax) : B2R b <> 0 -> B2R b' <> 0 -> is_finite (Bdiv mode_NE a b) = true -> is_finite (Bdiv mode_NE a' b') = true ->
  B2R a' / B2R b' = B2R a / B2R b -> xorb (Bsign a) (Bsign b) = xorb (Bsign a') (Bsign b') -> Bdiv mode_NE a b = Bdiv mode_NE a' b'.
Proof.
  intros hb hb' f1 f2 hq hs.
  assert (nan : forall b : binary_float prec emax, is_finite b = true -> is_nan b = false) by (intros [ | | | ]; auto; discriminate).
  pose proof (Bdiv_correct prec emax Hprec Hemax mode_NE a b hb) as q1. pose proof (Bdiv_correct prec emax Hprec Hemax mode_NE a' b' hb') as q2.
  rewrite hq in q2. destruct (Rlt_bool _ _); [|exfalso; eapply overflow_not_fin; eauto].
  destruct q1 as (q1 & _ & q3), q2 as (q2 & _ & q4). apply B2R_Bsign_inj; auto; [congruence|]. rewrite q3, q4 by auto. exact hs.
Qed.
Lemma div_scale (x y x' y' : FN) c : 0 < c -> fokx x -> fokx y -> fokx x' -> fokx y' -> 0 < fr y -> Rabs (fr x) <= fr y ->
  fr x' = c * fr x -> fr y' = c * fr y -> f_neg x = f_neg x' -> ndiv FN x y = ndiv FN x' y'.
Proof.
  intros hc hx hy hx' hy' hp hl ex ey es.
  assert (hp' : 0 < fr y') by (rewrite ey; apply Rmult_lt_0_compat; auto).
  assert (hq : fr x' / fr y' = fr x / fr y) by (rewrite ex, ey; field; lra).
  assert (one : 1 <= bpow radix2 1023) by (change 1 with (bpow radix2 0); apply bpow_le; lia).
  assert (hb : Rabs (fr x / fr y) <= bpow radix2 1023).
  { eapply Rle_trans; [|exact one]. unfold Rdiv. rewrite Rabs_mult, (Rabs_right (/ _)) by (left; apply Rinv_0_lt_compat; lra).
    apply (Rmult_le_reg_r (fr y)); auto. rewrite Rmult_assoc, Rinv_l by lra. lra. }
  destruct (div_err x y hx hy ltac:(lra) hb) as (o1 & _). destruct (div_err x' y' hx' hy' ltac:(lra) ltac:(rewrite hq; exact hb)) as (o2 & _).
  pose proof (neg_pos y hp) as ny. pose proof (neg_pos y' hp') as ny'.
  destruct hx as (vx & fx), hy as (vy & fy), hx' as (vx' & fx'), hy' as (vy' & fy'), o1 as (_ & o1), o2 as (_ & o2). tob. unfold ndiv, FN in *. rewrite !div_equiv in *. f_equal.
  rewrite !fr_B2SF in *. rewrite ffin_B2SF in *.
  assert (nan : forall b : binary_float prec emax, is_finite b = true -> is_nan b = false) by (intros [ | | | ]; auto; discriminate).
  rewrite !f_neg_sign in * by auto. apply bdiv_same; auto; try (apply Rgt_not_eq; assumption). congruence.
Qed.

(** The sign of a product with a positive number, whatever the other factor *)
Lemma shr1_pos x : (0 <= shr_m x)%Z -> (0 <= shr_m (shr_1 x))%Z.
Proof. destruct x as [m r s]. simpl. destruct m as [|[p|p|]|p]; simpl; lia. Qed.
Lemma iter_shr p : forall x, (0 <= shr_m x)%Z -> (0 <= shr_m (iter_pos shr_1 p x))%Z.
Proof. induction p as [p IH|p IH|]; intros x h; simpl; auto using shr1_pos. Qed.
Lemma shr_pos x e n : (0 <= shr_m x)%Z -> (0 <= shr_m (fst (shr x e n)))%Z.
Proof. intros h. destruct n; simpl; auto. apply iter_shr; auto. Qed.
Lemma rne_pos m l : (0 <= m)%Z -> (0 <= round_nearest_even m l)%Z.
Proof. intros h. destruct l as [|[| |]]; simpl; try lia. destruct (Z.even m); lia. Qed.
Lemma record_m m l : shr_m (shr_record_of_loc m l) = m.
Proof. destruct l as [|[| |]]; reflexivity. Qed.
Lemma round_aux_sign s m e l : (0 <= m)%Z -> f_neg (SpecFloat.binary_round_aux prec emax s m e l) = s.
Proof.
  intros h. unfold SpecFloat.binary_round_aux, shr_fexp.
  pose proof (shr_pos (shr_record_of_loc m l) e (SpecFloat.fexp prec emax (Zdigits2 m + e) - e) ltac:(rewrite record_m; auto)) as h1.
  destruct (shr _ _ _) as [x e'] eqn:ex. cbn [fst] in h1.
  set (m' := round_nearest_even _ _). assert (h2 : (0 <= m')%Z) by (apply rne_pos; auto).
  pose proof (shr_pos (shr_record_of_loc m' loc_Exact) e' (SpecFloat.fexp prec emax (Zdigits2 m' + e') - e') ltac:(rewrite record_m; auto)) as h3.
  destruct (shr (shr_record_of_loc m' loc_Exact) _ _) as [x2 e2] eqn:ex2. cbn [fst] in h3. destruct (shr_m x2) as [|p|p]; [reflexivity| |lia]. destruct (_ <=? _)%Z; reflexivity.
Qed.
Lemma mul_sign (d m : FN) : ffin m -> 0 < fr m -> f_neg (nmul FN d m) = f_neg d.
Proof.
  intros fm hm. destruct m as [s|s| |s pm em]; try discriminate; [exfalso; unfold fr in hm; simpl in hm; lra|].
  pose proof (neg_pos _ hm) as hs. simpl in hs. subst s. unfold nmul, FN. destruct d as [s|s| |s p e]; simpl; try (apply xorb_false_r). 1: reflexivity.
  rewrite round_aux_sign by lia. apply xorb_false_r.
Qed.

(** ** The scaled matrices are identical *)
Section Two.
Variable (r c : nat) (a b : mat FN) (k : R).
Hypothesis hk : 0 < k.
Hypothesis ra : nr a = r. Hypothesis ca : nc a = c. Hypothesis rb : nr b = r. Hypothesis cb : nc b = c.
Hypothesis hr : (1 <= r)%nat. Hypothesis hc : (1 <= c)%nat.
Hypothesis oa : forall i j, (i < r)%nat -> (j < c)%nat -> fokx (get a i j).
Hypothesis ob : forall i j, (i < r)%nat -> (j < c)%nat -> fokx (get b i j).
Hypothesis hs : forall i j, (i < r)%nat -> (j < c)%nat -> fr (get b i j) = k * fr (get a i j) /\ f_neg (get a i j) = f_neg (get b i j).
Hypothesis hz : exists i j, (i < r)%nat /\ (j < c)%nat /\ fr (get a i j) <> 0.
Lemma max_scale : fokx (abs_max a) /\ fokx (abs_max b) /\ 0 < fr (abs_max a) /\ 0 < fr (abs_max b) /\ fr (abs_max b) = k * fr (abs_max a).
Proof.
  destruct (abs_max_rf a r c ra ca hr hc oa) as (o1 & u1 & i1 & j1 & hi1 & hj1 & e1). destruct (abs_max_rf b r c rb cb hr hc ob) as (o2 & u2 & i2 & j2 & hi2 & hj2 & e2).
  assert (p1 : 0 < fr (abs_max a)). { destruct hz as (i & j & hi & hj & h). specialize (u1 i j hi hj). unfold frm in u1. pose proof (Rabs_pos_lt _ h). lra. }
  assert (e : fr (abs_max b) = k * fr (abs_max a)).
  { apply Rle_antisym.
    - rewrite <- e2. unfold frm. rewrite (proj1 (hs i2 j2 hi2 hj2)), Rabs_mult, (Rabs_right k) by lra. apply Rmult_le_compat_l; [lra|]. apply u1; auto.
    - rewrite <- e1. specialize (u2 i1 j1 hi1 hj1). unfold frm in *. rewrite (proj1 (hs i1 j1 hi1 hj1)), Rabs_mult, (Rabs_right k) in u2 by lra. exact u2. }
  split; auto. split; auto. split; auto. split; auto. rewrite e. apply Rmult_lt_0_compat; auto.
Qed.
Lemma scale_same : scale_down a (abs_max a) = scale_down b (abs_max b).
Proof.
  destruct max_scale as (o1 & o2 & p1 & p2 & e). unfold scale_down. rewrite (neq_pos _ (proj2 o1) p1), (neq_pos _ (proj2 o2) p2). cbn [negb].
  unfold mmap. rewrite ra, ca, rb, cb. apply mk_ext. intros i j hi hj. destruct (hs i j hi hj) as (e1 & e2).
  apply (div_scale _ _ _ _ k); auto. destruct (abs_max_rf a r c ra ca hr hc oa) as (_ & u1 & _). apply u1; auto.
Qed.

Lemma svd_scale h fuel cu cv eps :
  sim (fun x y => fst (fst x) = fst (fst y) /\ snd x = snd y /\ length (snd (fst x)) = Nat.min r c /\ length (snd (fst y)) = Nat.min r c /\
       exists d, length d = Nat.min r c /\ forall i, (i < Nat.min r c)%nat ->
         vget (N:=FN) (snd (fst x)) i = (let v := nmul FN (vget (N:=FN) d i) (abs_max a) in if f_neg v then nopp FN v else v) /\
         vget (N:=FN) (snd (fst y)) i = (let v := nmul FN (vget (N:=FN) d i) (abs_max b) in if f_neg v then nopp FN v else v))
    (svd_eps (N:=FNh h) fuel a cu cv eps) (svd_eps (N:=FNh h) fuel b cu cv eps).
Proof.
  assert (a1 : (1 <= @nr (FNh h) a)%nat) by (change (@nr (FNh h) a) with (nr a); lia). assert (a2 : (1 <= @nc (FNh h) a)%nat) by (change (@nc (FNh h) a) with (nc a); lia).
  assert (b1 : (1 <= @nr (FNh h) b)%nat) by (change (@nr (FNh h) b) with (nr b); lia). assert (b2 : (1 <= @nc (FNh h) b)%nat) by (change (@nc (FNh h) b) with (nc b); lia).
  rewrite (svd_eps_core (N:=FNh h) fuel a cu cv eps a1 a2), (svd_eps_core (N:=FNh h) fuel b cu cv eps b1 b2).
  change (@nr (FNh h) a) with (nr a) in *. change (@nc (FNh h) a) with (nc a) in *. change (@nr (FNh h) b) with (nr b). change (@nc (FNh h) b) with (nc b). rewrite ra, ca, rb, cb.
  set (cr := svd_core (N:=FNh h) fuel (scale_down (N:=FN) a (abs_max (N:=FN) a)) cu cv eps).
  match goal with |- sim _ (bind ?x _) (bind ?y _) => change x with cr; replace y with cr by (unfold cr; rewrite scale_same; reflexivity) end.
  change (@abs_max (FNh h) a) with (abs_max a). change (@abs_max (FNh h) b) with (abs_max b).
  destruct cr as [[[d u] v]|e| | |] eqn:ec; cbn [bind fst snd]; try exact I; try reflexivity. unfold cr in ec.
  destruct max_scale as (o1 & o2 & p1 & p2 & _).
  apply svd_core_len in ec; [|rewrite (@nr_scale_down FN); change (1 <= nr a)%nat; lia|rewrite (@nc_scale_down FN); change (1 <= nc a)%nat; lia].
  assert (ld : length d = Nat.min r c). { rewrite <- ra, <- ca, <- (@nr_scale_down FN a (abs_max a)), <- (@nc_scale_down FN a (abs_max a)). exact ec. }
  set (n := Nat.min r c) in *.
  assert (gm : forall m i, (i < n)%nat -> vget (N:=FNh h) (vmap (N:=FNh h) (fun x => nmul (FNh h) x m) d) i = nmul FN (vget (N:=FN) d i) m).
  { intros m i hi. unfold vmap. rewrite (@vget_vmk (FNh h)); [reflexivity|]. exact (Nat.lt_le_trans _ _ _ hi (Nat.eq_le_incl _ _ (eq_sym ld))). }
  eapply sim_bind; [apply (fix_signs_rel (N:=FNh h) n)|].
  - unfold vmap. rewrite length_vmk. exact ld.
  - unfold vmap. rewrite length_vmk. exact ld.
  - intros i hi. rewrite !gm by auto. change (f_neg (nmul FN (vget (N:=FN) d i) (abs_max a)) = f_neg (nmul FN (vget (N:=FN) d i) (abs_max b))).
    rewrite (mul_sign _ _ (proj2 o1) p1), (mul_sign _ _ (proj2 o2) p2). reflexivity.
  - intros [s1 u1] [s2 u2]. cbn [fst snd]. intros (<- & l1 & l2 & hv). cbn [sim fst snd]. split; auto. split; auto. split; auto. split; auto.
    exists d. split; auto. intros i hi. destruct (hv i hi) as (e1 & e2). rewrite gm in e1, e2 by auto. rewrite gm in e2 by auto.
    split; [exact e1|]. cbv zeta.
    assert (sg : f_neg (nmul FN (vget (N:=FN) d i) (abs_max b)) = f_neg (nmul FN (vget (N:=FN) d i) (abs_max a))) by (rewrite (mul_sign _ _ (proj2 o1) p1), (mul_sign _ _ (proj2 o2) p2); reflexivity).
    rewrite sg. exact e2.
Qed.

(** ** eigh *)
Lemma symeig_scale h fuel vec eps : r = c ->
  sim (fun x y => snd x = snd y /\ exists d, fst x = vmap (N:=FN) (fun v => nmul FN v (abs_max a)) d /\ fst y = vmap (N:=FN) (fun v => nmul FN v (abs_max b)) d)
    (symmetric_eig (N:=FNh h) fuel a vec eps) (symmetric_eig (N:=FNh h) fuel b vec eps).
Proof.
  intros e. unfold symmetric_eig.
  assert (ka : @check_square (FNh h) a = Ret r) by (unfold check_square; change (@nr (FNh h) a) with (nr a); change (@nc (FNh h) a) with (nc a); rewrite ra, ca, e, Nat.eqb_refl; reflexivity).
  assert (kb : @check_square (FNh h) b = Ret r) by (unfold check_square; change (@nr (FNh h) b) with (nr b); change (@nc (FNh h) b) with (nc b); rewrite rb, cb, e, Nat.eqb_refl; reflexivity).
  rewrite ka, kb. cbn [bind]. destruct (Nat.ltb_spec r 1); [lia|].
  change (@scale_down (FNh h) b (@abs_max (FNh h) b)) with (scale_down b (abs_max b)). change (@scale_down (FNh h) a (@abs_max (FNh h) a)) with (scale_down a (abs_max a)). rewrite <- scale_same.
  change (@abs_max (FNh h) a) with (abs_max a). change (@abs_max (FNh h) b) with (abs_max b).
  destruct (sym_tridiagonal (N:=FNh h) (scale_down a (abs_max a))) as [td| | | |]; cbn [bind]; try exact I; try reflexivity.
  destruct (if vec then _ else _) as [q| | | |]; cbn [bind]; try exact I; try reflexivity.
  destruct (tri_into_diagonals td) as [dg of]. destruct (Nat.eqb r 1).
  - cbn [sim fst snd]. split; auto. exists dg. split; reflexivity.
  - destruct (delimit_subproblem _ _ _ _) as [[[st e0] o2]| | | |]; cbn [bind]; try exact I; try reflexivity.
    destruct (eig_loop _ _ _ _ _) as [es| | | |]; cbn [bind]; try exact I; try reflexivity.
    cbn [sim fst snd]. split; auto. exists (es_diag es). split; reflexivity.
Qed.
End Two.

(** ** The last multiplication *)
Local Notation rnd := (round radix2 (SpecFloat.fexp prec emax) (round_mode mode_NE)).
Lemma mul_round x m : fvalid x -> fvalid m -> ffin (nmul FN x m) -> fr (nmul FN x m) = rnd (fr x * fr m).
Proof.
  intros vx vm. tob. unfold nmul, FN. rewrite mul_equiv, !ffin_B2SF, !fr_B2SF. intros hf.
  match goal with |- B2R (Bmult _ ?a ?b) = _ => pose proof (Bmult_correct prec emax Hprec Hemax mode_NE a b) as h end.
  destruct (Rlt_bool _ _); [destruct h as (-> & _); reflexivity|exfalso; eapply overflow_not_fin; eauto].
Qed.
Lemma round_pow2 (x : R) (e : Z) : bpow radix2 (-1022) <= Rabs x -> bpow radix2 (-1022) <= Rabs (x * bpow radix2 e) -> rnd (x * bpow radix2 e) = rnd x * bpow radix2 e.
Proof.
  intros h1 h2. assert (nz : x <> 0). { intros ->. rewrite Rabs_R0 in h1. pose proof (bpow_gt_0 radix2 (-1022)). lra. }
  assert (ec : cexp radix2 (SpecFloat.fexp prec emax) (x * bpow radix2 e) = (cexp radix2 (SpecFloat.fexp prec emax) x + e)%Z).
  { unfold cexp. rewrite mag_mult_bpow by auto. pose proof (mag_ge_bpow radix2 x (-1021) h1) as m1. pose proof (mag_ge_bpow radix2 (x * bpow radix2 e) (-1021) h2) as m2. rewrite mag_mult_bpow in m2 by auto.
    unfold SpecFloat.fexp, emin. change (3 - emax - prec)%Z with (-1074)%Z. change prec with 53%Z. lia. }
  unfold round, scaled_mantissa. rewrite ec. unfold F2R. cbn [Fnum Fexp]. rewrite bpow_plus, <- Rmult_assoc. f_equal. f_equal. f_equal. f_equal.
  rewrite Rmult_assoc, <- bpow_plus. f_equal. f_equal. lia.
Qed.
