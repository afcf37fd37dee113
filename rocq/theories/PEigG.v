(** * The whole of [symmetric_eig] in binary64: scaling, tridiagonalisation, iteration *)
From Coq Require Import Reals List Arith Lia Lra Bool ZArith.
From Coq.Floats Require Import SpecFloat.
From Flocq Require Import Core BinarySingleNaN.
From Verif Require Import Scalar Arr MBase MDirect MDecomp MEigh Inst Hoare Spec SpecF SpecH RLin PTri PHouse PQR PTrid PGivens PEigh PEighR PRound PCholF PHouseF PNormF PQRF PQRG PTrdF PTrdH PApx PGivF PRotF PEigF.
Import ListNotations.
Local Open Scope R_scope.

(** ** The largest absolute value *)
Lemma fold_max_f l : (forall x, In x l -> fokx x) -> forall acc : FN, fokx acc ->
  let m := fold_left (fun a b => nmax FN a b) l acc in
  fokx m /\ fr acc <= fr m /\ (forall x, In x l -> fr x <= fr m) /\ (fr m = fr acc \/ exists x, In x l /\ fr x = fr m).
Proof.
  induction l as [|y l IH]; intros hl acc ha; cbn [fold_left In]; cbv zeta.
  - split; [auto|]. split; [lra|]. split; [tauto|auto].
  - destruct (hl y (or_introl eq_refl)) as (vy & fy). destruct ha as (va & fa).
    destruct (nmax_std acc y va vy fa fy) as (v1 & v2 & v3).
    destruct (IH (fun x hx => hl x (or_intror hx)) _ (conj v1 v2)) as (h1 & h2 & h3 & h4). cbv zeta in *.
    set (m := fold_left _ _ _) in *. rewrite v3 in *. pose proof (Rmax_l (fr acc) (fr y)). pose proof (Rmax_r (fr acc) (fr y)).
    split; [exact h1|]. split; [lra|]. split.
    + intros x [<-|hx]; [lra|auto].
    + destruct h4 as [h4|(x & hx & h4)]; [|right; exists x; auto]. rewrite h4.
      unfold Rmax. destruct (Rle_dec (fr acc) (fr y)); [right; exists y; auto|auto].
Qed.
Lemma neg_inf_max (x : FN) : ffin x -> nmax FN (nneg_inf FN) x = x.
Proof. unfold nmax, nneg_inf, FN, f_max. destruct x as [s|s| |s m e]; try discriminate; intros _; cbn; auto; destruct s; auto. Qed.
Lemma in_elemsF (m : mat FN) x : In x (elems m) <-> exists i j, (i < nr m)%nat /\ (j < nc m)%nat /\ x = get m i j.
Proof.
  unfold elems. rewrite in_flat_map. split.
  - intros (i & hi & hx). apply in_map_iff in hx. destruct hx as (j & <- & hj). apply in_seq in hi, hj.
    exists i, j. repeat split; lia.
  - intros (i & j & hi & hj & ->). exists i. split; [apply in_seq; lia|]. apply in_map_iff. exists j. split; auto. apply in_seq; lia.
Qed.
Lemma abs_max_f (a : mat FN) n : nr a = n -> nc a = n -> (1 <= n)%nat -> (forall i j, (i < n)%nat -> (j < n)%nat -> fokx (get a i j)) ->
  fokx (abs_max a) /\ (forall i j, (i < n)%nat -> (j < n)%nat -> Rabs (frm a i j) <= fr (abs_max a)) /\
  exists i j, (i < n)%nat /\ (j < n)%nat /\ Rabs (frm a i j) = fr (abs_max a).
Proof.
  intros hr hc hn ha. unfold abs_max. set (l := map (nabs FN) (elems a)).
  assert (hl : forall x, In x l -> fokx x /\ exists i j, (i < n)%nat /\ (j < n)%nat /\ fr x = Rabs (frm a i j)).
  { intros x hx. apply in_map_iff in hx. destruct hx as (y & <- & hy). apply in_elemsF in hy. destruct hy as (i & j & hi & hj & ->).
    rewrite hr in hi. rewrite hc in hj. destruct (ha i j hi hj) as (v & f). split; [split; [apply fvalid_abs|apply ffin_abs]; auto|].
    exists i, j. split; auto. split; auto. rewrite fr_abs. reflexivity. }
  assert (hin : forall i j, (i < n)%nat -> (j < n)%nat -> In (nabs FN (get a i j)) l).
  { intros i j hi hj. apply in_map. apply in_elemsF. exists i, j. rewrite hr, hc. auto. }
  destruct l as [|y l]; [destruct (hin 0%nat 0%nat); lia|].
  cbn [fold_left]. rewrite neg_inf_max by (apply hl; left; auto).
  destruct (fold_max_f l (fun x hx => proj1 (hl x (or_intror hx))) y (proj1 (hl y (or_introl eq_refl)))) as (h1 & h2 & h3 & h4).
  cbv zeta in *. set (m := fold_left _ _ _) in *. split; auto. split.
  - intros i j hi hj. specialize (hin i j hi hj). unfold frm. rewrite <- fr_abs. destruct hin as [->|hx]; auto.
  - destruct h4 as [h4|(x & hx & h4)].
    + destruct (proj2 (hl y (or_introl eq_refl))) as (i & j & hi & hj & e). exists i, j. rewrite <- e. auto.
    + destruct (proj2 (hl x (or_intror hx))) as (i & j & hi & hj & e). exists i, j. rewrite <- e. auto.
Qed.

(** ** Scaling *)
Lemma div_rnd x y x' : fokx x -> fokx x' -> fokx y -> fr y <> 0 -> Rabs (fr x / fr y) <= bpow radix2 1023 -> fr x = fr x' ->
  fr (ndiv FN x y) = fr (ndiv FN x' y).
Proof.
  intros hx hx' hy h0 hb he. pose proof hb as hb'. rewrite he in hb'.
  destruct (div_err x y hx hy h0 hb) as ((_ & f1) & _). destruct (div_err x' y hx' hy h0 hb') as ((_ & f2) & _).
  destruct hx as (vx & fx), hx' as (vx' & fx'), hy as (vy & fy). clear hb hb'. revert vx vx' vy f1 f2 he h0.
  intros vx vx' vy. tob. unfold ndiv, FN. rewrite !div_equiv, !ffin_B2SF, !fr_B2SF. intros f1 f2 he h0.
  rename x0 into bx.
  match goal with |- B2R (Bdiv _ ?p ?q) = B2R (Bdiv _ ?p' ?q) => pose proof (Bdiv_correct prec emax Hprec Hemax mode_NE p q h0) as e1; pose proof (Bdiv_correct prec emax Hprec Hemax mode_NE p' q h0) as e2 end.
  rewrite he in e1.
  destruct (Rlt_bool _ _).
  - destruct e1 as (-> & _), e2 as (-> & _). reflexivity.
  - exfalso. eapply overflow_not_fin; eauto.
Qed.

Lemma neq_pos (x : FN) : ffin x -> 0 < fr x -> neq FN x (n0 FN) = false.
Proof. destruct x as [s|s| |s m e]; try discriminate; intros _ h; [exfalso; change (fr (S754_zero s)) with 0 in h; lra|destruct s; reflexivity]. Qed.
Lemma scale_f (a : mat FN) n : nr a = n -> nc a = n -> (1 <= n)%nat -> (forall i j, (i < n)%nat -> (j < n)%nat -> fokx (get a i j)) ->
  symmetric n (frm a) -> 0 < fr (abs_max a) ->
  let al := fr (abs_max a) in let s := scale_down a (abs_max a) in
  nr s = n /\ nc s = n /\ (forall i j, (i < n)%nat -> (j < n)%nat -> fokx (get s i j)) /\ symmetric n (frm s) /\
  (forall i j, (i < n)%nat -> (j < n)%nat -> Rabs (frm s i j) <= 2) /\ 1 / 2 <= frob n n (frm s) /\ al <= frob n n (frm a) /\
  frob n n (msub (frm a) (mscal al (frm s))) <= (uro + INR n * eta) * frob n n (frm a).
Proof.
  intros hr hc hn ha hsym hal al s. destruct (abs_max_f a n hr hc hn ha) as (hm & h1 & i0 & j0 & hi0 & hj0 & h2). fold al in h1, h2.
  assert (es : s = mmap (fun x => ndiv FN x (abs_max a)) a).
  { unfold s, scale_down. rewrite (neq_pos _ (proj2 hm) hal). reflexivity. }
  change (0 < al) in hal.
  assert (hg : forall i j, (i < n)%nat -> (j < n)%nat -> get s i j = ndiv FN (get a i j) (abs_max a)).
  { intros i j hi hj. rewrite es. rewrite get_mmap by lia. reflexivity. }
  assert (hq : forall i j, (i < n)%nat -> (j < n)%nat -> Rabs (frm a i j / al) <= 1).
  { intros i j hi hj. unfold Rdiv. rewrite Rabs_mult, (Rabs_right (/ al)) by (left; apply Rinv_0_lt_compat; lra).
    apply (Rmult_le_reg_r al); [lra|]. rewrite Rmult_assoc, Rinv_l by lra. rewrite Rmult_1_l, Rmult_1_r. auto. }
  assert (hbig : 1 <= bpow radix2 1023) by (change 1 with (bpow radix2 0); apply bpow_le; lia).
  assert (hd : forall i j, (i < n)%nat -> (j < n)%nat -> fokx (get s i j) /\ Rabs (frm s i j - frm a i j / al) <= uro * Rabs (frm a i j / al) + eta).
  { intros i j hi hj. unfold frm at 1. rewrite hg by auto. apply div_err; auto; [fold al; lra|]. eapply Rle_trans; [apply (hq i j hi hj)|auto]. }
  assert (hu : uro <= 1 / 4) by (pose proof uro_small; lra).
  assert (he : 0 <= eta <= 1 / 4) by (split; [apply bpow_ge_0|unfold eta; replace (1 / 4) with (bpow radix2 (-2)) by (simpl; lra); apply bpow_le; lia]).
  pose proof uro_pos as hu0.
  assert (hb : forall i j, (i < n)%nat -> (j < n)%nat -> Rabs (frm s i j) <= Rabs (frm a i j / al) + 1 / 2 /\ Rabs (frm a i j / al) - 1 / 2 <= Rabs (frm s i j)).
  { intros i j hi hj. destruct (hd i j hi hj) as (_ & hx). pose proof (hq i j hi hj) as hy. pose proof (Rabs_pos (frm a i j / al)) as hz.
    assert (uro * Rabs (frm a i j / al) <= 1 / 4) by (eapply Rle_trans; [apply Rmult_le_compat_l; [lra|exact hy]|lra]).
    pose proof (Rabs_triang_inv (frm s i j) (frm a i j / al)). pose proof (Rabs_triang_inv (frm a i j / al) (frm s i j)) as ht. rewrite Rabs_minus_sym in ht. lra. }
  split; [rewrite es; exact hr|]. split; [rewrite es; exact hc|]. split; [intros; apply hd; auto|]. split.
  { intros i j hi hj. unfold mtr, frm. rewrite !hg by auto. apply div_rnd; auto; [fold al; lra| |].
    - eapply Rle_trans; [apply (hq i j hi hj)|auto].
    - apply (hsym i j hi hj). }
  split. { intros i j hi hj. pose proof (hb i j hi hj). pose proof (hq i j hi hj). lra. }
  split. { eapply Rle_trans; [|apply (frob_entry_le n n (frm s) i0 j0); auto]. pose proof (hb i0 j0 hi0 hj0) as (_ & hx).
    unfold Rdiv in hx. rewrite Rabs_mult, h2, (Rabs_right (/ al)), Rinv_r in hx by (try lra; left; apply Rinv_0_lt_compat; lra). lra. }
  assert (hfa : al <= frob n n (frm a)) by (rewrite <- h2; apply (frob_entry_le n n); auto).
  split; auto.
  eapply Rle_trans; [apply (frob_le _ _ _ (madd (mscal uro (fun i j => Rabs (frm a i j))) (fun _ _ => eta * al)))|].
  - intros i j hi hj. unfold msub, mscal, madd. destruct (hd i j hi hj) as (_ & hx).
    rewrite (Rabs_pos_eq (uro * _ + _)) by (apply Rplus_le_le_0_compat; apply Rmult_le_pos; try lra; apply Rabs_pos).
    replace (frm a i j - al * frm s i j) with (al * - (frm s i j - frm a i j / al)) by (field; lra).
    rewrite Rabs_mult, Rabs_Ropp, (Rabs_pos_eq al) by lra.
    replace (uro * Rabs (frm a i j) + eta * al) with (al * (uro * Rabs (frm a i j / al) + eta)); [apply Rmult_le_compat_l; lra|].
    unfold Rdiv. rewrite Rabs_mult, (Rabs_right (/ al)) by (left; apply Rinv_0_lt_compat; lra). field. lra.
  - eapply Rle_trans; [apply frob_triangle|]. rewrite frob_scal, (Rabs_pos_eq uro) by lra.
    assert (e1 : frob n n (fun i j => Rabs (frm a i j)) = frob n n (frm a)).
    { unfold frob, frob2. f_equal. apply Rsum_ext. intros i hi. apply Rsum_ext. intros j hj. apply Rabs_sq. }
    rewrite e1. assert (h3 : frob n n (fun _ _ => eta * al) <= INR n * eta * al).
    { rewrite frob_const; [lra|]. apply Rmult_le_pos; lra. }
    assert (h4 : INR n * eta * al <= INR n * eta * frob n n (frm a)) by (apply Rmult_le_compat_l; auto; apply Rmult_le_pos; [apply pos_INR|lra]).
    lra.
Qed.

(** ** Tridiagonalisation does not use [hypot] *)
Lemma tri_h h (a : mat FN) d : sym_tridiagonal (N:=FN) a = Ret d -> sym_tridiagonal (N:=FNh h) a = Ret (TRD (N:=FNh h) (diag_matrix d) (off_diagonal d)).
Proof.
  unfold sym_tridiagonal. intros e. apply bind_ret in e as (n & e1 & e).
  change (@check_square (FNh h) a) with (@check_square FN a). rewrite e1. cbn [bind]. destruct (Nat.ltb n 1); [discriminate|].
  apply bind_ret in e as ([[self off] p] & e2 & e). injection e as <-. cbn [diag_matrix off_diagonal].
  change (@for_ (mat (FNh h) * list (FNh h) * list (FNh h)) (n - 1) 0 (@tridiag_step (FNh h)) (a, @vzeros (FNh h) (n - 1), @vzeros (FNh h) (n - 1)))
    with (@for_ (mat FN * list FN * list FN) (n - 1) 0 (@tridiag_step FN) (a, @vzeros FN (n - 1), @vzeros FN (n - 1))).
  rewrite e2. reflexivity.
Qed.

Lemma near_trans n A T0 T b b' : near n A T0 b -> near n T0 T b' -> near n A T (b + b').
Proof.
  intros hA (W & hW & hb). apply (near_move n A T0 T (mtr W) b b'); auto; [apply orth_tr; auto|].
  eapply Rle_trans; [|exact hb]. right. rewrite <- (frob_conj n (mtr W) (msub T0 _) (orth_tr n W hW)).
  apply frob_ext. rewrite mtr_mtr.
  assert (e : mmul n (mtr W) (mmul n (mmul n W (mmul n T (mtr W))) W) =[n, n]= T).
  { destruct hW as (w1 & w2). assert (ee : mmul n (mtr W) W =[n, n]= mid) by exact w1.
    pose proof (conj_comp n W (mtr W) T) as ec. rewrite mtr_mtr in ec. rewrite ec, ee, mtr_mid, mmul_1_r, mmul_1_l. reflexivity. }
  assert (e2 : mmul n (mtr W) (mmul n (msub T0 (mmul n W (mmul n T (mtr W)))) W) =[n, n]= msub (mmul n (mtr W) (mmul n T0 W)) (mmul n (mtr W) (mmul n (mmul n W (mmul n T (mtr W))) W))).
  { intros p q hp hq. unfold mmul, msub. rewrite <- Rsum_minus. apply Rsum_ext. intros i hi. rewrite <- Rmult_minus_distr_l. f_equal. rewrite <- Rsum_minus. apply Rsum_ext. intros j hj. ring. }
  rewrite e2. intros p q hp hq. unfold msub at 1 2. rewrite (e p q hp hq). reflexivity.
Qed.

Section Core.
Variable h : spec_float -> spec_float -> spec_float.
Hypothesis hh : hyp_good h.
Local Notation N := (FNh h).
Variables (n fuel : nat) (s : mat FN) (vec : bool).
(** the distance between the generated q and an orthogonal matrix (C59) *)
Definition qgen_err : R := sqrt (INR n) * (gam (n * (10 * n + 70)) + INR n * ((1 + uro) ^ (n * (10 * n + 70))) * omega).
Hypotheses (hr : nr s = n) (hc : nc s = n) (hn : (1 <= n)%nat) (hs : forall i j, (i < n)%nat -> (j < n)%nat -> fokx (get s i j)) (hsym : symmetric n (frm s))
  (hb2 : forall i j, (i < n)%nat -> (j < n)%nat -> Rabs (frm s i j) <= 2) (hsm : 650 * (INR n * INR n) * gam (2 * n + 20) <= 1)
  (hbud : 640 * (INR fuel + 1) * (INR n + 1) * uro <= 1 / 2)
  (hcl : forall d t, sym_tridiagonal s = Ret d -> tri_into_matrix d = Ret t -> forall i, (i + 1 < n)%nat -> fr (get t (i + 1) i) = 0 \/ tiny <= fr (get t (i + 1) i))
  (hqe : vec = true -> qgen_err <= / 2).
Definition core_run : res (list N * option (mat N)) :=
  let* td := sym_tridiagonal (N:=N) s in
  let* q := (if vec then let* q := tri_generate_q td in Ret (Some q) else Ret None) in
  let '(diag, off) := tri_into_diagonals td in
  if Nat.eqb n 1 then Ret (diag, q)
  else
    let* (start, end_, off) := delimit_subproblem (N:=N) diag off (n - 1) (nepsilon N) in
    let* es := eig_loop (N:=N) fuel (nepsilon N) start end_ (ES diag off q) in
    Ret (es_diag es, es_q es).
Let F := frob n n (frm s).
Let m := 1 + 4 * F.
Definition core_err : R := 650 * (INR n * INR n) * (gam (2 * n + 20) * (F + zfl)) + (INR fuel + 1) * ((2 * INR n + 2) * kap m).

Definition vec_err : R := qgen_err + 640 / 3 * (INR fuel + 1) * (INR n + 1) * uro.
Definition vec_ok (q : option (mat FN)) : Prop := match q with None => vec = false | Some q => vec = true /\ nr q = n /\ nc q = n /\ qnear n q vec_err end.
Lemma core_f (ds : list FN) (qq : option (mat FN)) : core_run = Ret (ds, qq) -> length ds = n /\
  ((exists k, (k < n)%nat /\ vget (N:=FN) ds k = S754_nan) \/
   ((forall k, (k < n)%nat -> ent_ok m (vget (N:=FN) ds k)) /\ near n (frm s) (mdiag (frv ds)) core_err /\ vec_ok qq)).
Proof.
  intros hrun. pose proof uro_pos as hu. pose proof (pos_INR n) as hpn. pose proof (pos_INR fuel) as hpf.
  assert (hF0 : 0 <= F) by apply frob_nonneg.
  assert (hF : F <= INR n * 2).
  { unfold F. rewrite <- (frob_const n 2) by lra. apply frob_le. intros i j hi hj. rewrite (Rabs_pos_eq 2) by lra. apply hb2; auto. }
  assert (hm1 : 1 <= m) by (unfold m; lra).
  assert (hnb : INR n <= 8000000000000).
  { assert (uv : uro = / 9007199254740992) by (unfold uro; f_equal; lra).
    assert (640 * (INR n + 1) * uro <= 1 / 2).
    { eapply Rle_trans; [|exact hbud]. assert (0 <= 640 * (INR n + 1) * uro) by (apply Rmult_le_pos; lra). assert (0 <= INR fuel * (640 * (INR n + 1) * uro)) by (apply Rmult_le_pos; auto). lra. }
    rewrite uv in *. lra. }
  assert (hm2 : m <= mbig) by (rewrite mbig_v; unfold m; lra).
  assert (hz : 0 <= zfl <= 1 / 8) by (unfold zfl; split; [apply bpow_ge_0|replace (1 / 8) with (bpow radix2 (-3)) by (simpl; lra); apply bpow_le; lia]).
  assert (hcap : 2 * (F + zfl) <= cap).
  { apply Rle_trans with (bpow radix2 60); [fold mbig; rewrite mbig_v; lra|unfold cap; apply bpow_le; lia]. }
  destruct (tri_decomp_float s) as (d & q & t & e1 & e2 & e3 & q1 & q2 & t1 & t2 & hc2); rewrite ?hr in *; auto.
  { intros i j hi hj. rewrite hr in hi. rewrite hc in hj. apply hs; auto. }
  { intros i j hi hj. apply hs; auto. }
  destruct (hc2 (hcl d t e1 e3)) as (hqf & ht & Q & hQ & hE & hQc).
  pose proof (PTrid.sym_tridiagonal_class s) as hcls. rewrite e1 in hcls. destruct hcls as (_ & _ & c1 & c2 & c3). rewrite hr in c1, c2, c3.
  assert (htg : forall p j, (p < n)%nat -> (j < n)%nat -> get t p j =
      if Nat.eqb p j then get (diag_matrix d) p p else if Nat.eqb p (j + 1) then nabs FN (vget (off_diagonal d) j) else if Nat.eqb j (p + 1) then nabs FN (vget (off_diagonal d) p) else n0 FN).
  { destruct (wp_ret _ _ (PTrid.tri_into_matrix_ok d n hn c1 c2 c3)) as (t' & et & _ & _ & t3). rewrite e3 in et. injection et as <-. exact t3. }
  set (qd0 := if vec then qgen_err else 0). set (q1_ := if vec then Some q else None).
  assert (hqd : qd0 <= / 2) by (unfold qd0; destruct vec; [apply hqe; auto|lra]).
  assert (hneta : INR n * eta <= uro).
  { apply Rle_trans with (bpow radix2 50 * eta); [apply Rmult_le_compat_r; [pose proof eta_pos; lra|]; change (bpow radix2 50) with 1125899906842624; lra|].
    rewrite uro_bpow. unfold eta. rewrite <- bpow_plus. apply bpow_le. lia. }
  assert (hqn0 : forall q', q1_ = Some q' -> vec = true /\ nr q' = n /\ nc q' = n /\ qnear n q' qd0).
  { unfold q1_, qd0. destruct vec; [|discriminate]. intros q' eq'. injection eq' as <-. split; auto. split; auto. split; auto. split; [intros; apply hqf; auto|].
    exists Q. split; auto. unfold qgen_err. apply frob_cols; [|exact hQc].
    pose proof (gam_nonneg (n * (10 * n + 70))). pose proof omega_pos. pose proof (pow_u_ge1 (n * (10 * n + 70))).
    apply Rplus_le_le_0_compat; auto. apply Rmult_le_pos; [apply Rmult_le_pos|]; lra. }
  assert (hqv : forall q' b, b <= (INR fuel + 1) * ((2 * INR n + 2) * kap m) -> q1_ <> None -> qnear n q' (qd0 + b / (3 * m)) -> qnear n q' vec_err).
  { intros q' b hb hq1. unfold q1_, qd0 in *. destruct vec; [|congruence]. apply qnear_weak. unfold vec_err. apply Rplus_le_compat_l.
    apply Rmult_le_reg_r with (3 * m); [lra|]. unfold Rdiv at 1. rewrite Rmult_assoc, Rinv_l by lra. eapply Rle_trans; [rewrite Rmult_1_r; exact hb|]. right. unfold kap. field. }
  unfold core_run in hrun. rewrite (tri_h h s d e1) in hrun. cbn [bind] in hrun.
  match type of hrun with bind ?mm _ = _ => replace mm with (@Ret (option (mat N)) q1_) in hrun end.
  2:{ unfold q1_. destruct vec; [|reflexivity]. match goal with |- _ = bind ?mm _ => replace mm with (@Ret (mat N) q) by (symmetry; exact e2) end. reflexivity. }
  cbn [bind] in hrun. unfold tri_into_diagonals in hrun. cbn [diag_matrix off_diagonal] in hrun.
  set (dg := @vmk FN n (fun i => get (diag_matrix d) i i)).
  set (of := vmap (nabs FN) (off_diagonal d)).
  assert (hlo : length of = (n - 1)%nat) by (unfold of; rewrite length_vmap; exact c3).
  assert (hld : length dg = n) by apply length_vmk.
  assert (hdg : forall i, (i < n)%nat -> vget dg i = get t i i).
  { intros i hi. unfold dg. rewrite vget_vmk by auto. rewrite htg by auto. rewrite Nat.eqb_refl. reflexivity. }
  assert (hof : forall i, (i + 1 < n)%nat -> vget of i = get t (i + 1) i).
  { intros i hi. unfold of. rewrite vget_vmap by lia. rewrite htg by lia. destruct (Nat.eqb_spec (i + 1) i); [lia|]. rewrite Nat.eqb_refl. reflexivity. }
  assert (hT : frm t =[n, n]= tridiag (frv dg) (gf (n - 1) of)).
  { intros p j hp hj. unfold frm, tridiag, gf, frv. rewrite htg by auto. destruct (Nat.eqb_spec p j) as [->|hpj].
    - rewrite hdg by auto. rewrite htg by auto. rewrite Nat.eqb_refl. bd; auto; lia.
    - destruct (Nat.eqb_spec p (j + 1)) as [->|]; [|destruct (Nat.eqb_spec j (p + 1)) as [->|]].
      + bd; try lia. rewrite hof by auto. rewrite htg by lia. bd; try lia. reflexivity.
      + bd; try lia. rewrite hof by auto. rewrite htg by lia. bd; try lia. reflexivity.
      + bd; try lia; apply fr_0. }
  set (rho := 650 * (INR n * INR n) * (gam (2 * n + 20) * (F + zfl))) in *.
  assert (hrho : rho <= F + zfl).
  { unfold rho. replace (650 * (INR n * INR n) * (gam (2 * n + 20) * (F + zfl))) with ((650 * (INR n * INR n) * gam (2 * n + 20)) * (F + zfl)) by ring.
    rewrite <- (Rmult_1_l (F + zfl)) at 2. apply Rmult_le_compat_r; lra. }
  assert (hnT : near n (frm s) (frm t) rho) by (exists Q; split; auto).
  assert (hfT : frob n n (frm t) <= m / 2).
  { rewrite <- (frob_conj n Q (frm t) hQ). apply Rle_trans with (F + rho); [|unfold m; lra].
    apply Rle_trans with (frob n n (madd (frm s) (mscal (-1) (msub (frm s) (mmul n Q (mmul n (frm t) (mtr Q))))))).
    - right. apply frob_ext. intros p j hp hj. unfold madd, mscal, msub. ring.
    - eapply Rle_trans; [apply frob_triangle|]. apply Rplus_le_compat_l. rewrite frob_scal. replace (Rabs (-1)) with 1 by (rewrite Rabs_left; lra). rewrite Rmult_1_l. exact hE. }
  assert (hte : forall p j, (p < n)%nat -> (j < n)%nat -> ent_ok m (get t p j)).
  { intros p j hp hj. split; [apply ht; auto|]. change (Rabs (frm t p j) <= m). eapply Rle_trans; [apply (frob_entry_le n n); auto|]. lra. }
  assert (hkp : 0 <= kap m) by (unfold kap; apply Rmult_le_pos; lra).
  assert (hbk : (INR fuel + 1) * ((2 * INR n + 2) * kap m) <= m / 2).
  { unfold kap. replace ((INR fuel + 1) * ((2 * INR n + 2) * (320 * uro * m))) with (640 * (INR fuel + 1) * (INR n + 1) * uro * m) by ring.
    replace (m / 2) with (1 / 2 * m) by field. apply Rmult_le_compat_r; lra. }
  assert (hnk : 0 <= (INR n + 1) * kap m) by (apply Rmult_le_pos; lra).
  assert (hfk : 0 <= INR fuel * ((2 * INR n + 2) * kap m)) by (apply Rmult_le_pos; auto; apply Rmult_le_pos; lra).
  change (@nr (FNh h) (diag_matrix d)) with (nr (diag_matrix d)) in hrun. change (@nc (FNh h) (diag_matrix d)) with (nc (diag_matrix d)) in hrun.
  rewrite c1, c2, Nat.min_id in hrun.
  change (@vmk (FNh h) n (fun i => @get (FNh h) (diag_matrix d) i i)) with dg in hrun. change (@vmap (FNh h) (nabs (FNh h)) (off_diagonal d)) with of in hrun.
  destruct (Nat.eqb_spec n 1) as [en|hne].
  - injection hrun as <- <-. split; [exact hld|]. right. split; [|split].
    + intros k hk. rewrite hdg by auto. auto.
    + eapply near_weak; [|eapply near_ext; [|exact hnT]].
      * unfold core_err. fold rho. lra.
      * rewrite hT. intros p j hp hj. unfold tridiag, mdiag. bd; auto; lia.
    + change (vec_ok q1_). destruct q1_ as [q'|] eqn:eq1; unfold vec_ok.
      * destruct (hqn0 q' eq_refl) as (z1 & z2 & z3 & z4). split; [auto|]. split; [auto|]. split; [auto|]. apply (hqv q' 0); [lra|congruence|]. eapply qnear_weak; [|exact z4]. unfold Rdiv. lra.
      * unfold q1_ in eq1. destruct vec; [discriminate|reflexivity].
  - apply bind_ret in hrun as ([[s0 e0] of'] & edl & hrun). apply bind_ret in hrun as (es & el & hrun). injection hrun as <- <-.
    pose (es0 := @ES N dg of q1_).
    assert (hsh : es_shape n es0).
    { split; [exact hld|split; [exact hlo|]]. unfold es0. cbn [es_q]. unfold q_shape. destruct q1_ as [q'|] eqn:eq1; [|exact I]. destruct (hqn0 q' eq_refl) as (_ & z2 & z3 & _). split; auto. }
    assert (h0 : bad h n es0 \/ tri_near h n (frm t) m vec qd0 es0 (n - 1) 0).
    { right. split.
      - split; intros j hj; unfold es0; cbn [es_diag es_off]; [rewrite hdg by auto|rewrite hof by lia]; apply hte; lia.
      - unfold es0. cbn [es_diag es_off es_q]. split; [eapply near_ext; [exact hT|apply near_id]|].
        unfold qn. destruct q1_ as [q'|] eqn:eq1; [|unfold q1_ in eq1; destruct vec; [discriminate|reflexivity]]. destruct (hqn0 q' eq_refl) as (z1 & _ & _ & z4). split; auto. eapply qnear_weak; [|exact z4]. unfold Rdiv. lra. }
    pose proof (delimit_f h n (frm t) m vec qd0 hm1 hm2 (n - 1) es0 0 hsh ltac:(lia) ltac:(lra) h0) as hdl.
    pose proof (post_inv _ _ _ _ _ hdl edl) as hli. cbn [fst snd] in hli.
    destruct (loop_f h hh n (frm t) m vec qd0 hm1 hm2 hqd hneta hfT fuel _ _ _ _ _ hli ltac:(lra) el) as (r1 & r2).
    split; [apply r1|]. destruct r2 as [r2|(r2 & r3 & r4)]; [left; exact r2|]. right. split; [apply r2|]. split.
    + unfold core_err. fold rho. eapply near_trans; [exact hnT|]. eapply near_weak; [|eapply near_ext; [|exact r3]]; [lra|].
      intros p j hp hj. unfold tridiag, mdiag. bd; auto; lia.
    + destruct r1 as (_ & _ & r1). unfold q_shape in r1. unfold qn in r4. change (vec_ok (es_q es)). destruct (es_q es) as [q'|]; unfold vec_ok; [|exact r4].
      destruct r1 as (z2 & z3). destruct r4 as (z1 & z4). split; [auto|]. split; [auto|]. split; [auto|].
      eapply hqv; [|unfold q1_; rewrite z1; discriminate|exact z4]. lra.
Qed.
End Core.

Lemma symeig_core h n fuel vec (a : mat FN) vals (q : option (mat FN)) : nr a = n -> nc a = n -> (1 <= n)%nat -> symmetric_eig (N:=FNh h) fuel a vec (nepsilon (FNh h)) = Ret (vals, q) ->
  exists ds : list FN, core_run h n fuel (scale_down a (abs_max a)) vec = Ret (ds, q) /\ vals = vmap (N:=FN) (fun x => nmul FN x (abs_max a)) ds.
Proof.
  intros hr hc hn e.
  unfold symmetric_eig in e. apply bind_ret in e as (k & ek & e).
  assert (k = n). { revert ek. unfold check_square. change (@nr (FNh h) a) with (nr a). change (@nc (FNh h) a) with (nc a). rewrite hr, hc, Nat.eqb_refl. cbn. intros ek. injection ek as <-. reflexivity. }
  subst k. destruct (Nat.ltb_spec n 1); [lia|]. apply bind_ret in e as (td & etd & e). apply bind_ret in e as (q1 & eq1 & e). unfold core_run.
  change (@scale_down FN a (@abs_max FN a)) with (@scale_down (FNh h) a (@abs_max (FNh h) a)). rewrite etd. cbn [bind]. rewrite eq1. cbn [bind].
  destruct (tri_into_diagonals td) as (dg & of). destruct (Nat.eqb n 1).
  - injection e as <- <-. exists dg. split; auto.
  - apply bind_ret in e as ([[s0 e0] of'] & edl & e). rewrite edl. cbn [bind]. apply bind_ret in e as (es & el & e). rewrite el. cbn [bind].
    injection e as <- <-. eexists. split; reflexivity.
Qed.
Lemma eigvalsh_core h fuel (a : mat FN) vals : eigvalsh (N:=FNh h) fuel a = Ret vals -> exists q, symmetric_eig (N:=FNh h) fuel a false (nepsilon (FNh h)) = Ret (vals, q).
Proof. intros hrun. unfold eigvalsh in hrun. apply bind_ret in hrun as ([v q] & e & hrun). injection hrun as <-. eauto. Qed.
Lemma eigh_core h fuel (a : mat FN) vals (q : mat FN) : eigh (N:=FNh h) fuel a = Ret (vals, q) -> symmetric_eig (N:=FNh h) fuel a true (nepsilon (FNh h)) = Ret (vals, Some q).
Proof.
  intros hrun. unfold eigh in hrun. apply bind_ret in hrun as ([v oq] & e & hrun). destruct oq as [q'|]; [|discriminate hrun].
  cbn [unwrap_opt bind] in hrun. injection hrun as <- <-. exact e.
Qed.

Definition eigf_eps (n fuel : nat) : R := 3 * (650 * (INR n * INR n) * gam (2 * n + 20)) + 8000 * (INR fuel + 1) * (INR n + 1) * uro.

Lemma frob_diag n d e : 0 <= e -> (forall k, (k < n)%nat -> Rabs (d k) <= e) -> frob n n (mdiag d) <= INR n * e.
Proof.
  intros he hd. rewrite <- (frob_const n e he). apply frob_le. intros i j hi hj. rewrite (Rabs_pos_eq e) by auto.
  unfold mdiag. destruct (Nat.eqb i j); [auto|rewrite Rabs_R0; auto].
Qed.
Lemma zero_sf (y : FN) : ffin y -> fr y = 0 -> exists b, y = S754_zero b.
Proof.
  intros fy hy. destruct y as [b|b| |b p e]; try discriminate; [eauto|]. exfalso. unfold fr in hy. cbn in hy. destruct b; cbn in hy.
  - apply eq_0_F2R in hy. discriminate.
  - apply eq_0_F2R in hy. discriminate.
Qed.
Lemma mul_zero_fin (x y : FN) : ffin y -> fr y = 0 -> ffin (nmul FN x y) -> fr (nmul FN x y) = 0.
Proof.
  intros fy hy hp. destruct (zero_sf y fy hy) as (b & ->). destruct x; try discriminate; reflexivity.
Qed.

Lemma symeig_f h n fuel vec (a : mat FN) vals (q : option (mat FN)) : hyp_good h -> nr a = n -> nc a = n -> (1 <= n)%nat ->
  (forall i j, (i < n)%nat -> (j < n)%nat -> fokx (get a i j)) -> symmetric n (frm a) ->
  650 * (INR n * INR n) * gam (2 * n + 20) <= 1 -> 640 * (INR fuel + 1) * (INR n + 1) * uro <= 1 / 2 ->
  (forall d t, sym_tridiagonal (scale_down a (abs_max a)) = Ret d -> tri_into_matrix d = Ret t -> forall i, (i + 1 < n)%nat -> fr (get t (i + 1) i) = 0 \/ tiny <= fr (get t (i + 1) i)) ->
  (vec = true -> qgen_err n <= / 2) ->
  symmetric_eig (N:=FNh h) fuel a vec (nepsilon (FNh h)) = Ret (vals, q) -> (forall k, (k < n)%nat -> ffin (vget (N:=FN) vals k)) ->
  near n (frm a) (mdiag (frv vals)) (eigf_eps n fuel * frob n n (frm a) + INR n * eta) /\ vec_ok n fuel vec q.
Proof.
  intros hh hr hc hn ha hsym hsm hbud hcl hqe hrun hfin.
  destruct (symeig_core h n fuel vec a vals q hr hc hn hrun) as (ds & hcore & ->).
  destruct (abs_max_f a n hr hc hn ha) as (hm & hmax & i0 & j0 & hi0 & hj0 & hat).
  set (al := fr (abs_max a)) in *. set (A := frm a) in *. set (R0 := 650 * (INR n * INR n) * gam (2 * n + 20)) in *.
  pose proof uro_pos as hu. pose proof (pos_INR n) as hpn. pose proof (pos_INR fuel) as hpf. pose proof eta_pos as het.
  pose proof (frob_nonneg n n A) as hA0. assert (hR0 : 0 <= R0) by (unfold R0; pose proof (gam_nonneg (2 * n + 20)); apply Rmult_le_pos; auto; pose proof (Rmult_le_pos _ _ hpn hpn); lra).
  assert (heps : 0 <= eigf_eps n fuel) by (unfold eigf_eps; fold R0; apply Rplus_le_le_0_compat; [lra|repeat apply Rmult_le_pos; lra]).
  assert (hal0 : 0 <= al) by (rewrite <- hat; apply Rabs_pos).
  destruct (Req_dec al 0) as [ez|enz].
  - assert (hz : forall i j, (i < n)%nat -> (j < n)%nat -> A i j = 0).
    { intros i j hi hj. specialize (hmax i j hi hj). destruct (Req_dec (A i j) 0) as [|hx]; auto. apply Rabs_pos_lt in hx. lra. }
    split.
    2:{ assert (es : scale_down a (abs_max a) = a).
        { unfold scale_down. destruct (zero_sf (abs_max a) (proj2 hm) ez) as (b & eb). rewrite eb. reflexivity. }
        rewrite es in hcore, hcl.
        destruct (core_f h hh n fuel a vec hr hc hn ha hsym) with (ds := ds) (qq := q) as (hl & hor); auto.
        { intros i j hi hj. fold A. rewrite (hz i j hi hj), Rabs_R0. lra. }
        change (length ds = n) in hl. destruct hor as [(k & hk & en)|(_ & _ & hv)]; [|exact hv].
        exfalso. specialize (hfin k hk). rewrite vget_vmap in hfin by lia. rewrite en in hfin. destruct (abs_max a); discriminate. }
    exists mid. split; [apply orthogonal_mid|].
    rewrite (frob_ext n n _ (fun _ _ => 0)).
    + rewrite frob_const by lra. rewrite Rmult_0_r. apply Rplus_le_le_0_compat; apply Rmult_le_pos; lra.
    + intros i j hi hj. unfold msub. assert (e : mmul n mid (mmul n (mdiag (frv (vmap (N:=FN) (fun x => nmul FN x (abs_max a)) ds))) (mtr mid)) =[n, n]= mdiag (frv (vmap (N:=FN) (fun x => nmul FN x (abs_max a)) ds))) by (rewrite mtr_mid, mmul_1_r, mmul_1_l; reflexivity).
      rewrite (e i j hi hj), (hz i j hi hj). unfold mdiag. destruct (Nat.eqb i j); [|ring]. unfold frv. specialize (hfin i hi).
      destruct (Nat.lt_ge_cases i (length ds)) as [hl|hl].
      * rewrite vget_vmap in * by lia. rewrite mul_zero_fin; auto; [ring|apply hm].
      * unfold vget. rewrite nth_overflow by (rewrite length_vmap; lia). rewrite fr_0. ring.
  - assert (hal : 0 < al) by lra.
    destruct (scale_f a n hr hc hn ha hsym hal) as (s1 & s2 & s3 & s4 & s5 & s6 & s7 & s8). fold al A in s6, s7, s8.
    set (s := scale_down a (abs_max a)) in *.
    destruct (core_f h hh n fuel s vec s1 s2 hn s3 s4 s5 hsm hbud hcl hqe ds q hcore) as (hl & hor). change (length ds = n) in hl.
    destruct hor as [(k & hk & en)|(he & hnear & hv)].
    { exfalso. specialize (hfin k hk). rewrite vget_vmap in hfin by lia. rewrite en in hfin. destruct (abs_max a); discriminate. }
    split; [|exact hv]. clear hv.
    set (F := frob n n (frm s)) in *. set (m := 1 + 4 * F) in *.
    assert (hF0 : 0 <= F) by apply frob_nonneg.
    assert (hu8 : uro <= / 8) by apply uro_small.
    assert (hne : INR n * eta <= 1 / 4 /\ INR n * eta <= uro).
    { assert (eta <= uro * uro / 4).
      { apply Rle_trans with (bpow radix2 (-108)); [unfold eta; apply bpow_le; lia|]. rewrite uro_bpow, <- bpow_plus. change (-53 + -53)%Z with (2 + -108)%Z. rewrite bpow_plus. change (bpow radix2 2) with 4. lra. }
      assert (640 * (INR n + 1) * uro <= 1 / 2).
      { eapply Rle_trans; [|exact hbud]. assert (0 <= 640 * (INR n + 1) * uro) by (apply Rmult_le_pos; lra). assert (0 <= INR fuel * (640 * (INR n + 1) * uro)) by (apply Rmult_le_pos; auto). lra. }
      assert (INR n * eta <= INR n * (uro * uro / 4)) by (apply Rmult_le_compat_l; auto).
      assert (INR n * uro * uro <= 1 * uro) by (apply Rmult_le_compat_r; lra). lra. }
    assert (hsF : al * F <= 2 * frob n n A).
    { assert (e : al * F = frob n n (mscal al (frm s))) by (rewrite frob_scal, (Rabs_pos_eq al) by lra; reflexivity). rewrite e.
      apply Rle_trans with (frob n n (madd A (mscal (-1) (msub A (mscal al (frm s)))))).
      - right. apply frob_ext. intros p j hp hj. unfold madd, mscal, msub. ring.
      - eapply Rle_trans; [apply frob_triangle|]. rewrite frob_scal. replace (Rabs (-1)) with 1 by (rewrite Rabs_left; lra).
        assert ((uro + INR n * eta) * frob n n A <= 1 * frob n n A) by (apply Rmult_le_compat_r; lra). lra. }
    assert (ham : al * m <= 12 * frob n n A).
    { unfold m. assert (al * (1 / 2) <= al * F) by (apply Rmult_le_compat_l; lra). lra. }
    (* A is near al * s *)
    assert (n1 : near n A (mscal al (frm s)) ((uro + INR n * eta) * frob n n A)).
    { replace ((uro + INR n * eta) * frob n n A) with (0 + (uro + INR n * eta) * frob n n A) by ring. eapply near_close; [apply near_id|exact s8]. }
    assert (n2 : near n (mscal al (frm s)) (mscal al (mdiag (frv ds))) (al * core_err n fuel s)).
    { destruct hnear as (W & hW & hb). exists W. split; auto.
      rewrite (frob_ext n n _ (mscal al (msub (frm s) (mmul n W (mmul n (mdiag (frv ds)) (mtr W)))))).
      - rewrite frob_scal, (Rabs_pos_eq al) by lra. apply Rmult_le_compat_l; auto.
      - intros p j hp hj. unfold msub, mscal, mmul. rewrite Rmult_minus_distr_l. f_equal. rewrite <- Rsum_scal_l. apply Rsum_ext. intros i hi. rewrite <- !Rsum_scal_l. apply Rsum_ext. intros l hl'. ring. }
    assert (n3 : frob n n (msub (mscal al (mdiag (frv ds))) (mdiag (frv (vmap (N:=FN) (fun x => nmul FN x (abs_max a)) ds)))) <= INR n * (uro * (al * m) + eta)).
    { rewrite (frob_ext n n _ (mdiag (fun k => al * frv ds k - frv (vmap (N:=FN) (fun x => nmul FN x (abs_max a)) ds) k))).
      - apply frob_diag; [apply Rplus_le_le_0_compat; [apply Rmult_le_pos; [lra|apply Rmult_le_pos; unfold m; lra]|lra]|].
        intros k hk. specialize (hfin k hk). unfold frv. rewrite vget_vmap in * by lia. destruct (he k hk) as ((vk & fk) & hk2).
        destruct (mul_std _ _ vk (proj1 hm) hfin) as (_ & _ & d & e & hd & hee & ->). fold al. apply dlt_u in hd.
        replace (al * fr (vget ds k) - (fr (vget ds k) * al * (1 + d) + e)) with (- (d * (al * fr (vget ds k)) + e)) by ring.
        rewrite Rabs_Ropp. eapply Rle_trans; [apply Rabs_triang|]. apply Rplus_le_compat; auto. rewrite !Rabs_mult, (Rabs_pos_eq al) by lra.
        apply Rmult_le_compat; try apply Rabs_pos; auto; [apply Rmult_le_pos; [lra|apply Rabs_pos]|apply Rmult_le_compat_l; auto].
      - intros p j hp hj. unfold msub, mscal, mdiag. destruct (Nat.eqb p j); ring. }
    pose proof (near_close _ _ _ _ _ _ (near_trans _ _ _ _ _ _ n1 n2) n3) as hfinal.
    eapply near_weak; [|exact hfinal].
    unfold core_err. fold F. fold m.
    replace (650 * (INR n * INR n) * (gam (2 * n + 20) * (F + zfl))) with (R0 * (F + zfl)) by (unfold R0; ring).
    assert (hz : 0 <= zfl <= 1 / 8) by (unfold zfl; split; [apply bpow_ge_0|replace (1 / 8) with (bpow radix2 (-3)) by (simpl; lra); apply bpow_le; lia]).
    assert (t1 : al * (R0 * (F + zfl)) <= 3 * R0 * frob n n A).
    { replace (al * (R0 * (F + zfl))) with (R0 * (al * F + al * zfl)) by ring. replace (3 * R0 * frob n n A) with (R0 * (3 * frob n n A)) by ring.
      apply Rmult_le_compat_l; auto. assert (al * zfl <= al * 1) by (apply Rmult_le_compat_l; lra). lra. }
    set (K := (INR fuel + 1) * (INR n + 1) * uro).
    assert (hK : 0 <= K) by (unfold K; repeat apply Rmult_le_pos; lra).
    assert (t2 : al * ((INR fuel + 1) * ((2 * INR n + 2) * kap m)) <= 7680 * K * frob n n A).
    { unfold kap. replace (al * ((INR fuel + 1) * ((2 * INR n + 2) * (320 * uro * m)))) with (640 * K * (al * m)) by (unfold K; ring).
      replace (7680 * K * frob n n A) with (640 * K * (12 * frob n n A)) by ring. apply Rmult_le_compat_l; lra. }
    assert (hnu : (INR n + 1) * uro <= K).
    { unfold K. rewrite Rmult_assoc. rewrite <- (Rmult_1_l ((INR n + 1) * uro)) at 1. apply Rmult_le_compat_r; [apply Rmult_le_pos; lra|lra]. }
    assert (t3 : INR n * (uro * (al * m)) <= 12 * K * frob n n A).
    { replace (INR n * (uro * (al * m))) with ((INR n * uro) * (al * m)) by ring. replace (12 * K * frob n n A) with (K * (12 * frob n n A)) by ring.
      apply Rmult_le_compat; auto; [apply Rmult_le_pos; lra|apply Rmult_le_pos; unfold m; lra|lra]. }
    assert (t4 : (uro + INR n * eta) * frob n n A <= 2 * K * frob n n A).
    { apply Rmult_le_compat_r; auto. assert (0 <= INR n * uro) by (apply Rmult_le_pos; lra). lra. }
    unfold eigf_eps. fold R0. replace (8000 * (INR fuel + 1) * (INR n + 1) * uro) with (8000 * K) by (unfold K; ring).
    assert (0 <= K * frob n n A) by (apply Rmult_le_pos; auto). lra.
Qed.
