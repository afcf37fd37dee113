(** * Property C65: sorted eigenvalues and singular values are accurate position by position

    C20, C24, C62 and C64 say that the returned values are the exact ones of a nearby matrix.  Here:
    after sort_eig or sort_svd, the k-th value differs from the k-th exact eigenvalue (singular value)
    of the given matrix by at most that distance. *)
From Coq Require Import Reals List Arith Lia Lra Bool ZArith QArith.
From Coq.Floats Require Import SpecFloat.
From Flocq Require Import Core BinarySingleNaN.
From Verif Require Import Scalar Arr MBase MDirect MDecomp MEigh MSvd Inst Hoare Spec SpecF SpecH Ex RLin PEigh PEighR PSvd PSvdR PBid PSort PRound PTriF PHouseF PQRF PQRG PTrdF PApx PEigF PEigG PEigS PSvdV PSvdF PSvdS PSvdG PWeyl PValF
  Properties_Rounding Properties_QRFloat Properties_TridFloat Properties_Eigh Properties_Sort Properties_Svd Properties_BidFloat Properties_EigFloat Properties_SvdFloat.
Import ListNotations.
Local Open Scope R_scope.

(** the numbers s are the singular values of A (with multiplicity) *)
Definition has_svals (r c : nat) (A : M) (s : nat -> R) : Prop := let d := Nat.min r c in
  (forall k, (k < d)%nat -> 0 <= s k) /\
  exists P Q, orthonormal_cols r d P /\ orthonormal_cols c d Q /\ A =[r, c]= mmul d P (mmul d (mdiag s) (mtr Q)).
(** listed in the given order *)
Definition in_order (o : Order) (n : nat) (s : nat -> R) : Prop :=
  forall k l, (k <= l)%nat -> (l < n)%nat -> match o with Largest => s l <= s k | Smallest => s k <= s l end.

(** Weyl's inequalities, for values that become ordered after a permutation sg *)
Theorem C65_weyl_eigenvalues (o : Order) (n : nat) (A : M) (vals : nat -> R) (b : R) (sg : nat -> nat) (lam : nat -> R) :
  spectrum_near n A vals b -> perm_of n sg -> in_order o n (fun k => vals (sg k)) -> has_spectrum n A lam -> in_order o n lam ->
  forall k, (k < n)%nat -> Rabs (lam k - vals (sg k)) <= b.
Proof.
  intros (V & hV & hb) hp ho (W & hW & eA) hl.
  apply (weyl_ev_o o n A (mmul n V (mmul n (mdiag vals) (mtr V))) W (fun i k => V i (sg k)) lam (fun k => vals (sg k)) b hW (orth_perm n V sg hp hV) hl ho eA); auto.
  apply (fac_perm n n n V V vals sg hp).
Qed.
Print Assumptions C65_weyl_eigenvalues.

Theorem C65_weyl_singular_values (o : Order) (r c : nat) (A : M) (vals : nat -> R) (b : R) (sg : nat -> nat) (s : nat -> R) : let d := Nat.min r c in
  svals_near r c A vals b -> (forall k, (k < d)%nat -> 0 <= vals k) -> perm_of d sg -> in_order o d (fun k => vals (sg k)) ->
  has_svals r c A s -> in_order o d s ->
  forall k, (k < d)%nat -> Rabs (s k - vals (sg k)) <= b.
Proof.
  intros d (P & Q & hP & hQ & hb) hv hp ho (hs0 & P0 & Q0 & hP0 & hQ0 & eA) hs. fold d in hP, hQ, hb, hs0, hP0, hQ0, eA.
  apply (weyl_sv_o o r c d A (mmul d P (mmul d (mdiag vals) (mtr Q))) P0 Q0 (fun i k => P i (sg k)) (fun i k => Q i (sg k)) s (fun k => vals (sg k)) b hP0 hQ0
    (ocols_perm r d P sg hp hP) (ocols_perm c d Q sg hp hQ) hs ho hs0); auto.
  - intros k hk. apply hv. apply hp. exact hk.
  - apply (fac_perm r c d P Q vals sg hp).
Qed.
Print Assumptions C65_weyl_singular_values.

Lemma perm_inj_sort o n (v v' : list FN) sg : sorted_by o n v v' sg -> perm_of n sg.
Proof. intros (_ & h & _). exact h. Qed.
Lemma vfin_nan v : vfin v -> forall x, In x v -> x <> S754_nan.
Proof. intros h x hx ->. specialize (h _ hx). discriminate h. Qed.
Lemma order_ext o n f g : (forall k, (k < n)%nat -> f k = g k) -> in_order o n f -> in_order o n g.
Proof. intros he h k l hk hl. specialize (h k l hk hl). rewrite <- !he by lia. exact h. Qed.

(** C65, eigvalsh and sort_eig in binary64: under the hypotheses of C62 sorting succeeds and every
    sorted value is within the bound of C62 of the exact eigenvalue at its position. *)
Theorem C65_eigvalsh_binary64 (h : spec_float -> spec_float -> spec_float) (n fuel : nat) (a : mat FN) (vals : list FN) (o : Order) :
  hyp_ulp h -> eig_input n fuel a -> eig_clean n a -> eigvalsh (N:=FNh (guarded h)) fuel a = Ret vals -> vfin vals ->
  exists vals', sort_vals vals o = Ret vals' /\ in_order o n (frv vals') /\
    forall lam, has_spectrum n (frm a) lam -> in_order o n lam ->
      forall k, (k < n)%nat -> Rabs (lam k - frv vals' k) <= eig_eps n fuel * frob n n (frm a) + INR n * eta.
Proof.
  intros hu hin hcl hrun hfin. pose proof (C62_eigvalsh_backward_stable h n fuel a vals hu hin hcl hrun hfin) as (_ & hl & hs).
  destruct hin as (h1 & h2 & h3 & h4 & h5 & h6 & h7).
  assert (er : 650 * (INR n * INR n) * gam (2 * n + 20) = rel_trd n) by (unfold rel_trd; ring).
  assert (hok : forall k, (k < n)%nat -> fokx (vget (N:=FN) vals k)).
  { destruct (eigvalsh_core _ _ _ _ hrun) as (q & hrun'). intros k hk. eapply (symeig_valid (guarded h) n fuel false a vals q); auto; try lra; try discriminate.
    - apply guarded_good; auto.
    - intros k' hk'. apply hfin. apply nth_In. exact (eq_ind_r (fun z => (k' < z)%nat) hk' hl). }
  destruct (C28_sorts FN _ C28_binary64_ordered o vals (zeros (N:=FN) 0 (length vals))) as (v' & m' & sg & _ & e & hsb & _).
  - cbn [zeros mk nc]. lia.
  - right. intros x hx. apply (vfin_nan vals hfin x hx).
  - rewrite hl in hsb. destruct (sorted_ordered o n vals v' sg hsb hok) as (ho & he). exists v'. split; auto. split; auto.
    intros lam hlam hlo k hk. rewrite he by auto. apply (C65_weyl_eigenvalues o n (frm a) (frv vals) _ sg lam); auto; [apply (perm_inj_sort _ _ _ _ _ hsb)|].
    apply (order_ext o n (frv v')); auto.
Qed.
Print Assumptions C65_eigvalsh_binary64.

Lemma sv_ok h r c fuel (a : mat FN) (vals : list FN) x y : hyp_ulp h -> hyp_inf h -> sv_input r c fuel a -> sv_clean r c a ->
  svd (N:=FNh (guarded h)) fuel a false false = Ret (x, vals, y) -> vfin vals -> forall k, (k < Nat.min r c)%nat -> fokx (vget (N:=FN) vals k).
Proof.
  intros hu hi (h1 & h2 & h3 & h4 & h5 & h6 & h7) hcl hrun hfin. set (d := Nat.min r c) in *.
  assert (hd : (1 <= d)%nat) by (unfold d; lia).
  assert (hs : nr (scale_down a (abs_max a)) = r /\ nc (scale_down a (abs_max a)) = c) by (unfold scale_down; destruct (neq FN _ _); auto).
  destruct hs as (s1 & s2).
  assert (eb : exists b, bidiagonal (scale_down a (abs_max a)) = Ret b).
  { pose proof (bidiagonal_class (scale_down a (abs_max a))) as hc. destruct (bidiagonal (scale_down a (abs_max a))) as [b|l| | |]; try contradiction; [exists b; auto|].
    exfalso. destruct hc as (_ & hc). rewrite s1, s2 in hc. unfold d in hd. lia. }
  destruct eb as (b & eb). pose proof (svd_link (guarded h) fuel a seps b) as q. rewrite h1, h2 in q. fold d in q. specialize (q hd eb).
  change (svd (N:=FNh (guarded h)) fuel a false false) with (svd_eps (N:=FNh (guarded h)) fuel a false false seps) in hrun. rewrite q in hrun.
  destruct (vrun (guarded h) fuel seps d (dgv b) (ofv b)) as [x0|] eqn:ev; [|discriminate]. injection hrun as <- <- <-.
  assert (hl : length (outv d (abs_max a) (fst x0)) = d) by apply (length_vmk (N:=FN)).
  assert (hf : forall k, (k < d)%nat -> ffin (vget (N:=FN) (outv d (abs_max a) (fst x0)) k)) by (intros k hk'; apply hfin; apply nth_In; exact (eq_ind_r (fun z => (k < z)%nat) hk' hl)).
  destruct (proj2 (C60_constants r c) h6) as (_ & hr).
  apply (svd_valid (guarded h) r c fuel a b x0 (guarded_good h hu) (guarded_nf h hi) (guarded_low h) hd h6 hr h7 h1 h2 h5 hcl eb ev); auto.
  intros (k & hk' & hb). specialize (hf k hk'). unfold outv in hf. rewrite vget_vmk in hf by auto. apply fx_abs in hf. apply (nf_mul_l _ (abs_max a)) in hb. unfold nf in hb. unfold ffin in hf. congruence.
Qed.

(** C65, svd without vectors and sort_svd in binary64 *)
Theorem C65_svd_binary64 (h : spec_float -> spec_float -> spec_float) (r c fuel : nat) (a : mat FN) (vals : list FN) x y (o : Order) :
  hyp_ulp h -> hyp_inf h -> sv_input r c fuel a -> sv_clean r c a ->
  svd (N:=FNh (guarded h)) fuel a false false = Ret (x, vals, y) -> vfin vals ->
  exists vals', sort_svd (None, vals, None) o = Ret (None, vals', None) /\ in_order o (Nat.min r c) (frv vals') /\
    forall s, has_svals r c (frm a) s -> in_order o (Nat.min r c) s ->
      forall k, (k < Nat.min r c)%nat -> Rabs (s k - frv vals' k) <= sv_eps r c fuel * frob r c (frm a) + INR (Nat.min r c) * eta.
Proof.
  intros hu hi hin hcl hrun hfin. pose proof (C64_svd_values_backward_stable h r c fuel a vals x y hu hi hin hcl hrun hfin) as (_ & hl & h0 & hs).
  pose proof (sv_ok h r c fuel a vals x y hu hi hin hcl hrun hfin) as hok.
  destruct (C29_sorts FN _ C28_binary64_ordered o vals None None I I) as (u' & v' & vt' & sg & e & hsb & hu' & hv').
  - right. intros z hz. apply (vfin_nan vals hfin z hz).
  - rewrite hl in hsb. destruct u' as [u'|]; [destruct hu'|]. destruct vt' as [vt'|]; [destruct hv'|].
    destruct (sorted_ordered o _ vals v' sg hsb hok) as (ho & he). exists v'. split; auto. split; auto.
    intros s hsv hso k hk. rewrite he by auto. apply (C65_weyl_singular_values o r c (frm a) (frv vals) _ sg s); auto; [apply (perm_inj_sort _ _ _ _ _ hsb)|].
    apply (order_ext o _ (frv v')); auto.
Qed.
Print Assumptions C65_svd_binary64.

(** C65 in exact arithmetic, where the only error is the deflation tolerance: eigvalsh, and svd with
    any flags *)
Theorem C65_eigvalsh_exact fuel (a : mat RN) vals (o : Order) : nr a = nc a -> symmetric (nr a) (ent a) -> eigvalsh fuel a = Ret vals ->
  exists vals', sort_vals vals o = Ret vals' /\ in_order o (nr a) (vent vals') /\
    forall lam, has_spectrum (nr a) (ent a) lam -> in_order o (nr a) lam ->
      forall k, (k < nr a)%nat -> Rabs (lam k - vent vals' k) <= INR (nr a - 1) * (2 * / IZR (2 ^ 52) * frob (nr a) (nr a) (ent a)).
Proof.
  intros sq hsym hrun. destruct (C20_eigvalsh fuel a vals sq hsym hrun) as (S & _ & (V & hV & eS) & hb).
  assert (hl : length vals = nr a).
  { rewrite eigvalsh_eigh in hrun. destruct (eigh fuel a) as [[v q]| | | |] eqn:e; try discriminate. injection hrun as ->. destruct (C19_orthogonal fuel a vals q sq hsym e) as (? & _). assumption. }
  destruct (C28_sorts RN _ C28_real_ordered o vals (zeros (N:=RN) 0 (length vals))) as (v' & m' & sg & _ & e & hsb & _).
  - cbn [zeros mk nc]. lia.
  - right. auto.
  - rewrite hl in hsb. destruct (sorted_ordered_R o _ vals v' sg hsb) as (ho & he). exists v'. split; auto. split; auto.
    intros lam hlam hlo k hk. rewrite he by auto. apply (C65_weyl_eigenvalues o (nr a) (ent a) (vent vals) _ sg lam); auto.
    + exists V. split; auto. eapply Rle_trans; [|exact hb]. right. apply frob_ext. intros p q hp hq. unfold msub. rewrite (eS p q hp hq). reflexivity.
    + destruct hsb as (_ & hp & _). exact hp.
    + apply (order_ext o _ (vent v')); auto.
Qed.
Print Assumptions C65_eigvalsh_exact.

Theorem C65_svd_exact fuel (a : mat RN) fu fv u s vt (o : Order) : svd fuel a fu fv = Ret (u, s, vt) -> let d := Nat.min (nr a) (nc a) in
  exists u' s' vt', sort_svd (u, s, vt) o = Ret (u', s', vt') /\ in_order o d (vent s') /\
    forall s0, has_svals (nr a) (nc a) (ent a) s0 -> in_order o d s0 ->
      forall k, (k < d)%nat -> Rabs (s0 k - vent s' k) <= INR (d - 1) * (10 * / IZR (2 ^ 52) * frob (nr a) (nc a) (ent a)).
Proof.
  intros hrun d. pose proof (C25_flags fuel a fu fv) as hf. rewrite hrun in hf. destruct (svd fuel a true true) as [[[u1 s1] vt1]| | | |] eqn:e1; cbn in hf; try contradiction.
  destruct hf as ((U & Vt & -> & ->) & -> & -> & ->).
  destruct (C24_reproduces fuel a _ _ _ e1) as (U' & Vt' & q1 & q2 & d1 & d2 & d3 & d4 & d5 & (hU & hV & h0 & hb)). injection q1 as <-. injection q2 as <-. fold d in d2, d3, d4, hU, hV, h0, hb.
  destruct (C29_sorts RN _ C28_real_ordered o s1 (keep fu (Some U)) (keep fv (Some Vt))) as (u' & s' & vt' & sg & e & hsb & _).
  - destruct fu; cbn; auto. rewrite d2, d3. lia.
  - destruct fv; cbn; auto. rewrite d4, d3. lia.
  - right. auto.
  - rewrite d3 in hsb. destruct (sorted_ordered_R o _ s1 s' sg hsb) as (ho & he). exists u', s', vt'. split; auto. split; auto.
    intros s0 hs0 hso k hk. rewrite he by auto. apply (C65_weyl_singular_values o (nr a) (nc a) (ent a) (vent s1) _ sg s0); auto.
    + exists (ent U), (mtr (ent Vt)). split; auto.
    + destruct hsb as (_ & hp & _). exact hp.
    + apply (order_ext o _ (vent s')); auto.
Qed.
Print Assumptions C65_svd_exact.

(** ** Examples: [[2,1],[1,2]] has eigenvalues and singular values 3 and 1 *)
Definition w_a : mat FN := fmat 2 [[2; 1]; [1; 2]]%Z.
Definition w_A : M := fun i j => if Nat.eqb i j then 2 else 1.
Definition w_V : M := fun i j => (if Nat.eqb i 0 then 1 else if Nat.eqb j 0 then 1 else -1) / sqrt 2.
Definition w_l (k : nat) : R := if Nat.eqb k 0 then 3 else 1.
Lemma w_orth : orthogonal 2 w_V.
Proof.
  assert (h : / sqrt 2 * / sqrt 2 = / 2) by (rewrite <- Rinv_mult, sqrt_sqrt by lra; reflexivity).
  split; intros i j hi hj; destruct i as [|[|]]; try lia; destruct j as [|[|]]; try lia; unfold mmul, mtr, mid, w_V, Rdiv; cbn; lra.
Qed.
Lemma w_spec : has_spectrum 2 w_A w_l.
Proof.
  assert (h : / sqrt 2 * / sqrt 2 = / 2) by (rewrite <- Rinv_mult, sqrt_sqrt by lra; reflexivity).
  exists w_V. split; [exact w_orth|]. intros i j hi hj; destruct i as [|[|]]; try lia; destruct j as [|[|]]; try lia; unfold mmul, mtr, mdiag, w_A, w_V, w_l, Rdiv; cbn; lra.
Qed.
Lemma w_svals : has_svals 2 2 w_A w_l.
Proof.
  split; [intros k _; unfold w_l; destruct (Nat.eqb k 0); lra|]. destruct w_spec as (V & hV & e). exists V, V. destruct hV. auto.
Qed.
Lemma w_order : in_order Largest 2 w_l.
Proof. intros k l hk hl. unfold w_l. destruct (Nat.eqb_spec k 0), (Nat.eqb_spec l 0); try lra; lia. Qed.
Lemma w_frm : frm w_a =[2, 2]= w_A.
Proof. intros i j hi hj. destruct i as [|[|]]; try lia; destruct j as [|[|]]; try lia; unfold frm, w_A; cbn; unfold fr, F2R; cbn; lra. Qed.
Lemma w_fin i j : (i < 2)%nat -> (j < 2)%nat -> fvalid (get w_a i j) /\ ffin (get w_a i j).
Proof. intros hi hj. assert (hm : mokb w_a = true) by (vm_compute; reflexivity). split; apply (mokb_ok _ hm i j); auto. Qed.
Lemma w_eig : eig_input 2 100 w_a /\ eig_clean 2 w_a.
Proof.
  split.
  - repeat (split; [reflexivity || lia|]). split; [exact w_fin|]. split.
    + intros i j hi hj. unfold mtr. rewrite (w_frm i j hi hj), (w_frm j i hj hi). unfold w_A. rewrite Nat.eqb_sym. reflexivity.
    + apply C62_constants; simpl; lra.
  - intros d t e1 e2. destruct (trd_checkb_ok (scale_down w_a (abs_max w_a)) (fun q t => trd_cleanb 2 t)) as (d' & q' & t' & g1 & _ & g2 & g3); [vm_compute; reflexivity|].
    rewrite e1 in g1. injection g1 as <-. rewrite e2 in g2. injection g2 as <-. apply trd_cleanb_ok. exact g3.
Qed.
Lemma w_sv : sv_input 2 2 50 w_a /\ sv_clean 2 2 w_a.
Proof.
  split; [|apply sv_clean_ok; vm_compute; reflexivity].
  repeat (split; [reflexivity || lia|]). split; [exact w_fin|]. apply (C64_constants 2 2 50); simpl; lra.
Qed.
Example C65_example_eigvalsh : eig_input 2 100 w_a /\ eig_clean 2 w_a /\ exists vals vals',
  eigvalsh (N:=FNh (guarded f_hypot)) 100 w_a = Ret vals /\ vfin vals /\ sort_vals vals Largest = Ret vals' /\
  Rabs (3 - frv vals' 0) <= eig_eps 2 100 * frob 2 2 (frm w_a) + INR 2 * eta /\ Rabs (1 - frv vals' 1) <= eig_eps 2 100 * frob 2 2 (frm w_a) + INR 2 * eta.
Proof.
  destruct w_eig as (hi & hc). split; auto. split; auto.
  destruct (eig_checkb_ok (guarded f_hypot) 100 w_a vfinb) as (v & e & hv); [vm_compute; reflexivity|]. apply vfinb_ok in hv.
  destruct (C65_eigvalsh_binary64 f_hypot 2 100 w_a v Largest f_hypot_ulp hi hc e hv) as (v' & e' & _ & q). exists v, v'. split; auto. split; auto. split; auto.
  assert (hs : has_spectrum 2 (frm w_a) w_l). { destruct w_spec as (V & hV & eV). exists V. split; auto. rewrite w_frm. exact eV. }
  split; [apply (q w_l hs w_order 0%nat); lia|apply (q w_l hs w_order 1%nat); lia].
Qed.
Example C65_example_svd : sv_input 2 2 50 w_a /\ sv_clean 2 2 w_a /\ exists x vals y vals',
  svd (N:=FNh (guarded f_hypot)) 50 w_a false false = Ret (x, vals, y) /\ vfin vals /\ sort_svd (None, vals, None) Largest = Ret (None, vals', None) /\
  Rabs (3 - frv vals' 0) <= sv_eps 2 2 50 * frob 2 2 (frm w_a) + INR 2 * eta /\ Rabs (1 - frv vals' 1) <= sv_eps 2 2 50 * frob 2 2 (frm w_a) + INR 2 * eta.
Proof.
  destruct w_sv as (hi & hc). split; auto. split; auto.
  destruct (sv_checkb_ok (guarded f_hypot) 50 w_a vfinb) as (x & v & y & e & hv); [vm_compute; reflexivity|]. apply vfinb_ok in hv.
  destruct (C65_svd_binary64 f_hypot 2 2 50 w_a v x y Largest f_hypot_ulp f_hypot_nf hi hc e hv) as (v' & e' & _ & q). exists x, v, y, v'. split; auto. split; auto. split; auto.
  assert (hs : has_svals 2 2 (frm w_a) w_l). { destruct w_svals as (h0 & P & Q & hP & hQ & eV). split; auto. exists P, Q. split; auto. split; auto. rewrite w_frm. exact eV. }
  split; [apply (q w_l hs w_order 0%nat); cbn; lia|apply (q w_l hs w_order 1%nat); cbn; lia].
Qed.
(** in exact arithmetic: the hypotheses are met by the real matrix with the same entries *)
Example C65_exact_nonvacuous : let a := rmat 2 [[2; 1]; [1; 2]]%Z in nr a = nc a /\ symmetric (nr a) (ent a) /\ (exists vals, eigvalsh 1 a = Ret vals) /\
  (exists x, svd 1 a true true = Ret x) /\ has_spectrum (nr a) (ent a) w_l /\ has_svals (nr a) (nc a) (ent a) w_l /\ in_order Largest 2 w_l.
Proof.
  cbv zeta. set (a := rmat 2 [[2; 1]; [1; 2]]%Z).
  assert (ha : ent a =[2, 2]= w_A) by (intros i j hi hj; destruct i as [|[|]]; try lia; destruct j as [|[|]]; try lia; unfold ent, w_A; cbn; lra).
  assert (hsym : symmetric 2 (ent a)) by (intros i j hi hj; unfold mtr; rewrite (ha i j hi hj), (ha j i hj hi); unfold w_A; rewrite Nat.eqb_sym; reflexivity).
  split; [reflexivity|]. split; [exact hsym|]. split. { destruct (eigh_small a (eig2_total_real _)) as ([v q] & e); simpl; auto. rewrite eigvalsh_eigh, e. simpl. eauto. } split; [apply svd_small; simpl; auto|].
  split. { destruct w_spec as (V & hV & eV). exists V. split; auto. intros i j hi hj. rewrite (ha i j hi hj). apply eV; auto. }
  split; [|exact w_order]. destruct w_svals as (h0 & P & Q & hP & hQ & eV). split; auto. exists P, Q. split; auto. split; auto. intros i j hi hj. rewrite (ha i j hi hj). apply eV; auto.
Qed.
