(** * The values returned by eigvalsh and svd in binary64 are valid floats; sorting them *)
From Coq Require Import Reals List Arith Lia Lra Bool ZArith Setoid Morphisms.
From Coq.Floats Require Import SpecFloat.
From Flocq Require Import Core BinarySingleNaN.
From Verif Require Import Scalar Arr MBase MDirect MDecomp MEigh MSvd Inst Hoare Spec SpecF SpecH RLin PTri PHouse PQR PTrid PBid PGivens PEigh PEighR PSvd PSvdR PRound PHouseF PQRF PQRG PCholG PTrdF PBidF PBidG PApx PGivF PEigF PEigG PSvdV PSvdF PSvdS PSvdG PSort PWeyl.
Import ListNotations.
Local Open Scope R_scope.

Lemma mul_zero_ok (x y : FN) : ffin y -> fr y = 0 -> ffin (nmul FN x y) -> fokx (nmul FN x y).
Proof.
  intros hy ey h. split; auto. destruct (zero_sf y hy ey) as (b & ->). destruct x as [s|s| |s m e]; try discriminate h; reflexivity.
Qed.
Lemma symeig_valid h n fuel vec (a : mat FN) vals (q : option (mat FN)) : hyp_good h -> nr a = n -> nc a = n -> (1 <= n)%nat ->
  (forall i j, (i < n)%nat -> (j < n)%nat -> fokx (get a i j)) -> symmetric n (frm a) ->
  650 * (INR n * INR n) * gam (2 * n + 20) <= 1 -> 640 * (INR fuel + 1) * (INR n + 1) * uro <= 1 / 2 ->
  (forall d t, sym_tridiagonal (scale_down a (abs_max a)) = Ret d -> tri_into_matrix d = Ret t -> forall i, (i + 1 < n)%nat -> fr (get t (i + 1) i) = 0 \/ tiny <= fr (get t (i + 1) i)) ->
  (vec = true -> qgen_err n <= / 2) ->
  symmetric_eig (N:=FNh h) fuel a vec (nepsilon (FNh h)) = Ret (vals, q) -> (forall k, (k < n)%nat -> ffin (vget (N:=FN) vals k)) ->
  forall k, (k < n)%nat -> fokx (vget (N:=FN) vals k).
Proof.
  intros hh hr hc hn ha hsym hsm hbud hcl hqe hrun hfin k hk.
  destruct (symeig_core h n fuel vec a vals q hr hc hn hrun) as (ds & hcore & ->).
  destruct (abs_max_f a n hr hc hn ha) as (hm & hmax & i0 & j0 & hi0 & hj0 & hat).
  set (al := fr (abs_max a)) in *. assert (hal0 : 0 <= al) by (rewrite <- hat; apply Rabs_pos).
  specialize (hfin k hk) as hfk.
  destruct (Nat.lt_ge_cases k (length ds)) as [hl|hl].
  2:{ unfold vget. rewrite nth_overflow by (rewrite length_vmap; lia). split; reflexivity. }
  rewrite vget_vmap in * by lia.
  destruct (Req_dec al 0) as [ez|enz]; [apply mul_zero_ok; auto; apply hm|].
  assert (hal : 0 < al) by lra.
  destruct (scale_f a n hr hc hn ha hsym hal) as (s1 & s2 & s3 & s4 & s5 & s6 & s7 & s8).
  destruct (core_f h hh n fuel (scale_down a (abs_max a)) vec s1 s2 hn s3 s4 s5 hsm hbud hcl hqe ds q hcore) as (hl' & hor).
  destruct hor as [(k' & hk' & en)|(he & _ & _)].
  - exfalso. specialize (hfin k' hk'). rewrite vget_vmap in hfin by (exact (eq_ind_r (fun z => (k' < z)%nat) hk' hl')). rewrite en in hfin. destruct (abs_max a); discriminate.
  - destruct (he k hk) as ((vk & fk) & _). split; [|exact hfk]. apply fvalid_mul; [exact vk|apply hm].
Qed.

Lemma svd_valid h r c fuel (a : mat FN) b x : let d := Nat.min r c in let n := Nat.max r c in
  hyp_good h -> hypnf h -> (forall x y, fvalid (h x y) -> ffin (h x y) -> bpow radix2 (-1000) <= fr (h x y)) ->
  (1 <= d)%nat -> INR (n * (10 * n + 70)) * uro <= / 100 -> 4 * INR d * gam (10 * n + 70) <= 2 / 25 -> 600 * (INR fuel + 1) * (INR d + 3) ^ 2 * uro <= / 2 ->
  nr a = r -> nc a = c -> (forall i j, (i < r)%nat -> (j < c)%nat -> fokx (get a i j)) ->
  (forall bd bm, bidiagonal (scale_down a (abs_max a)) = Ret bd -> into_b bd = Ret bm -> forall i j, (i < d)%nat -> (j < d)%nat -> fr (get bm i j) = 0 \/ tiny <= fr (get bm i j)) ->
  bidiagonal (scale_down a (abs_max a)) = Ret b -> vrun h fuel seps d (dgv b) (ofv b) = Some x -> ~ bad d (fst x) ->
  (forall k, (k < d)%nat -> ffin (vget (N:=FN) (outv d (abs_max a) (fst x)) k)) ->
  forall k, (k < d)%nat -> fokx (vget (N:=FN) (outv d (abs_max a) (fst x)) k).
Proof.
  intros d n hh hnf hlow hd1 hsz hR hbud hr hc ha hcl eb ev hnb hfin k hk. assert (hr1 : (1 <= r)%nat) by lia. assert (hc1 : (1 <= c)%nat) by lia.
  specialize (hfin k hk). unfold outv in *. rewrite vget_vmk in * by auto. pose proof (proj1 (proj2 (fx_abs _)) hfin) as hfk. apply fx_abs.
  destruct (abs_max_rf a r c hr hc hr1 hc1 ha) as (hm & hmax & i0 & j0 & hi0 & hj0 & hat).
  set (al := fr (abs_max a)) in *. assert (hal0 : 0 <= al) by (rewrite <- hat; apply Rabs_pos).
  destruct (Req_dec al 0) as [ez|enz]; [apply mul_zero_ok; auto; apply hm|].
  assert (hal : 0 < al) by lra.
  destruct (scale_rf a r c hr hc hr1 hc1 ha hal) as (s1 & s2 & s3 & s4 & s5 & s6 & s7). cbv zeta in *.
  destruct (scaled_f h hh hnf hlow r c fuel hd1 hsz hR hbud (scale_down a (abs_max a)) s1 s2 s3 s4 hcl) as (b' & eb' & hv). rewrite eb in eb'. injection eb' as <-. fold d in hv. rewrite ev in hv.
  destruct hv as [hv|(he & _)]; [contradiction|]. destruct (he k hk) as ((vk & fk) & _). split; [|exact hfk]. apply fvalid_mul; [exact vk|apply hm].
Qed.

(** sorted floats are in order as real numbers *)
Lemma sorted_ordered o n (v v' : list FN) sg : sorted_by o n v v' sg -> (forall k, (k < n)%nat -> fokx (vget (N:=FN) v k)) ->
  ordered o n (frv v') /\ (forall k, (k < n)%nat -> frv v' k = frv v (sg k)).
Proof.
  intros (h1 & (h2 & _) & h3 & h4 & _) hv. assert (he : forall k, (k < n)%nat -> frv v' k = frv v (sg k)) by (intros k hk; unfold frv; rewrite h3 by auto; reflexivity). split; auto.
  assert (hk : forall k, (k < n)%nat -> fokx (vget (N:=FN) v' k)) by (intros k hk; rewrite h3 by auto; auto).
  intros k l hkl hl. destruct (Nat.eq_dec k l) as [->|ne]; [destruct o; lra|]. specialize (h4 k l ltac:(lia) hl).
  destruct o; cbn [before] in h4; unfold frv.
  - apply (ltb_fr_false (vget v' k) (vget v' l)); auto. apply hk. lia.
  - apply (ltb_fr_false (vget v' l) (vget v' k)); auto. apply hk. lia.
Qed.
Lemma sorted_ordered_R o n (v v' : list RN) sg : sorted_by o n v v' sg -> ordered o n (vent v') /\ (forall k, (k < n)%nat -> vent v' k = vent v (sg k)).
Proof.
  intros (h1 & _ & h3 & h4 & _). split; [|intros k hk; unfold vent; rewrite h3 by auto; reflexivity].
  intros k l hkl hl. destruct (Nat.eq_dec k l) as [->|ne]; [destruct o; lra|]. specialize (h4 k l ltac:(lia) hl). unfold vent.
  destruct o; unfold before in h4.
  - change (Rltb (vget v' k) (vget v' l) = false) in h4. unfold Rltb in h4. destruct (Rlt_dec _ _); [discriminate|lra].
  - change (Rltb (vget v' l) (vget v' k) = false) in h4. unfold Rltb in h4. destruct (Rlt_dec _ _); [discriminate|lra].
Qed.
