(** * Replacing [hypot] by one that sometimes returns NaN

    If [g] agrees with [h] except that it may return NaN, then a run of [eigvalsh] with [g] that
    returns no NaN is also the run with [h]. *)
From Coq Require Import Reals List Arith Lia Lra Bool ZArith.
From Coq.Floats Require Import SpecFloat.
From Flocq Require Import Core BinarySingleNaN.
From Verif Require Import Scalar Arr MBase MDirect MDecomp MEigh Inst Hoare Spec SpecF SpecH PApx PGivF PEigF PEigG.
Import ListNotations.

Section Sim.
Variables g h : spec_float -> spec_float -> spec_float.
Hypothesis hg : forall x y, g x y = S754_nan \/ g x y = h x y.
Hypothesis hge : forall x y, g x y = S754_nan -> nlt FN (nepsilon FN) (h x y) = false.
Local Notation G := (FNh g).
Local Notation H := (FNh h).
Definition badv (d : list FN) : Prop := exists k, k < length d /\ vget (N:=FN) d k = S754_nan.

Lemma at1_inv (v : list FN) i x : at1 (N:=FN) v i = Ret x -> i < length v /\ x = vget (N:=FN) v i.
Proof. unfold at1. destruct (Nat.ltb_spec i (length v)); [intros e; injection e as <-; auto|discriminate]. Qed.
Lemma atm1_inv (v : list FN) i x w : atm1 (N:=FN) v i x = Ret w -> i < length v /\ w = vupd (N:=FN) v i x.
Proof. unfold atm1. destruct (Nat.ltb_spec i (length v)); [intros e; injection e as <-; auto|discriminate]. Qed.

Lemma step_sim start n i (x y : FN) (d o : list FN) (q : option (mat FN)) go x' y' es' :
  eig_sweep_step (N:=G) start n i (x, y, ES (N:=G) d o q) = Ret (go, (x', y', es')) ->
  exists (d' o' : list FN) (q' : option (mat FN)), es' = ES (N:=G) d' o' q' /\ length d' = length d /\ (badv d -> badv d') /\
    (badv d' \/ eig_sweep_step (N:=H) start n i (x, y, ES (N:=H) d o q) = Ret (go, (x', y', ES (N:=H) d' o' q'))).
Proof.
  unfold eig_sweep_step. cbn [es_diag es_off es_q]. unfold cancel_y.
  change (nis_zero G y) with (nis_zero FN y). change (nis_zero H y) with (nis_zero FN y).
  destruct (nis_zero FN y); cbn [negb].
  { intros e. injection e as <- <- <- <-. exists d, o, q. auto. }
  cbn [rc rs]. change (nhypot G x y) with (g x y). change (nhypot H x y) with (h x y).
  intros e.
  apply bind_ret in e as (o1 & eo1 & e). apply bind_ret in e as (mii & emii & e). apply bind_ret in e as (mjj & emjj & e).
  apply bind_ret in e as (mij & emij & e). apply bind_ret in e as (d1 & ed1 & e). apply bind_ret in e as (d2 & ed2 & e).
  apply bind_ret in e as (o2 & eo2 & e). apply bind_ret in e as (n1_ & en1 & e). apply bind_ret in e as ([[x1 y1] o3] & e3 & e).
  apply bind_ret in e as (q' & eq' & e). injection e as <- <- <- <-. change (option (mat FN)) in q'.
  change (list FN) in o1, d1, d2, o2, o3. change (T FN) in mii, mjj, mij, x1, y1.
  pose proof (at1_inv d i mii emii) as (hi & xi). pose proof (at1_inv d (S i) mjj emjj) as (hj & xj).
  pose proof (atm1_inv d i _ d1 ed1) as (_ & xd1). pose proof (atm1_inv d1 (S i) _ d2 ed2) as (hd1 & xd2).
  set (c := ndiv FN x (g x y)). set (s := ndiv FN (nopp FN y) (g x y)).
  assert (hl1 : length d1 = length d) by (rewrite xd1; apply length_vupd).
  assert (hl : length d2 = length d) by (rewrite xd2, <- hl1; apply length_vupd).
  assert (vd : forall k, k < length d -> vget (N:=FN) d2 k = if Nat.eqb k (S i) then nadd FN (nadd FN (nmul FN (nmul FN s s) mii) (nmul FN (nmul FN c c) mjj)) (nmul FN (nmul FN (nmul FN c s) mij) (ntwo (N:=FN)))
     else if Nat.eqb k i then nsub FN (nadd FN (nmul FN (nmul FN c c) mii) (nmul FN (nmul FN s s) mjj)) (nmul FN (nmul FN (nmul FN c s) mij) (ntwo (N:=FN))) else vget (N:=FN) d k).
  { intros k hk. rewrite xd2, vget_vupd by lia. destruct (Nat.eqb k (S i)); [reflexivity|]. rewrite xd1, vget_vupd by lia. destruct (Nat.eqb k i); reflexivity. }
  exists d2, o3, q'. split; auto. split; auto. split.
  - intros (k & hk & ek). destruct (Nat.eq_dec k i) as [->|ni]; [|destruct (Nat.eq_dec k (S i)) as [->|nj]].
    + exists i. split; [lia|]. rewrite vd by lia. destruct (Nat.eqb_spec i (S i)); [lia|]. rewrite Nat.eqb_refl. rewrite xi, ek, nan_mul_r. reflexivity.
    + exists i. split; [lia|]. rewrite vd by lia. destruct (Nat.eqb_spec i (S i)); [lia|]. rewrite Nat.eqb_refl. rewrite xj, ek, nan_mul_r, nan_add_r. reflexivity.
    + exists k. split; [lia|]. rewrite vd by lia. destruct (Nat.eqb_spec k (S i)); [lia|]. destruct (Nat.eqb_spec k i); [lia|]. exact ek.
  - destruct (hg x y) as [en|en].
    + left. exists i. split; [lia|]. rewrite vd by lia. destruct (Nat.eqb_spec i (S i)); [lia|]. rewrite Nat.eqb_refl. unfold c. rewrite en, nan_div_r. reflexivity.
    + right. rewrite <- en.
      replace (if Nat.ltb start i then _ else _) with (@Ret (list FN) o1) by (symmetry; exact eo1). cbn [bind].
      replace (@at1 H d i) with (@Ret FN mii) by (symmetry; exact emii). cbn [bind].
      replace (@at1 H d (S i)) with (@Ret FN mjj) by (symmetry; exact emjj). cbn [bind].
      replace (@at1 H o1 i) with (@Ret FN mij) by (symmetry; exact emij). cbn [bind].
      match goal with |- bind ?m _ = _ => replace m with (@Ret (list FN) d1) by (symmetry; exact ed1) end. cbn [bind].
      match goal with |- bind ?m _ = _ => replace m with (@Ret (list FN) d2) by (symmetry; exact ed2) end. cbn [bind].
      match goal with |- bind ?m _ = _ => replace m with (@Ret (list FN) o2) by (symmetry; exact eo2) end. cbn [bind].
      rewrite en1. cbn [bind].
      match goal with |- bind ?m _ = _ => replace m with (@Ret (FN * FN * list FN) (x1, y1, o3)) by (symmetry; exact e3) end. cbn [bind].
      match goal with |- bind ?m _ = _ => replace m with (@Ret (option (mat FN)) q') by (symmetry; exact eq') end. reflexivity.
Qed.

Lemma brk_sim start n cnt : forall lo (x y : FN) (d o : list FN) (q : option (mat FN)) x' y' es',
  for_brk cnt lo (eig_sweep_step (N:=G) start n) ((x, y), ES (N:=G) d o q) = Ret (x', y', es') ->
  exists (d' o' : list FN) (q' : option (mat FN)), es' = ES (N:=G) d' o' q' /\ length d' = length d /\ (badv d -> badv d') /\
    (badv d' \/ for_brk cnt lo (eig_sweep_step (N:=H) start n) ((x, y), ES (N:=H) d o q) = Ret (x', y', ES (N:=H) d' o' q')).
Proof.
  induction cnt as [|cnt IH]; intros lo x y d o q x' y' es' e; cbn [for_brk] in *.
  - injection e as <- <- <-. exists d, o, q. auto.
  - apply bind_ret in e as ([go [[x1 y1] es1]] & e1 & e).
    destruct (step_sim _ _ _ _ _ _ _ _ _ _ _ _ e1) as (d1 & o1 & q1 & -> & l1 & b1 & s1). destruct go.
    + destruct (IH _ _ _ _ _ _ _ _ _ e) as (d2 & o2 & q2 & -> & l2 & b2 & s2). exists d2, o2, q2. split; auto. split; [congruence|]. split; [auto|].
      destruct s1 as [s1|s1]; [left; auto|]. destruct s2 as [s2|s2]; [left; auto|]. right. rewrite s1. cbn [bind]. exact s2.
    + injection e as <- <- <-. exists d1, o1, q1. split; auto. split; auto. split; auto. destruct s1 as [s1|s1]; [left; auto|right]. rewrite s1. reflexivity.
Qed.

Ltac mt e := match goal with |- context [bind ?m _] => match type of e with _ = ?r => replace m with r by (symmetry; exact e) end end; cbn [bind].
Lemma big_sim start e0 eps (d o : list FN) (q : option (mat FN)) es' k :
  eig_big (N:=G) start e0 eps (ES (N:=G) d o q) = Ret (es', k) ->
  exists (d' o' : list FN) (q' : option (mat FN)), es' = ES (N:=G) d' o' q' /\ length d' = length d /\ (badv d -> badv d') /\
    (badv d' \/ eig_big (N:=H) start e0 eps (ES (N:=H) d o q) = Ret (ES (N:=H) d' o' q', k)).
Proof.
  unfold eig_big. cbn [es_diag es_off]. intros e.
  apply bind_ret in e as (m & em & e). apply bind_ret in e as (ds & eds & e). apply bind_ret in e as (dm & edm & e). apply bind_ret in e as (dn & edn & e).
  apply bind_ret in e as (om & eom & e). apply bind_ret in e as (y & ey & e). apply bind_ret in e as ([[x1 y1] es1] & ebrk & e).
  destruct (brk_sim _ _ _ _ _ _ _ _ _ _ _ _ ebrk) as (d1 & o1 & q1 & -> & l1 & b1 & s1). cbn [es_diag es_off] in e.
  apply bind_ret in e as (om' & eom' & e). apply bind_ret in e as (dm' & edm' & e). apply bind_ret in e as (dn' & edn' & e).
  exists d1, o1, q1. assert (ee : es' = ES (N:=G) d1 o1 q1).
  { destruct (nle G _ _); [apply bind_ret in e as (k' & _ & e)|]; injection e as <- <-; reflexivity. }
  split; auto. split; auto. split; auto. destruct s1 as [s1|s1]; [left; auto|right].
  mt em. mt eds. mt edm. mt edn. mt eom. mt ey. mt s1. cbn [es_diag es_off]. mt eom'. mt edm'. mt edn'.
  change (nle H) with (nle G). change (nabs H) with (nabs G). change (nmul H) with (nmul G). change (nadd H) with (nadd G).
  destruct (nle G _ _); [apply bind_ret in e as (k' & ek & e); rewrite em in ek; injection ek as <-; cbn [bind]|]; injection e as _ <-; reflexivity.
Qed.
Lemma two_sim start e0 (d o : list FN) (q : option (mat FN)) es' k :
  eig_two (N:=G) start e0 (nepsilon FN) (ES (N:=G) d o q) = Ret (es', k) ->
  exists (d' o' : list FN) (q' : option (mat FN)), es' = ES (N:=G) d' o' q' /\ length d' = length d /\ (badv d -> badv d') /\
    eig_two (N:=H) start e0 (nepsilon FN) (ES (N:=H) d o q) = Ret (ES (N:=H) d' o' q', k).
Proof.
  unfold eig_two. cbn [es_diag es_off es_q]. intros e.
  apply bind_ret in e as (d0 & ed0 & e). apply bind_ret in e as (oo & eoo & e). apply bind_ret in e as (d1 & ed1 & e).
  apply bind_ret in e as ([l1 l2] & el & e). apply bind_ret in e as (d2 & ed2 & e). apply bind_ret in e as (d3 & ed3 & e). apply bind_ret in e as (q' & eq' & e).
  apply bind_ret in e as (k' & ek & e). injection e as <- <-.
  change (list FN) in d2, d3. change (T FN) in d0, d1, oo, l1, l2. change (option (mat FN)) in q'. exists d3, o, q'.
  assert (x0 : start < length d /\ d0 = vget (N:=FN) d start).
  { revert ed0. change (idx1 (N:=FN) d start = Ret d0 -> start < length d /\ d0 = vget (N:=FN) d start). unfold idx1. destruct (Nat.ltb_spec start (length d)); [intros e; injection e as <-; auto|discriminate]. }
  assert (x1 : start + 1 < length d /\ d1 = vget (N:=FN) d (start + 1)).
  { revert ed1. change (idx1 (N:=FN) d (start + 1) = Ret d1 -> start + 1 < length d /\ d1 = vget (N:=FN) d (start + 1)). unfold idx1. destruct (Nat.ltb_spec (start + 1) (length d)); [intros e; injection e as <-; auto|discriminate]. }
  assert (x2 : d2 = vupd (N:=FN) d start l1).
  { revert ed2. change (set1 (N:=FN) d start l1 = Ret d2 -> d2 = vupd (N:=FN) d start l1). unfold set1. destruct (Nat.ltb _ _); [intros e; injection e as <-; auto|discriminate]. }
  assert (x3 : d3 = vupd (N:=FN) d2 (start + 1) l2).
  { revert ed3. change (set1 (N:=FN) d2 (start + 1) l2 = Ret d3 -> d3 = vupd (N:=FN) d2 (start + 1) l2). unfold set1. destruct (Nat.ltb _ _); [intros e; injection e as <-; auto|discriminate]. }
  split; auto. split; [rewrite x3, length_vupd, x2, length_vupd; reflexivity|]. split.
  - intros (j & hj & ej). exists j. split; [rewrite x3, length_vupd, x2, length_vupd; auto|].
    rewrite x3, vget_vupd by (rewrite x2, length_vupd; auto). rewrite x2, vget_vupd by auto.
    destruct (Nat.eqb_spec j (start + 1)) as [->|]; [|destruct (Nat.eqb_spec j start) as [->|]]; [| |exact ej]; exfalso.
    + change (unwrap_opt (@compute_2x2_eigvals FN d0 oo oo d1) = Ret (l1, l2)) in el. destruct x1 as (_ & x1). rewrite x1, ej, eig2_nan_r in el. discriminate el.
    + change (unwrap_opt (@compute_2x2_eigvals FN d0 oo oo d1) = Ret (l1, l2)) in el. destruct x0 as (_ & x0). rewrite x0, ej, eig2_nan_l in el. discriminate el.
  - mt ed0. mt eoo. mt ed1. mt el. mt ed2. mt ed3.
    match goal with |- bind ?m _ = _ => replace m with (@Ret (option (mat FN)) q') end; [cbn [bind]; mt ek; reflexivity|]. symmetry.
    destruct q as [q|]; [|exact eq']. revert eq'. unfold try_new.
    set (b0 := nsub FN l1 d1). change (nsub G l1 d1) with b0. change (nsub H l1 d1) with b0.
    change (nhypot G b0 oo) with (g b0 oo). change (nhypot H b0 oo) with (h b0 oo).
    change (nlt G) with (nlt FN). change (nlt H) with (nlt FN).
    destruct (hg b0 oo) as [en|en].
    + rewrite en, (hge _ _ en). intros e. exact e.
    + rewrite en. destruct (nlt FN _ _); intros e; exact e.
Qed.
Lemma loop_sim fuel : forall start e0 (d o : list FN) (q : option (mat FN)) es', eig_loop (N:=G) fuel (nepsilon FN) start e0 (ES (N:=G) d o q) = Ret es' ->
  exists (d' o' : list FN) (q' : option (mat FN)), es' = ES (N:=G) d' o' q' /\ length d' = length d /\ (badv d -> badv d') /\
    (badv d' \/ eig_loop (N:=H) fuel (nepsilon FN) start e0 (ES (N:=H) d o q) = Ret (ES (N:=H) d' o' q')).
Proof.
  induction fuel as [|fuel IH]; intros start e0 d o q es' e; cbn [eig_loop] in *;
    (destruct (Nat.eqb e0 start); [injection e as <-; exists d, o, q; auto|]); [discriminate|].
  apply bind_ret in e as (dd & ed & e). apply bind_ret in e as ([es1 e1] & est & e).
  assert (hs : exists (d1 o1 : list FN) (q1 : option (mat FN)), es1 = ES (N:=G) d1 o1 q1 /\ length d1 = length d /\ (badv d -> badv d1) /\
    (badv d1 \/ (if Nat.ltb 2 (S dd) then eig_big (N:=H) start e0 (nepsilon FN) (ES (N:=H) d o q) else if Nat.eqb (S dd) 2 then eig_two (N:=H) start e0 (nepsilon FN) (ES (N:=H) d o q) else Ret (ES (N:=H) d o q, e0)) = Ret (ES (N:=H) d1 o1 q1, e1))).
  { destruct (Nat.ltb 2 (S dd)); [apply big_sim; auto|]. destruct (Nat.eqb (S dd) 2).
    - destruct (two_sim _ _ _ _ _ _ _ est) as (d1 & o1 & q1 & h1 & h2 & h3 & h4). exists d1, o1, q1. auto.
    - injection est as <- <-. exists d, o, q. auto. }
  destruct hs as (d1 & o1 & q1 & -> & l1 & b1 & s1). cbn [es_diag es_off es_q] in e.
  apply bind_ret in e as ([[s' e'] o'] & edl & e). destruct (IH _ _ _ _ _ _ e) as (d2 & o2 & q2 & -> & l2 & b2 & s2).
  exists d2, o2, q2. split; auto. split; [congruence|]. split; [auto|]. destruct s1 as [s1|s1]; [left; auto|]. destruct s2 as [s2|s2]; [left; auto|]. right.
  rewrite ed. cbn [bind]. rewrite s1. cbn [bind es_diag es_off es_q]. mt edl. exact s2.
Qed.
Lemma core_symeig n fuel vec (a : mat FN) (ds : list FN) (q : option (mat FN)) : nr a = n -> nc a = n -> 1 <= n -> core_run h n fuel (scale_down a (abs_max a)) vec = Ret (ds, q) ->
  symmetric_eig (N:=H) fuel a vec (nepsilon H) = Ret (vmap (N:=FN) (fun x => nmul FN x (abs_max a)) ds, q).
Proof.
  intros hr hc hn e. unfold symmetric_eig.
  assert (ek : @check_square H a = Ret n) by (unfold check_square; change (@nr (FNh h) a) with (nr a); change (@nc (FNh h) a) with (nc a); rewrite hr, hc, Nat.eqb_refl; reflexivity).
  rewrite ek. cbn [bind]. destruct (Nat.ltb_spec n 1); [lia|].
  unfold core_run in e. apply bind_ret in e as (td & etd & e).
  match goal with |- context [sym_tridiagonal ?m] => change m with (@scale_down FN a (@abs_max FN a)) end. rewrite etd. cbn [bind].
  apply bind_ret in e as (q1 & eq1 & e). rewrite eq1. cbn [bind].
  destruct (tri_into_diagonals td) as (dg & of). destruct (Nat.eqb n 1).
  - injection e as <- <-. reflexivity.
  - apply bind_ret in e as ([[s0 e0] of'] & edl & e). rewrite edl. cbn [bind]. apply bind_ret in e as (es & el & e). rewrite el. cbn [bind].
    injection e as <- <-. reflexivity.
Qed.
Lemma core_sim n fuel vec s (ds : list FN) (q : option (mat FN)) : core_run g n fuel s vec = Ret (ds, q) -> badv ds \/ core_run h n fuel s vec = Ret (ds, q).
Proof.
  unfold core_run. intros e. apply bind_ret in e as (td & etd & e).
  assert (etd' : sym_tridiagonal (N:=H) s = Ret (TRD (N:=H) (diag_matrix td) (off_diagonal td))).
  { revert etd. unfold sym_tridiagonal. intros e'. apply bind_ret in e' as (k & e1 & e').
    match goal with |- bind ?m _ = _ => replace m with (@Ret nat k) by (symmetry; exact e1) end. cbn [bind]. destruct (Nat.ltb k 1); [discriminate|].
    apply bind_ret in e' as ([[self off] p] & e2 & e'). injection e' as <-. cbn [diag_matrix off_diagonal].
    match goal with |- bind ?m _ = _ => replace m with (@Ret (mat FN * list FN * list FN) (self, off, p)) by (symmetry; exact e2) end. reflexivity. }
  rewrite etd'. cbn [bind]. apply bind_ret in e as (q1 & eq1 & e). change (option (mat FN)) in q1.
  unfold tri_generate_q in *. cbn [diag_matrix off_diagonal].
  match goal with |- context [bind ?m _] => replace m with (@Ret (option (mat FN)) q1) by (symmetry; exact eq1) end. cbn [bind].
  unfold tri_into_diagonals in *. cbn [diag_matrix off_diagonal].
  destruct (Nat.eqb n 1); [right; exact e|].
  apply bind_ret in e as ([[s' e'] o'] & edl & e). mt edl. apply bind_ret in e as (es & el & e). injection e as <- <-.
  destruct (loop_sim _ _ _ _ _ _ _ el) as (d2 & o2 & q2 & -> & l2 & b2 & [s2|s2]); [left; exact s2|right]. mt s2. reflexivity.
Qed.
Lemma core_len n fuel vec (s : mat FN) (ds : list FN) (q : option (mat FN)) : nr s = n -> nc s = n -> core_run g n fuel s vec = Ret (ds, q) -> length ds = n.
Proof.
  intros hr hc. unfold core_run. intros e. apply bind_ret in e as (td & etd & e). apply bind_ret in e as (q1 & eq1 & e).
  pose proof (PTrid.sym_tridiagonal_class (N:=G) s) as hcl. rewrite etd in hcl. destruct hcl as (_ & _ & c1 & c2 & c3).
  unfold tri_into_diagonals in e. rewrite c1, c2, Nat.min_id in e. change (@nr G s) with (nr s) in e. rewrite hr in e.
  destruct (Nat.eqb n 1); [injection e as <- <-; exact (length_vmk (N:=G) n _)|].
  apply bind_ret in e as ([[s' e'] o'] & edl & e). apply bind_ret in e as (es & el & e). injection e as <- <-.
  destruct (loop_sim _ _ _ _ _ _ _ el) as (d2 & o2 & q2 & -> & l2 & _). cbn [es_diag]. rewrite l2. exact (length_vmk (N:=G) n _).
Qed.
Lemma symeig_sim n fuel vec (a : mat FN) (vals : list FN) (q : option (mat FN)) : nr a = n -> nc a = n -> 1 <= n ->
  symmetric_eig (N:=G) fuel a vec (nepsilon G) = Ret (vals, q) ->
  length vals = n /\ ((forall x, In x vals -> x <> S754_nan) -> symmetric_eig (N:=H) fuel a vec (nepsilon H) = Ret (vals, q)).
Proof.
  intros hr hc hn e. destruct (symeig_core g n fuel vec a vals q hr hc hn e) as (ds & hc' & ->).
  split. { rewrite length_vmap. apply (core_len n fuel vec (scale_down a (abs_max a)) ds q); auto; unfold scale_down; destruct (negb _); auto. }
  intros hf.
  destruct (core_sim n fuel vec _ ds q hc') as [(k & hk & ek)|hs]; [|apply core_symeig with n; auto].
  exfalso. apply (hf S754_nan); [|reflexivity].
  assert (ev : vget (N:=FN) (vmap (N:=FN) (fun x => nmul FN x (abs_max a)) ds) k = S754_nan) by (rewrite vget_vmap by exact hk; rewrite ek; reflexivity).
  rewrite <- ev. apply nth_In. rewrite length_vmap. exact hk.
Qed.
Lemma eigvalsh_sim n fuel (a : mat FN) (vals : list FN) : nr a = n -> nc a = n -> 1 <= n -> eigvalsh (N:=G) fuel a = Ret vals ->
  length vals = n /\ ((forall x, In x vals -> x <> S754_nan) -> eigvalsh (N:=H) fuel a = Ret vals).
Proof.
  intros hr hc hn e. destruct (eigvalsh_core g fuel a vals e) as (q & e'). destruct (symeig_sim n fuel false a vals q hr hc hn e') as (h1 & h2).
  split; auto. intros hf. unfold eigvalsh. rewrite (h2 hf). reflexivity.
Qed.
Lemma eigh_sim n fuel (a : mat FN) (vals : list FN) (q : mat FN) : nr a = n -> nc a = n -> 1 <= n -> eigh (N:=G) fuel a = Ret (vals, q) ->
  length vals = n /\ ((forall x, In x vals -> x <> S754_nan) -> eigh (N:=H) fuel a = Ret (vals, q)).
Proof.
  intros hr hc hn e. pose proof (eigh_core g fuel a vals q e) as e'. destruct (symeig_sim n fuel true a vals (Some q) hr hc hn e') as (h1 & h2).
  split; auto. intros hf. unfold eigh. rewrite (h2 hf). reflexivity.
Qed.
End Sim.
