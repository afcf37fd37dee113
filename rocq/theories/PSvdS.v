(** * Replacing [hypot] by one that sometimes returns NaN, for the values-only SVD

    If [g] agrees with [h] except that it may return NaN, then a run with [g] whose diagonal is
    finite is also the run with [h]. *)
From Coq Require Import Reals List Arith Lia Lra Bool ZArith.
From Coq.Floats Require Import SpecFloat.
From Flocq Require Import Core BinarySingleNaN.
From Verif Require Import Scalar Arr MBase MDirect MDecomp MEigh MSvd Inst Hoare Spec SpecF SpecH PTrdF PApx PGivF PSvdV PSvdF.
Import ListNotations.
Local Open Scope nat_scope.

Section Sim.
Variables g h : FN -> FN -> FN.
Hypothesis hg : forall x y, g x y = S754_nan \/ g x y = h x y.
Hypothesis gnf : forall x y, nf x \/ nf y -> nf (g x y).
Variable n : nat.
Local Notation bad := (bad n).

Lemma vbrk_sim {S} (I : nat -> S -> Prop) (B : S -> Prop) bg bh cnt : forall lo s,
  I lo s ->
  (forall k s, lo <= k < lo + cnt -> I k s -> (fst (bg k s) = true -> I (Datatypes.S k) (snd (bg k s))) /\ (B s -> B (snd (bg k s))) /\ (B (snd (bg k s)) \/ bg k s = bh k s)) ->
  (B s -> B (vbrk cnt lo bg s)) /\ (B (vbrk cnt lo bg s) \/ vbrk cnt lo bg s = vbrk cnt lo bh s).
Proof.
  induction cnt as [|cnt IH]; intros lo s hi hs; cbn [vbrk]; auto. cbv zeta.
  destruct (hs lo s ltac:(lia) hi) as (h1 & h2 & h3). destruct (fst (bg lo s)) eqn:ef.
  - destruct (IH (Datatypes.S lo) (snd (bg lo s)) (h1 eq_refl)) as (k1 & k2). { intros k s' hk. apply hs. lia. }
    split; auto. destruct h3 as [h3|h3]; [left; auto|]. destruct k2 as [k2|k2]; [left; auto|right]. rewrite <- h3, ef. exact k2.
  - split; auto. destruct h3 as [h3|h3]; [left; auto|right]. rewrite <- h3, ef. reflexivity.
Qed.
Lemma vrbrk_sim {S} (I : nat -> S -> Prop) (B : S -> Prop) bg bh m : forall s,
  I m s ->
  (forall k s, k < m -> I (Datatypes.S k) s -> (fst (bg k s) = true -> I k (snd (bg k s))) /\ (B s -> B (snd (bg k s))) /\ (B (snd (bg k s)) \/ bg k s = bh k s)) ->
  (B s -> B (vrbrk m bg s)) /\ (B (vrbrk m bg s) \/ vrbrk m bg s = vrbrk m bh s).
Proof.
  induction m as [|m IH]; intros s hi hs; cbn [vrbrk]; auto. cbv zeta.
  destruct (hs m s ltac:(lia) hi) as (h1 & h2 & h3). destruct (fst (bg m s)) eqn:ef.
  - destruct (IH (snd (bg m s)) (h1 eq_refl)) as (k1 & k2). { intros k s' hk. apply hs. lia. }
    split; auto. destruct h3 as [h3|h3]; [left; auto|]. destruct k2 as [k2|k2]; [left; auto|right]. rewrite <- h3, ef. exact k2.
  - split; auto. destruct h3 as [h3|h3]; [left; auto|right]. rewrite <- h3, ef. reflexivity.
Qed.

Lemma cy_sim x y : cy g x y = cy h x y \/ exists c s r, cy g x y = Some (c, s, r) /\ nf c /\ nf s /\ nf r.
Proof.
  unfold cy. destruct (nis_zero FN y); cbn [negb]; [left; reflexivity|]. destruct (hg x y) as [e|e]; [right|left; rewrite e; reflexivity].
  exists (ndiv FN x (g x y)), (ndiv FN (nopp FN y) (g x y)), (g x y). split; auto. rewrite e, !nan_div_r. repeat split; apply nf_nan.
Qed.

Lemma hor_sim i e d o : i < e -> e < n -> bad (fst (vhor g i e d o)) \/ vhor g i e d o = vhor h i e d o.
Proof.
  intros hi he. unfold vhor. cbv zeta. cbn [fst].
  destruct (vbrk_sim (fun k s => (k < e)%nat -> vy s = vd s (k + 1)) (fun s => bad (vd s)) (vhor_step g e) (vhor_step h e) (e - i) i (VS (o i) (d (i + 1)) d (up o i (n0 FN)))) as (_ & [q|q]); auto.
  - intros k s hk hy. unfold vhor_step. destruct (cy g (vy s) (vx s)) as [[[c s0] r]|] eqn:ec.
    + destruct (cy_r _ _ _ _ _ _ ec) as (er & _). split; [|split].
      * destruct (Nat.eqb_spec (k + 1) e); cbn [negb fst snd vd vy]; [lia|]. intros _ _. replace (S k + 1) with (k + 2) by lia. reflexivity.
      * intros hb. assert (hb' : bad (up (vd s) (k + 1) r)) by (apply bad_up; auto; intros hn; rewrite er; apply gnf; left; rewrite hy by lia; auto).
        destruct (Nat.eqb_spec (k + 1) e); cbn [negb fst snd vd]; auto.
      * destruct (cy_sim (vy s) (vx s)) as [e0|(c' & s' & r' & e0 & _ & _ & hr)].
        { right. rewrite <- e0, ec. reflexivity. }
        left. rewrite ec in e0. injection e0 as <- <- <-. destruct (Nat.eqb_spec (k + 1) e); cbn [negb fst snd vd]; apply bad_at; auto; lia.
    + cbn [fst snd]. split; [discriminate|]. split; auto. right. destruct (cy_sim (vy s) (vx s)) as [e0|(c' & s' & r' & e0 & _)]; [rewrite <- e0, ec; reflexivity|congruence].
  - right. rewrite q. reflexivity.
Qed.
Lemma ver_sim i d o : i < n -> bad (fst (vver g i d o)) \/ vver g i d o = vver h i d o.
Proof.
  intros hi. unfold vver. cbv zeta. cbn [fst].
  destruct (vrbrk_sim (fun k s => (0 < k)%nat -> vx s = vd s (k - 1)) (fun s => bad (vd s)) (vver_step g) (vver_step h) (i + 1) (VS (d i) (o i) d (up o i (n0 FN)))) as (_ & [q|q]); auto.
  - intros _. cbn [vx vd]. f_equal. lia.
  - intros k s hk hy. unfold vver_step. destruct (cy g (vx s) (vy s)) as [[[c s0] r]|] eqn:ec.
    + destruct (cy_r _ _ _ _ _ _ ec) as (er & _). split; [|split].
      * destruct (Nat.ltb_spec 0 k); cbn [fst snd vd vx]; [auto|lia].
      * intros hb. assert (hb' : bad (up (vd s) k r)). { apply bad_up; auto; intros hn; rewrite er; apply gnf; left; rewrite hy by lia. replace (S k - 1) with k by lia. auto. }
        destruct (Nat.ltb_spec 0 k); cbn [fst snd vd]; auto.
      * destruct (cy_sim (vx s) (vy s)) as [e0|(c' & s' & r' & e0 & _ & _ & hr)].
        { right. rewrite <- e0, ec. reflexivity. }
        left. rewrite ec in e0. injection e0 as <- <- <-. destruct (Nat.ltb_spec 0 k); cbn [fst snd vd]; apply bad_at; auto; lia.
    + cbn [fst snd]. split; [discriminate|]. split; auto. right. destruct (cy_sim (vx s) (vy s)) as [e0|(c' & s' & r' & e0 & _)]; [rewrite <- e0, ec; reflexivity|congruence].
  - right. rewrite q. reflexivity.
Qed.
Lemma clear_sim m k d o : m < k -> k < n -> bad (fst (vclear g m k d o)) \/ vclear g m k d o = vclear h m k d o.
Proof.
  intros hm hk. unfold vclear. destruct (hor_sim m k d o hm hk) as [q|q].
  - left. destruct (Nat.eqb_spec m 0); cbn [negb]; auto. apply ver_absorb; auto. lia.
  - rewrite <- q. destruct (Nat.eqb_spec m 0); cbn [negb]; auto. apply ver_sim. lia.
Qed.

Section Eps.
Variable eps : FN.
Hypothesis heps : ffin eps.
Lemma end_sim e : forall d o, e < n -> bad (snd (fst (vend g eps e d o))) \/ vend g eps e d o = vend h eps e d o.
Proof.
  induction e as [|e IH]; intros d o he; cbn [vend]; auto.
  destruct (nis_zero FN (o e) || negl eps (o e) (d (S e)) (d e)); [apply IH; lia|].
  destruct (nle FN (nabs FN (d e)) eps).
  { destruct (clear_sim e (e + 1) (up d e (n0 FN)) o ltac:(lia) ltac:(lia)) as [q|q]; [left; apply end_absorb; auto; lia|rewrite <- q; apply IH; lia]. }
  destruct (nle FN (nabs FN (d (S e))) eps).
  { destruct (ver_sim e (up d (S e) (n0 FN)) o ltac:(lia)) as [q|q]; [left; apply end_absorb; auto; lia|rewrite <- q; apply IH; lia]. }
  auto.
Qed.
Lemma start_sim e : forall ns d o, ns <= e -> e < n -> bad (snd (fst (vstart g eps e ns d o))) \/ vstart g eps e ns d o = vstart h eps e ns d o.
Proof.
  induction ns as [|ns IH]; intros d o hn he; cbn [vstart]; auto.
  destruct (negl eps (o ns) (d (S ns)) (d ns)); auto.
  destruct (nle FN (nabs FN (d ns)) eps); [|apply IH; lia].
  destruct (clear_sim ns e (up d ns (n0 FN)) o ltac:(lia) ltac:(lia)) as [q|q]; [left; exact q|rewrite <- q; auto].
Qed.
Definition dd (r : nat * nat * FV * FV) : FV := snd (fst r).
Definition ee (r : nat * nat * FV * FV) : nat := snd (fst (fst r)).
Definition st (r : nat * nat * FV * FV) : nat := fst (fst (fst r)).
Lemma end_le e : forall d o, (fst (fst (vend g eps e d o)) <= e)%nat.
Proof.
  induction e as [|e IH]; intros d o; cbn [vend]; auto.
  destruct (_ || _); [eapply Nat.le_trans; [apply IH|]; lia|]. destruct (nle _ _ _); [eapply Nat.le_trans; [apply IH|]; lia|]. destruct (nle _ _ _); [eapply Nat.le_trans; [apply IH|]; lia|]. auto.
Qed.
Lemma start_le e : forall ns d o, (fst (fst (vstart g eps e ns d o)) <= ns)%nat.
Proof.
  induction ns as [|ns IH]; intros d o; cbn [vstart]; auto. destruct (negl _ _ _ _); auto. destruct (nle _ _ _); auto.
Qed.
Lemma delim_sim e d o : e < n -> (bad d -> bad (dd (vdelim g eps e d o))) /\ (bad (dd (vdelim g eps e d o)) \/ vdelim g eps e d o = vdelim h eps e d o) /\
  ee (vdelim g eps e d o) <= e /\ (st (vdelim g eps e d o) < ee (vdelim g eps e d o) \/ st (vdelim g eps e d o) = 0 /\ ee (vdelim g eps e d o) = 0).
Proof.
  intros he. unfold vdelim. pose proof (end_sim e d o he) as hs. pose proof (end_absorb g gnf n eps heps e d o he) as ha. pose proof (end_le e d o) as hl.
  destruct (vend g eps e d o) as [[n1 d1] o1]. cbn [fst snd] in *.
  assert (key : (bad d1 -> bad (dd (if Nat.eqb n1 0 then (0, 0, d1, o1) else let '(s, d2, o2) := vstart g eps n1 (n1 - 1) d1 o1 in (s, n1, d2, o2)))) /\
     (bad (dd (if Nat.eqb n1 0 then (0, 0, d1, o1) else let '(s, d2, o2) := vstart g eps n1 (n1 - 1) d1 o1 in (s, n1, d2, o2))) \/
       (if Nat.eqb n1 0 then (0, 0, d1, o1) else let '(s, d2, o2) := vstart g eps n1 (n1 - 1) d1 o1 in (s, n1, d2, o2)) =
       (if Nat.eqb n1 0 then (0, 0, d1, o1) else let '(s, d2, o2) := vstart h eps n1 (n1 - 1) d1 o1 in (s, n1, d2, o2))) /\
     ee (if Nat.eqb n1 0 then (0, 0, d1, o1) else let '(s, d2, o2) := vstart g eps n1 (n1 - 1) d1 o1 in (s, n1, d2, o2)) <= n1 /\
     (st (if Nat.eqb n1 0 then (0, 0, d1, o1) else let '(s, d2, o2) := vstart g eps n1 (n1 - 1) d1 o1 in (s, n1, d2, o2)) < ee (if Nat.eqb n1 0 then (0, 0, d1, o1) else let '(s, d2, o2) := vstart g eps n1 (n1 - 1) d1 o1 in (s, n1, d2, o2)) \/
      st (if Nat.eqb n1 0 then (0, 0, d1, o1) else let '(s, d2, o2) := vstart g eps n1 (n1 - 1) d1 o1 in (s, n1, d2, o2)) = 0 /\ ee (if Nat.eqb n1 0 then (0, 0, d1, o1) else let '(s, d2, o2) := vstart g eps n1 (n1 - 1) d1 o1 in (s, n1, d2, o2)) = 0)).
  { destruct (Nat.eqb_spec n1 0) as [e0|e0]; [unfold dd, ee, st; cbn [fst snd]; repeat split; auto; lia|].
    pose proof (start_sim n1 (n1 - 1) d1 o1 ltac:(lia) ltac:(lia)) as q1. pose proof (start_absorb g gnf n eps heps n1 (n1 - 1) d1 o1 ltac:(lia) ltac:(lia)) as q2. pose proof (start_le n1 (n1 - 1) d1 o1) as q3.
    destruct (vstart g eps n1 (n1 - 1) d1 o1) as [[s d2] o2]. cbn [fst snd] in *. unfold dd, ee, st. cbn [fst snd]. split; auto. split; [|split; [lia|left; lia]].
    destruct q1 as [q1|q1]; [auto|right]. rewrite <- q1. reflexivity. }
  destruct key as (k1 & k2 & k3 & k4). split; auto. split; [|split; [lia|auto]].
  destruct hs as [hs|hs]; [left; auto|]. rewrite <- hs. exact k2.
Qed.

Lemma sweep_sim start e k s : k + 1 < n -> bad (vd (snd (vsweep_step g start e k s))) \/ vsweep_step g start e k s = vsweep_step h start e k s.
Proof.
  intros hk. destruct (cy_sim (vx s) (vy s)) as [e0|(c' & s' & r' & e0 & hc & _)].
  2:{ left. eapply sweep_bad; eauto. lia. }
  rewrite !vsweep_eq, <- e0. destruct (cy g (vx s) (vy s)) as [[[c1 s1] r1]|]; auto. cbv zeta.
  match goal with |- context [row2 g ?a ?b ?c ?d ?e] => assert (hr : nf (fst (fst (fst (fst (row2 g a b c d e))))) \/ row2 g a b c d e = row2 h a b c d e) end.
  { unfold row2. match goal with |- context [cy g ?a ?b] => destruct (cy_sim a b) as [q|(c2 & s2 & r2 & q & _ & _ & hr)] end.
    - right. rewrite <- q. reflexivity.
    - left. rewrite q. exact hr. }
  destruct hr as [hr|hr]; [left|right; rewrite hr; reflexivity].
  destruct (row2 g _ _ _ _ _) as [[[[s00 s01] s02] s11] s12]. cbn [fst snd vd] in *. exists k. split; [lia|]. rewrite up_ne by lia. rewrite up_eq. exact hr.
Qed.
Lemma big_sim start e d o : start < e -> e < n -> bad (fst (vbig g start e d o)) \/ vbig g start e d o = vbig h start e d o.
Proof.
  intros hs he. unfold vbig. cbv zeta. cbn [fst].
  match goal with |- bad (vd (vbrk _ _ _ ?z)) \/ _ => destruct (vbrk_sim (fun _ _ => True) (fun s => bad (vd s)) (vsweep_step g start e) (vsweep_step h start e) (e - start) start z) as (_ & [q|q]) end; auto.
  - intros k s hk _. split; auto. split; [apply sweep_absorb; auto; lia|apply sweep_sim; lia].
  - right. rewrite q. reflexivity.
Qed.
Lemma two_sim start d o : start + 1 < n -> bad (fst (vtwo g start d o)) \/ vtwo g start d o = vtwo h start d o.
Proof.
  intros hs. unfold vtwo. cbv zeta. cbn [fst].
  destruct (hg (nadd FN (d start) (d (start + 1))) (o start)) as [e|e].
  { left. apply bad_at; auto. apply nf_div_l, nf_add_l. rewrite e. apply nf_nan. }
  destruct (hg (nsub FN (d start) (d (start + 1))) (o start)) as [e'|e'].
  { left. apply bad_at; auto. apply nf_div_l, nf_add_r. rewrite e'. apply nf_nan. }
  right. rewrite e, e'. reflexivity.
Qed.
Lemma loop_sim fuel : forall s e d o, e < n -> s < e \/ s = 0 /\ e = 0 ->
  (bad d -> forall r, vloop g fuel eps s e d o = Some r -> bad (fst r)) /\
  ((forall r, vloop g fuel eps s e d o = Some r -> bad (fst r)) \/ vloop g fuel eps s e d o = vloop h fuel eps s e d o).
Proof.
  induction fuel as [|fuel IH]; intros s e d o he hs; cbn [vloop].
  - destruct (Nat.eqb e s); [|split; [intros; discriminate|auto]]. split; auto. intros hb r er. injection er as <-. exact hb.
  - destruct (Nat.eqb_spec e s) as [->|ne]; [split; auto; intros hb r er; injection er as <-; exact hb|].
    assert (step : forall d' o' e', e' < n ->
      (bad d' -> forall r, (let '(s1, e1, d1, o1) := vdelim g eps e' d' o' in vloop g fuel eps s1 e1 d1 o1) = Some r -> bad (fst r)) /\
      ((forall r, (let '(s1, e1, d1, o1) := vdelim g eps e' d' o' in vloop g fuel eps s1 e1 d1 o1) = Some r -> bad (fst r)) \/
       (let '(s1, e1, d1, o1) := vdelim g eps e' d' o' in vloop g fuel eps s1 e1 d1 o1) = (let '(s1, e1, d1, o1) := vdelim h eps e' d' o' in vloop h fuel eps s1 e1 d1 o1))).
    { intros d' o' e' he'. destruct (delim_sim e' d' o' he') as (q1 & q2 & q3 & q4).
      destruct (vdelim g eps e' d' o') as [[[s1 e1] d1] o1]. unfold dd, ee, st in *. cbn [fst snd] in *.
      destruct (IH s1 e1 d1 o1 ltac:(lia) q4) as (k1 & k2). split; auto. destruct q2 as [q2|q2]; [left; auto|]. rewrite <- q2. exact k2. }
    destruct (Nat.ltb_spec 2 (S (e - s))) as [hlt|hge]; cbv zeta.
    + destruct (step (fst (vbig g s e d o)) (snd (vbig g s e d o)) e he) as (k1 & k2). split.
      * intros hb. apply k1. apply big_absorb; auto. lia.
      * destruct (big_sim s e d o ltac:(lia) he) as [q|q]; [left; auto|]. rewrite <- q. exact k2.
    + assert (e = s + 1) as -> by lia. destruct (step (fst (vtwo g s d o)) (snd (vtwo g s d o)) (s + 1 - 1) ltac:(lia)) as (k1 & k2). split.
      * intros hb. apply k1. apply two_absorb; auto; lia.
      * destruct (two_sim s d o ltac:(lia)) as [q|q]; [left; auto|]. rewrite <- q. exact k2.
Qed.
End Eps.
End Sim.
