(** * The values-only run of svd.rs in binary64, as functions of the diagonals *)
From Coq Require Import Reals List Arith Lia Lra Bool ZArith.
From Coq.Floats Require Import SpecFloat.
From Flocq Require Import Core BinarySingleNaN.
From Verif Require Import Scalar Arr MBase MDirect MDecomp MEigh MSvd Inst Hoare Spec SpecF SpecH RLin PTri PHouse PQR PTrid PBid PGivens PEigh PSvd.
Import ListNotations.
Local Open Scope nat_scope.

Notation FV := (nat -> FN).
Definition up (f : FV) (k : nat) (v : FN) : FV := fun j => if Nat.eqb j k then v else f j.

Fixpoint vbrk {S} (cnt lo : nat) (body : nat -> S -> bool * S) (s : S) : S :=
  match cnt with
  | 0 => s
  | Datatypes.S c => let r := body lo s in if fst r then vbrk c (Datatypes.S lo) body (snd r) else snd r
  end.
Fixpoint vrbrk {S} (n : nat) (body : nat -> S -> bool * S) (s : S) : S :=
  match n with
  | 0 => s
  | Datatypes.S k => let r := body k s in if fst r then vrbrk k body (snd r) else snd r
  end.

Section Pure.
Variable h : FN -> FN -> FN.
Local Infix "+!" := (nadd FN) (at level 50, left associativity).
Local Infix "-!" := (nsub FN) (at level 50, left associativity).
Local Infix "*!" := (nmul FN) (at level 40, left associativity).
Local Infix "/!" := (ndiv FN) (at level 40, left associativity).
Local Notation "-! x" := (nopp FN x) (at level 35, right associativity).

(** a rotation c, s and the norm *)
Definition cy (x y : FN) : option (FN * FN * FN) :=
  if negb (nis_zero FN y) then let r := h x y in Some (x /! r, (-! y) /! r, r) else None.

Record vst := VS { vx : FN; vy : FN; vd : FV; vo : FV }.

(** [cancel_horizontal] *)
Definition vhor_step (e k : nat) (s : vst) : bool * vst :=
  match cy (vy s) (vx s) with
  | Some (c, s0, r) =>
      let sn := s0 *! (-! n1 FN) in
      let d := up (vd s) (k + 1) r in
      if negb (Nat.eqb (k + 1) e) then
        (true, VS ((-! sn) *! vo s (k + 1)) (d (k + 2)) d (up (vo s) (k + 1) (vo s (k + 1) *! c)))
      else (true, VS (vx s) (vy s) d (vo s))
  | None => (false, s)
  end.
Definition vhor (i e : nat) (d o : FV) : FV * FV :=
  let s := vbrk (e - i) i (vhor_step e) (VS (o i) (d (i + 1)) d (up o i (n0 FN))) in (vd s, vo s).

(** [cancel_vertical] *)
Definition vver_step (k : nat) (s : vst) : bool * vst :=
  match cy (vx s) (vy s) with
  | Some (c, sn, r) =>
      let d := up (vd s) k r in
      if Nat.ltb 0 k then
        (true, VS (d (k - 1)) (sn *! vo s (k - 1)) d (up (vo s) (k - 1) (vo s (k - 1) *! c)))
      else (true, VS (vx s) (vy s) d (vo s))
  | None => (false, s)
  end.
Definition vver (i : nat) (d o : FV) : FV * FV :=
  let s := vrbrk (i + 1) vver_step (VS (d i) (o i) d (up o i (n0 FN))) in (vd s, vo s).

Definition negl (eps o dn dm : FN) : bool := nle FN (nabs FN o) (eps *! (nabs FN dn +! nabs FN dm)).

(** row m is cleared to the right as far as k, then column m upwards *)
Definition vclear (m k : nat) (d o : FV) : FV * FV :=
  let r := vhor m k d o in if negb (Nat.eqb m 0) then vver (m - 1) (fst r) (snd r) else r.
Fixpoint vend (eps : FN) (n : nat) (d o : FV) : nat * FV * FV :=
  match n with
  | 0 => (0, d, o)
  | S m =>
      if nis_zero FN (o m) || negl eps (o m) (d n) (d m) then vend eps m d (up o m (n0 FN))
      else if nle FN (nabs FN (d m)) eps then
        let r := vclear m (m + 1) (up d m (n0 FN)) o in vend eps m (fst r) (snd r)
      else if nle FN (nabs FN (d n)) eps then
        let r := vver m (up d n (n0 FN)) o in vend eps m (fst r) (snd r)
      else (n, d, o)
  end.
Fixpoint vstart (eps : FN) (n ns : nat) (d o : FV) : nat * FV * FV :=
  match ns with
  | 0 => (0, d, o)
  | S m =>
      if negl eps (o m) (d ns) (d m) then (ns, d, up o m (n0 FN))
      else if nle FN (nabs FN (d m)) eps then
        let r := vclear m n (up d m (n0 FN)) o in (ns, fst r, snd r)
      else vstart eps n m d o
  end.
Definition vdelim (eps : FN) (e : nat) (d o : FV) : nat * nat * FV * FV :=
  let '(n, d, o) := vend eps e d o in
  if Nat.eqb n 0 then (0, 0, d, o)
  else let '(s, d, o) := vstart eps n (n - 1) d o in (s, n, d, o).

(** one step of a sweep *)
Definition vsweep_step (start n k : nat) (s : vst) : bool * vst :=
  match cy (vx s) (vy s) with
  | None => (false, s)
  | Some (c1, s1, r1) =>
      let d := vd s in let o := vo s in
      let is := -! s1 in
      let m12 := if Nat.eqb k (n - 1) then n0 FN else o (k + 1) in
      let a00 := d k *! c1 +! is *! o k in
      let a01 := (-! is) *! d k +! o k *! c1 in
      let a10 := n0 FN *! c1 +! is *! d (k + 1) in
      let a11 := (-! is) *! n0 FN +! d (k + 1) *! c1 in
      let '(s00, s01, s02, s11, s12) :=
        match cy a00 a10 with
        | None => (a00, a01, n0 FN, a11, m12)
        | Some (c2, s2, r2) =>
            (r2, a01 *! c2 +! (-! s2) *! a11, n0 FN *! c2 +! (-! s2) *! m12,
             (-! (-! s2)) *! a01 +! a11 *! c2, (-! (-! s2)) *! n0 FN +! m12 *! c2)
        end in
      let o1 := if Nat.ltb start k then up o (k - 1) r1 else o in
      let o2 := up o1 k s01 in
      (true, VS s01 s02 (up (up d k s00) (k + 1) s11) (if Nat.eqb k (n - 1) then o2 else up o2 (k + 1) s12))
  end.
Definition vbig (start e : nat) (d o : FV) : FV * FV :=
  let m := e - 1 in
  let tmm := d m *! d m +! o (m - 1) *! o (m - 1) in
  let tmn := d m *! o m in
  let tnn := d e *! d e +! o m *! o m in
  let s := vbrk (e - start) start (vsweep_step start e)
             (VS (d start *! d start -! wilkinson_shift (N:=FN) tmm tnn tmn) (d start *! o start) d o) in
  (vd s, vo s).
Definition vtwo (start : nat) (d o : FV) : FV * FV :=
  let d0 := d start in let d1 := d (start + 1) in let oo := o start in
  let den := h (d0 +! d1) oo +! h (d0 -! d1) oo in
  (up (up d start (d0 *! d1 *! ntwo (N:=FN) /! den)) (start + 1) (den /! ntwo (N:=FN)), up o start (n0 FN)).
Fixpoint vloop (fuel : nat) (eps : FN) (start e : nat) (d o : FV) : option (FV * FV) :=
  if Nat.eqb e start then Some (d, o)
  else match fuel with
  | 0 => None
  | S fuel =>
      let '(d, o, e) := if Nat.ltb 2 (S (e - start)) then let r := vbig start e d o in (fst r, snd r, e)
                        else let r := vtwo start d o in (fst r, snd r, e - 1) in
      let '(s, e, d, o) := vdelim eps e d o in
      vloop fuel eps s e d o
  end.
End Pure.

(** ** The model's run *)
Section Link.
Variable h : spec_float -> spec_float -> spec_float.
Local Notation N := (FNh h).
Variable n : nat.

Definition rel (st : svd_state N) (d o : FV) : Prop :=
  length (sd st) = n /\ length (so st) = n - 1 /\ su st = None /\ sv st = None /\
  (forall j, j < n -> vget (N:=N) (sd st) j = d j) /\ (forall j, j < n - 1 -> vget (N:=N) (so st) j = o j).
Definition rels (s : N * N * svd_state N) (v : vst) : Prop :=
  fst (fst s) = vx v /\ snd (fst s) = vy v /\ rel (snd s) (vd v) (vo v).

Lemma rel_d st d o k v : rel st d o -> k < n -> rel (SS (N:=N) (vupd (N:=N) (sd st) k v) (so st) None None) (up d k v) o.
Proof.
  intros (h1 & h2 & h3 & h4 & h5 & h6) hk. split; [cbn [sd]; dims; auto|]. split; auto. split; auto. split; auto. split; auto.
  intros j hj. cbn [sd]. rewrite vget_vupd by lia. unfold up. bd; auto.
Qed.
Lemma rel_o st d o k v : rel st d o -> k < n - 1 -> rel (SS (N:=N) (sd st) (vupd (N:=N) (so st) k v) None None) d (up o k v).
Proof.
  intros (h1 & h2 & h3 & h4 & h5 & h6) hk. split; auto. split; [cbn [so]; dims; auto|]. split; auto. split; auto. split; auto.
  intros j hj. cbn [so]. rewrite vget_vupd by lia. unfold up. bd; auto.
Qed.

Lemma cy_link x y : @cancel_y N x y = match cy h x y with Some (c, s, r) => Some (Rot (N:=N) c s, r) | None => None end.
Proof. unfold cancel_y, cy. change (nis_zero N y) with (nis_zero FN y). destruct (nis_zero FN y); reflexivity. Qed.

Lemma brk_link body (vb : nat -> vst -> bool * vst) cnt : forall lo s v,
  (forall k s v, lo <= k < lo + cnt -> rels s v -> wp (body k s) (fun r => fst r = fst (vb k v) /\ rels (snd r) (snd (vb k v)))) ->
  rels s v -> wp (for_brk cnt lo body s) (fun s' => rels s' (vbrk cnt lo vb v)).
Proof.
  induction cnt as [|cnt IH]; intros lo s v hb hr; cbn [for_brk vbrk]; [apply post_ret; auto|].
  apply post_bind. eapply post_mono; [apply (hb lo s v); auto; lia|]. intros [go s'] (e & hr'). cbn [fst snd] in *. rewrite <- e.
  destruct go; [|apply post_ret; auto]. apply IH; auto. intros. apply hb; auto; lia.
Qed.
Lemma rbrk_link body (vb : nat -> vst -> bool * vst) cnt : forall s v,
  (forall k s v, k < cnt -> rels s v -> wp (body k s) (fun r => fst r = fst (vb k v) /\ rels (snd r) (snd (vb k v)))) ->
  rels s v -> wp (for_rev_brk cnt body s) (fun s' => rels s' (vrbrk cnt vb v)).
Proof.
  induction cnt as [|cnt IH]; intros s v hb hr; cbn [for_rev_brk vrbrk]; [apply post_ret; auto|].
  apply post_bind. eapply post_mono; [apply (hb cnt s v); auto; lia|]. intros [go s'] (e & hr'). cbn [fst snd] in *. rewrite <- e.
  destruct go; [|apply post_ret; auto]. apply IH; auto.
Qed.

Lemma hor_link isup i e st d o : rel st d o -> i < e -> e < n ->
  wp (cancel_horizontal (N:=N) isup i e st) (fun st' => rel st' (fst (vhor h i e d o)) (snd (vhor h i e d o))).
Proof.
  intros hr hi he. pose proof hr as (h1 & h2 & h3 & h4 & h5 & h6). unfold cancel_horizontal.
  step1. apply post_idx1; [lia|]. step1. apply post_idx1; [lia|]. step1. apply post_set1; [lia|]. step1.
  eapply post_mono.
  - apply (brk_link _ (vhor_step h e) _ _ _ (VS (o i) (d (i + 1)) d (up o i (n0 FN)))).
    2:{ split; [apply h6; lia|]. split; [apply h5; lia|]. cbn [snd vd vo]. rewrite h3, h4. apply (rel_o st); auto. lia. }
    intros k [[x y] s] [x' y' d' o'] hk (e1 & e2 & r). cbn [fst snd vx vy vd vo] in *. subst x' y'.
    pose proof r as (g1 & g2 & g3 & g4 & g5 & g6). unfold cancel_x, vhor_step. rewrite cy_link. cbn [vx vy vd vo]. destruct (cy h y x) as [[[c s0] r0]|].
    2:{ apply post_ret. cbn [fst snd]. split; auto. split; auto. }
    cbn [MBase.rc MBase.rs]. step1. apply post_atm1; [lia|]. rewrite g3, g4.
    assert (hr1 := rel_d s d' o' (k + 1) r0 r ltac:(lia)). pose proof hr1 as (_ & _ & _ & _ & k5 & _). cbn [sd so] in k5.
    step1. eapply post_mono with (Q := fun u => u = None). { destruct isup; apply post_ret; auto. } intros u ->.
    step1. eapply post_mono with (Q := fun u => u = None). { destruct isup; apply post_ret; auto. } intros u ->.
    destruct (Nat.eqb_spec (k + 1) e); cbn [negb].
    + apply post_ret. cbn [fst snd]. split; auto. split; auto.
    + step1. apply post_at1; [lia|]. step1. apply post_at1; [dims; lia|]. step1. apply post_atm1; [lia|]. apply post_ret. cbn [fst snd].
      split; auto. split; [|split].
      * cbn [fst snd vx]. rewrite g6 by lia. reflexivity.
      * cbn [fst snd vy]. rewrite k5 by lia. reflexivity.
      * cbn [snd vd vo]. rewrite g6 by lia. apply (rel_o (SS (N:=N) (vupd (N:=N) (sd s) (k + 1) r0) (so s) None None)); auto. lia.
  - intros [xy s'] (_ & _ & r). apply post_ret. exact r.
Qed.

Lemma ver_link isup i st d o : rel st d o -> i + 1 < n ->
  wp (cancel_vertical (N:=N) isup i st) (fun st' => rel st' (fst (vver h i d o)) (snd (vver h i d o))).
Proof.
  intros hr hi. pose proof hr as (h1 & h2 & h3 & h4 & h5 & h6). unfold cancel_vertical.
  step1. apply post_idx1; [lia|]. step1. apply post_idx1; [lia|]. step1. apply post_set1; [lia|]. step1.
  eapply post_mono.
  - apply (rbrk_link _ (vver_step h) _ _ (VS (d i) (o i) d (up o i (n0 FN)))).
    2:{ split; [apply h5; lia|]. split; [apply h6; lia|]. cbn [snd vd vo]. rewrite h3, h4. apply (rel_o st); auto. lia. }
    intros k [[x y] s] [x' y' d' o'] hk (e1 & e2 & r). cbn [fst snd vx vy vd vo] in *. subst x' y'.
    pose proof r as (g1 & g2 & g3 & g4 & g5 & g6). unfold vver_step. rewrite cy_link. cbn [vx vy vd vo]. destruct (cy h x y) as [[[c s0] r0]|].
    2:{ apply post_ret. cbn [fst snd]. split; auto. split; auto. }
    cbn [MBase.rc MBase.rs]. step1. apply post_atm1; [lia|]. rewrite g3, g4.
    assert (hr1 := rel_d s d' o' k r0 r ltac:(lia)). pose proof hr1 as (_ & _ & _ & _ & k5 & _). cbn [sd so] in k5.
    step1. eapply post_mono with (Q := fun u => u = None). { destruct isup; apply post_ret; auto. } intros u ->.
    step1. eapply post_mono with (Q := fun u => u = None). { destruct isup; apply post_ret; auto. } intros u ->.
    destruct (Nat.ltb_spec 0 k).
    + step1. apply post_usub; [lia|]. step1. apply post_at1; [dims; lia|]. step1. apply post_at1; [lia|]. step1. apply post_atm1; [lia|]. apply post_ret. cbn [fst snd].
      split; auto. split; [|split].
      * cbn [fst snd vx]. rewrite k5 by lia. reflexivity.
      * cbn [fst snd vy]. rewrite g6 by lia. reflexivity.
      * cbn [snd vd vo]. rewrite g6 by lia. apply (rel_o (SS (N:=N) (vupd (N:=N) (sd s) k r0) (so s) None None)); auto. lia.
    + apply post_ret. cbn [fst snd]. split; auto. split; auto.
  - intros [xy s'] (_ & _ & r). apply post_ret. exact r.
Qed.

Lemma clear_link isup m k st d o : rel st d o -> m < k -> k < n ->
  wp (let* st := cancel_horizontal (N:=N) isup m k st in
      if negb (Nat.eqb m 0) then let* m1 := usub m 1 in cancel_vertical (N:=N) isup m1 st else Ret st)%res
     (fun st' => rel st' (fst (vclear h m k d o)) (snd (vclear h m k d o))).
Proof.
  intros hr hm hk. step1. eapply post_mono; [apply (hor_link isup m k st d o); auto|]. intros st1 hr1. unfold vclear.
  destruct (Nat.eqb_spec m 0); cbn [negb]; [apply post_ret; auto|]. step1. apply post_usub; [lia|]. apply ver_link; auto. lia.
Qed.

Lemma end_link isup eps : forall e st d o, rel st d o -> e < n ->
  wp (svd_delim_end (N:=N) isup eps e st) (fun r => fst r = fst (fst (vend h eps e d o)) /\ fst r <= e /\ rel (snd r) (snd (fst (vend h eps e d o))) (snd (vend h eps e d o))).
Proof.
  induction e as [|m IH]; intros st d o hr he; cbn [svd_delim_end vend]; [apply post_ret; auto|].
  pose proof hr as (h1 & h2 & h3 & h4 & h5 & h6).
  assert (next : forall st' d' o', rel st' d' o' -> wp (svd_delim_end (N:=N) isup eps m st') (fun r => fst r = fst (fst (vend h eps m d' o')) /\ fst r <= S m /\ rel (snd r) (snd (fst (vend h eps m d' o'))) (snd (vend h eps m d' o')))).
  { intros. eapply post_mono; [apply IH; eauto; lia|]. intros r (q1 & q2 & q3). auto. }
  step1. apply post_at1; [lia|]. step1. apply post_at1; [lia|]. step1. apply post_at1; [lia|]. rewrite !h5, !h6 by lia.
  change (nis_zero N (o m) || nle N (nabs N (o m)) (nmul N eps (nadd N (nabs N (d (S m))) (nabs N (d m))))) with (nis_zero FN (o m) || negl eps (o m) (d (S m)) (d m)).
  destruct (nis_zero FN (o m) || negl eps (o m) (d (S m)) (d m)).
  { step1. apply post_atm1; [lia|]. apply next. rewrite h3, h4. apply (rel_o st); auto. lia. }
  change (nle N (nabs N (d m)) eps) with (nle FN (nabs FN (d m)) eps). destruct (nle FN (nabs FN (d m)) eps).
  { step1. apply post_atm1; [lia|]. rewrite h3, h4.
    destruct (wp_ret _ _ (clear_link isup m (m + 1) _ _ _ (rel_d st d o m (n0 N) hr ltac:(lia)) ltac:(lia) ltac:(lia))) as (st2 & e2 & hr2).
    apply bind_ret in e2 as (st1 & e1 & e2). rewrite e1. cbn [bind]. rewrite e2. cbn [bind]. apply next. exact hr2. }
  change (nle N (nabs N (d (S m))) eps) with (nle FN (nabs FN (d (S m))) eps). destruct (nle FN (nabs FN (d (S m))) eps).
  { step1. apply post_atm1; [lia|]. rewrite h3, h4. step1. eapply post_mono; [apply (ver_link isup m _ _ _ (rel_d st d o (S m) (n0 N) hr ltac:(lia))); lia|].
    intros st2 hr2. apply next. exact hr2. }
  apply post_ret. auto.
Qed.

Lemma start_link isup eps k : forall s st d o, rel st d o -> s < k -> k < n ->
  wp (svd_delim_start (N:=N) isup eps k s st) (fun r => fst r = fst (fst (vstart h eps k s d o)) /\ fst r <= s /\ rel (snd r) (snd (fst (vstart h eps k s d o))) (snd (vstart h eps k s d o))).
Proof.
  induction s as [|m IH]; intros st d o hr hs he; cbn [svd_delim_start vstart]; [apply post_ret; auto|].
  pose proof hr as (h1 & h2 & h3 & h4 & h5 & h6).
  step1. apply post_at1; [lia|]. step1. apply post_at1; [lia|]. step1. apply post_at1; [lia|]. rewrite !h5, !h6 by lia.
  change (nle N (nabs N (o m)) (nmul N eps (nadd N (nabs N (d (S m))) (nabs N (d m))))) with (negl eps (o m) (d (S m)) (d m)).
  destruct (negl eps (o m) (d (S m)) (d m)).
  { step1. apply post_atm1; [lia|]. apply post_ret. cbn [fst snd]. split; auto. split; auto. rewrite h3, h4. apply (rel_o st); auto. lia. }
  change (nle N (nabs N (d m)) eps) with (nle FN (nabs FN (d m)) eps). destruct (nle FN (nabs FN (d m)) eps).
  { step1. apply post_atm1; [lia|]. rewrite h3, h4.
    destruct (wp_ret _ _ (clear_link isup m k _ _ _ (rel_d st d o m (n0 N) hr ltac:(lia)) ltac:(lia) ltac:(lia))) as (st2 & e2 & hr2).
    apply bind_ret in e2 as (st1 & e1 & e2). rewrite e1. cbn [bind]. rewrite e2. cbn [bind]. apply post_ret. cbn [fst snd]. split; auto. }
  eapply post_mono; [apply (IH st d o); auto; lia|]. intros r (q1 & q2 & q3). auto.
Qed.

Lemma delim_link isup eps e st d o : rel st d o -> e < n ->
  wp (svd_delimit (N:=N) isup e eps st) (fun r => let v := vdelim h eps e d o in
     fst (fst r) = fst (fst (fst v)) /\ snd (fst r) = snd (fst (fst v)) /\ rel (snd r) (snd (fst v)) (snd v) /\ (fst (fst r) <= snd (fst r) <= e)).
Proof.
  intros hr he. unfold svd_delimit, vdelim. step1. eapply post_mono; [apply (end_link isup eps e st d o); auto|]. intros [k st1] (q1 & q2 & q3).
  destruct (vend h eps e d o) as [[k' d1] o1]. cbn [fst snd] in *. subst k'. destruct (Nat.eqb_spec k 0).
  - apply post_ret. cbn [fst snd]. split; auto. split; auto. split; auto. lia.
  - step1. apply post_usub; [lia|]. step1. eapply post_mono; [apply (start_link isup eps k (k - 1) st1 d1 o1); auto; lia|]. intros [s st2] (g1 & g2 & g3).
    destruct (vstart h eps k (k - 1) d1 o1) as [[s' d2] o2]. cbn [fst snd] in *. subst s'. apply post_ret. cbn [fst snd]. split; auto. split; auto. split; auto. lia.
Qed.

Lemma sweep_link isup start e k s v : rels s v -> start <= k -> k < e -> e < n ->
  wp (svd_sweep_step (N:=N) isup start e k s) (fun r => fst r = fst (vsweep_step h start e k v) /\ rels (snd r) (snd (vsweep_step h start e k v))).
Proof.
  destruct s as [[x y] st]. destruct v as [x' y' d o]. intros (e1 & e2 & hr) hs hk he. cbn [fst snd vx vy vd vo] in *. subst x' y'.
  pose proof hr as (h1 & h2 & h3 & h4 & h5 & h6). unfold svd_sweep_step, vsweep_step. cbn [vx vy vd vo].
  step1. apply post_usub; [lia|]. step1. set (m12 := if Nat.eqb k (e - 1) then n0 FN else o (k + 1)).
  eapply post_mono with (Q := fun v : T N => v = m12).
  { unfold m12. destruct (Nat.eqb_spec k (e - 1)); [apply post_ret; reflexivity|]. apply post_at1; [lia|]. apply h6. lia. }
  intros m ->. step1. apply post_at1; [lia|]. step1. apply post_at1; [lia|]. step1. apply post_at1; [lia|]. rewrite !h5, !h6 by lia.
  rewrite cy_link. destruct (cy h x y) as [[[c1 s1] r1]|].
  2:{ apply post_ret. cbn [fst snd]. split; auto. split; auto. }
  set (is := nopp FN s1). set (a00 := nadd FN (nmul FN (d k) c1) (nmul FN is (o k))).
  set (a01 := nadd FN (nmul FN (nopp FN is) (d k)) (nmul FN (o k) c1)). set (a10 := nadd FN (nmul FN (n0 FN) c1) (nmul FN is (d (k + 1)))).
  set (a11 := nadd FN (nmul FN (nopp FN is) (n0 FN)) (nmul FN (d (k + 1)) c1)).
  set (sm0 := Mat 2 3 _). step1. apply post_slice; try (simpl; lia). step1. apply post_unwrap.
  eapply post_mono; [apply rotate_rows_ok; dims; auto|]. intros s01 (g1 & g2 & g3). dims.
  step1. eapply post_mono with (Q := fun o' => rel (SS (N:=N) (sd st) o' None None) d (if Nat.ltb start k then up o (k - 1) r1 else o)).
  { destruct (Nat.ltb_spec start k).
    - step1. apply post_usub; [lia|]. apply post_atm1; [lia|]. apply (rel_o st); auto. lia.
    - apply post_ret. destruct st as [sd0 so0 su0 sv0]. cbn [sd so su sv] in *. subst su0 sv0. exact hr. }
  intros o1 ho1. set (o1v := if Nat.ltb start k then up o (k - 1) r1 else o) in *. set (sm := put sm0 0 0 s01).
  assert (d1 : nr sm = 2%nat) by reflexivity. assert (d2 : nc sm = 3%nat) by reflexivity.
  assert (e00 : get (N:=N) sm 0 0 = a00 /\ get sm 0 1 = a01 /\ get sm 0 2 = n0 FN /\ get sm 1 0 = a10 /\ get sm 1 1 = a11 /\ get sm 1 2 = m12).
  { destruct (g3 0%nat ltac:(lia)) as (a1 & a2). destruct (g3 1%nat ltac:(lia)) as (b1 & b2).
    rewrite !get_mk in a1, a2, b1, b2 by lia. cbn [Nat.add] in a1, a2, b1, b2.
    unfold sm. rewrite !get_put by (simpl; lia). rewrite g1, g2. cbn [Nat.leb Nat.ltb Nat.add andb Nat.sub].
    rewrite a1, a2, b1, b2. repeat split; reflexivity. }
  destruct e00 as (e00 & e01 & e02 & e10 & e11 & e12). clearbody sm. clear g1 g2 g3 sm0 s01.
  step1. apply post_at2; [lia|lia|]. step1. apply post_at2; [lia|lia|]. rewrite e00, e10. rewrite cy_link.
  set (res := match cy h a00 a10 with None => (a00, a01, n0 FN, a11, m12) | Some (c2, s2, r2) => _ end).
  step1. eapply post_mono with (Q := fun r => nr (fst (fst r)) = 2 /\ nc (fst (fst r)) = 3 /\ 
     snd r = fst (fst (fst (fst res))) /\ get (N:=N) (fst (fst r)) 0 1 = snd (fst (fst (fst res))) /\ get (N:=N) (fst (fst r)) 0 2 = snd (fst (fst res)) /\
     get (N:=N) (fst (fst r)) 1 1 = snd (fst res) /\ get (N:=N) (fst (fst r)) 1 2 = snd res).
  { unfold res. destruct (cy h a00 a10) as [[[c2 s2] r2]|]; [|apply post_ret; cbn [fst snd]; repeat (split; [auto; fail|]); auto].
    step1. apply post_slice; try lia. step1. apply post_unwrap.
    eapply post_mono; [apply rotate_cols_ok; dims; auto|]. intros s12 (k1 & k2 & k3). apply post_ret. dims. cbn [fst snd].
    destruct (k3 0%nat ltac:(lia)) as (a1 & a2). destruct (k3 1%nat ltac:(lia)) as (b1 & b2).
    rewrite !get_mk in a1, a2, b1, b2 by lia. cbn [Nat.add] in a1, a2, b1, b2. rewrite e01, e11 in a1, a2. rewrite e02, e12 in b1, b2.
    split; [dims; auto|]. split; [dims; auto|]. split; [reflexivity|]. rewrite !get_put by lia. rewrite k1, k2. cbn [Nat.leb Nat.ltb Nat.add andb Nat.sub Nat.eqb].
    rewrite a1, a2, b1, b2. repeat split; reflexivity. }
  intros [[sm1 rot2] n2]. cbn [fst snd]. intros (k1 & k2 & k3 & k4 & k5 & k6 & k7).
  step1. apply post_atm2; [lia|lia|]. step1. eapply post_mono with (Q := fun u => u = None).
  { rewrite h4. destruct isup; [apply post_ret; auto|]. destruct rot2; apply post_ret; auto. }
  intros v2 ->. step1. eapply post_mono with (Q := fun u => u = None).
  { rewrite h3. destruct isup; cbn [negb]; [destruct rot2|]; apply post_ret; auto. }
  intros u2 ->.
  do 5 (step1; apply post_at2; [dims; lia|dims; lia|]).
  rewrite !get_upd by (dims; lia). cbn [Nat.eqb andb]. rewrite k3, k4, k5, k6, k7.
  destruct res as [[[[s00 s01] s02] s11] s12]. cbn [fst snd].
  step1. apply post_atm1; [lia|]. step1. apply post_atm1; [dims; lia|]. pose proof ho1 as (_ & lo & _). cbn [so] in lo.
  step1. apply post_atm1; [lia|]. step1.
  assert (r1' := rel_d _ _ _ (k + 1) s11 (rel_d _ _ _ k s00 ho1 ltac:(lia)) ltac:(lia)). cbn [sd so] in r1'.
  assert (r2' := rel_o _ _ _ k s01 r1' ltac:(lia)). cbn [sd so] in r2'.
  eapply post_mono with (Q := fun o' => rel (SS (N:=N) (vupd (N:=N) (vupd (N:=N) (sd st) k s00) (k + 1) s11) o' None None) (up (up d k s00) (k + 1) s11) (if Nat.eqb k (e - 1) then up o1v k s01 else up (up o1v k s01) (k + 1) s12)).
  { destruct (Nat.eqb_spec k (e - 1)); cbn [negb]; [apply post_ret; auto|]. apply post_atm1; [dims; lia|]. apply (rel_o _ _ _ (k + 1) s12 r2'). lia. }
  intros o4 hr4. apply post_ret. cbn [fst snd]. split; auto. split; auto.
Qed.

Lemma big_link isup start e st d o : rel st d o -> start + 1 < e -> e < n ->
  wp (svd_big (N:=N) isup start e st) (fun st' => rel st' (fst (vbig h start e d o)) (snd (vbig h start e d o))).
Proof.
  intros hr hs he. pose proof hr as (h1 & h2 & h3 & h4 & h5 & h6). unfold svd_big, vbig.
  step1. apply post_usub; [lia|]. step1. apply post_at1; [lia|]. step1. apply post_at1; [lia|]. step1. apply post_at1; [lia|].
  step1. apply post_usub; [lia|]. step1. apply post_at1; [lia|]. step1. apply post_at1; [lia|]. step1. apply post_at1; [lia|]. rewrite !h5, !h6 by lia.
  step1. match goal with |- context [vbrk _ _ _ ?v] => set (v0 := v) end. eapply post_mono.
  - apply (brk_link _ (vsweep_step h start e) _ _ _ v0); [|split; [reflexivity|split; [reflexivity|exact hr]]].
    intros k s v hk hrs. apply sweep_link; auto; lia.
  - intros [xy s'] (_ & _ & r). apply post_ret. exact r.
Qed.

Lemma two_link isup start st d o : rel st d o -> start + 1 < n ->
  wp (svd_two (N:=N) isup false false start st) (fun st' => rel st' (fst (vtwo h start d o)) (snd (vtwo h start d o))).
Proof.
  intros hr hs. pose proof hr as (h1 & h2 & h3 & h4 & h5 & h6). unfold svd_two, vtwo.
  step1. apply post_at1; [lia|]. step1. apply post_at1; [lia|]. step1. apply post_at1; [lia|]. rewrite !h5, !h6 by lia.
  cbn [andb orb]. unfold compute_2x2_uptrig_svd. cbn [andb orb].
  step1. apply post_atm1; [lia|]. step1. apply post_atm1; [dims; lia|]. step1. apply post_atm1; [lia|]. rewrite h3, h4.
  destruct isup.
  all: step1; apply post_ret; step1; apply post_ret; apply post_ret; cbn [fst snd];
    match goal with |- rel (SS (vupd (vupd ?sd0 ?a ?x) ?b ?y) (vupd ?so0 ?c ?z) None None) _ _ =>
      apply (rel_o (SS (N:=N) (vupd (N:=N) (vupd (N:=N) sd0 a x) b y) so0 None None)); [|lia];
      apply (rel_d (SS (N:=N) (vupd (N:=N) sd0 a x) so0 None None)); [|lia]; apply (rel_d st); auto; lia end.
Qed.

Lemma loop_link isup eps : forall fuel s e st d o, rel st d o -> e < n -> s <= e ->
  match vloop h fuel eps s e d o return Prop with
  | Some r => wp (svd_loop (N:=N) fuel isup false false eps s e st) (fun st' => rel st' (fst r) (snd r))
  | None => svd_loop (N:=N) fuel isup false false eps s e st = OutOfFuel
  end.
Proof.
  induction fuel as [|fuel IH]; intros s e st d o hr he hs; cbn [vloop svd_loop]; (destruct (Nat.eqb_spec e s) as [|hne]; [exact hr|]); [reflexivity|].
  destruct (wp_ret (usub e s) (fun v => v = e - s) ltac:(apply post_usub; [lia|reflexivity])) as (dd & -> & ->). cbn [bind].
  set (r1 := if Nat.ltb 2 (S (e - s)) then _ else (fst (vtwo h s d o), snd (vtwo h s d o), e - 1)).
  assert (hstep : wp (if Nat.ltb 2 (S (e - s)) then let* st0 := svd_big (N:=N) isup s e st in Ret (st0, e)
     else if Nat.eqb (S (e - s)) 2 then let* st0 := svd_two (N:=N) isup false false s st in let* e0 := usub e 1 in Ret (st0, e0) else Ret (st, e))%res
     (fun r => snd r = snd r1 /\ snd r < n /\ rel (fst r) (fst (fst r1)) (snd (fst r1)))).
  { unfold r1. destruct (Nat.ltb_spec 2 (S (e - s))).
    - step1. eapply post_mono; [apply (big_link isup s e st d o); auto; lia|]. intros st1 hr1. apply post_ret. auto.
    - destruct (Nat.eqb_spec (S (e - s)) 2); [|lia]. step1. eapply post_mono; [apply (two_link isup s st d o); auto; lia|]. intros st1 hr1.
      step1. apply post_usub; [lia|]. apply post_ret. cbn [fst snd]. split; auto. split; [lia|auto]. }
  destruct (wp_ret _ _ hstep) as ([st1 e1] & -> & q1 & q2 & q3). cbn [bind fst snd] in *. clear hstep.
  destruct r1 as [[d1 o1] e1']. cbn [fst snd] in *. subst e1'.
  destruct (wp_ret _ _ (delim_link isup eps e1 st1 d1 o1 q3 q2)) as ([[s2 e2] st2] & -> & g1 & g2 & g3 & g4). cbn [bind fst snd] in *.
  destruct (vdelim h eps e1 d1 o1) as [[[s3 e3] d2] o2]. cbn [fst snd] in *. subst s3 e3. apply IH; auto; lia.
Qed.
End Link.
