(** * eigh.rs in exact arithmetic *)
From Coq Require Import Reals List Arith Lia Lra Bool Setoid Morphisms.
From Verif Require Import Scalar Arr MBase MDirect MDecomp MEigh Inst Hoare Spec RLin PTri PHouse PQR PTrid PGivens PEigh.
Import ListNotations.
Local Open Scope R_scope.

(** Tridiagonal matrix with a bulge b at positions (i+1, i-1) and (i-1, i+1) *)
Definition bulged (d o : nat -> R) (b : R) (i : nat) : M := fun p q =>
  if Nat.eqb p q then d p
  else if Nat.eqb q (p + 1) then o p
  else if Nat.eqb p (q + 1) then o q
  else if (Nat.eqb p (i + 1) && Nat.eqb (q + 1) i) || (Nat.eqb q (i + 1) && Nat.eqb (p + 1) i) then b
  else 0.

(** One rotation in the plane (i, i+1) chases the bulge one step down. *)
Lemma chase n i c s (d o d' o' : nat -> R) y y' : (i + 1 < n)%nat ->
  (forall h, i = S h -> s * o h + c * y = 0 /\ o' h = c * o h - s * y) ->
  d' i = c * c * d i + s * s * d (i + 1)%nat - 2 * (c * s) * o i ->
  d' (i + 1)%nat = s * s * d i + c * c * d (i + 1)%nat + 2 * (c * s) * o i ->
  o' i = c * s * (d i - d (i + 1)%nat) + o i * (c * c - s * s) ->
  ((i + 2 < n)%nat -> o' (i + 1)%nat = c * o (i + 1)%nat /\ y' = - s * o (i + 1)%nat) ->
  (forall j, j <> i -> j <> (i + 1)%nat -> d' j = d j) ->
  (forall j, j <> i -> j <> (i + 1)%nat -> (j + 1)%nat <> i -> o' j = o j) ->
  let G := gm i (i + 1) c s in
  mmul n G (mmul n (bulged d o y i) (mtr G)) =[n, n]= bulged d' o' y' (i + 1).
Proof.
  intros hi h1 h2 h3 h4 h5 h6 h7 G p q hp hq. unfold G.
  rewrite gm_apply by (auto; lia).
  rewrite !gm_apply_r by (auto; lia).
  destruct (Nat.eqb_spec p i) as [ep|np]; [|destruct (Nat.eqb_spec p (i + 1)) as [ep|np']];
  (destruct (Nat.eqb_spec q i) as [eq|nq]; [|destruct (Nat.eqb_spec q (i + 1)) as [eq|nq']]);
  subst; unfold bulged.
  - bd. rewrite h2. ring.
  - bd. rewrite h4. ring.
  - destruct (Nat.eq_dec i (S q)) as [e|e]; [destruct (h1 q e) as (e1 & e2)|destruct (Nat.eq_dec q (i + 2)) as [e'|e']];
    [|destruct h5 as (e1 & e2); [lia|]|]; bd; try lra.
  - bd. rewrite h4. ring.
  - bd. rewrite h3. ring.
  - destruct (Nat.eq_dec i (S q)) as [e|e]; [destruct (h1 q e) as (e1 & e2)|destruct (Nat.eq_dec q (i + 2)) as [e'|e']];
    [|destruct h5 as (e1 & e2); [lia|]|]; bd; try lra.
  - destruct (Nat.eq_dec i (S p)) as [e|e]; [destruct (h1 p e) as (e1 & e2)|destruct (Nat.eq_dec p (i + 2)) as [e'|e']];
    [|destruct h5 as (e1 & e2); [lia|]|]; bd; try lra.
  - destruct (Nat.eq_dec i (S p)) as [e|e]; [destruct (h1 p e) as (e1 & e2)|destruct (Nat.eq_dec p (i + 2)) as [e'|e']];
    [|destruct h5 as (e1 & e2); [lia|]|]; bd; try lra.
  - bd; try reflexivity; symmetry; first [apply h6; lia | apply h7; lia].
Qed.

Lemma bulged_0 d o i n : bulged d o 0 i =[n, n]= tridiag d o.
Proof. intros p q hp hq. unfold bulged, tridiag. bd; auto; lia. Qed.
Lemma bulged_ext n d o d' o' b i : (forall j, (j < n)%nat -> d j = d' j) -> (forall j, (j + 1 < n)%nat -> o j = o' j) ->
  bulged d o b i =[n, n]= bulged d' o' b i.
Proof. intros h1 h2 p q hp hq. unfold bulged. bd; subst; auto; apply h2; lia. Qed.
Lemma tridiag_ext n d o d' o' : (forall j, (j < n)%nat -> d j = d' j) -> (forall j, (j + 1 < n)%nat -> o j = o' j) ->
  tridiag d o =[n, n]= tridiag d' o'.
Proof. intros h1 h2 p q hp hq. unfold tridiag. bd; subst; auto; apply h2; lia. Qed.

(** The off-diagonal with the entries at and after the current end taken as zero *)
Definition gh (e : nat) (v : list RN) (j : nat) : R := if Nat.ltb j e then vent v j else 0.

(** G is the identity outside the block [a..b] *)
Definition local (n a b : nat) (G : M) : Prop := forall p q, (p < n)%nat -> (q < n)%nat ->
  ~ (a <= p <= b /\ a <= q <= b)%nat -> G p q = mid p q.

Lemma local_mid n a b : local n a b mid. Proof. intros p q _ _ _. reflexivity. Qed.
Lemma local_gm n a b i c s : (a <= i)%nat -> (i + 1 <= b)%nat -> (b < n)%nat -> local n a b (gm i (i + 1) c s).
Proof. intros h1 h2 h3 p q hp hq h. unfold gm, mid. bd; subst; try lia; auto. Qed.
Lemma local_mul n a b G H : (b < n)%nat -> local n a b G -> local n a b H -> local n a b (mmul n G H).
Proof.
  intros hb hG hH p q hp hq h. unfold mmul.
  destruct (le_lt_dec a p); [destruct (le_lt_dec p b)|].
  - (* p inside, q outside *)
    rewrite (Rsum_single n q); auto.
    + rewrite hH by lia. rewrite hG by lia. unfold mid. bd; subst; try lia; lra.
    + intros k hk hne. rewrite (hH k q) by lia. unfold mid. bd; subst; try lia; lra.
  - rewrite (Rsum_single n p); auto.
    + rewrite hH by lia. rewrite hG by lia. unfold mid. bd; subst; try lia; lra.
    + intros k hk hne. rewrite (hG p k) by lia. unfold mid. bd; subst; try lia; lra.
  - rewrite (Rsum_single n p); auto.
    + rewrite hH by lia. rewrite hG by lia. unfold mid. bd; subst; try lia; lra.
    + intros k hk hne. rewrite (hG p k) by lia. unfold mid. bd; subst; try lia; lra.
Qed.

(** Conjugation composes *)
Lemma conj_comp n G H T : mmul n H (mmul n (mmul n G (mmul n T (mtr G))) (mtr H))
  =[n, n]= mmul n (mmul n H G) (mmul n T (mtr (mmul n H G))).
Proof.
  rewrite (mtr_mmul n n n H G). rewrite (mmul_assoc n n n n G), (mmul_assoc n n n n T).
  rewrite (mmul_assoc n n n n H G). reflexivity.
Qed.

Section Sweep.
Context (n start e : nat) (hse : (start + 1 <= e)%nat) (hen : (e < n)%nat).
Context (d0 o0 : list RN) (Q0 : M) (om : R).
Let T0 := tridiag (vent d0) (gh e o0).
Hypothesis (hdead : (0 < start)%nat -> vent o0 (start - 1) = 0).

(** diag/off/q are reached from d0/o0/Q0 by a similarity acting inside the block *)
Definition conj_to (es : eig_state RN) (b : R) (i : nat) : Prop :=
  exists G Q1, es_shape n es /\ es_q es = Some Q1 /\ orthogonal n G /\ local n start e G /\
    ent Q1 =[n, n]= mmul n Q0 (mtr G) /\
    mmul n G (mmul n T0 (mtr G)) =[n, n]= bulged (vent (es_diag es)) (gh e (es_off es)) b i /\
    (forall j, (j < start)%nat -> vent (es_off es) j = vent o0 j) /\
    (i = start -> G = mid) /\
    ((start < i)%nat -> forall p, (p < n)%nat -> p <> start -> mmul n G (msub T0 (mscal om mid)) p start = 0).

Definition sw_inv (i : nat) (st : R * R * eig_state RN) : Prop :=
  conj_to (snd st) (if Nat.ltb start i && Nat.ltb i e then snd (fst st) else 0) i /\
  ((start < i)%nat -> (i < e)%nat -> fst (fst st) = vent (es_off (snd st)) (i - 1)) /\
  (i = start -> fst (fst st) = vent d0 start - om /\ snd (fst st) = vent o0 start).

Lemma sweep_step_real i st : (start <= i)%nat -> (i < e)%nat -> sw_inv i st ->
  wp (eig_sweep_step (N:=RN) start e i st)
     (fun r => if fst r then sw_inv (S i) (snd r) else conj_to (snd (snd r)) 0 i /\ snd (fst st) = 0).
Proof.
  destruct st as [[x y] [d o q]]. intros hs hi ((G & Q1 & (s1 & s2 & s3) & hq & hG & hl & hQ & hT & ho & hg0 & hgc) & hx & hx0).
  cbn [fst snd es_diag es_off es_q] in *. subst q. destruct s3 as (q1 & q2).
  unfold eig_sweep_step. cbn [es_diag es_off es_q].
  pose proof (cancel_y_real x y) as hc. destruct (@cancel_y RN x y) as [[rot norm]|].
  2: { apply post_ret. cbn [fst snd]. subst y. split; [|auto]. exists G, Q1.
       split; [split; [|split]; auto; split; auto|]. do 4 (split; [auto|]). split; [|auto].
       cbn [es_diag es_off]. rewrite hT. destruct (_ && _); reflexivity. }
  destruct hc as (hy & hn & _ & hcs & hc1 & hc2).
  set (c := rc rot) in *. set (s := rs rot) in *.
  step1. eapply post_mono with (Q := fun o1 => length o1 = (n - 1)%nat /\
    forall j, (j < n - 1)%nat -> vent o1 j = if Nat.ltb start i && Nat.eqb (j + 1) i then norm else vent o j).
  { destruct (Nat.ltb_spec start i); cbn [andb]; [|apply post_ret; auto].
    step1. apply post_usub; [lia|]. apply post_atm1; [lia|]. dims. split; auto.
    intros j hj. unfold vent. rewrite vget_vupd by lia. bd; auto; lia. }
  intros o1 (l1 & ho1). 
  step1. apply post_at1; [lia|]. step1. apply post_at1; [lia|]. step1. apply post_at1; [lia|].
  step1. apply post_atm1; [lia|]. step1. apply post_atm1; [dims; lia|]. step1. apply post_atm1; [dims; lia|].
  step1. apply post_usub; [lia|]. step1.
  match goal with |- context [vupd (vupd d i ?a) (S i) ?b] => set (dii := a) in *; set (djj := b) in * end.
  match goal with |- context [vupd o1 i ?a] => set (oii := a) in * end.
  set (d2 := vupd (vupd d i dii) (S i) djj) in *. set (o2 := vupd o1 i oii) in *.
  assert (ld2 : length d2 = n) by (unfold d2; dims; auto).
  assert (lo2 : length o2 = (n - 1)%nat) by (unfold o2; dims; auto).
  eapply post_mono with (Q := fun r => length (snd r) = (n - 1)%nat /\
     ((i + 1 < e)%nat -> fst (fst r) = vent o2 i /\ snd (fst r) = - s * vent o2 (i + 1)) /\
     forall j, (j < n - 1)%nat -> vent (snd r) j = if Nat.eqb j (i + 1) && Nat.ltb (i + 1) e then c * vent o2 j else vent o2 j).
  { destruct (Nat.eqb_spec i (e - 1)); cbn [negb].
    - apply post_ret. cbn [fst snd]. split; auto. split; [lia|]. intros j hj. bd; auto; try lia.
    - step1. apply post_at1; [lia|]. step1. apply post_at1; [lia|]. step1. apply post_atm1; [lia|].
      apply post_ret. cbn [fst snd]. dims. split; auto. split.
      + intros _. split; auto. rewrite Nat.add_1_r. reflexivity.
      + intros j hj. unfold vent. rewrite vget_vupd by lia. rewrite Nat.add_1_r.
        bd; auto; try lia. subst j. rn. ring. }
  intros [[x' y'] o3]. cbn [fst snd]. intros (l3 & hxy & ho3).
  step1. eapply post_mono; [apply rotate_q_real; lia|]. rewrite q1, q2.
  intros ? (Q2 & -> & r1 & r2 & hQ2). apply post_ret. cbn [fst snd]. unfold sw_inv. cbn [fst snd es_off].
  assert (hd2 : forall j, (j < n)%nat -> vent d2 j = if Nat.eqb j i then dii else if Nat.eqb j (i + 1) then djj else vent d j).
  { intros j hj. unfold vent, d2. rewrite !vget_vupd by (dims; lia). bd; auto; lia. }
  assert (ho2 : forall j, (j < n - 1)%nat -> vent o2 j = if Nat.eqb j i then oii else vent o1 j).
  { intros j hj. unfold vent, o2. rewrite !vget_vupd by (dims; lia). bd; auto; lia. }
  set (Gi := gm i (i + 1) c s).
  assert (hGi : orthogonal n Gi) by (apply gm_orthogonal; auto; lia).
  split.
  - exists (mmul n Gi G), Q2. split; [split; [|split]; cbn [es_diag es_off es_q]; auto; simpl; auto|].
    split; auto. split; [apply orthogonal_mul; auto|].
    split; [apply local_mul; auto; apply local_gm; lia|]. split; [|split; [|split; [|split]]].
    + assert (eg : gm i (i + 1) (rc (inverse rot)) (- rs (inverse rot)) = Gi).
      { unfold Gi, inverse. cbn [rc rs]. fold c s. f_equal. change (nopp RN s) with (- s). ring. }
      rewrite hQ2, eg, hQ, (mtr_mmul n n n Gi G), (mmul_assoc n n n n Q0). reflexivity.
    + cbn [es_diag es_off]. rewrite <- conj_comp, hT.
      replace (S i) with (i + 1)%nat by lia.
      set (b := if (start <? i) && (i <? e) then y else 0).
      assert (hb : forall h, i = S h -> s * gh e o h + c * b = 0 /\ gh e o3 h = c * gh e o h - s * b).
      { intros h hh. unfold b, gh. destruct (Nat.ltb_spec h e); [|lia].
        rewrite ho3 by lia. destruct (Nat.eqb_spec h (i + 1)); [lia|]. cbn [andb].
        rewrite ho2 by lia. destruct (Nat.eqb_spec h i); [lia|]. rewrite ho1 by lia.
        destruct (Nat.ltb_spec start i) as [lt|ge]; cbn [andb].
        - destruct (Nat.eqb_spec (h + 1) i); [|lia]. destruct (Nat.ltb_spec i e); [|lia].
          rewrite hx in hc1, hc2 by auto. replace (i - 1)%nat with h in hc1, hc2 by lia. split; lra.
        - assert (i = start) by lia. rewrite (ho h) by lia. replace h with (start - 1)%nat by lia.
          rewrite hdead by lia. split; ring. }
      assert (hT' : mmul n Gi (mmul n (bulged (vent d) (gh e o) b i) (mtr Gi)) =[n, n]=
                    bulged (vent d2) (gh e o3) (- s * gh e o (i + 1)) (i + 1)).
      { assert (hoi : forall j, (j < n - 1)%nat -> (j + 1)%nat <> i -> vent o1 j = vent o j).
        { intros j hj hne. rewrite ho1 by auto. bd; auto; lia. }
        apply chase; auto; try lia.
        + rewrite hd2 by lia. bd. unfold dii, gh. bd. replace (vget o1 i) with (vent o i) by (symmetry; apply hoi; lia).
          rn. fold c s. rewrite Nat.add_1_r. fold (vent d i) (vent d (S i)). rewrite ntwo_R. ring.
        + rewrite hd2 by lia. bd. unfold djj, gh. bd. replace (vget o1 i) with (vent o i) by (symmetry; apply hoi; lia).
          rn. fold c s. rewrite Nat.add_1_r. fold (vent d i) (vent d (S i)). rewrite ntwo_R. ring.
        + unfold gh. bd. rewrite ho3 by lia. bd. rewrite ho2 by lia. bd. unfold oii.
          replace (vget o1 i) with (vent o i) by (symmetry; apply hoi; lia).
          rn. fold c s. rewrite Nat.add_1_r. fold (vent d i) (vent d (S i)). ring.
        + intros hin. split; [|reflexivity]. unfold gh. bd; [|ring]. rewrite ho3 by lia. bd. rewrite ho2 by lia. bd.
          rewrite hoi by lia. reflexivity.
        + intros j h1 h2. destruct (le_lt_dec n j).
          * unfold vent, vget. rewrite !nth_overflow by lia. reflexivity.
          * rewrite hd2 by auto. bd. auto.
        + intros j h1 h2 h3. unfold gh. bd; auto. rewrite ho3 by lia. bd. rewrite ho2 by lia. bd. apply hoi; lia. }
      rewrite hT'. destruct (Nat.ltb_spec start (i + 1)); [|lia]. cbn [andb].
      destruct (Nat.ltb_spec (i + 1) e) as [lt|ge].
      * destruct (hxy lt) as (_ & ->). unfold gh at 2. bd. rewrite ho2 by lia. bd. rewrite ho1 by lia. bd; reflexivity.
      * unfold gh at 2. bd. rewrite Rmult_0_r. reflexivity.
    + cbn [es_off]. intros j hj. rewrite ho3 by lia. bd. rewrite ho2 by lia. bd. rewrite ho1 by lia. bd; auto.
    + intros; lia.
    + intros _ p hp hne.
      assert (ea : mmul n (mmul n Gi G) (msub T0 (mscal om mid)) p start = mmul n Gi (mmul n G (msub T0 (mscal om mid))) p start) by (apply (mmul_assoc n n n n); lia).
      rewrite ea. unfold Gi. rewrite gm_apply by (auto; lia).
      destruct (Nat.eq_dec i start) as [->|ni].
      * destruct (hx0 eq_refl) as (-> & ->). rewrite (hg0 eq_refl). rewrite !(mmul_1_l n n) by lia.
        unfold msub, mscal, mid, T0, tridiag, gh. bd; try lra. replace p with (start - 1)%nat by lia. rewrite hdead by lia. ring.
      * bd; try lia; rewrite ?hgc by lia; ring.
  - split; [|intros; lia]. intros h1 h2. destruct (hxy ltac:(lia)) as (-> & _). rewrite ho3 by lia. bd. f_equal. lia.
Qed.
End Sweep.

(** One sweep: a similarity inside the block *)
Lemma sweep_real n start e eps (es : eig_state RN) Q : (start + 1 < e)%nat -> (e < n)%nat ->
  es_shape n es -> es_q es = Some Q -> ((0 < start)%nat -> vent (es_off es) (start - 1) = 0) -> vent (es_off es) start <> 0 ->
  wp (eig_big start e eps es) (fun r =>
    conj_to n start e (es_diag es) (es_off es) (ent Q)
      (wilkinson_shift (N:=RN) (vent (es_diag es) (e - 1)) (vent (es_diag es) e) (vent (es_off es) (e - 1))) (fst r) 0 e /\
    ((snd r = e /\ eps * (Rabs (vent (es_diag (fst r)) (e - 1)) + Rabs (vent (es_diag (fst r)) e)) < Rabs (vent (es_off (fst r)) (e - 1))) \/ (snd r = (e - 1)%nat /\
       Rabs (vent (es_off (fst r)) (e - 1)) <=
       eps * (Rabs (vent (es_diag (fst r)) (e - 1)) + Rabs (vent (es_diag (fst r)) e))))).
Proof.
  intros h1 h2 hsh hq hdead hst. pose proof hsh as (s1 & s2 & s3).
  unfold eig_big. step1. apply post_usub; [lia|].
  step1. apply post_idx1; [lia|]. step1. apply post_idx1; [lia|]. step1. apply post_idx1; [lia|].
  step1. apply post_idx1; [lia|]. step1. apply post_idx1; [lia|]. step1.
  set (sh := wilkinson_shift (N:=RN) (vent (es_diag es) (e - 1)) (vent (es_diag es) e) (vent (es_off es) (e - 1))).
  set (x0 := nsub RN _ _). set (y0 := vget (es_off es) start).
  eapply post_mono with (Q := fun st => conj_to n start e (es_diag es) (es_off es) (ent Q) sh (snd st) 0 e).
  { eapply post_for_brk with (I := fun i st => sw_inv n start e (es_diag es) (es_off es) (ent Q) sh i st /\ (i = start -> st = (x0, y0, es))).
    - split; [|auto]. unfold sw_inv. cbn [fst snd]. split; [|split; [lia|split; reflexivity]]. destruct (Nat.ltb_spec start start); [lia|]. cbn [andb].
      exists mid, Q. do 2 (split; [auto|]). split; [apply orthogonal_mid|]. split; [apply local_mid|].
      split; [|split; [|split; auto]].
      + rewrite mtr_mid, mmul_1_r. reflexivity.
      + rewrite mtr_mid, mmul_1_r, mmul_1_l, bulged_0. reflexivity.
      + split; auto. intros; lia.
    - intros i st hi (hinv & hi0).
      eapply post_mono; [apply (sweep_step_real n start e); eauto; lia|].
      intros [go st']. cbn [fst snd]. destruct go; [intros; split; auto; lia|].
      intros ((G & Q1 & g1 & g2 & g3 & g4 & g5 & g6 & g7 & g8 & g9) & hy). exists G, Q1. do 5 (split; [auto|]). split; [|split; auto; split; [lia|]].
      + rewrite g6, !bulged_0. reflexivity.
      + intros _. apply g9. destruct (Nat.eq_dec i start) as [ei|ni]; [|lia].
        (* the first rotation is never skipped *) exfalso. rewrite hi0 in hy by auto. contradiction.
    - intros st ((h & _) & _). replace (start + (e - start))%nat with e in h by lia.
      destruct (Nat.ltb_spec e e); [lia|]. rewrite andb_false_r in h. exact h. }
  intros [xy es1]. cbn [snd]. intros hc. pose proof hc as (G & Q1 & (t1 & t2 & t3) & _).
  step1. apply post_idx1; [lia|]. step1. apply post_idx1; [lia|]. step1. apply post_idx1; [lia|].
  change (nle RN) with Rleb. destruct (Rleb_spec (nabs RN (vget (es_off es1) (e - 1)))
    (eps * (nabs RN (vget (es_diag es1) (e - 1)) + nabs RN (vget (es_diag es1) e)))%num).
  - step1. apply post_usub; [lia|]. apply post_ret. cbn [fst snd]. split; auto.
  - apply post_ret. cbn [fst snd]. split; auto. left. split; auto. apply Rnot_le_lt. auto.
Qed.

(** ** The invariant of the QR iteration *)
Definition upd0 (o : nat -> R) (j : nat) : nat -> R := fun k => if Nat.eqb k j then 0 else o k.
Definition mark (dead : nat -> bool) (j : nat) : nat -> bool := fun k => if Nat.eqb k j then true else dead k.
Definition dcount (n : nat) (dead : nat -> bool) : R := Rsum (n - 1) (fun j => if dead j then 1 else 0).

Record EI (n : nat) (A : M) (eps : R) (d o : nat -> R) (dead : nat -> bool) (W : M) (sg : nat -> nat) (Q : M) : Prop := {
  ei_Q : orthogonal n Q;
  ei_W : orthogonal n W;
  ei_WQ : forall p q, (p < n)%nat -> (q < n)%nat -> W p q = Q p (sg q);
  ei_rng : forall q, (q < n)%nat -> (sg q < n)%nat;
  ei_inj : forall p q, (p < n)%nat -> (q < n)%nat -> sg p = sg q -> p = q;
  ei_id : eps = 0 -> forall q, (q < n)%nat -> sg q = q;
  ei_err : frob n n (msub A (mmul n W (mmul n (tridiag d o) (mtr W)))) <= dcount n dead * (2 * eps * frob n n A);
  ei_nrm : frob n n (tridiag d o) <= frob n n A;
  ei_dead : forall j, (j < n - 1)%nat -> dead j = true -> o j = 0
}.

Lemma dcount_mark n dead j : (j < n - 1)%nat -> dead j = false -> dcount n (mark dead j) = dcount n dead + 1.
Proof.
  intros hj hd. unfold dcount, mark.
  rewrite (Rsum_ext (n - 1) _ (fun k => (if dead k then 1 else 0) + (if Nat.eqb k j then 1 else 0) * 1)).
  - rewrite Rsum_plus. rewrite (Rsum_delta (n - 1) j (fun _ => 1)) by auto. reflexivity.
  - intros k hk. bd; subst; [rewrite hd|destruct (dead k)]; lra.
Qed.
Lemma dcount_mark_dead n dead j : dead j = true -> dcount n (mark dead j) = dcount n dead.
Proof.
  intros hd. unfold dcount, mark. apply Rsum_ext. intros k hk. bd; subst; auto. rewrite hd. auto.
Qed.
Lemma dcount_le n dead : dcount n dead <= INR (n - 1).
Proof.
  unfold dcount. replace (INR (n - 1)) with (Rsum (n - 1) (fun _ => 1)) by (rewrite Rsum_const; lra).
  apply Rsum_le. intros. destruct (dead i); lra.
Qed.

(** Frobenius norm under orthogonal conjugation *)
Lemma frob_ext r c A B : A =[r, c]= B -> frob r c A = frob r c B.
Proof. intros h. unfold frob. f_equal. apply frob2_ext. auto. Qed.
Lemma frob_conj n W X : orthogonal n W -> frob n n (mmul n W (mmul n X (mtr W))) = frob n n X.
Proof.
  intros [h1 h2]. unfold frob. f_equal. rewrite frob2_orth_l by auto. apply frob2_orth_r.
  rewrite mtr_mtr. auto.
Qed.
Lemma mmul_sub_both n W X Y : msub (mmul n W (mmul n X (mtr W))) (mmul n W (mmul n Y (mtr W)))
  =[n, n]= mmul n W (mmul n (msub X Y) (mtr W)).
Proof. rewrite (mmul_sub_l n n n X Y), (mmul_sub_r n n n W). reflexivity. Qed.

(** Replacing the tridiagonal matrix by a nearby one costs the distance *)
Lemma err_replace n A W X Y : orthogonal n W ->
  frob n n (msub A (mmul n W (mmul n Y (mtr W)))) <=
  frob n n (msub A (mmul n W (mmul n X (mtr W)))) + frob n n (msub X Y).
Proof.
  intros hW. rewrite <- (frob_conj n W (msub X Y)) by auto.
  eapply Rle_trans; [|apply frob_triangle]. right. apply frob_ext.
  intros p q hp hq. unfold madd. rewrite <- (mmul_sub_both n W X Y p q) by auto. unfold msub. ring.
Qed.

(** frob2 of a tridiagonal difference concentrated on two symmetric positions or a 2x2 block *)
Lemma frob2_block n j X : (j + 1 < n)%nat ->
  (forall p q, (p < n)%nat -> (q < n)%nat -> ~ ((p = j \/ p = j + 1) /\ (q = j \/ q = j + 1))%nat -> X p q = 0) ->
  frob2 n n X = X j j * X j j + X j (j + 1)%nat * X j (j + 1)%nat
     + (X (j + 1)%nat j * X (j + 1)%nat j + X (j + 1)%nat (j + 1)%nat * X (j + 1)%nat (j + 1)%nat).
Proof.
  intros hj h. unfold frob2.
  rewrite (Rsum_two n j (j + 1)); try lia.
  - rewrite !(Rsum_two n j (j + 1)); try lia; auto.
    + intros i hi h1 h2. rewrite h by lia. ring.
    + intros i hi h1 h2. rewrite h by lia. ring.
  - intros i hi h1 h2. apply Rsum_0. intros k hk. rewrite h by lia. ring.
Qed.

Lemma Rabs_sq x : Rabs x * Rabs x = x * x.
Proof. rewrite <- Rabs_mult. apply Rabs_right. pose proof (sqn x). lra. Qed.

Lemma Rsum_two_le n p q f : (p < n)%nat -> (q < n)%nat -> p <> q ->
  (forall i, (i < n)%nat -> 0 <= f i) -> f p + f q <= Rsum n f.
Proof.
  intros hp hq ne h.
  apply Rle_trans with (Rsum n (fun i => if Nat.eqb i p then f p else if Nat.eqb i q then f q else 0)).
  - right. rewrite (Rsum_two n p q); auto; [bd; auto|]. intros i hi h1 h2. bd. auto.
  - apply Rsum_le. intros i hi. bd; subst; auto; lra.
Qed.

Lemma frob2_diag2 n X j : (j + 1 < n)%nat ->
  X j j * X j j + X (j + 1)%nat (j + 1)%nat * X (j + 1)%nat (j + 1)%nat <= frob2 n n X.
Proof.
  intros hj. unfold frob2.
  eapply Rle_trans; [|apply (Rsum_two_le n j (j + 1)); try lia].
  - apply Rplus_le_compat.
    + apply (Rsum_term_le n (fun q => X j q * X j q) j); [intros; apply sqn|lia].
    + apply (Rsum_term_le n (fun q => X (j + 1)%nat q * X (j + 1)%nat q) (j + 1)); [intros; apply sqn|lia].
  - intros i hi. apply Rsum_nonneg. intros. apply sqn.
Qed.

Lemma ei_drop n A eps d o dead W sg Q j : 0 <= eps -> EI n A eps d o dead W sg Q -> (j < n - 1)%nat ->
  Rabs (o j) <= eps * (Rabs (d (j + 1)%nat) + Rabs (d j)) ->
  EI n A eps d (upd0 o j) (mark dead j) W sg Q.
Proof.
  intros he [h1 h2 h3 h4 h5 h6 h7 h8 h9] hj hs.
  assert (hnrm : frob n n (tridiag d (upd0 o j)) <= frob n n (tridiag d o)).
  { unfold frob. apply sqrt_le_1_alt. unfold frob2. apply Rsum_le. intros p hp. apply Rsum_le. intros q hq.
    unfold tridiag, upd0. bd; try lra; rewrite Rmult_0_l; apply sqn. }
  constructor; auto.
  - destruct (dead j) eqn:ed.
    + rewrite dcount_mark_dead by auto. eapply Rle_trans; [|exact h7]. right. apply frob_ext.
      assert (ht : tridiag d (upd0 o j) =[n, n]= tridiag d o).
      { apply tridiag_ext; auto. intros i hi. unfold upd0. bd; auto. subst. symmetry. apply h9; auto. }
      assert (hm : mmul n W (mmul n (tridiag d (upd0 o j)) (mtr W)) =[n, n]= mmul n W (mmul n (tridiag d o) (mtr W)))
        by (rewrite ht; reflexivity).
      intros p q hp hq. unfold msub. rewrite hm by auto. reflexivity.
    + rewrite dcount_mark by auto. rewrite Rmult_plus_distr_r, Rmult_1_l.
      eapply Rle_trans; [apply (err_replace n A W (tridiag d o)); auto|].
      apply Rplus_le_compat; auto.
      assert (hb : frob2 n n (msub (tridiag d o) (tridiag d (upd0 o j))) = 2 * (o j * o j)).
      { rewrite (frob2_block n j) by (try lia; intros p q hp hq hne; unfold msub, tridiag, upd0; bd; subst; try ring; lia).
        unfold msub, tridiag, upd0. bd. ring. }
      assert (hd : d j * d j + d (j + 1)%nat * d (j + 1)%nat <= frob2 n n (tridiag d o)).
      { eapply Rle_trans; [|apply (frob2_diag2 n _ j); lia]. unfold tridiag. bd. lra. }
      apply Rle_trans with (2 * eps * frob n n (tridiag d o)).
      * rewrite <- (sqrt_square (2 * eps * frob n n (tridiag d o))) by (pose proof (frob_nonneg n n (tridiag d o)); nra).
        unfold frob at 1. apply sqrt_le_1_alt. rewrite hb.
        replace (2 * eps * frob n n (tridiag d o) * (2 * eps * frob n n (tridiag d o)))
          with (4 * (eps * eps) * (frob n n (tridiag d o) * frob n n (tridiag d o))) by ring.
        rewrite frob_sq.
        assert (hh : o j * o j <= 2 * (eps * eps) * (d j * d j + d (j + 1)%nat * d (j + 1)%nat)).
        { rewrite <- (Rabs_sq (o j)), <- (Rabs_sq (d j)), <- (Rabs_sq (d (j + 1)%nat)).
          pose proof (Rabs_pos (o j)). set (u := Rabs (o j)) in *. set (v := Rabs (d j)) in *. set (w := Rabs (d (j + 1)%nat)) in *.
          apply Rle_trans with ((eps * (w + v)) * (eps * (w + v))); [apply Rmult_le_compat; auto|].
          replace (2 * (eps * eps) * (v * v + w * w) ) with (eps * (w + v) * (eps * (w + v)) + eps * eps * ((w - v) * (w - v))) by ring.
          pose proof (sqn eps). pose proof (sqn (w - v)). nra. }
        pose proof (sqn eps). nra.
      * apply Rmult_le_compat_l; [lra|auto].
  - eapply Rle_trans; eauto.
  - intros k hk. unfold mark, upd0. bd; auto.
Qed.

Lemma ei_ext n A eps d o d' o' dead W sg Q :
  (forall j, (j < n)%nat -> d j = d' j) -> (forall j, (j + 1 < n)%nat -> o j = o' j) ->
  EI n A eps d o dead W sg Q -> EI n A eps d' o' dead W sg Q.
Proof.
  intros hd ho [h1 h2 h3 h4 h5 h6 h7 h8 h9].
  assert (ht : tridiag d o =[n, n]= tridiag d' o') by (apply tridiag_ext; auto).
  assert (hm : mmul n W (mmul n (tridiag d o) (mtr W)) =[n, n]= mmul n W (mmul n (tridiag d' o') (mtr W)))
    by (rewrite ht; reflexivity).
  constructor; auto.
  - eapply Rle_trans; [|exact h7]. right. apply frob_ext. intros p q hp hq. unfold msub. rewrite hm by auto. auto.
  - eapply Rle_trans; [|exact h8]. right. apply frob_ext. rewrite ht. reflexivity.
  - intros j hj hdj. rewrite <- ho by lia. auto.
Qed.
Lemma ei_mark_ext n A eps d o dead dead' W sg Q :
  (forall j, (j < n - 1)%nat -> dead j = dead' j) ->
  EI n A eps d o dead W sg Q -> EI n A eps d o dead' W sg Q.
Proof.
  intros he [h1 h2 h3 h4 h5 h6 h7 h8 h9]. constructor; auto.
  - replace (dcount n dead') with (dcount n dead); auto. unfold dcount. apply Rsum_ext. intros. rewrite he; auto.
  - intros j hj. rewrite <- he; auto.
Qed.

(** Dropping all negligible entries in [k..e) *)
Lemma ei_drop_range n A eps d dead W sg Q cnt : forall o k, 0 <= eps -> EI n A eps d o dead W sg Q -> (k + cnt <= n - 1)%nat ->
  (forall j, (k <= j < k + cnt)%nat -> Rabs (o j) <= eps * (Rabs (d (j + 1)%nat) + Rabs (d j))) ->
  EI n A eps d (fun j => if Nat.leb k j && Nat.ltb j (k + cnt) then 0 else o j)
     (fun j => if Nat.leb k j && Nat.ltb j (k + cnt) then true else dead j) W sg Q.
Proof.
  induction cnt as [|c IH]; intros o k he h hk hs.
  - eapply ei_mark_ext; [|eapply ei_ext; [reflexivity| |exact h]]; intros j hj; bd; auto.
  - specialize (IH o k he h ltac:(lia) ltac:(intros; apply hs; lia)).
    eapply (ei_drop _ _ _ _ _ _ _ _ _ (k + c)) in IH; auto; try lia.
    + eapply ei_mark_ext; [|eapply ei_ext; [reflexivity| |exact IH]].
      * intros j hj. unfold mark. bd; auto; lia.
      * intros j hj. unfold upd0. bd; auto; lia.
    + bd. apply hs. lia.
Qed.

(** A similarity inside a block on which sg is the identity *)
Lemma ei_conj n A eps d o d' o' dead W sg Q Q1 G a b : (b < n)%nat ->
  EI n A eps d o dead W sg Q -> orthogonal n G -> local n a b G ->
  (forall q, (a <= q <= b)%nat -> sg q = q) ->
  Q1 =[n, n]= mmul n Q (mtr G) ->
  mmul n G (mmul n (tridiag d o) (mtr G)) =[n, n]= tridiag d' o' ->
  (forall j, (j < n - 1)%nat -> dead j = true -> o' j = 0) ->
  EI n A eps d' o' dead (mmul n W (mtr G)) sg Q1.
Proof.
  intros hb [h1 h2 h3 h4 h5 h6 h7 h8 h9] hG hl hsg hQ1 hT hd. constructor; auto.
  - apply (orthogonal_proper _ _ _ (meq_sym _ _ _ _ hQ1)). apply orthogonal_mul; auto. apply orthogonal_mtr; auto.
  - apply orthogonal_mul; auto. apply orthogonal_mtr; auto.
  - intros p q hp hq. rewrite hQ1 by auto. unfold mmul, mtr.
    destruct (le_lt_dec a q) as [aq|aq]; [destruct (le_lt_dec q b) as [qb|qb]|].
    + rewrite (hsg q) by lia. apply Rsum_ext. intros k hk. rewrite h3 by auto.
      destruct (le_lt_dec a k) as [ak|ak]; [destruct (le_lt_dec k b)|].
      * rewrite hsg by lia. auto.
      * rewrite hl by lia. unfold mid. bd; subst; try lia; ring.
      * rewrite hl by lia. unfold mid. bd; subst; try lia; ring.
    + assert (hq' : ~ (a <= sg q <= b)%nat).
      { intros hh. pose proof (hsg (sg q) hh) as e. apply h5 in e; auto. lia. }
      rewrite (Rsum_single n q) by (auto; intros k hk hne; rewrite hl by lia; unfold mid; bd; ring).
      rewrite (Rsum_single n (sg q)) by (auto; intros k hk hne; rewrite hl by (auto; lia); unfold mid; bd; ring).
      rewrite !hl by (auto; lia). rewrite h3 by auto. unfold mid. bd. auto.
    + assert (hq' : ~ (a <= sg q <= b)%nat).
      { intros hh. pose proof (hsg (sg q) hh) as e. apply h5 in e; auto. lia. }
      rewrite (Rsum_single n q) by (auto; intros k hk hne; rewrite hl by lia; unfold mid; bd; ring).
      rewrite (Rsum_single n (sg q)) by (auto; intros k hk hne; rewrite hl by (auto; lia); unfold mid; bd; ring).
      rewrite !hl by (auto; lia). rewrite h3 by auto. unfold mid. bd. auto.
  - eapply Rle_trans; [|exact h7]. right. apply frob_ext.
    assert (hm : mmul n (mmul n W (mtr G)) (mmul n (tridiag d' o') (mtr (mmul n W (mtr G)))) =[n, n]=
                 mmul n W (mmul n (tridiag d o) (mtr W))) by (rewrite <- hT; apply rot_invariant; auto).
    intros p q hp hq. unfold msub. rewrite hm by auto. auto.
  - eapply Rle_trans; [|exact h8]. right. rewrite <- (frob_conj n G (tridiag d o)) by auto.
    apply frob_ext. rewrite hT. reflexivity.
Qed.

(** ** The 2x2 block *)
Definition ev1 (d0 d1 o : R) : R := (d0 + d1) / 2 + sqrt (o * o + (d0 - d1) / 2 * ((d0 - d1) / 2)).
Definition ev2 (d0 d1 o : R) : R := (d0 + d1) / 2 - sqrt (o * o + (d0 - d1) / 2 * ((d0 - d1) / 2)).

Lemma compute_2x2_real (d0 d1 o : R) : @compute_2x2_eigvals RN d0 o o d1 = Some (ev1 d0 d1 o, ev2 d0 d1 o).
Proof.
  unfold compute_2x2_eigvals. rewrite nhalf_R. rn.
  change (nle RN) with Rleb. 
  destruct (Rleb_spec 0 (o * o + (d0 - d1) * / 2 * ((d0 - d1) * / 2))) as [h|h].
  - unfold ev1, ev2. f_equal.
  - exfalso. apply h. pose proof (sqn o). pose proof (sqn ((d0 - d1) * / 2)). lra.
Qed.

Lemma eig2_total_real eps : @eig2_total RN eps.
Proof. intros d0 d1 o _. rewrite compute_2x2_real. discriminate. Qed.

Definition upd2 (d : nat -> R) (j : nat) (x y : R) : nat -> R := fun k =>
  if Nat.eqb k j then x else if Nat.eqb k (j + 1) then y else d k.

(** The rotation with first row along (l1 - d1, o) diagonalises the block *)
Lemma two_conj n j (d o : nat -> R) c s r : (j + 1 < n)%nat ->
  (forall h, j = S h -> o h = 0) -> ((j + 2 < n)%nat -> o (j + 1)%nat = 0) ->
  let l1 := ev1 (d j) (d (j + 1)%nat) (o j) in let l2 := ev2 (d j) (d (j + 1)%nat) (o j) in
  r <> 0 -> c * c + s * s = 1 -> c * r = l1 - d (j + 1)%nat -> s * r = o j ->
  let G := gm j (j + 1) c (- s) in
  mmul n G (mmul n (tridiag d o) (mtr G)) =[n, n]= tridiag (upd2 d j l1 l2) (upd0 o j).
Proof.
  intros hj h1 h2 l1 l2 hr hcs hc hs G. rewrite <- (bulged_0 d o j n).
  rewrite <- (bulged_0 (upd2 d j l1 l2) (upd0 o j) (j + 1) n).
  set (v := (d j - d (j + 1)%nat) / 2) in *.
  set (sq := sqrt (o j * o j + v * v)).
  assert (hsq : sq * sq = o j * o j + v * v) by (apply sqrt_sqrt; pose proof (sqn (o j)); pose proof (sqn v); lra).
  assert (e1 : l1 = (d j + d (j + 1)%nat) / 2 + sq) by reflexivity.
  assert (e2 : l2 = (d j + d (j + 1)%nat) / 2 - sq) by reflexivity.
  assert (edj : d j = d (j + 1)%nat + 2 * v) by (unfold v; field).
  assert (ecr : c * r = v + sq) by (rewrite hc, e1, edj; field).
  assert (key : c * c * r = 2 * v * c + s * s * r).
  { apply (Rmult_eq_reg_r r); auto.
    replace (c * c * r * r) with ((c * r) * (c * r)) by ring.
    replace ((2 * v * c + s * s * r) * r) with (2 * v * (c * r) + (s * r) * (s * r)) by ring.
    rewrite ecr, hs. replace ((v + sq) * (v + sq)) with (v * v + 2 * v * sq + sq * sq) by ring. rewrite hsq. ring. }
  assert (hl1 : l1 = c * c * d j + s * s * d (j + 1)%nat + 2 * (c * s) * o j).
  { replace l1 with (d (j + 1)%nat + c * r) by (rewrite hc; ring). rewrite edj, <- hs.
    replace (c * c * (d (j + 1)%nat + 2 * v) + s * s * d (j + 1)%nat + 2 * (c * s) * (s * r))
      with ((c * c + s * s) * d (j + 1)%nat + c * (2 * v * c + s * s * r) + s * s * (c * r)) by ring.
    rewrite <- key, hcs. replace (c * (c * c * r) + s * s * (c * r)) with ((c * c + s * s) * (c * r)) by ring. 
    rewrite Rplus_assoc. replace (c * (c * c * r) + s * s * (c * r)) with ((c * c + s * s) * (c * r)) by ring.
    rewrite hcs. ring. }
  apply chase; auto.
  - intros h hh. rewrite (h1 h hh). unfold upd0. bd. rewrite (h1 h hh). split; ring.
  - unfold upd2. bd. rewrite hl1. ring.
  - unfold upd2. bd. replace l2 with (d j + d (j + 1)%nat - l1) by (rewrite e1, e2; field). rewrite hl1.
    replace (d j + d (j + 1)%nat) with ((c * c + s * s) * (d j + d (j + 1)%nat)) by (rewrite hcs; ring). ring.
  - unfold upd0. bd. rewrite <- hs. replace (d j - d (j + 1)%nat) with (2 * v) by (unfold v; field).
    replace (c * - s * (2 * v) + s * r * (c * c - - s * - s)) with (s * (c * c * r - (2 * v * c + s * s * r))) by ring.
    rewrite <- key. ring.
  - intros hh. rewrite (h2 hh). unfold upd0. bd. rewrite (h2 hh). split; ring.
  - intros k k1 k2. unfold upd2. bd. auto.
  - intros k k1 k2 k3. unfold upd0. bd. auto.
Qed.

(** The spectral norm of the change is that of a rotation, hence the Frobenius norm is kept *)
Lemma two_frob n j (d o : nat -> R) : (j + 1 < n)%nat -> o j <> 0 ->
  (forall h, j = S h -> o h = 0) -> ((j + 2 < n)%nat -> o (j + 1)%nat = 0) ->
  frob n n (tridiag (upd2 d j (ev1 (d j) (d (j + 1)%nat) (o j)) (ev2 (d j) (d (j + 1)%nat) (o j))) (upd0 o j)) = frob n n (tridiag d o).
Proof.
  intros hj hne h1 h2. set (l1 := ev1 _ _ _). set (l2 := ev2 _ _ _).
  set (a := l1 - d (j + 1)%nat). set (r := sqrt (a * a + o j * o j)).
  assert (hp : 0 < a * a + o j * o j) by (pose proof (sqn a); assert (0 < o j * o j) by nra; lra).
  assert (hr : r <> 0) by (apply Rgt_not_eq, sqrt_lt_R0; auto).
  assert (hrr : r * r = a * a + o j * o j) by (apply sqrt_sqrt; lra).
  assert (h := two_conj n j d o (a / r) (o j / r) r hj h1 h2). cbv zeta in h.
  assert (hh := h hr). clear h.
  rewrite <- (frob_conj n (gm j (j + 1) (a / r) (- (o j / r))) (tridiag d o)).
  - apply frob_ext. rewrite hh; [reflexivity| | |]; fold l1 a.
    + replace (a / r * (a / r) + o j / r * (o j / r)) with ((a * a + o j * o j) / (r * r)) by (field; auto).
      rewrite hrr. field. lra.
    + field; auto.
    + field; auto.
  - apply gm_orthogonal; try lia.
    replace (a / r * (a / r) + - (o j / r) * - (o j / r)) with ((a * a + o j * o j) / (r * r)) by (field; auto).
    rewrite hrr. field. lra.
Qed.

(** ** Transpositions *)
Definition sw (j k : nat) : nat := if Nat.eqb k j then j + 1 else if Nat.eqb k (j + 1) then j else k.
Lemma sw_sw j k : sw j (sw j k) = k.
Proof.
  unfold sw. destruct (Nat.eqb_spec k j); [|destruct (Nat.eqb_spec k (j + 1))];
  repeat match goal with |- context [Nat.eqb ?a ?b] => destruct (Nat.eqb_spec a b) end; lia.
Qed.
Lemma sw_lt n j k : (j + 1 < n)%nat -> (k < n)%nat -> (sw j k < n)%nat.
Proof. unfold sw. bd; lia. Qed.
Lemma sw_l j : sw j j = (j + 1)%nat.
Proof. unfold sw. rewrite Nat.eqb_refl. auto. Qed.
Lemma sw_r j : sw j (j + 1) = j.
Proof. unfold sw. rewrite Nat.eqb_refl. bd. auto. Qed.
Lemma sw_inj j k l : sw j k = sw j l -> k = l.
Proof. intros h. rewrite <- (sw_sw j k), h. apply sw_sw. Qed.

Lemma Rsum_sw n j f : (j + 1 < n)%nat -> Rsum n (fun k => f (sw j k)) = Rsum n f.
Proof.
  intros hj.
  rewrite (Rsum_ext n (fun k => f (sw j k))
    (fun k => f k + (if Nat.eqb k j then 1 else 0) * (f (j + 1)%nat - f j) + (if Nat.eqb k (j + 1) then 1 else 0) * (f j - f (j + 1)%nat))).
  - rewrite !Rsum_plus. rewrite (Rsum_delta n j (fun _ => f (j + 1)%nat - f j)) by lia.
    rewrite (Rsum_delta n (j + 1) (fun _ => f j - f (j + 1)%nat)) by lia. ring.
  - intros k hk. unfold sw. bd; subst; try lia; ring.
Qed.

Definition swc (j : nat) (W : M) : M := fun p q => W p (sw j q).
Lemma swc_orth n j W : (j + 1 < n)%nat -> orthogonal n W -> orthogonal n (swc j W).
Proof.
  intros hj (h1 & h2). split.
  - intros p q hp hq. unfold mmul, mtr, swc. specialize (h1 (sw j p) (sw j q) (sw_lt _ _ _ hj hp) (sw_lt _ _ _ hj hq)).
    unfold mmul, mtr in h1. rewrite h1. unfold mid. 
    destruct (Nat.eqb_spec p q) as [->|hne]; bd; auto. exfalso. apply hne. eapply sw_inj; eauto.
  - intros p q hp hq. unfold mmul, mtr, swc. rewrite (Rsum_sw n j (fun k => W p k * W q k)) by auto. apply h2; auto.
Qed.
Lemma swc_conj n j W T T' : (j + 1 < n)%nat ->
  (forall p q, (p < n)%nat -> (q < n)%nat -> T p q = T' (sw j p) (sw j q)) ->
  mmul n W (mmul n T (mtr W)) =[n, n]= mmul n (swc j W) (mmul n T' (mtr (swc j W))).
Proof.
  intros hj h p q hp hq. unfold mmul, mtr, swc.
  rewrite <- (Rsum_sw n j) by auto. apply Rsum_ext. intros k hk. f_equal.
  rewrite <- (Rsum_sw n j) by auto. apply Rsum_ext. intros l hl. f_equal.
  rewrite h by (apply sw_lt; auto). rewrite !sw_sw. auto.
Qed.

Section Skip.
Variables (n j : nat) (A : M) (eps : R) (d o : nat -> R) (dead : nat -> bool) (W : M) (sg : nat -> nat) (Q : M).
Hypotheses (he : 0 <= eps) (hA : 1 <= frob n n A) (hj : (j + 1 < n)%nat)
  (h1 : forall h, j = S h -> o h = 0) (h2 : (j + 2 < n)%nat -> o (j + 1)%nat = 0)
  (hne : o j <> 0) (hei : EI n A eps d o dead W sg Q).
Let l1 := ev1 (d j) (d (j + 1)%nat) (o j).
Let l2 := ev2 (d j) (d (j + 1)%nat) (o j).

Lemma alive_j : dead j = false.
Proof. destruct (dead j) eqn:e; auto. exfalso. apply hne. eapply ei_dead; eauto. lia. Qed.

Lemma two_gap : Rabs (o j) <= eps -> forall x y, (x = d j - l1 /\ y = d (j + 1)%nat - l2 /\ d (j + 1)%nat <= d j) \/ (x = d j - l2 /\ y = d (j + 1)%nat - l1 /\ d j <= d (j + 1)%nat) ->
  x * x + y * y + 2 * (o j * o j) <= (2 * eps) * (2 * eps).
Proof.
  intros ho x y hxy. set (v := (d j - d (j + 1)%nat) / 2). set (sq := sqrt (o j * o j + v * v)).
  assert (e1 : l1 = (d j + d (j + 1)%nat) / 2 + sq) by reflexivity.
  assert (e2 : l2 = (d j + d (j + 1)%nat) / 2 - sq) by reflexivity.
  assert (hsq : sq * sq = o j * o j + v * v) by (apply sqrt_sqrt; pose proof (sqn (o j)); pose proof (sqn v); lra).
  assert (hs0 : 0 <= sq) by apply sqrt_pos.
  assert (hab : o j * o j <= eps * eps).
  { rewrite <- (Rabs_sq (o j)). pose proof (Rabs_pos (o j)). nra. }
  assert (ht : exists t, 0 <= t /\ x * x = t * t /\ y * y = t * t /\ t * t <= o j * o j).
  { destruct hxy as [(ex & ey & hd)|(ex & ey & hd)].
    - exists (sq - v). assert (0 <= v) by (unfold v; lra). rewrite ex, ey, e1, e2.
      assert (v <= sq) by nra. split; [lra|]. split; [unfold v; field|]. split; [unfold v; field|]. nra.
    - exists (sq + v). assert (v <= 0) by (unfold v; lra). rewrite ex, ey, e1, e2.
      assert (- v <= sq) by nra. split; [lra|]. split; [unfold v; field|]. split; [unfold v; field|]. nra. }
  destruct ht as (t & _ & -> & -> & ht). lra.
Qed.

Lemma skip_case : Rabs (o j) <= eps ->
  exists W' sg', EI n A eps (upd2 d j l1 l2) (upd0 o j) (mark dead j) W' sg' Q /\
    (forall q, q <> j -> q <> (j + 1)%nat -> sg' q = sg q).
Proof.
  intros ho. pose proof hei as [g1 g2 g3 g4 g5 g6 g7 g8 g9].
  assert (he0 : eps <> 0).
  { intros e. apply hne. rewrite e in ho. destruct (Req_dec (o j) 0) as [|hx]; auto. apply Rabs_pos_lt in hx. lra. }
  assert (hnrm : frob n n (tridiag (upd2 d j l1 l2) (upd0 o j)) <= frob n n A)
    by (unfold l1, l2; rewrite two_frob by auto; auto).
  assert (hoff : forall k, (k < n - 1)%nat -> mark dead j k = true -> upd0 o j k = 0).
  { intros k hk. unfold mark, upd0. bd; auto. }
  assert (bound : forall T', (forall p q, (p < n)%nat -> (q < n)%nat -> ~ ((p = j \/ p = j + 1) /\ (q = j \/ q = j + 1))%nat -> T' p q = tridiag d o p q) ->
     T' j (j + 1)%nat = 0 -> T' (j + 1)%nat j = 0 ->
     ((T' j j = l1 /\ T' (j + 1)%nat (j + 1)%nat = l2 /\ d (j + 1)%nat <= d j) \/ (T' j j = l2 /\ T' (j + 1)%nat (j + 1)%nat = l1 /\ d j <= d (j + 1)%nat)) ->
     frob n n (msub A (mmul n W (mmul n T' (mtr W)))) <= dcount n (mark dead j) * (2 * eps * frob n n A)).
  { intros T' hT' z1 z2 hc. eapply Rle_trans; [apply (err_replace n A W (tridiag d o) T'); auto|].
    rewrite dcount_mark by (try apply alive_j; lia). rewrite Rmult_plus_distr_r, Rmult_1_l.
    apply Rplus_le_compat; auto.
    apply Rle_trans with (2 * eps); [|nra].
    rewrite <- (sqrt_square (2 * eps)) by lra. unfold frob. apply sqrt_le_1_alt.
    rewrite (frob2_block n j) by (auto; intros p q hp hq hn'; unfold msub; rewrite hT' by auto; ring).
    unfold msub. rewrite z1, z2. unfold tridiag. bd. rewrite !Rminus_0_r.
    eapply Rle_trans; [|apply (two_gap ho (d j - T' j j) (d (j + 1)%nat - T' (j + 1)%nat (j + 1)%nat))].
    - lra.
    - destruct hc as [(-> & -> & hc)|(-> & -> & hc)]; auto. }
  destruct (Rle_lt_dec (d (j + 1)%nat) (d j)) as [hd|hd].
  - exists W, sg. split; auto. constructor; auto.
    apply bound.
    + intros p q hp hq hn'. unfold tridiag, upd2, upd0. bd; subst; auto; try lia.
    + unfold tridiag, upd2, upd0. bd. auto.
    + unfold tridiag, upd2, upd0. bd. auto.
    + left. unfold tridiag, upd2, upd0. bd. auto.
  - exists (swc j W), (fun q => sg (sw j q)). split.
    + constructor; auto.
      * apply swc_orth; auto.
      * intros p q hp hq. unfold swc. apply g3; auto. apply sw_lt; auto.
      * intros q hq. apply g4. apply sw_lt; auto.
      * intros p q hp hq hh. apply g5 in hh; try (apply sw_lt; auto). eapply sw_inj; eauto.
      * intros hh. congruence.
      * set (T' := fun p q => tridiag (upd2 d j l1 l2) (upd0 o j) (sw j p) (sw j q)).
        eapply Rle_trans; [|apply (bound T')].
        -- right. apply frob_ext. intros p q hp hq. unfold msub.
           rewrite (swc_conj n j W T' (tridiag (upd2 d j l1 l2) (upd0 o j))) by auto. auto.
        -- intros p q hp hq hn'. unfold T'.
           assert (hz : forall a b, (a < n)%nat -> (b < n)%nat -> (a = j \/ a = j + 1)%nat -> ~ (b = j \/ b = j + 1)%nat ->
              tridiag (upd2 d j l1 l2) (upd0 o j) a b = 0 /\ tridiag (upd2 d j l1 l2) (upd0 o j) b a = 0
              /\ tridiag d o a b = 0 /\ tridiag d o b a = 0).
           { intros a b ha hb hin hout. unfold tridiag, upd2, upd0.
             assert (hA1 : forall h, (h + 1)%nat = j -> o h = 0) by (intros; apply h1; lia).
             assert (hA2 : forall h, (h = j + 1)%nat -> (h + 1 < n)%nat -> o h = 0) by (intros h hh1 hh2; rewrite hh1; apply h2; lia).
             repeat split; (destruct hin as [ea|ea]); bd; auto; try lia; try (apply hA1; lia); try (apply hA2; lia). }
           assert (hs1 : forall a, (a = j \/ a = j + 1)%nat -> (sw j a = j \/ sw j a = j + 1)%nat) by (unfold sw; intros; bd; lia).
           assert (hs2 : forall a, ~ (a = j \/ a = j + 1)%nat -> sw j a = a) by (unfold sw; intros; bd; lia).
           destruct (Nat.eq_dec p j) as [|np]; [|destruct (Nat.eq_dec p (j + 1)) as [|np']].
           ++ destruct (hz p q ltac:(auto) ltac:(auto) ltac:(lia) ltac:(lia)) as (_ & _ & -> & _).
              rewrite (hs2 q) by lia. apply (hz (sw j p) q); try (apply sw_lt); auto; lia.
           ++ destruct (hz p q ltac:(auto) ltac:(auto) ltac:(lia) ltac:(lia)) as (_ & _ & -> & _).
              rewrite (hs2 q) by lia. apply (hz (sw j p) q); try (apply sw_lt); auto; lia.
           ++ rewrite (hs2 p) by lia.
              destruct (Nat.eq_dec q j) as [|nq]; [|destruct (Nat.eq_dec q (j + 1)) as [|nq']].
              ** destruct (hz q p ltac:(auto) ltac:(auto) ltac:(lia) ltac:(lia)) as (_ & _ & _ & ->).
                 apply (hz (sw j q) p); try (apply sw_lt); auto; lia.
              ** destruct (hz q p ltac:(auto) ltac:(auto) ltac:(lia) ltac:(lia)) as (_ & _ & _ & ->).
                 apply (hz (sw j q) p); try (apply sw_lt); auto; lia.
              ** rewrite hs2 by lia. unfold tridiag, upd2, upd0. bd; auto; lia.
        -- unfold T'. rewrite ?sw_l, ?sw_r. unfold tridiag, upd2, upd0. bd. auto.
        -- unfold T'. rewrite ?sw_l, ?sw_r. unfold tridiag, upd2, upd0. bd. auto.
        -- right. unfold T'. rewrite ?sw_l, ?sw_r. unfold tridiag, upd2, upd0. bd. split; auto. split; auto. lra.
    + intros q q1 q2. unfold sw. bd. auto.
Qed.
End Skip.

(** ** The loop invariant *)
Definition LI (n : nat) (A : M) (eps : R) (s e : nat) (es : eig_state RN) : Prop :=
  exists Q dead W sg, es_shape n es /\ es_q es = Some Q /\ (s <= e < n)%nat /\ ((s < e)%nat \/ e = 0%nat) /\
    ((s < e)%nat -> above (N:=RN) eps (es_diag es) (es_off es) (e - 1) = true) /\
    EI n A eps (vent (es_diag es)) (gh e (es_off es)) dead W sg (ent Q) /\
    (forall j, (e <= j < n - 1)%nat -> dead j = true) /\
    ((0 < s)%nat -> (s < e)%nat -> dead (s - 1)%nat = true) /\
    ((s < e)%nat -> forall q, (q <= e)%nat -> sg q = q) /\
    (forall j, (s <= j < e)%nat -> dead j = false) /\
    (forall j, (s <= j < e)%nat -> vent (es_off es) j <> 0).

(** Between the iteration step and delimit_subproblem *)
Definition MI (n : nat) (A : M) (eps : R) (e : nat) (es : eig_state RN) : Prop :=
  exists Q dead W sg, es_shape n es /\ es_q es = Some Q /\ (e < n)%nat /\
    EI n A eps (vent (es_diag es)) (gh e (es_off es)) dead W sg (ent Q) /\
    (forall j, (e <= j < n - 1)%nat -> dead j = true) /\
    (forall q, (q < e)%nat \/ (q = e /\ 0 < e /\ dead (e - 1)%nat = false)%nat -> sg q = q).

Lemma above_real eps (d o : list RN) j :
  above (N:=RN) eps d o j = true <-> eps * (Rabs (vent d (S j)) + Rabs (vent d j)) < Rabs (vent o j).
Proof.
  unfold above. change (nlt RN) with Rltb. unfold vent. rn.
  destruct (Rltb_spec (eps * (Rabs (vget d (S j)) + Rabs (vget d j))) (Rabs (vget o j))); split; auto; try discriminate; contradiction.
Qed.
Lemma negl_real eps (d o : list RN) j : 0 <= eps -> negl (N:=RN) eps d o j = true ->
  Rabs (vent o j) <= eps * (Rabs (vent d (S j)) + Rabs (vent d j)).
Proof.
  intros he. unfold negl. change (nle RN) with Rleb. unfold vent. rn.
  change (nis_zero RN (vget o j)) with (Reqb (vget o j) 0).
  destruct (Reqb_spec (vget o j) 0) as [->|hz]; cbn [orb].
  - intros _. rewrite Rabs_R0. apply Rmult_le_pos; auto.
    pose proof (Rabs_pos (vget d (S j))). pose proof (Rabs_pos (vget d j)). lra.
  - destruct (Rleb_spec (Rabs (vget o j)) (eps * (Rabs (vget d (S j)) + Rabs (vget d j)))); auto. discriminate.
Qed.

Lemma negl_false eps (d o : list RN) j : negl (N:=RN) eps d o j = false -> vent o j <> 0.
Proof.
  unfold negl. change (nis_zero RN (vget o j)) with (Reqb (vget o j) 0). unfold vent.
  destruct (Reqb_spec (vget o j) 0); cbn [orb]; [discriminate|auto].
Qed.
Lemma above_nz eps (d o : list RN) j : 0 <= eps -> above (N:=RN) eps d o j = true -> vent o j <> 0.
Proof.
  intros he h. apply above_real in h. intros hz. rewrite hz, Rabs_R0 in h.
  pose proof (Rabs_pos (vent d (S j))). pose proof (Rabs_pos (vent d j)). nra.
Qed.

Lemma delimit_real n A eps e es : 0 <= eps -> MI n A eps e es ->
  wp (delimit_subproblem (N:=RN) (es_diag es) (es_off es) e eps)
     (fun r => LI n A eps (fst (fst r)) (snd (fst r)) (ES (es_diag es) (snd r) (es_q es))).
Proof.
  intros he (Q & dead & W & sg & hsh & hq & hen & hei & hd & hf).
  pose proof hsh as (s1 & s2 & s3).
  eapply post_mono; [apply delimit_ok; lia|]. intros [[s k] off']. cbn [fst snd].
  intros (g1 & g2 & g3 & g4 & g5 & g6).
  (* drop the entries k..e *)
  assert (hr := ei_drop_range n A eps _ dead W sg (ent Q) (e - k) (gh e (es_off es)) k he hei ltac:(lia)).
  assert (hs : forall j, (k <= j < k + (e - k))%nat ->
     Rabs (gh e (es_off es) j) <= eps * (Rabs (vent (es_diag es) (j + 1)) + Rabs (vent (es_diag es) j))).
  { intros j hj. specialize (g4 j ltac:(lia)). unfold gh. bd. rewrite Nat.add_1_r.
    apply Rnot_lt_le. intros hl. apply above_real in hl. congruence. }
  specialize (hr hs).
  set (dead1 := fun j => if _ && _ then true else dead j) in hr.
  set (o1 := fun j => if _ && _ then 0 else gh e (es_off es) j) in hr.
  assert (hr1 : EI n A eps (vent (es_diag es)) (gh k (es_off es)) dead1 W sg (ent Q)).
  { eapply ei_ext; [reflexivity| |exact hr]. intros j hj. unfold o1, gh. bd; auto; lia. }
  assert (hdead1 : forall j, (k <= j < n - 1)%nat -> dead1 j = true).
  { intros j hj. unfold dead1. bd; auto. apply hd. lia. }
  destruct (Nat.eq_dec k 0) as [ek|nk].
  - destruct (g5 ek) as (-> & ->). exists Q, dead1, W, sg. cbn [es_diag es_off es_q].
    split; [split; [|split]; cbn [es_diag es_off es_q]; auto; lia|]. split; [auto|]. split; [lia|]. split; [auto|]. split; [intros; lia|].
    do 2 (split; [auto|]). repeat split; intros; lia.
  - destruct (g6 ltac:(lia)) as (g7 & g8 & g9 & g10).
    assert (hfix : forall q, (q <= k)%nat -> sg q = q).
    { intros q hqk. apply hf. destruct (Nat.eq_dec q e); [|left; lia]. right. split; auto. split; [lia|].
      destruct (dead (e - 1)%nat) eqn:ed; auto. exfalso.
      assert (hz : gh e (es_off es) (e - 1) = 0) by (apply (ei_dead _ _ _ _ _ _ _ _ _ hei); [lia|auto]).
      unfold gh in hz. revert hz. bd. intros hz. apply above_real in g8. replace (k - 1)%nat with (e - 1)%nat in g8 by lia.
      rewrite hz, Rabs_R0 in g8.
      pose proof (Rabs_pos (vent (es_diag es) (S (e - 1)))). pose proof (Rabs_pos (vent (es_diag es) (e - 1))). nra. }
    assert (halive : forall j, (s <= j < k)%nat -> dead1 j = false).
    { intros j hj. destruct (dead1 j) eqn:ed; auto. exfalso.
      assert (hz := ei_dead _ _ _ _ _ _ _ _ _ hr1 j ltac:(lia) ed). unfold gh in hz. revert hz. bd. intros hz.
      destruct (Nat.eq_dec j (k - 1)) as [ej|nj].
      - rewrite ej in hz. apply above_nz in g8; auto.
      - specialize (g9 j ltac:(lia)). apply negl_false in g9. auto. }
    assert (hnz : forall j, (s <= j < k)%nat -> vent (es_off es) j <> 0).
    { intros j hj. destruct (Nat.eq_dec j (k - 1)) as [->|nj]; [eapply above_nz; eauto|]. eapply negl_false. apply g9. lia. }
    destruct g10 as [(es0 & eo)|(ps & hneg & eo)].
    + subst s off'. exists Q, dead1, W, sg. cbn [es_diag es_off es_q].
      split; [split; [|split]; cbn [es_diag es_off es_q]; auto; lia|]. split; [auto|]. split; [lia|]. split; [left; lia|]. split; [auto|].
      do 2 (split; [auto|]). split; [intros; lia|]. split; auto.
    + assert (hneg' := negl_real eps _ _ _ he hneg).
      eapply (ei_drop _ _ _ _ _ _ _ _ _ (s - 1)) in hr1; auto; try lia.
      * exists Q, (mark dead1 (s - 1)), W, sg. cbn [es_diag es_off es_q].
        split; [split; [|split]; cbn [es_diag es_off es_q]; auto; lia|]. split; auto. split; [lia|]. split; [left; lia|].
        split. { intros _. subst off'. unfold above in *. rewrite vget_vupd by lia. bd. auto. }
        split; [|split; [|split; [|split; [|split]]]].
        -- eapply ei_ext; [reflexivity| |exact hr1]. intros j hj. subst off'. unfold upd0, gh, vent. rewrite vget_vupd by lia.
           bd; auto; lia.
        -- intros j hj. unfold mark. bd; auto.
        -- intros _ _. unfold mark. bd. auto.
        -- auto.
        -- intros j hj. unfold mark. bd. auto.
        -- intros j hj. subst off'. unfold vent. rewrite vget_vupd by lia. bd. apply hnz. auto.
      * unfold gh. bd. replace (s - 1 + 1)%nat with (S (s - 1)) by lia. auto.
Qed.

Lemma big_real n A eps s e es : 0 <= eps -> (s + 1 < e)%nat -> LI n A eps s e es ->
  wp (eig_big (N:=RN) s e eps es) (fun r => MI n A eps (snd r) (fst r)).
Proof.
  intros he hse (Q & dead & W & sg & hsh & hq & hen & _ & ha & hei & hd & hd0 & hf & hal & hnz).
  eapply post_mono; [apply (sweep_real n s e eps es Q); auto; try lia|].
  - intros hs. specialize (hd0 hs ltac:(lia)).
    pose proof (ei_dead _ _ _ _ _ _ _ _ _ hei (s - 1)%nat ltac:(lia) hd0) as hz. revert hz. unfold gh. bd. auto.
  - apply hnz; lia.
  - intros [es' e1]. cbn [fst snd]. intros ((G & Q1 & sh & hq1 & hG & hl & hQ1 & hT & ho & _) & hc).
    assert (hei' : EI n A eps (vent (es_diag es')) (gh e (es_off es')) dead (mmul n W (mtr G)) sg (ent Q1)).
    { eapply ei_conj with (G := G) (a := s) (b := e); eauto; try lia.
      - intros q hqq. apply hf; lia.
      - rewrite hT. apply bulged_0.
      - intros j hj hdj. 
        destruct (le_lt_dec s j) as [h1|h1]; [|].
        + unfold gh. bd; auto. rewrite hal in hdj by lia. discriminate.
        + unfold gh. bd. rewrite ho by auto.
          pose proof (ei_dead _ _ _ _ _ _ _ _ _ hei j ltac:(lia) hdj) as hz. revert hz. unfold gh. bd. auto. }
    destruct hc as [(-> & _)|(-> & hsm)].
    + exists Q1, dead, (mmul n W (mtr G)), sg. do 2 (split; [auto|]). split; [lia|]. split; [auto|]. split; auto.
      intros q hqq. apply hf; lia.
    + eapply (ei_drop _ _ _ _ _ _ _ _ _ (e - 1)) in hei'; auto; try lia.
      * exists Q1, (mark dead (e - 1)), (mmul n W (mtr G)), sg. do 2 (split; [auto|]). split; [lia|]. split; [|split].
        -- eapply ei_ext; [reflexivity| |exact hei']. intros j hj. unfold upd0, gh. bd; auto; lia.
        -- intros j hj. unfold mark. bd; auto. apply hd. lia.
        -- intros q hqq. apply hf; lia.
      * unfold gh. bd. replace (e - 1 + 1)%nat with e by lia. lra.
Qed.

Lemma two_real n A eps s es : 0 <= eps -> (frob n n A <> 0 -> 1 <= frob n n A) -> LI n A eps s (s + 1) es ->
  wp (eig_two (N:=RN) s (s + 1) eps es) (fun r => MI n A eps (snd r) (fst r)).
Proof.
  intros he hA (Q & dead & W & sg & hsh & hq & hen & _ & ha & hei & hd & hd0 & hf & hal & hnz).
  pose proof hsh as (s1 & s2 & s3). rewrite hq in s3. destruct s3 as (q1 & q2).
  specialize (ha ltac:(lia)). replace (s + 1 - 1)%nat with s in ha by lia.
  assert (hz : vent (es_off es) s <> 0) by (eapply above_nz; eauto).
  unfold eig_two. step1. apply post_idx1; [lia|]. step1. apply post_idx1; [lia|]. step1. apply post_idx1; [lia|].
  rewrite compute_2x2_real. cbn [unwrap_opt bind].
  set (dd := vent (es_diag es)) in *. set (oo := gh (s + 1) (es_off es)) in *.
  change (vget (es_diag es) s) with (dd s). change (vget (es_diag es) (s + 1)) with (dd (s + 1)%nat).
  change (vget (es_off es) s) with (vent (es_off es) s).
  assert (eo : vent (es_off es) s = oo s) by (unfold oo, gh; bd; auto). rewrite eo in *.
  set (l1 := ev1 _ _ _). set (l2 := ev2 _ _ _).
  assert (h1 : forall h, s = S h -> oo h = 0).
  { intros h hh. apply (ei_dead _ _ _ _ _ _ _ _ _ hei); [lia|]. replace h with (s - 1)%nat by lia. apply hd0; lia. }
  assert (h2 : (s + 2 < n)%nat -> oo (s + 1)%nat = 0) by (intros; unfold oo, gh; bd; auto).
  step1. apply post_set1; [lia|]. step1. apply post_set1; [dims; lia|].
  set (diag' := vupd (vupd (es_diag es) s l1) (s + 1) l2).
  assert (hdiag : forall j, (j < n)%nat -> upd2 dd s l1 l2 j = vent diag' j).
  { intros j hj. unfold diag', vent, upd2. rewrite !vget_vupd by (dims; lia). bd; auto; lia. }
  assert (hoff : forall j, (j + 1 < n)%nat -> upd0 oo s j = gh s (es_off es) j).
  { intros j hj. unfold upd0, oo, gh. bd; auto; lia. }
  assert (hlen : length diag' = n) by (unfold diag'; dims; auto).
  assert (hsg : forall q, (s <= q <= s + 1)%nat -> sg q = q) by (intros; apply hf; lia).
  rewrite hq. change (nsub RN l1 (dd (s + 1)%nat)) with (l1 - dd (s + 1)%nat).
  pose proof (try_new_real (l1 - dd (s + 1)%nat) (oo s) eps he) as ht.
  assert (hdead' : forall j, (s <= j < n - 1)%nat -> mark dead s j = true).
  { intros j hj. unfold mark. bd; auto. apply hd. lia. }
  destruct (try_new _ _ _) as [[g r]|].
  - destruct ht as (k1 & k2 & k3 & k4 & k5).
    step1. eapply post_mono; [apply rotate_q_real; lia|]. intros o (q' & -> & n1 & n2 & hq').
    rewrite q1, q2 in hq'. rewrite q1 in n1. rewrite q2 in n2.
    step1. apply post_usub; [lia|]. apply post_ret. cbn [fst snd].
    set (G := gm s (s + 1) (rc g) (- rs g)) in *.
    assert (hG : orthogonal n G).
    { apply gm_orthogonal; try lia. replace (- rs g * - rs g) with (rs g * rs g) by ring. auto. }
    assert (hei' : EI n A eps (upd2 dd s l1 l2) (upd0 oo s) dead (mmul n W (mtr G)) sg (ent q')).
    { eapply ei_conj with (G := G) (a := s) (b := (s + 1)%nat); eauto; try lia.
      - apply local_gm; lia.
      - apply (two_conj n s dd oo (rc g) (rs g) r); auto; try lia. lra.
      - intros j hj hdj. unfold upd0. bd; auto. eapply ei_dead; eauto. }
    exists q', (mark dead s), (mmul n W (mtr G)), sg. cbn [es_diag es_off es_q].
    split; [split; [|split]; cbn [es_diag es_off es_q]; auto; split; lia|]. split; auto. split; [lia|].
    replace (s + 1 - 1)%nat with s by lia. split; [|split; auto].
    + eapply ei_ext; [exact hdiag|exact hoff|]. 
      destruct hei' as [f1 f2 f3 f4 f5 f6 f7 f8 f9]. constructor; auto.
      * eapply Rle_trans; [exact f7|]. rewrite dcount_mark by (try lia; apply hal; lia).
        pose proof (frob_nonneg n n A). nra.
      * intros j hj. unfold mark, upd0. bd; auto. intros. eapply ei_dead; eauto.
    + intros q hqq. apply hf; lia.
  - step1. apply post_ret. step1. apply post_usub; [lia|]. apply post_ret. cbn [fst snd].
    assert (ho : Rabs (oo s) <= eps).
    { eapply Rle_trans; [|exact ht]. rewrite <- sqrt_Rsqr_abs. apply sqrt_le_1_alt. unfold Rsqr.
      pose proof (sqn (l1 - dd (s + 1)%nat)). lra. }
    assert (hA' : 1 <= frob n n A).
    { apply hA. intros hz0. apply hz. pose proof (ei_nrm _ _ _ _ _ _ _ _ _ hei) as hn. rewrite hz0 in hn.
      pose proof (frob_entry_le n n (tridiag dd oo) (s + 1) s ltac:(lia) ltac:(lia)) as hle.
      unfold tridiag in hle at 1. revert hle. bd. intros hle. pose proof (Rabs_pos (oo s)).
      destruct (Req_dec (oo s) 0) as [|hx]; auto. apply Rabs_pos_lt in hx. lra. }
    destruct (skip_case n s A eps dd oo dead W sg (ent Q) he hA' ltac:(lia) h1 h2 hz hei ho) as (W' & sg' & hei' & hfx).
    exists Q, (mark dead s), W', sg'. cbn [es_diag es_off es_q].
    split; [split; [|split]; cbn [es_diag es_off es_q]; auto; split; lia|]. split; auto. split; [lia|].
    replace (s + 1 - 1)%nat with s by lia. split; [|split; auto].
    + eapply ei_ext; [exact hdiag|exact hoff|]. exact hei'.
    + intros q [hqq|(hqq & hp & hm)].
      * rewrite hfx by lia. apply hf; lia.
      * exfalso. revert hm. unfold mark. bd. rewrite hd0 by lia. discriminate.
Qed.

(** Unit lower bound on the norm: needed only when the loop body runs *)
Lemma loop_real n A eps : 0 <= eps -> (frob n n A <> 0 -> 1 <= frob n n A) -> forall fuel s e es, LI n A eps s e es ->
  post (eig_loop (N:=RN) fuel eps s e es) (fun es' => exists Q dead W sg,
     es_shape n es' /\ es_q es' = Some Q /\ EI n A eps (vent (es_diag es')) (fun _ => 0) dead W sg (ent Q)) noE True.
Proof.
  intros he hA. induction fuel as [|fuel IH]; intros s e es hli; cbn [eig_loop];
  (destruct (Nat.eqb_spec e s) as [es0|hne];
   [destruct hli as (Q & dead & W & sg & hsh & hq & hen & hor & _ & hei & _); apply post_ret;
    exists Q, dead, W, sg; split; [auto|]; split; [auto|];
    eapply ei_ext; [reflexivity| |exact hei]; intros j hj; unfold gh; bd; auto; lia|]).
  - exact I.
  - pose proof hli as (_ & _ & _ & _ & _ & _ & hen & _).
    step1. apply post_usub; [lia|]. step1.
    assert (hstep : wp (if 2 <? S (e - s) then eig_big (N:=RN) s e eps es
         else if S (e - s) =? 2 then eig_two (N:=RN) s e eps es else Ret (es, e))
       (fun r : eig_state RN * nat => MI n A eps (snd r) (fst r))).
    { destruct (Nat.ltb_spec 2 (S (e - s))).
      - apply big_real; auto. lia.
      - destruct (Nat.eqb_spec (S (e - s)) 2); [|lia]. replace e with (s + 1)%nat in * by lia. apply two_real; auto. }
    eapply wp_conseq; [exact hstep|]. intros [es1 e1]. cbn [fst snd]. intros hm.
    step1. eapply wp_conseq; [apply delimit_real; eauto|]. intros [[s' e'] off']. cbn [fst snd]. intros hli'.
    apply IH. exact hli'.
Qed.

(** ** Scaling *)
Lemma in_elems (m : mat RN) x : In x (elems m) <-> exists i j, (i < nr m)%nat /\ (j < nc m)%nat /\ x = get m i j.
Proof.
  unfold elems. rewrite in_flat_map. split.
  - intros (i & hi & hx). apply in_map_iff in hx. destruct hx as (j & <- & hj). apply in_seq in hi, hj.
    exists i, j. repeat split; lia.
  - intros (i & j & hi & hj & ->). exists i. split; [apply in_seq; lia|]. apply in_map_iff. exists j. split; auto. apply in_seq; lia.
Qed.
Lemma fold_max_real l : forall acc : R, acc <= fold_left Rmax l acc /\ (forall x, In x l -> x <= fold_left Rmax l acc) /\
  (fold_left Rmax l acc = acc \/ In (fold_left Rmax l acc) l).
Proof.
  induction l as [|y l IH]; intros acc; cbn [fold_left In].
  - split; [lra|]. split; [tauto|auto].
  - destruct (IH (Rmax acc y)) as (h1 & h2 & h3). pose proof (Rmax_l acc y). pose proof (Rmax_r acc y).
    split; [lra|]. split.
    + intros x [<-|hx]; [lra|auto].
    + destruct h3 as [h3|h3]; [|auto]. rewrite h3. unfold Rmax. destruct (Rle_dec acc y); auto.
Qed.
Lemma abs_max_real (m : mat RN) : (1 <= nr m)%nat -> (1 <= nc m)%nat ->
  (forall i j, (i < nr m)%nat -> (j < nc m)%nat -> Rabs (ent m i j) <= abs_max m) /\
  exists i j, (i < nr m)%nat /\ (j < nc m)%nat /\ Rabs (ent m i j) = abs_max m.
Proof.
  intros hr hc. unfold abs_max. change (fun a b => nmax RN a b) with Rmax. change (nabs RN) with Rabs.
  change (nneg_inf RN) with (-1). set (l := map Rabs (elems m)).
  destruct (fold_max_real l (-1)) as (h1 & h2 & h3).
  assert (hb : forall i j, (i < nr m)%nat -> (j < nc m)%nat -> Rabs (ent m i j) <= fold_left Rmax l (-1)).
  { intros i j hi hj. apply h2. apply in_map. apply in_elems. exists i, j. auto. }
  split; auto. destruct h3 as [h3|h3].
  - specialize (hb 0%nat 0%nat ltac:(lia) ltac:(lia)). rewrite h3 in hb. pose proof (Rabs_pos (ent m 0%nat 0%nat)). lra.
  - unfold l in h3 at 2. apply in_map_iff in h3. destruct h3 as (x & e & hx). apply in_elems in hx.
    destruct hx as (i & j & hi & hj & ->). exists i, j. auto.
Qed.
Lemma scale_down_real (m : mat RN) : (1 <= nr m)%nat -> (1 <= nc m)%nat ->
  let a := abs_max m in 0 <= a /\
  (forall i j, (i < nr m)%nat -> (j < nc m)%nat -> ent m i j = a * ent (scale_down m a) i j) /\
  (forall i j, (i < nr m)%nat -> (j < nc m)%nat -> Rabs (ent (scale_down m a) i j) <= 1) /\
  (frob (nr m) (nc m) (ent (scale_down m a)) <> 0 -> 1 <= frob (nr m) (nc m) (ent (scale_down m a))).
Proof.
  intros hr hc a. destruct (abs_max_real m hr hc) as (h1 & i0 & j0 & hi0 & hj0 & h2). fold a in h1, h2.
  assert (ha : 0 <= a) by (rewrite <- h2; apply Rabs_pos). split; auto.
  unfold scale_down. change (neq RN a (n0 RN)) with (Reqb a 0). destruct (Reqb_spec a 0) as [e|e]; cbn [negb].
  - assert (hz : forall i j, (i < nr m)%nat -> (j < nc m)%nat -> ent m i j = 0).
    { intros i j hi hj. specialize (h1 i j hi hj). destruct (Req_dec (ent m i j) 0) as [|hx]; auto.
      apply Rabs_pos_lt in hx. lra. }
    split; [|split].
    + intros i j hi hj. rewrite hz by auto. rewrite e. ring.
    + intros i j hi hj. rewrite hz by auto. rewrite Rabs_R0. lra.
    + intros hf. exfalso. apply hf. unfold frob, frob2. rewrite <- sqrt_0. f_equal.
      apply Rsum_0. intros i hi. apply Rsum_0. intros j hj. rewrite hz by auto. ring.
  - assert (hg : forall i j, (i < nr m)%nat -> (j < nc m)%nat -> ent (mmap (fun x => ndiv RN x a) m) i j = ent m i j / a).
    { intros i j hi hj. unfold ent. rewrite get_mmap by auto. reflexivity. }
    split; [|split].
    + intros i j hi hj. rewrite hg by auto. field. auto.
    + intros i j hi hj. rewrite hg by auto. unfold Rdiv. rewrite Rabs_mult, (Rabs_right (/ a)).
      * apply (Rmult_le_reg_r a); [lra|]. rewrite Rmult_assoc, Rinv_l by auto. rewrite Rmult_1_l, Rmult_1_r. auto.
      * left. apply Rinv_0_lt_compat. lra.
    + intros _. eapply Rle_trans; [|apply (frob_entry_le _ _ _ i0 j0); auto]. rewrite hg by auto.
      unfold Rdiv. rewrite Rabs_mult, h2, (Rabs_right (/ a)).
      * right. field. auto.
      * left. apply Rinv_0_lt_compat. lra.
Qed.

(** ** The whole routine *)
Lemma symmetric_eig_real fuel (a : mat RN) (eps : R) vals q : 0 <= eps -> nr a = nc a -> symmetric (nr a) (ent a) ->
  symmetric_eig fuel a true eps = Ret (vals, Some q) ->
  length vals = nr a /\ nr q = nr a /\ nc q = nr a /\ orthogonal (nr a) (ent q) /\
  exists sg, perm_of (nr a) sg /\ (eps = 0 -> forall i, (i < nr a)%nat -> sg i = i) /\
    let W := fun i j => ent q i (sg j) in orthogonal (nr a) W /\
    frob (nr a) (nr a) (msub (ent a) (mmul (nr a) W (mmul (nr a) (mdiag (vent vals)) (mtr W)))) <=
    INR (nr a - 1) * (2 * eps * frob (nr a) (nr a) (ent a)).
Proof.
  intros he sq hs h. pose proof (symmetric_eig_class fuel a true eps (eig2_total_real eps)) as hc.
  rewrite h in hc. destruct hc as (_ & hl & _ & q1 & q2).
  split; auto. split; auto. split; auto.
  unfold symmetric_eig, check_square in h. revert h. bd. cbn [bind].
  destruct (Nat.ltb_spec (nr a) 1) as [h0|h0].
  { intros h. injection h as <- <-. split.
    - split; intros i j hi; lia.
    - exists (fun i => i). split; [split; intros; auto|]. split; auto. cbv zeta. split; [split; intros i j hi; lia|].
      replace (nr a) with 0%nat by lia. simpl. unfold frob, frob2. simpl. rewrite sqrt_0. lra. }
  destruct (scale_down_real a) as (ha & hsc & hle & hun); try lia.
  set (am := abs_max a) in *. set (m := scale_down a am) in *.
  assert (d1 : nr m = nr a) by apply nr_scale_down. assert (d2 : nc m = nc a) by apply nc_scale_down.
  assert (hsm : symmetric (nr m) (ent m)).
  { rewrite d1. intros i j hi hj. unfold mtr. unfold m, scale_down.
    destruct (neq RN am (n0 RN)); cbn [negb]; [apply hs; auto|].
    unfold ent. rewrite !get_mmap by lia. f_equal. apply hs; auto. }
  destruct (wp_ret _ _ (sym_tridiagonal_real m ltac:(lia) ltac:(lia) hsm)) as (td & -> & ok). cbn [bind].
  destruct (wp_ret _ _ (tri_generate_q_real _ _ _ ok)) as (q0 & -> & k1 & k2 & k3). cbn [bind].
  rewrite d1 in *.
  destruct (tri_into_diagonals td) as [diag off] eqn:et.
  set (n := nr a) in *.
  assert (l1 : length diag = n /\ length off = (n - 1)%nat /\
     (forall j, (j < n)%nat -> vent diag j = ent (diag_matrix td) j j) /\
     (forall j, (j + 1 < n)%nat -> vent off j = Rabs (vent (off_diagonal td) j))).
  { unfold tri_into_diagonals in et. injection et as <- <-. rewrite (to_nr _ _ _ ok), (to_nc _ _ _ ok), Nat.min_id.
    unfold vmap. rewrite !length_vmk. pose proof (to_len _ _ _ ok). split; auto. split; [auto|].
    unfold vent. split; intros j hj; rewrite vget_vmk by lia; reflexivity. }
  destruct l1 as (l1 & l2 & l3 & l4).
  assert (hq0 : orthogonal n (ent q0)).
  { apply (orthogonal_proper _ _ _ (meq_sym _ _ _ _ k3)). apply (trid_H _ _ _ ok). }
  assert (hei0 : EI n (ent m) eps (vent diag) (gh (n - 1) off) (fun _ => false) (ent q0) (fun i => i) (ent q0)).
  { assert (hz : ent m =[n, n]= mmul n (ent q0) (mmul n (tridiag (vent diag) (gh (n - 1) off)) (mtr (ent q0)))).
    { assert (ht : tridiag (vent diag) (gh (n - 1) off) =[n, n]= tridiag (fun j => ent (diag_matrix td) j j) (fun j => Rabs (vent (off_diagonal td) j))).
      { apply tridiag_ext; auto. intros j hj. unfold gh. bd. apply l4; lia. }
      rewrite k3, ht. apply (to_eq _ _ _ ok). }
    constructor; auto.
    - unfold dcount. rewrite Rsum_0 by auto. rewrite Rmult_0_l. right. unfold frob, frob2. rewrite <- sqrt_0. f_equal.
      apply Rsum_0. intros i hi. apply Rsum_0. intros j hj. unfold msub. rewrite <- hz by auto. ring.
    - right. rewrite <- (frob_conj n (ent q0) (tridiag _ _)) by auto. apply frob_ext. rewrite <- hz. reflexivity.
    - discriminate. }
  (* rescaling *)
  assert (fin : forall dg dead W sg Q', EI n (ent m) eps (vent dg) (fun _ => 0) dead W sg (ent Q') -> length dg = n ->
    vals = vmap (fun x => nmul RN x am) dg -> q = Q' ->
    orthogonal n (ent q) /\ exists sg, perm_of n sg /\ (eps = 0 -> forall i, (i < n)%nat -> sg i = i) /\
     let W := fun i j => ent q i (sg j) in orthogonal n W /\
     frob n n (msub (ent a) (mmul n W (mmul n (mdiag (vent vals)) (mtr W)))) <= INR (n - 1) * (2 * eps * frob n n (ent a))).
  { intros dg dead W sg Q' [f1 f2 f3 f4 f5 f6 f7 f8 f9] hlen -> ->. split; auto. exists sg.
    split; [split; auto|]. split; auto. intros W'.
    assert (hW : W =[n, n]= W') by (intros i j hi hj; apply f3; auto).
    split; [apply (orthogonal_proper _ _ _ hW); auto|].
    assert (hD : mdiag (vent (vmap (fun x => nmul RN x am) dg)) =[n, n]= mscal am (tridiag (vent dg) (fun _ => 0))).
    { intros i j hi hj. unfold mdiag, mscal, tridiag. bd; try ring. unfold vent, vmap. rewrite vget_vmk by lia. rn. ring. }
    assert (e1 : frob n n (msub (ent a) (mmul n W' (mmul n (mdiag (vent (vmap (fun x => nmul RN x am) dg))) (mtr W')))) =
                 am * frob n n (msub (ent m) (mmul n W (mmul n (tridiag (vent dg) (fun _ => 0)) (mtr W))))).
    { transitivity (frob n n (mscal am (msub (ent m) (mmul n W (mmul n (tridiag (vent dg) (fun _ => 0)) (mtr W))))));
      [|rewrite frob_scal, Rabs_right by lra; reflexivity]. apply frob_ext. intros i j hi hj.
      assert (e2 : mmul n W' (mmul n (mdiag (vent (vmap (fun x => nmul RN x am) dg))) (mtr W')) i j =
        am * mmul n W (mmul n (tridiag (vent dg) (fun _ => 0)) (mtr W)) i j).
      { assert (e2' : mmul n W' (mmul n (mdiag (vent (vmap (fun x => nmul RN x am) dg))) (mtr W')) =[n, n]=
           mmul n W (mmul n (mscal am (tridiag (vent dg) (fun _ => 0))) (mtr W))) by (rewrite <- hD, hW; reflexivity).
        rewrite e2' by auto. unfold mmul. rewrite <- Rsum_scal_l. apply Rsum_ext. intros k hk.
        rewrite <- (Rmult_assoc am), (Rmult_comm am), Rmult_assoc. f_equal.
        rewrite <- Rsum_scal_l. apply Rsum_ext. intros l hlt. unfold mscal. ring. }
      unfold msub, mscal. rewrite e2, hsc by lia. ring. }
    assert (e3 : frob n n (ent a) = am * frob n n (ent m)).
    { transitivity (frob n n (mscal am (ent m))); [|rewrite frob_scal, Rabs_right by lra; reflexivity]. apply frob_ext. intros i j hi hj. unfold mscal. apply hsc; lia. }
    rewrite e1, e3. apply Rle_trans with (am * (dcount n dead * (2 * eps * frob n n (ent m)))).
    - apply Rmult_le_compat_l; auto.
    - pose proof (dcount_le n dead). pose proof (frob_nonneg n n (ent m)).
      replace (INR (n - 1) * (2 * eps * (am * frob n n (ent m)))) with (am * (INR (n - 1) * (2 * eps * frob n n (ent m)))) by ring.
      apply Rmult_le_compat_l; auto. apply Rmult_le_compat_r; auto. apply Rmult_le_pos; lra. }
  destruct (Nat.eqb_spec n 1) as [e1|ne1].
  { intros h. injection h as <- <-.
    eapply fin; try reflexivity; [|auto]. eapply ei_ext; [reflexivity| |exact hei0]. intros; lia. }
  destruct (wp_ret _ _ (delimit_real n (ent m) eps (n - 1) (ES diag off (Some q0)) he
     ltac:(exists q0, (fun _ => false), (ent q0), (fun i => i); split; [split; [|split]; cbn [es_diag es_off es_q]; auto; split; auto|];
           split; [auto|]; split; [lia|]; split; [auto|]; split; [intros; lia|auto])))
    as ([[s k] off'] & hd & hli). cbn [es_diag es_off es_q fst snd] in hd, hli. rewrite hd. cbn [bind].
  rewrite <- sq in hun. pose proof (loop_real n (ent m) eps he hun fuel _ _ _ hli) as hloop.
  destruct (eig_loop _ _ _ _ _) as [es'|er| | |]; cbn [bind]; try discriminate.
  cbn [post] in hloop. destruct hloop as (Q & dead & W & sg & g1 & g2 & g3).
  intros h. injection h as <- hq. eapply fin; eauto; [apply g1|congruence].
Qed.

(** *** Consequences *)
Lemma frob_col_le n c X j : (j < c)%nat -> frob n 1 (fun i _ => X i j) <= frob n c X.
Proof.
  intros hj. unfold frob. apply sqrt_le_1_alt. unfold frob2. apply Rsum_le. intros i hi.
  simpl. rewrite Rplus_0_l. apply (Rsum_term_le c (fun q => X i q * X i q) j); auto. intros. apply sqn.
Qed.

(** The residual of column sg j of Q for the eigenvalue d j *)
Lemma resid_of_err n A Q sg d B : let W := fun i j => Q i (sg j) in orthogonal n W ->
  frob n n (msub A (mmul n W (mmul n (mdiag d) (mtr W)))) <= B ->
  forall j, (j < n)%nat -> eig_resid n A Q (sg j) (d j) <= B.
Proof.
  intros W hW hB j hj. eapply Rle_trans; [|exact hB].
  set (X := msub A (mmul n W (mmul n (mdiag d) (mtr W)))).
  replace (frob n n X) with (frob n n (mmul n X W)) by (unfold frob; rewrite frob2_orth_r by apply hW; reflexivity).
  eapply Rle_trans; [|apply (frob_col_le n n _ j hj)]. right. unfold eig_resid. apply frob_ext.
  intros i k hi hk.
  assert (hX : mmul n X W =[n, n]= msub (mmul n A W) (mmul n W (mdiag d))).
  { unfold X. rewrite (mmul_sub_l n n n A). intros p q hp hq. unfold msub. f_equal.
    assert (e : mmul n (mmul n W (mmul n (mdiag d) (mtr W))) W =[n, n]= mmul n W (mdiag d)).
    { rewrite !mmul_assoc. destruct hW as (h1 & _). rewrite h1, mmul_1_r. reflexivity. }
    apply e; auto. }
  rewrite hX by auto. unfold msub. f_equal.
  unfold mmul, mdiag. rewrite (Rsum_single n j) by (auto; intros; bd; ring). bd. unfold W. ring.
Qed.

Lemma eps_R_pos : 0 < nepsilon RN.
Proof. change (nepsilon RN) with (/ IZR (2 ^ 52)). apply Rinv_0_lt_compat. apply IZR_lt. reflexivity. Qed.

Lemma eigh_values_spec fuel (a : mat RN) vals q : nr a = nc a -> symmetric (nr a) (ent a) ->
  eigh fuel a = Ret (vals, q) ->
  exists S, symmetric (nr a) S /\ has_spectrum (nr a) S (vent vals) /\
    frob (nr a) (nr a) (msub (ent a) S) <= INR (nr a - 1) * (2 * nepsilon RN * frob (nr a) (nr a) (ent a)).
Proof.
  intros sq hs h. unfold eigh in h. destruct (symmetric_eig fuel a true (nepsilon RN)) as [[v [q'|]]| | | |] eqn:e; try discriminate.
  cbn [bind unwrap_opt] in h. injection h as -> ->.
  assert (he : 0 <= nepsilon RN) by (left; apply eps_R_pos).
  destruct (symmetric_eig_real fuel a (nepsilon RN) vals q he sq hs e) as (_ & _ & _ & _ & sg & _ & _ & hW & hB).
  set (W := fun i j => ent q i (sg j)) in *.
  exists (mmul (nr a) W (mmul (nr a) (mdiag (vent vals)) (mtr W))). split; [|split; auto].
  - unfold symmetric. rewrite (mtr_mmul (nr a) (nr a) (nr a)), (mtr_mmul (nr a) (nr a) (nr a)), mtr_mtr, mmul_assoc.
    assert (ed : mtr (mdiag (vent vals)) =[nr a, nr a]= mdiag (vent vals)).
    { intros i j hi hj. unfold mtr, mdiag. bd; auto; subst; auto; lia. }
    rewrite ed. reflexivity.
  - exists W. split; auto. reflexivity.
Qed.

Lemma eigh_pairs_spec fuel (a : mat RN) vals q : nr a = nc a -> symmetric (nr a) (ent a) ->
  eigh fuel a = Ret (vals, q) ->
  length vals = nr a /\ nr q = nr a /\ nc q = nr a /\ orthogonal (nr a) (ent q) /\
  exists sg, perm_of (nr a) sg /\ forall j, (j < nr a)%nat ->
    eig_resid (nr a) (ent a) (ent q) (sg j) (vent vals j) <=
    INR (nr a - 1) * (2 * nepsilon RN * frob (nr a) (nr a) (ent a)).
Proof.
  intros sq hs h. unfold eigh in h. destruct (symmetric_eig fuel a true (nepsilon RN)) as [[v [q'|]]| | | |] eqn:e; try discriminate.
  cbn [bind unwrap_opt] in h. injection h as -> ->.
  assert (he : 0 <= nepsilon RN) by (left; apply eps_R_pos).
  destruct (symmetric_eig_real fuel a (nepsilon RN) vals q he sq hs e) as (h1 & h2 & h3 & h4 & sg & hp & _ & hW & hB).
  do 4 (split; [auto|]). exists sg. split; auto. intros j hj.
  apply (resid_of_err _ _ _ sg (vent vals) _ hW hB j hj).
Qed.

(** Tolerance zero: every value is paired with its own column, exactly *)
Lemma symmetric_eig_exact fuel (a : mat RN) vals q : nr a = nc a -> symmetric (nr a) (ent a) ->
  symmetric_eig fuel a true 0 = Ret (vals, Some q) ->
  orthogonal (nr a) (ent q) /\
  mmul (nr a) (ent a) (ent q) =[nr a, nr a]= mmul (nr a) (ent q) (mdiag (vent vals)).
Proof.
  intros sq hs h.
  destruct (symmetric_eig_real fuel a 0 vals q (Rle_refl 0) sq hs h) as (h1 & h2 & h3 & h4 & sg & hp & hid & hW & hB).
  split; auto. specialize (hid eq_refl). replace (INR (nr a - 1) * (2 * 0 * frob (nr a) (nr a) (ent a))) with 0 in hB by ring.
  set (W := fun i j => ent q i (sg j)) in *. set (n := nr a) in *.
  assert (eW : W =[n, n]= ent q) by (intros i j hi hj; unfold W; rewrite hid; auto).
  assert (hz : msub (ent a) (mmul n W (mmul n (mdiag (vent vals)) (mtr W))) =[n, n]= fun _ _ => 0).
  { intros i j hi hj. pose proof (frob_entry_le n n _ i j hi hj : Rabs (msub (ent a) (mmul n W (mmul n (mdiag (vent vals)) (mtr W))) i j) <= _) as hl.
    destruct (Req_dec (msub (ent a) (mmul n W (mmul n (mdiag (vent vals)) (mtr W))) i j) 0) as [|hx]; auto.
    apply Rabs_pos_lt in hx. lra. }
  assert (ea : ent a =[n, n]= mmul n (ent q) (mmul n (mdiag (vent vals)) (mtr (ent q)))).
  { rewrite <- eW. intros i j hi hj. specialize (hz i j hi hj). unfold msub in hz. lra. }
  rewrite ea, !mmul_assoc. destruct h4 as (e1 & _). rewrite e1, mmul_1_r. reflexivity.
Qed.
