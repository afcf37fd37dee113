(** * The implicit QR iteration of svd.rs (values only) in binary64 *)
From Coq Require Import Reals List Arith Lia Lra Bool ZArith Setoid Morphisms.
From Coq.Floats Require Import SpecFloat.
From Flocq Require Import Core BinarySingleNaN.
From Verif Require Import Scalar Arr MBase MDirect MDecomp MEigh MSvd Inst Hoare Spec SpecF SpecH RLin PTri PHouse PQR PTrid PBid PGivens PEigh PEighR PSvd PSvdR PRound PHouseF PCholG PTrdF PApx PGivF PEigF PSvdV.
Import ListNotations.
Local Open Scope R_scope.

(** ** Nearness up to orthogonal factors on both sides *)
Definition near2 (n : nat) (B0 B : M) (b : R) : Prop :=
  exists U V, orthogonal n U /\ orthogonal n V /\ frob n n (msub B0 (mmul n U (mmul n B (mtr V)))) <= b.

Lemma near2_move n B0 B B' G H b t : orthogonal n G -> orthogonal n H -> near2 n B0 B b ->
  frob n n (msub (mmul n G (mmul n B (mtr H))) B') <= t -> near2 n B0 B' (b + t).
Proof.
  intros hG hH (U & V & hU & hV & hb) ht.
  assert (f1 : FI n B0 b (frob n n B) B U V) by (constructor; auto; lra).
  assert (f2 : FI n B0 b (frob n n B) (mmul n G (mmul n B (mtr H))) (mmul n U (mtr G)) (mmul n V (mtr H))).
  { apply (fi_both n B0 b (frob n n B) B _ U V G H); auto. reflexivity. }
  assert (f3 : FI n B0 b (Rmax (frob n n B) (frob n n B')) (mmul n G (mmul n B (mtr H))) (mmul n U (mtr G)) (mmul n V (mtr H))).
  { destruct f2 as [a1 a2 a3 a4]. constructor; auto. eapply Rle_trans; [exact a4|apply Rmax_l]. }
  pose proof (fi_move _ _ _ _ _ B' _ _ t f3 ht (Rmax_r _ _)) as f4.
  destruct f4 as [a1 a2 a3 a4]. exists (mmul n U (mtr G)), (mmul n V (mtr H)). auto.
Qed.
Lemma near2_ext n B0 B B' b : B =[n, n]= B' -> near2 n B0 B b -> near2 n B0 B' b.
Proof.
  intros h (U & V & hU & hV & hb). exists U, V. split; auto. split; auto. eapply Rle_trans; [|exact hb]. right. apply frob_ext.
  assert (e : mmul n U (mmul n B' (mtr V)) =[n, n]= mmul n U (mmul n B (mtr V))) by (rewrite h; reflexivity).
  intros p q hp hq. unfold msub. rewrite (e p q hp hq). reflexivity.
Qed.
Lemma near2_weak n B0 B b b' : b <= b' -> near2 n B0 B b -> near2 n B0 B b'.
Proof. intros h (U & V & hU & hV & hb). exists U, V. split; auto. split; auto. lra. Qed.
Lemma near2_close n B0 B B' b t : near2 n B0 B b -> frob n n (msub B B') <= t -> near2 n B0 B' (b + t).
Proof.
  intros h ht. apply (near2_move n B0 B B' mid mid b t); auto; try apply orthogonal_mid.
  eapply Rle_trans; [|exact ht]. right. apply frob_ext. intros p q hp hq. unfold msub.
  assert (e : mmul n mid (mmul n B (mtr mid)) =[n, n]= B) by (rewrite mtr_mid, mmul_1_r, mmul_1_l; reflexivity). rewrite (e p q hp hq). reflexivity.
Qed.
Lemma near2_left n B0 B B' G b t : orthogonal n G -> near2 n B0 B b -> frob n n (msub (mmul n G B) B') <= t -> near2 n B0 B' (b + t).
Proof.
  intros hG h ht. apply (near2_move n B0 B B' G mid b t); auto; [apply orthogonal_mid|].
  eapply Rle_trans; [|exact ht]. right. apply frob_ext.
  assert (e : mmul n G (mmul n B (mtr mid)) =[n, n]= mmul n G B) by (rewrite mtr_mid, mmul_1_r; reflexivity).
  intros p q hp hq. unfold msub. rewrite (e p q hp hq). reflexivity.
Qed.
Lemma near2_right n B0 B B' H b t : orthogonal n H -> near2 n B0 B b -> frob n n (msub (mmul n B (mtr H)) B') <= t -> near2 n B0 B' (b + t).
Proof.
  intros hH h ht. apply (near2_move n B0 B B' mid H b t); auto; [apply orthogonal_mid|].
  eapply Rle_trans; [|exact ht]. right. apply frob_ext.
  assert (e : mmul n mid (mmul n B (mtr H)) =[n, n]= mmul n B (mtr H)) by (rewrite mmul_1_l; reflexivity).
  intros p q hp hq. unfold msub. rewrite (e p q hp hq). reflexivity.
Qed.
Lemma near2_id n B0 : near2 n B0 B0 0.
Proof.
  exists mid, mid. split; [apply orthogonal_mid|]. split; [apply orthogonal_mid|]. right. unfold frob.
  rewrite (frob2_ext n n _ (fun _ _ => 0)).
  - unfold frob2. rewrite Rsum_0; [apply sqrt_0|]. intros. apply Rsum_0. intros. ring.
  - intros p q hp hq. unfold msub. assert (e : mmul n mid (mmul n B0 (mtr mid)) =[n, n]= B0) by (rewrite mtr_mid, mmul_1_r, mmul_1_l; reflexivity). rewrite (e p q hp hq). ring.
Qed.
Lemma near2_frob n B0 B b : near2 n B0 B b -> frob n n B <= frob n n B0 + b.
Proof.
  intros (U & V & hU & hV & hb). rewrite <- (frob_two_sided n U V B) by auto. set (X := mmul n U (mmul n B (mtr V))) in *.
  eapply Rle_trans; [|apply Rplus_le_compat_l; exact hb].
  apply Rle_trans with (frob n n (madd B0 (mscal (-1) (msub B0 X)))).
  - right. apply frob_ext. intros p q hp hq. unfold madd, mscal, msub. ring.
  - eapply Rle_trans; [apply frob_triangle|]. apply Rplus_le_compat_l. right. rewrite frob_scal. replace (Rabs (-1)) with 1 by (rewrite Rabs_left; lra). ring.
Qed.

(** A matrix supported on a list of positions *)
Lemma frob_list n t l : forall X, 0 <= t ->
  (forall p q, (p < n)%nat -> (q < n)%nat -> X p q = 0 \/ (In (p, q) l /\ Rabs (X p q) <= t)) -> frob n n X <= INR (length l) * t.
Proof.
  induction l as [|[a b] l IH]; intros X ht h.
  - cbn [length]. rewrite Rmult_0_l. right. unfold frob, frob2. rewrite Rsum_0; [apply sqrt_0|]. intros p hp. apply Rsum_0. intros q hq.
    destruct (h p q hp hq) as [->|([] & _)]. ring.
  - cbn [length]. rewrite S_INR.
    set (E := fun p q => if Nat.eqb p a && Nat.eqb q b then X p q else 0). set (X' := fun p q => if Nat.eqb p a && Nat.eqb q b then 0 else X p q).
    rewrite (frob_ext n n X (madd E X')) by (intros p q hp hq; unfold madd, E, X'; destruct (_ && _); ring).
    eapply Rle_trans; [apply frob_triangle|]. replace ((INR (length l) + 1) * t) with (t + INR (length l) * t) by ring. apply Rplus_le_compat.
    + assert (z : frob n n (fun _ _ => 0) <= t).
      { unfold frob, frob2. rewrite Rsum_0; [rewrite sqrt_0; auto|]. intros. apply Rsum_0. intros. ring. }
      destruct (le_lt_dec n a) as [ha|ha]; [|destruct (le_lt_dec n b) as [hb|hb]].
      * rewrite (frob_ext n n E (fun _ _ => 0)); auto. intros p q hp hq. unfold E. bd; auto; lia.
      * rewrite (frob_ext n n E (fun _ _ => 0)); auto. intros p q hp hq. unfold E. bd; auto; lia.
      * apply (frob_one n E a b); auto.
        -- intros p q hp hq hne. unfold E. bd; auto; tauto.
        -- unfold E. rewrite !Nat.eqb_refl. cbn [andb]. destruct (h a b ha hb) as [->|(_ & h2)]; auto. rewrite Rabs_R0. auto.
    + apply IH; auto. intros p q hp hq. unfold X'. destruct (Nat.eqb_spec p a) as [ea|na], (Nat.eqb_spec q b) as [eb|nb]; cbn [andb]; auto;
      destruct (h p q hp hq) as [e0|([e0|hi] & hle)]; auto; injection e0 as -> ->; tauto.
Qed.

(** ** The chases with rounding errors *)
Ltac inl := cbn [In]; repeat first [left; f_equal; lia | right].
Ltac fin := match goal with
  | |- ?x = 0 \/ _ => first [left; solve [lra | ring] | right; split; [inl|]] end.

Lemma svd_chase_ap n k c1 s1 c2 s2 (d o d' o' : nat -> R) y y' t : (k + 1 < n)%nat -> 0 <= t ->
  (forall h, k = S h -> s1 * o h + c1 * y = 0 /\ Rabs (c1 * o h - s1 * y - o' h) <= t) ->
  Rabs (c2 * (c1 * d k - s1 * o k) - s2 * (- s1 * d (k + 1)%nat) - d' k) <= t ->
  Rabs (s2 * (c1 * d k - s1 * o k) + c2 * (- s1 * d (k + 1)%nat)) <= t ->
  Rabs (c2 * (s1 * d k + c1 * o k) - s2 * (c1 * d (k + 1)%nat) - o' k) <= t ->
  Rabs (s2 * (s1 * d k + c1 * o k) + c2 * (c1 * d (k + 1)%nat) - d' (k + 1)%nat) <= t ->
  ((k + 2 < n)%nat -> Rabs (c2 * o (k + 1)%nat - o' (k + 1)%nat) <= t /\ Rabs (- s2 * o (k + 1)%nat - y') <= t) ->
  (forall j, (j < n)%nat -> j <> k -> j <> (k + 1)%nat -> d' j = d j) ->
  (forall j, (j + 1 < n)%nat -> j <> k -> j <> (k + 1)%nat -> (j + 1)%nat <> k -> o' j = o j) ->
  frob n n (msub (mmul n (gm k (k + 1) c2 s2) (mmul n (sbid d o y k) (mtr (gm k (k + 1) c1 s1)))) (sbid d' o' y' (k + 1))) <= 7 * t.
Proof.
  intros hk ht h1 h2 h3 h4 h5 h6 h7 h8.
  set (l := [((k - 1)%nat, k); (k, k); (k, (k + 1)%nat); (k, (k + 2)%nat); ((k + 1)%nat, k); ((k + 1)%nat, (k + 1)%nat); ((k + 1)%nat, (k + 2)%nat)]).
  replace 7 with (INR (length l)) by (cbn; lra). apply frob_list; auto. unfold l. clear l.
  intros p q hp hq. unfold msub.
  rewrite gm_apply by (auto; lia).
  rewrite !gm_apply_r by (auto; lia).
  destruct (Nat.eqb_spec p k) as [ep|np]; [|destruct (Nat.eqb_spec p (k + 1)) as [ep|np']];
  (destruct (Nat.eqb_spec q k) as [eq|nq]; [|destruct (Nat.eqb_spec q (k + 1)) as [eq|nq']]);
  subst; unfold sbid.
  - bd. right. split; [inl|]. eapply Rle_trans; [|exact h2]; right; f_equal; ring.
  - bd. right. split; [inl|]. eapply Rle_trans; [|exact h4]; right; f_equal; ring.
  - destruct (Nat.eq_dec q (k + 2)) as [e'|e']; [destruct h6 as (e1 & e2); [lia|]|]; bd; try (left; ring).
    right. split; [inl|]. eapply Rle_trans; [|exact e2]; right; f_equal; ring.
  - bd. right. split; [inl|]. eapply Rle_trans; [|exact h3]; right; f_equal; ring.
  - bd. right. split; [inl|]. eapply Rle_trans; [|exact h5]; right; f_equal; ring.
  - destruct (Nat.eq_dec q (k + 2)) as [e'|e']; [destruct h6 as (e1 & e2); [lia|]|]; bd; try (left; ring).
    right. split; [inl|]. eapply Rle_trans; [|exact e1]; right; f_equal; ring.
  - destruct (Nat.eq_dec k (S p)) as [e|e]; [destruct (h1 p e) as (e1 & e2)|]; bd; try (left; ring).
    right. split; [inl|]. eapply Rle_trans; [|exact e2]; right; f_equal; ring.
  - destruct (Nat.eq_dec k (S p)) as [e|e]; [destruct (h1 p e) as (e1 & e2)|]; bd; try (left; lra).
  - bd; left; rewrite ?h7, ?h8 by lia; ring.
Qed.

Lemma hor_chase_ap n i k c s (d o d' o' : nat -> R) x x' t : (i <= k)%nat -> (k + 1 < n)%nat -> 0 <= t ->
  d i = 0 -> o i = 0 ->
  c * x - s * d (k + 1)%nat = 0 ->
  Rabs (s * x + c * d (k + 1)%nat - d' (k + 1)%nat) <= t ->
  ((k + 2 < n)%nat -> Rabs (c * o (k + 1)%nat - o' (k + 1)%nat) <= t /\ Rabs (- s * o (k + 1)%nat - x') <= t) ->
  (forall j, (j < n)%nat -> j <> (k + 1)%nat -> d' j = d j) ->
  (forall j, (j + 1 < n)%nat -> j <> (k + 1)%nat -> o' j = o j) ->
  frob n n (msub (mmul n (gm i (k + 1) c s) (ubid d o x i (k + 1))) (ubid d' o' x' i (k + 2))) <= 3 * t.
Proof.
  intros hik hk ht hd ho h1 h2 h3 h4 h5.
  set (l := [((k + 1)%nat, (k + 1)%nat); ((k + 1)%nat, (k + 2)%nat); (i, (k + 2)%nat)]).
  replace 3 with (INR (length l)) by (cbn; lra). apply frob_list; auto. unfold l. clear l.
  intros p q hp hq. unfold msub. rewrite gm_apply by (auto; lia).
  destruct (Nat.eqb_spec p i) as [ep|np]; [|destruct (Nat.eqb_spec p (k + 1)) as [ep|np']]; subst; unfold ubid.
  - destruct (Nat.eq_dec q (k + 2)) as [e'|e']; [destruct h3 as (e1 & e2); [lia|]|]; bd; subst; try lia;
    rewrite ?h4, ?h5, ?hd, ?ho by lia; try (left; lra); right; (split; [inl|]); (eapply Rle_trans; [|exact e2]); right; f_equal; ring.
  - destruct (Nat.eq_dec q (k + 2)) as [e'|e']; [destruct h3 as (e1 & e2); [lia|]|]; bd; subst; try lia;
    rewrite ?h4, ?h5, ?hd, ?ho by lia; try (left; lra); right; (split; [inl|]);
    first [eapply Rle_trans; [|exact e1]; right; f_equal; ring | eapply Rle_trans; [|exact h2]; right; f_equal; ring].
  - bd; left; rewrite ?h4, ?h5 by lia; ring.
Qed.

Lemma ver_chase_ap n i k c s (d o d' o' : nat -> R) z z' t : (k <= i)%nat -> (i + 1 < n)%nat -> 0 <= t ->
  d (i + 1)%nat = 0 -> o i = 0 ->
  s * d k + c * z = 0 ->
  Rabs (c * d k - s * z - d' k) <= t ->
  (forall h, k = S h -> Rabs (c * o h - o' h) <= t /\ Rabs (s * o h - z') <= t) ->
  (forall j, (j < n)%nat -> j <> k -> d' j = d j) ->
  (forall j, (j + 1 < n)%nat -> (j + 1)%nat <> k -> o' j = o j) ->
  frob n n (msub (mmul n (zbid d o z (S k) i) (mtr (gm k (i + 1) c s))) (zbid d' o' z' k i)) <= 3 * t.
Proof.
  intros hki hi ht hd ho h1 h2 h3 h4 h5.
  set (l := [(k, k); ((k - 1)%nat, k); ((k - 1)%nat, (i + 1)%nat)]).
  replace 3 with (INR (length l)) by (cbn; lra). apply frob_list; auto. unfold l. clear l.
  intros p q hp hq. unfold msub. rewrite gm_apply_r by (auto; lia).
  destruct (Nat.eqb_spec q k) as [eq|nq]; [|destruct (Nat.eqb_spec q (i + 1)) as [eq|nq']]; subst; unfold zbid.
  - destruct (Nat.eq_dec k (S p)) as [e|e]; [destruct (h3 p e) as (e1 & e2)|]; bd; subst; try lia;
    rewrite ?h4, ?h5, ?hd, ?ho by lia; try (left; lra);
    try (right; (split; [inl|]);
      first [eapply Rle_trans; [|exact e1]; right; f_equal; ring | eapply Rle_trans; [|exact h2]; right; f_equal; ring]);
    assert (p = i) by lia; subst; rewrite ?ho; left; lra.
  - destruct (Nat.eq_dec k (S p)) as [e|e]; [destruct (h3 p e) as (e1 & e2)|]; bd; subst; try lia;
    rewrite ?h4, ?h5, ?hd, ?ho by lia; try (left; lra);
    try (right; (split; [inl|]); eapply Rle_trans; [|exact e2]; right; f_equal; ring);
    first [assert (p = i) by lia; subst p | assert (k = i) by lia; subst k]; rewrite ?ho; left; lra.
  - bd; left; rewrite ?h4, ?h5 by lia; ring.
Qed.

(** ** Infinite and NaN values *)
Definition nf (x : FN) : Prop := is_finite_SF x = false.
Lemma nf_mul_l x y : nf x -> nf (nmul FN x y).
Proof. unfold nf. destruct x as [a|a| |a ma ea], y as [b|b| |b mb eb]; intros h; try discriminate h; reflexivity. Qed.
Lemma nf_mul_r x y : nf y -> nf (nmul FN x y).
Proof. unfold nf. destruct x as [a|a| |a ma ea], y as [b|b| |b mb eb]; intros h; try discriminate h; reflexivity. Qed.
Lemma nf_add_l x y : nf x -> nf (nadd FN x y).
Proof. unfold nf. destruct x as [a|a| |a ma ea], y as [b|b| |b mb eb]; intros h; try discriminate h; try reflexivity. destruct a, b; reflexivity. Qed.
Lemma nf_add_r x y : nf y -> nf (nadd FN x y).
Proof. unfold nf. destruct x as [a|a| |a ma ea], y as [b|b| |b mb eb]; intros h; try discriminate h; try reflexivity. destruct a, b; reflexivity. Qed.
Lemma nf_div_l x y : nf x -> nf (ndiv FN x y).
Proof. unfold nf. destruct x as [a|a| |a ma ea], y as [b|b| |b mb eb]; intros h; try discriminate h; reflexivity. Qed.
Lemma nf_opp x : nf x -> nf (nopp FN x).
Proof. unfold nf. destruct x; intros h; try discriminate h; reflexivity. Qed.
Lemma nf_nz x : nf x -> nis_zero FN x = false.
Proof. unfold nf. destruct x as [a|[|]| |a ma ea]; intros h; try discriminate h; reflexivity. Qed.
Lemma nf_nan : nf S754_nan. Proof. reflexivity. Qed.
Lemma nf_dec x : nf x \/ ffin x.
Proof. unfold nf, ffin. destruct (is_finite_SF x); auto. Qed.
Lemma nf_ffin x : nf x -> ffin x -> False.
Proof. unfold nf, ffin. congruence. Qed.
Lemma nle_ffin x y : ffin y -> nle FN (nabs FN x) y = true -> ffin x.
Proof. destruct x as [a|[|]| |a ma ea], y as [b|b| |b mb eb]; intros h1 h2; try discriminate h1; try discriminate h2; reflexivity. Qed.
#[export] Hint Resolve nf_mul_l nf_mul_r nf_add_l nf_add_r nf_div_l nf_opp nf_nan : nfd.

Lemma vbrk_inv {S} (body : nat -> S -> bool * S) (P : nat -> S -> Prop) (Q : S -> Prop) cnt : forall lo s, P lo s ->
  (forall k s, (lo <= k < lo + cnt)%nat -> P k s -> if fst (body k s) then P (Datatypes.S k) (snd (body k s)) else Q (snd (body k s))) ->
  (forall s, P (lo + cnt)%nat s -> Q s) -> Q (vbrk cnt lo body s).
Proof.
  induction cnt as [|cnt IH]; intros lo s h0 hs hq; cbn [vbrk].
  - apply hq. rewrite Nat.add_0_r. auto.
  - pose proof (hs lo s ltac:(lia) h0) as h1. destruct (fst (body lo s)); auto. apply IH; auto.
    + intros k s' hk. apply hs. lia.
    + intros s' h'. apply hq. replace (lo + Datatypes.S cnt)%nat with (Datatypes.S lo + cnt)%nat by lia. auto.
Qed.
Lemma vrbrk_inv {S} (body : nat -> S -> bool * S) (P : nat -> S -> Prop) (Q : S -> Prop) cnt : forall s, P cnt s ->
  (forall k s, (k < cnt)%nat -> P (Datatypes.S k) s -> if fst (body k s) then P k (snd (body k s)) else Q (snd (body k s))) ->
  (forall s, P O s -> Q s) -> Q (vrbrk cnt body s).
Proof.
  induction cnt as [|cnt IH]; intros s h0 hs hq; cbn [vrbrk]; auto.
  pose proof (hs cnt s ltac:(lia) h0) as h1. destruct (fst (body cnt s)); auto. apply IH; auto; intros; apply hs; auto; lia.
Qed.

Lemma up_eq f k v : up f k v k = v. Proof. unfold up. rewrite Nat.eqb_refl. reflexivity. Qed.
Lemma up_ne f k v j : j <> k -> up f k v j = f j. Proof. intros h. unfold up. bd. reflexivity. Qed.

(** ** A 2x2 block: the (signed) singular values of [[a, b], [0, d]] *)
Lemma sqs x y : 0 <= x * x + y * y.
Proof. pose proof (Rle_0_sqr x) as p. pose proof (Rle_0_sqr y) as q. unfold Rsqr in *. lra. Qed.
Lemma unit_dir x y : exists p q, p * p + q * q = 1 /\ x = sqrt (x * x + y * y) * p /\ y = sqrt (x * x + y * y) * q.
Proof.
  set (r := sqrt (x * x + y * y)). assert (hr : r * r = x * x + y * y) by (apply sqrt_def, sqs). assert (h0 : 0 <= r) by apply sqrt_pos.
  destruct (Req_dec r 0) as [e|ne].
  - exists 1, 0. split; [ring|]. rewrite e in hr. split; nra.
  - exists (x / r), (y / r). split; [|split; field; auto].
    apply Rmult_eq_reg_r with (r * r); [|nra]. transitivity (x * x + y * y); [field; auto|lra].
Qed.
Lemma half_angle x y : x * x + y * y = 1 -> exists c s, c * c + s * s = 1 /\ c * c - s * s = x /\ 2 * c * s = y.
Proof.
  intros h. assert (hx : -1 <= x <= 1) by nra.
  set (c := sqrt ((1 + x) / 2)). set (t := sqrt ((1 - x) / 2)).
  assert (hc : c * c = (1 + x) / 2) by (apply sqrt_def; lra). assert (ht : t * t = (1 - x) / 2) by (apply sqrt_def; lra).
  assert (c0 : 0 <= c) by apply sqrt_pos. assert (t0 : 0 <= t) by apply sqrt_pos.
  assert (hy : (2 * c * t) * (2 * c * t) = y * y). { transitivity (4 * (c * c) * (t * t)); [ring|]. rewrite hc, ht. nra. }
  assert (hct : 0 <= 2 * c * t) by (apply Rmult_le_pos; lra).
  destruct (Rle_dec 0 y) as [hy0|hy0].
  - exists c, t. split; [lra|]. split; [lra|]. nra.
  - exists c, (- t). split; [lra|]. split; [lra|]. assert (2 * c * t = - y) by nra. lra.
Qed.
(** A 2x2 upper triangular matrix [[a, b], [0, d]] and its (signed) singular values *)
Lemma two_svd a b d : let h1 := sqrt ((a + d) * (a + d) + b * b) in let h2 := sqrt ((a - d) * (a - d) + b * b) in
  let v1 := (h1 - h2) / 2 in let v2 := (h1 + h2) / 2 in
  exists cu su cv sv, cu * cu + su * su = 1 /\ cv * cv + sv * sv = 1 /\
    a * cv + b * sv = v1 * cu /\ d * sv = v1 * su /\ b * cv - a * sv = - (v2 * su) /\ d * cv = v2 * cu.
Proof.
  intros h1 h2 v1 v2. destruct (unit_dir (a + d) b) as (p & q & pq & e1 & e2). fold h1 in e1, e2.
  destruct (unit_dir (a - d) b) as (r & s & rs & e3 & e4). fold h2 in e3, e4.
  destruct (half_angle (- (r * p - s * q)) (- (r * q + s * p))) as (cv & sv & k1 & k2 & k3).
  { transitivity ((r * r + s * s) * (p * p + q * q)); [ring|]. rewrite pq, rs. ring. }
  assert (er : r = - ((cv * cv - sv * sv) * p + 2 * cv * sv * q)).
  { rewrite k2, k3. transitivity (r * (p * p + q * q)); [rewrite pq; ring|ring]. }
  assert (es : s = - (2 * cv * sv * p - (cv * cv - sv * sv) * q)).
  { rewrite k2, k3. transitivity (s * (p * p + q * q)); [rewrite pq; ring|ring]. }
  assert (E1 : (r + p) * cv + (s + q) * sv = 0).
  { rewrite er, es. transitivity ((1 - (cv * cv + sv * sv)) * (p * cv + q * sv)); [ring|]. rewrite k1. ring. }
  assert (E2 : (s - q) * cv - (r - p) * sv = 0).
  { rewrite er, es. transitivity (((cv * cv + sv * sv) - 1) * (q * cv - p * sv)); [ring|]. rewrite k1. ring. }
  clear er es k2 k3. exists (cv * p + sv * q), (sv * p - cv * q), cv, sv.
  split. { transitivity ((cv * cv + sv * sv) * (p * p + q * q)); [ring|]. rewrite k1, pq. ring. }
  split; auto.
  assert (ha : a = (h1 * p + h2 * r) / 2) by lra. assert (hd : d = (h1 * p - h2 * r) / 2) by lra.
  assert (hb : h1 * q = h2 * s) by lra. unfold v1, v2. clear e1 e3.
  assert (F1 : h2 * ((r + p) * cv + (s + q) * sv) = 0) by (rewrite E1; ring).
  assert (F2 : h2 * ((s - q) * cv - (r - p) * sv) = 0) by (rewrite E2; ring).
  assert (G1 : h1 * q * sv = h2 * s * sv) by (rewrite hb; ring). assert (G2 : h1 * q * cv = h2 * s * cv) by (rewrite hb; ring).
  rewrite ha, hd. split; [|split; [|split]].
  - rewrite e4. nra.
  - nra.
  - rewrite e4. nra.
  - nra.
Qed.
Lemma two_val a b d : let h1 := sqrt ((a + d) * (a + d) + b * b) in let h2 := sqrt ((a - d) * (a - d) + b * b) in
  0 < h1 + h2 -> (h1 - h2) / 2 = 2 * (a * d) / (h1 + h2) /\ Rabs a <= (h1 + h2) / 2 /\ Rabs d <= (h1 + h2) / 2.
Proof.
  intros h1 h2 hp. assert (q1 : h1 * h1 = (a + d) * (a + d) + b * b) by (apply sqrt_def, sqs). assert (q2 : h2 * h2 = (a - d) * (a - d) + b * b) by (apply sqrt_def, sqs).
  assert (p1 : 0 <= h1) by apply sqrt_pos. assert (p2 : 0 <= h2) by apply sqrt_pos.
  assert (l1 : Rabs (a + d) <= h1) by (apply Rabs_le_of_sq; nra). assert (l2 : Rabs (a - d) <= h2) by (apply Rabs_le_of_sq; nra).
  split; [|split].
  - apply Rmult_eq_reg_r with (h1 + h2); [|lra]. transitivity ((h1 * h1 - h2 * h2) / 2); [field|]. rewrite q1, q2. field. lra.
  - replace a with (((a + d) + (a - d)) / 2) by field. unfold Rdiv. rewrite Rabs_mult, (Rabs_pos_eq (/ 2)) by lra. pose proof (Rabs_triang (a + d) (a - d)). nra.
  - replace d with (((a + d) + - (a - d)) / 2) by field. unfold Rdiv. rewrite Rabs_mult, (Rabs_pos_eq (/ 2)) by lra. pose proof (Rabs_triang (a + d) (- (a - d))) as q. rewrite Rabs_Ropp in q. nra.
Qed.
Lemma hyp_lip x x' y : Rabs (sqrt (x * x + y * y) - sqrt (x' * x' + y * y)) <= Rabs (x - x').
Proof.
  assert (q : forall u v, sqrt (u * u + y * y) <= sqrt (v * v + y * y) + Rabs (u - v)).
  { intros u v. apply Rsqr_incr_0_var; [|pose proof (sqrt_pos (v * v + y * y)); pose proof (Rabs_pos (u - v)); lra]. unfold Rsqr. rewrite hyp_sq.
    set (r := sqrt (v * v + y * y)). assert (hr : r * r = v * v + y * y) by apply hyp_sq. assert (r0 : 0 <= r) by apply sqrt_pos.
    assert (hv : Rabs v <= r) by (apply Rabs_le_of_sq; auto; pose proof (Rle_0_sqr y) as q; unfold Rsqr in q; lra).
    assert (e : Rabs (u - v) * Rabs (u - v) = (u - v) * (u - v)) by apply Rabs_sq.
    assert (f : v * (u - v) <= r * Rabs (u - v)).
    { apply Rle_trans with (Rabs (v * (u - v))); [apply Rle_abs|]. rewrite Rabs_mult. apply Rmult_le_compat_r; auto. apply Rabs_pos. }
    replace ((r + Rabs (u - v)) * (r + Rabs (u - v))) with (r * r + 2 * (r * Rabs (u - v)) + Rabs (u - v) * Rabs (u - v)) by ring. rewrite hr, e. lra. }
  apply Rabs_le. pose proof (q x x'). pose proof (q x' x) as h. rewrite (Rabs_minus_sym x' x) in h. lra.
Qed.
Lemma quot_core t den p H m : 1 <= m -> 0 < H -> H <= 6 * m -> Rabs p <= H * H / 4 -> Rabs (den - H) <= 8 * uro * H ->
  Rabs (t - 2 * p) <= 5 * uro * Rabs p + 4 * eta -> bpow radix2 (-1000) <= den -> Rabs (t / den - 2 * p / H) <= 40 * uro * m.
Proof.
  intros m1 h0 h6 hp hd ht hlow. pose proof uro_pos as hu. pose proof uro_1024 as hu1. pose proof (bpow_gt_0 radix2 (-1000)) as hb. apply Rabs_le_inv in hd.
  assert (dh : H <= den * (1 + 16 * uro)).
  { apply Rle_trans with ((H - 8 * uro * H) * (1 + 16 * uro)); [|apply Rmult_le_compat_r; lra].
    replace ((H - 8 * uro * H) * (1 + 16 * uro)) with (H + H * (uro * (8 - 128 * uro))) by ring. assert (0 <= H * (uro * (8 - 128 * uro))) by (apply Rmult_le_pos; [lra|]; apply Rmult_le_pos; lra). lra. }
  assert (he : 4 * eta <= uro * den).
  { apply Rle_trans with (uro * bpow radix2 (-1000)); [|nra]. rewrite uro_bpow. unfold eta. replace 4 with (bpow radix2 2) by (cbn; lra). rewrite <- !bpow_plus. apply bpow_le. lia. }
  replace (t / den - 2 * p / H) with (((t - 2 * p) + 2 * p * ((H - den) / H)) / den) by (field; lra).
  unfold Rdiv at 1. rewrite Rabs_mult, (Rabs_pos_eq (/ den)) by (left; apply Rinv_0_lt_compat; lra).
  apply Rmult_le_reg_r with den; [lra|]. rewrite Rmult_assoc, Rinv_l, Rmult_1_r by lra.
  eapply Rle_trans; [apply Rabs_triang|]. rewrite (Rabs_mult (2 * p)), (Rabs_mult 2 p), (Rabs_pos_eq 2) by lra.
  assert (q : Rabs ((H - den) / H) <= 8 * uro).
  { unfold Rdiv. rewrite Rabs_mult, (Rabs_pos_eq (/ H)) by (left; apply Rinv_0_lt_compat; lra). apply Rmult_le_reg_r with H; auto. rewrite Rmult_assoc, Rinv_l by lra. rewrite Rmult_1_r. apply Rabs_le. lra. }
  pose proof (Rabs_pos p) as pp. assert (k1 : 2 * Rabs p * Rabs ((H - den) / H) <= 16 * uro * Rabs p) by (pose proof (Rabs_pos ((H - den) / H)); nra).
  assert (k2 : Rabs p <= H * m * (3 / 2)) by nra. assert (k3 : H * m <= den * m * (1 + 16 * uro)) by nra.
  assert (k4 : 0 <= den * m) by nra. assert (k5 : H * m <= den * m * (65 / 64)) by nra.
  assert (k6 : 21 * uro * Rabs p <= 32 * uro * (den * m)) by nra.
  assert (k7 : uro * den <= uro * (den * m)) by (apply Rmult_le_compat_l; nra). assert (k8 : 0 <= uro * (den * m)) by (apply Rmult_le_pos; lra). lra.
Qed.

Section Absorb.
Variable h : FN -> FN -> FN.
Hypothesis hnf : forall x y, nf x \/ nf y -> nf (h x y).
Variable n : nat.
Definition bad (d : FV) : Prop := exists k, (k < n)%nat /\ nf (d k).

Lemma bad_up d k v : bad d -> (nf (d k) -> nf v) -> bad (up d k v).
Proof.
  intros (j & hj & hb) hv. exists j. split; auto. destruct (Nat.eq_dec j k) as [->|ne]; [rewrite up_eq; auto|rewrite up_ne; auto].
Qed.
Lemma bad_at d k v : (k < n)%nat -> nf v -> bad (up d k v).
Proof. intros hk hv. exists k. rewrite up_eq. auto. Qed.

Lemma cy_r x y c s r : cy h x y = Some (c, s, r) -> r = h x y /\ c = ndiv FN x r /\ s = ndiv FN (nopp FN y) r /\ nis_zero FN y = false.
Proof. unfold cy. destruct (nis_zero FN y); cbn [negb]; [discriminate|]. intros e. injection e as <- <- <-. auto. Qed.

Lemma hor_absorb i e d o : (i < e)%nat -> (e < n)%nat -> bad d -> bad (fst (vhor h i e d o)).
Proof.
  intros hi he hb. unfold vhor. cbn [fst].
  apply (vbrk_inv (vhor_step h e) (fun k s => bad (vd s) /\ ((k < e)%nat -> vy s = vd s (k + 1)%nat)) (fun s => bad (vd s))).
  - split; auto.
  - intros k s hk (h1 & h2). unfold vhor_step. destruct (cy h (vy s) (vx s)) as [[[c s0] r]|] eqn:ec; cbn [fst snd]; auto.
    destruct (cy_r _ _ _ _ _ ec) as (er & _).
    assert (hb' : bad (up (vd s) (k + 1) r)) by (apply bad_up; auto; intros hn; rewrite er; apply hnf; left; rewrite h2 by lia; auto).
    destruct (Nat.eqb_spec (k + 1) e); cbn [negb fst snd vd vy].
    + split; auto. lia.
    + split; auto. intros _. replace (S k + 1)%nat with (k + 2)%nat by lia. reflexivity.
  - intros s (h1 & _). auto.
Qed.
Lemma ver_absorb i d o : (i < n)%nat -> bad d -> bad (fst (vver h i d o)).
Proof.
  intros hi hb. unfold vver. cbn [fst].
  apply (vrbrk_inv (vver_step h) (fun k s => bad (vd s) /\ ((0 < k)%nat -> vx s = vd s (k - 1)%nat)) (fun s => bad (vd s))).
  - split; auto. intros _. cbn [vx vd]. f_equal. lia.
  - intros k s hk (h1 & h2). unfold vver_step. destruct (cy h (vx s) (vy s)) as [[[c s0] r]|] eqn:ec; cbn [fst snd]; auto.
    destruct (cy_r _ _ _ _ _ ec) as (er & _).
    assert (hb' : bad (up (vd s) k r)). { apply bad_up; auto; intros hn; rewrite er; apply hnf; left; rewrite h2 by lia. replace (S k - 1)%nat with k by lia. auto. }
    destruct (Nat.ltb_spec 0 k); cbn [negb fst snd vd vx]; split; auto; lia.
  - intros s (h1 & _). auto.
Qed.
Lemma clear_absorb m k d o : (m < k)%nat -> (k < n)%nat -> bad d -> bad (fst (vclear h m k d o)).
Proof.
  intros hi he hb. unfold vclear. pose proof (hor_absorb m k d o hi he hb). destruct (Nat.eqb_spec m 0); cbn [negb]; auto. apply ver_absorb; auto. lia.
Qed.
Section Eps.
Variable eps : FN.
Hypothesis heps : ffin eps.
Lemma bad_zero d k v : nle FN (nabs FN (d k)) eps = true -> bad d -> bad (up d k v).
Proof. intros hl hb. apply bad_up; auto. intros hn. exfalso. apply (nf_ffin (d k)); auto. apply (nle_ffin _ eps); auto. Qed.
Lemma end_absorb e : forall d o, (e < n)%nat -> bad d -> bad (snd (fst (vend h eps e d o))).
Proof.
  induction e as [|e IH]; intros d o he hb; cbn [vend fst snd]; auto.
  destruct (nis_zero FN (o e) || negl eps (o e) (d (S e)) (d e)); [apply IH; auto; lia|].
  destruct (nle FN (nabs FN (d e)) eps) eqn:e1; [apply IH; [lia|]; apply clear_absorb; try lia; apply bad_zero; auto|].
  destruct (nle FN (nabs FN (d (S e))) eps) eqn:e2; [apply IH; [lia|]; apply ver_absorb; try lia; apply bad_zero; auto|]. auto.
Qed.
Lemma start_absorb e : forall ns d o, (ns <= e)%nat -> (e < n)%nat -> bad d -> bad (snd (fst (vstart h eps e ns d o))).
Proof.
  induction ns as [|ns IH]; intros d o hn he hb; cbn [vstart fst snd]; auto.
  destruct (negl eps (o ns) (d (S ns)) (d ns)); [auto|].
  destruct (nle FN (nabs FN (d ns)) eps) eqn:e1; [apply clear_absorb; try lia; apply bad_zero; auto|]. apply IH; auto. lia.
Qed.
End Eps.

Definition row2 (a00 a01 a10 a11 m12 : FN) : FN * FN * FN * FN * FN :=
  match cy h a00 a10 with
  | None => (a00, a01, n0 FN, a11, m12)
  | Some (c2, s2, r2) =>
      (r2, nadd FN (nmul FN a01 c2) (nmul FN (nopp FN s2) a11), nadd FN (nmul FN (n0 FN) c2) (nmul FN (nopp FN s2) m12),
       nadd FN (nmul FN (nopp FN (nopp FN s2)) a01) (nmul FN a11 c2), nadd FN (nmul FN (nopp FN (nopp FN s2)) (n0 FN)) (nmul FN m12 c2))
  end.
Lemma vsweep_eq start e k s : vsweep_step h start e k s =
  match cy h (vx s) (vy s) with
  | None => (false, s)
  | Some (c1, s1, r1) =>
      let d := vd s in let o := vo s in
      let is := nopp FN s1 in
      let m12 := if Nat.eqb k (e - 1) then n0 FN else o (k + 1)%nat in
      let '(s00, s01, s02, s11, s12) :=
        row2 (nadd FN (nmul FN (d k) c1) (nmul FN is (o k))) (nadd FN (nmul FN (nopp FN is) (d k)) (nmul FN (o k) c1))
             (nadd FN (nmul FN (n0 FN) c1) (nmul FN is (d (k + 1)%nat))) (nadd FN (nmul FN (nopp FN is) (n0 FN)) (nmul FN (d (k + 1)%nat) c1)) m12 in
      let o1 := if Nat.ltb start k then up o (k - 1) r1 else o in
      let o2 := up o1 k s01 in
      (true, VS s01 s02 (up (up d k s00) (k + 1) s11) (if Nat.eqb k (e - 1) then o2 else up o2 (k + 1) s12))
  end.
Proof. reflexivity. Qed.
Lemma row2_nf a00 a01 a10 a11 m12 : nf a00 \/ nf a10 -> nf (fst (fst (fst (fst (row2 a00 a01 a10 a11 m12))))).
Proof.
  intros hn. unfold row2. destruct (cy h a00 a10) as [[[c s] r]|] eqn:ec; cbn [fst].
  - destruct (cy_r _ _ _ _ _ ec) as (-> & _). apply hnf. auto.
  - destruct hn as [hn|hn]; auto. exfalso. unfold cy in ec. rewrite (nf_nz _ hn) in ec. discriminate.
Qed.
Lemma sweep_bad start e k s c1 s1 r1 : (k < n)%nat -> cy h (vx s) (vy s) = Some (c1, s1, r1) ->
  nf c1 \/ nf s1 \/ nf (vd s k) \/ nf (vd s (k + 1)%nat) -> bad (vd (snd (vsweep_step h start e k s))).
Proof.
  intros hk ec hn. rewrite vsweep_eq, ec. cbv zeta.
  match goal with |- context [row2 ?a ?b ?c ?d ?e] => pose proof (row2_nf a b c d e) as hr; destruct (row2 a b c d e) as [[[[s00 s01] s02] s11] s12] end.
  cbn [snd fst vd] in *. exists k. split; auto. rewrite up_ne by lia. rewrite up_eq. apply hr.
  destruct hn as [hn|[hn|[hn|hn]]]; auto with nfd.
Qed.
Lemma sweep_absorb start e k s : (k + 1 < n)%nat -> bad (vd s) -> bad (vd (snd (vsweep_step h start e k s))).
Proof.
  intros hk hb. destruct (cy h (vx s) (vy s)) as [[[c1 s1] r1]|] eqn:ec; [|rewrite vsweep_eq, ec; exact hb].
  destruct (nf_dec (vd s k)) as [h1|h1]; [eapply sweep_bad; eauto; lia|].
  destruct (nf_dec (vd s (k + 1)%nat)) as [h2|h2]; [eapply sweep_bad; eauto; lia|].
  rewrite vsweep_eq, ec. cbv zeta. destruct (row2 _ _ _ _ _) as [[[[s00 s01] s02] s11] s12]. cbn [snd vd].
  destruct hb as (j & hj & hb). exists j. split; auto.
  rewrite !up_ne; auto; intros ->; eapply nf_ffin; eauto.
Qed.
Lemma big_absorb start e d o : (start < e)%nat -> (e < n)%nat -> bad d -> bad (fst (vbig h start e d o)).
Proof.
  intros hs he hb. unfold vbig. cbn [fst].
  apply (vbrk_inv _ (fun k s => bad (vd s)) (fun s => bad (vd s))); auto.
  intros k s hk hs'. pose proof (sweep_absorb start e k s ltac:(lia) hs') as hq. destruct (fst _); auto.
Qed.
Lemma two_absorb start d o : (start + 1 < n)%nat -> bad d -> bad (fst (vtwo h start d o)).
Proof.
  intros hs (j & hj & hb). unfold vtwo. cbn [fst].
  destruct (Nat.eq_dec j start) as [->|n1]; [|destruct (Nat.eq_dec j (start + 1)) as [->|n2]].
  - apply bad_at; auto. apply nf_div_l, nf_add_l, hnf. left. auto with nfd.
  - apply bad_at; auto. apply nf_div_l, nf_add_l, hnf. left. auto with nfd.
  - exists j. split; auto. rewrite !up_ne by auto. auto.
Qed.
End Absorb.

(** ** Rounding errors *)
Definition kp (m : R) : R := 600 * uro * m.

Lemma bidm_at d o j : bidm d o j j = d j. Proof. unfold bidm. bd. reflexivity. Qed.
Lemma bidm_off d o j : bidm d o j (j + 1)%nat = o j. Proof. unfold bidm. bd. reflexivity. Qed.

Section Run.
Variable h : FN -> FN -> FN.
Hypothesis hh : hyp_good h.
Hypothesis hnf : forall x y, nf x \/ nf y -> nf (h x y).
Hypothesis hlow : forall x y, fvalid (h x y) -> ffin (h x y) -> bpow radix2 (-1000) <= fr (h x y).
Variables (n : nat) (B0 : M) (m : R).
Hypotheses (m1 : 1 <= m) (m2 : m <= bpow radix2 28) (hB0 : frob n n B0 <= m / 2).
Local Notation bad := (bad n).

Definition D (d : FV) (j : nat) : R := fr (d j).
Definition oks (d o : FV) : Prop := (forall j, (j < n)%nat -> fokx (d j)) /\ (forall j, (j + 1 < n)%nat -> fokx (o j)).
Definition good (d o : FV) (b : R) : Prop := oks d o /\ near2 n B0 (bidm (D d) (D o)) b.
Definition zz (o o' : FV) : Prop := forall j, (j + 1 < n)%nat -> fr (o j) = 0 -> fr (o' j) = 0.

Lemma m_v : m <= 268435456.
Proof. eapply Rle_trans; [exact m2|]. cbn. lra. Qed.
Lemma m_big : m <= mbig.
Proof. rewrite mbig_v. pose proof m_v. lra. Qed.
Lemma cap_m : 1000 * m <= cap.
Proof. pose proof m_v. apply Rle_trans with (bpow radix2 60); [cbn; lra|]. unfold cap. apply bpow_le. lia. Qed.
Lemma kp_pos : 0 <= kp m. Proof. unfold kp. pose proof uro_pos. nra. Qed.
Lemma um_pos : 0 <= uro * m. Proof. pose proof uro_pos. nra. Qed.

Lemma near2_entry T b p q : b <= m / 2 -> near2 n B0 T b -> (p < n)%nat -> (q < n)%nat -> Rabs (T p q) <= m.
Proof.
  intros hb hn hp hq. eapply Rle_trans; [apply (frob_entry_le n n); auto|]. eapply Rle_trans; [apply (near2_frob _ _ _ _ hn)|]. lra.
Qed.
Lemma good_d d o b j : b <= m / 2 -> good d o b -> (j < n)%nat -> ent_ok m (d j).
Proof. intros hb ((h1 & _) & h2) hj. split; auto. rewrite <- (bidm_at (D d) (D o) j : _ = fr (d j)). eapply near2_entry; eauto. Qed.
Lemma good_o d o b j : b <= m / 2 -> good d o b -> (j + 1 < n)%nat -> ent_ok m (o j).
Proof. intros hb ((_ & h1) & h2) hj. split; auto. rewrite <- (bidm_off (D d) (D o) j : _ = fr (o j)). eapply near2_entry; eauto. lia. Qed.
Lemma good_weak d o b b' : b <= b' -> good d o b -> good d o b'.
Proof. intros hb (h1 & h2). split; auto. eapply near2_weak; eauto. Qed.
Lemma fokx_0 : fokx (n0 FN). Proof. split; reflexivity. Qed.
Lemma one_ok : apx (n1 FN) 1 1 0.
Proof.
  assert (e : fr (n1 FN) = 1) by exact fr_f1. assert (q : apx (n1 FN) (fr (n1 FN)) 1 0) by (apply apx_exact; [split; reflexivity|lra|rewrite e, Rabs_R1; lra]).
  rewrite e in q. exact q.
Qed.
Lemma zero_ok : apx (n0 FN) 0 1 0.
Proof.
  assert (q : apx (n0 FN) (fr (n0 FN)) 1 0) by (apply apx_exact; [split; reflexivity|lra|rewrite fr_0, Rabs_R0; lra]).
  rewrite fr_0 in q. exact q.
Qed.
Lemma ent_cap x : ent_ok m x -> fokx x /\ Rabs (fr x) <= cap.
Proof. intros (h1 & h2). split; auto. pose proof cap_m. lra. Qed.

Lemma cy_f x y : fokx x -> fokx y -> Rabs (fr x) <= cap -> Rabs (fr y) <= cap ->
  match cy h x y with
  | None => fr y = 0
  | Some (c, s, r) => fr y <> 0 /\
      ((nf c /\ nf s /\ nf r) \/
       (apx c (gc (fr x) (fr y)) 1 6 /\ apx s (gs (fr x) (fr y)) 1 6 /\ fokx r /\
        Rabs (fr r - sqrt (fr x * fr x + fr y * fr y)) <= 3 * uro * sqrt (fr x * fr x + fr y * fr y)))
  end.
Proof.
  intros hx hy bx by_. pose proof (cancel_y_f h hh x y hx hy bx by_) as q. rewrite cy_link in q.
  destruct (cy h x y) as [[[c s] r]|] eqn:ec; auto. destruct q as (q1 & q2). split; auto. destruct q2 as [e|q2]; auto.
  left. injection e as -> ->. split; [apply nf_nan|]. split; [apply nf_nan|].
  destruct (cy_r _ _ _ _ _ _ ec) as (er & e1 & e2 & ez). destruct (nf_dec r) as [hr|hr]; auto. exfalso.
  destruct hh as (h1 & _). destruct (h1 x y (proj1 hx) (proj2 hx) (proj1 hy) (proj2 hy) bx by_) as [e|(r1 & r2 & r3)].
  { rewrite <- er in e. rewrite e in hr. discriminate. }
  rewrite <- er in *. pose proof (hyp_pos (fr x) (fr y) q1) as hp. set (rr := sqrt (fr x * fr x + fr y * fr y)) in *.
  assert (le1 : Rabs (fr x) <= rr) by (apply Rabs_le_of_sq; [lra|]; unfold rr; rewrite hyp_sq; pose proof (Rle_0_sqr (fr y)) as q; unfold Rsqr in q; lra).
  pose proof (quot_apx x r (fr x) rr hx (conj r1 r2) eq_refl hp le1 r3) as [(_ & k1) _ _ _ _]. rewrite <- e1 in k1. discriminate.
Qed.
Lemma cy_norm x y : Rabs (fr x) <= m -> Rabs (fr y) <= m -> sqrt (fr x * fr x + fr y * fr y) <= 2 * m.
Proof.
  intros hx hy. apply Rsqr_incr_0_var; [|lra]. unfold Rsqr. rewrite hyp_sq. pose proof (Rabs_sq (fr x)). pose proof (Rabs_sq (fr y)).
  pose proof (Rabs_pos (fr x)). pose proof (Rabs_pos (fr y)). nra.
Qed.
Lemma gm_orth a b x y : a <> b -> y <> 0 -> (a < n)%nat -> (b < n)%nat -> orthogonal n (gm a b (gc x y) (gs x y)).
Proof. intros hab hy ha hb. apply gm_orthogonal; auto. apply gcs. auto. Qed.

(** *** Horizontal chase *)
Lemma hor_f i e d o b : (i < e)%nat -> (e < n)%nat -> ((e + 1 < n)%nat -> fr (o e) = 0) -> fr (d i) = 0 ->
  b + INR (e - i) * kp m <= m / 2 -> good d o b ->
  let r := vhor h i e d o in
  bad (fst r) \/ (good (fst r) (snd r) (b + INR (e - i) * kp m) /\ fr (fst r i) = 0 /\ fr (snd r i) = 0 /\ zz o (snd r)).
Proof.
  intros hi he hoe hdi hb ((g1 & g2) & g3). cbv zeta. unfold vhor. cbn [fst snd].
  set (P := fun k s => (forall j, (j < n)%nat -> fokx (vd s j)) /\ (forall j, (j + 1 < n)%nat -> fokx (vo s j)) /\
    near2 n B0 (ubid (D (vd s)) (D (vo s)) (if Nat.ltb k e then fr (vx s) else 0) i (k + 1)) (b + INR (k - i) * kp m) /\
    ((k < e)%nat -> vy s = vd s (k + 1)%nat /\ fokx (vx s)) /\ fr (vd s i) = 0 /\ fr (vo s i) = 0 /\ zz o (vo s) /\ ((e + 1 < n)%nat -> fr (vo s e) = 0)).
  set (Q := fun s => bad (vd s) \/ (good (vd s) (vo s) (b + INR (e - i) * kp m) /\ fr (vd s i) = 0 /\ fr (vo s i) = 0 /\ zz o (vo s))).
  pose proof kp_pos as kpp.
  apply (vbrk_inv (vhor_step h e) (fun k s => bad (vd s) /\ ((k < e)%nat -> vy s = vd s (k + 1)%nat) \/ P k s) Q).
  - right. unfold P. cbn [vx vy vd vo]. split; auto. split. { intros j hj. unfold up. bd; auto. apply fokx_0. }
    split. { replace (i - i)%nat with 0%nat by lia. rewrite Rmult_0_l, Rplus_0_r. eapply near2_ext; [|exact g3]. intros p q hp hq. unfold ubid, bidm, D, up. bd; subst; auto; lia. }
    split; [intros _; split; auto; apply g2; lia|]. split; auto. split; [rewrite up_eq; apply fr_0|].
    split. { intros j hj e0. unfold up. bd; auto using fr_0. }
    intros hh'. rewrite up_ne by lia. auto.
  - intros k s hk [(hbad & hvy)|(p1 & p2 & p3 & p4 & p5 & p6 & p7 & p8)].
    + unfold vhor_step. destruct (cy h (vy s) (vx s)) as [[[c s0] r]|] eqn:ec; cbn [fst snd]; [|left; auto].
      destruct (cy_r _ _ _ _ _ _ ec) as (er & _).
      assert (hb' : bad (up (vd s) (k + 1) r)) by (apply bad_up; auto; intros hn; rewrite er; apply hnf; left; rewrite hvy by lia; auto).
      destruct (Nat.eqb_spec (k + 1) e); cbn [negb fst snd vd vy]; left; (split; auto); [lia|].
      intros _. replace (S k + 1)%nat with (k + 2)%nat by lia. reflexivity.
    + destruct (p4 ltac:(lia)) as (evy & hx).
      destruct (Nat.ltb_spec k e) as [_|]; [|lia].
      assert (hINR : INR (S k - i) = INR (k - i) + 1) by (rewrite <- S_INR; f_equal; lia).
      assert (hle : INR (S k - i) <= INR (e - i)) by (apply le_INR; lia).
      assert (hb1 : b + INR (k - i) * kp m + kp m <= m / 2).
      { eapply Rle_trans; [|exact hb]. replace (b + INR (k - i) * kp m + kp m) with (b + INR (S k - i) * kp m) by (rewrite hINR; ring). nra. }
      assert (hb0 : b + INR (k - i) * kp m <= m / 2) by lra.
      assert (bx : Rabs (fr (vx s)) <= m).
      { pose proof (near2_entry _ _ i (k + 1) hb0 p3 ltac:(lia) ltac:(lia)) as q. unfold ubid in q. rewrite !Nat.eqb_refl in q. exact q. }
      assert (by_ : Rabs (fr (vd s (k + 1)%nat)) <= m).
      { pose proof (near2_entry _ _ (k + 1) (k + 1) hb0 p3 ltac:(lia) ltac:(lia)) as q. unfold ubid in q. revert q. bd; auto; lia. }
      pose proof cap_m as hcap.
      pose proof (cy_f (vd s (k + 1)%nat) (vx s) (p1 (k + 1)%nat ltac:(lia)) hx ltac:(lra) ltac:(lra)) as hc.
      unfold vhor_step. rewrite evy. destruct (cy h (vd s (k + 1)%nat) (vx s)) as [[[c s0] r]|]; cbn [fst snd].
      2:{ right. split; [split; [split; auto|]|auto]. apply near2_weak with (b + INR (k - i) * kp m); [nra|].
          rewrite hc in p3. eapply near2_ext; [|exact p3]. apply ubid_00; [lia|]. intros _. exact p6. }
      destruct hc as (hx0 & [(_ & _ & hr)|(ac & as_ & kr & er)]).
      * assert (hb' : bad (up (vd s) (k + 1) r)) by (apply bad_at; auto; lia).
        destruct (Nat.eqb_spec (k + 1) e); cbn [negb fst snd vd vy]; left; (split; auto); [lia|].
        intros _. replace (S k + 1)%nat with (k + 2)%nat by lia. reflexivity.
      * set (X := fr (vx s)) in *. set (Y := fr (vd s (k + 1)%nat)) in *. destruct (gcs Y X hx0) as (u1 & u2 & u3).
        pose proof (cy_norm (vd s (k + 1)%nat) (vx s) by_ bx) as hnorm. fold X Y in hnorm.
        pose proof um_pos as hum. pose proof uro_pos as hu. pose proof big1000 as hbig. pose proof m_v as hmv.
        assert (er' : Rabs (- gs Y X * X + gc Y X * Y - fr r) <= 80 * uro * m).
        { replace (- gs Y X * X + gc Y X * Y) with (sqrt (Y * Y + X * X)) by lra. rewrite Rabs_minus_sym. eapply Rle_trans; [exact er|]. nra. }
        assert (hG : orthogonal n (gm i (k + 1) (gc Y X) (- gs Y X))) by (apply gm_orthogonal; auto; try lia; lra).
        destruct (Nat.eqb_spec (k + 1) e) as [eke|nke]; cbn [negb fst snd vd vy].
        -- right. unfold P. cbn [vd vo vx vy].
           split. { intros j hj. unfold up. bd; auto. }
           split; auto. split.
           { bd. replace (b + INR (S k - i) * kp m) with (b + INR (k - i) * kp m + kp m) by (rewrite hINR; ring).
             apply (near2_left n B0 _ _ (gm i (k + 1) (gc Y X) (- gs Y X)) _ _ hG p3). eapply Rle_trans with (3 * (80 * uro * m)); [|unfold kp; lra].
             replace (S k + 1)%nat with (k + 2)%nat by lia. apply hor_chase_ap; auto; try lia; try lra.
             - unfold D. fold Y. lra.
             - unfold D. fold Y. rewrite up_eq. exact er'.
             - intros hk2. unfold D. replace (k + 1)%nat with e by lia. rewrite p8 by lia. rewrite !Rmult_0_r, !Rminus_0_r, !Rabs_R0. split; lra.
             - intros j hj hne. unfold D. rewrite up_ne by auto. reflexivity. }
           split; [lia|]. split; [rewrite up_ne by lia; auto|]. auto.
        -- right. unfold P. cbn [vd vo vx vy]. set (ok := vo s (k + 1)%nat).
           assert (hok : ent_ok m ok).
           { split; [apply p2; lia|]. pose proof (near2_entry _ _ (k + 1) (k + 2) hb0 p3 ltac:(lia) ltac:(lia)) as q. unfold ubid in q. revert q. bd; try lia; auto. }
           assert (aok := ent_apx m ok m1 hok).
           pose proof (apx_mul _ _ _ _ _ _ _ _ aok ac ltac:(unfold amax_; lra) ltac:(lra)) as a1.
           assert (an1 : apx (nopp FN (n1 FN)) (-1) 1 0).
           { pose proof one_ok as q.
             apply (apx_opp _ _ _ _ q). }
           pose proof (apx_mul _ _ _ _ _ _ _ _ as_ an1 ltac:(unfold amax_; lra) ltac:(lra)) as a2.
           pose proof (apx_mul _ _ _ _ _ _ _ _ (apx_opp _ _ _ _ a2) aok ltac:(unfold amax_; lra) ltac:(lra)) as a3.
           apply apx_err in a1 as (k1 & e1). apply apx_err in a3 as (k3 & e3).
           split. { intros j hj. unfold up. bd; auto. }
           split. { intros j hj. unfold up. bd; auto. }
           split.
           { bd. replace (b + INR (S k - i) * kp m) with (b + INR (k - i) * kp m + kp m) by (rewrite hINR; ring).
             apply (near2_left n B0 _ _ (gm i (k + 1) (gc Y X) (- gs Y X)) _ _ hG p3). eapply Rle_trans with (3 * (80 * uro * m)); [|unfold kp; lra].
             replace (S k + 1)%nat with (k + 2)%nat by lia. apply hor_chase_ap; auto; try lia; try lra.
             - unfold D. fold Y. lra.
             - unfold D. fold Y. rewrite up_eq. exact er'.
             - intros hk2. unfold D. rewrite up_eq. fold ok. split; rewrite Rabs_minus_sym.
               + replace (gc Y X * fr ok) with (fr ok * gc Y X) by ring. eapply Rle_trans; [exact e1|]. nra.
               + replace (- - gs Y X * fr ok) with (- (gs Y X * -1) * fr ok) by ring. eapply Rle_trans; [exact e3|]. nra.
             - intros j hj hne. unfold D. rewrite up_ne by auto. reflexivity.
             - intros j hj hne. unfold D. rewrite up_ne by auto. reflexivity. }
           split. { intros _. split; [replace (S k + 1)%nat with (k + 2)%nat by lia; reflexivity|auto]. }
           split; [rewrite up_ne by lia; auto|]. split; [rewrite up_ne by lia; auto|].
           split. { intros j hj e0. unfold up. destruct (Nat.eqb_spec j (k + 1)) as [->|]; auto.
             pose proof (p7 _ hj e0) as z. change (vo s (k + 1)%nat) with ok in z. rewrite z in e1. 
             destruct hok as ((_ & fo) & _). destruct (zero_sf ok fo z) as (sg & eo). fold ok. rewrite eo. destruct ac as [(_ & fc) _ _ _ _]. clear - fc.
             destruct c as [a|a| |a ma ea]; try discriminate fc; reflexivity. }
           intros hk2. rewrite up_ne by lia. auto.
  - intros s [(hbad & _)|(p1 & p2 & p3 & p4 & p5 & p6 & p7 & p8)]; [left; auto|right]. split; auto. split; [split; auto|].
    revert p3. replace (i + (e - i))%nat with e by lia. bd. intros p3. eapply near2_ext; [|exact p3]. apply ubid_00; [lia|]. intros _. exact p6.
Qed.

(** *** Vertical chase *)
Lemma ver_f i d o b : (i + 1 < n)%nat -> fr (d (i + 1)%nat) = 0 ->
  b + INR (i + 1) * kp m <= m / 2 -> good d o b ->
  let r := vver h i d o in
  bad (fst r) \/ (good (fst r) (snd r) (b + INR (i + 1) * kp m) /\ fr (snd r i) = 0 /\ zz o (snd r)).
Proof.
  intros hi hdi hb ((g1 & g2) & g3). cbv zeta. unfold vver. cbn [fst snd].
  set (P := fun k s => (forall j, (j < n)%nat -> fokx (vd s j)) /\ (forall j, (j + 1 < n)%nat -> fokx (vo s j)) /\
    near2 n B0 (zbid (D (vd s)) (D (vo s)) (fr (vy s)) k i) (b + INR (i + 1 - k) * kp m) /\
    ((0 < k)%nat -> vx s = vd s (k - 1)%nat /\ fokx (vy s)) /\ fr (vd s (i + 1)%nat) = 0 /\ fr (vo s i) = 0 /\ zz o (vo s)).
  set (Q := fun s => bad (vd s) \/ (good (vd s) (vo s) (b + INR (i + 1) * kp m) /\ fr (vo s i) = 0 /\ zz o (vo s))).
  pose proof kp_pos as kpp.
  apply (vrbrk_inv (vver_step h) (fun k s => (k <= i + 1)%nat /\ (bad (vd s) /\ ((0 < k)%nat -> vx s = vd s (k - 1)%nat) \/ P k s)) Q).
  - split; [lia|]. right. unfold P. cbn [vx vy vd vo]. split; auto. split. { intros j hj. unfold up. bd; auto. apply fokx_0. }
    split. { rewrite Nat.sub_diag. rewrite Rmult_0_l, Rplus_0_r. eapply near2_ext; [|exact g3]. intros p q hp hq. unfold zbid, bidm, D, up. bd; subst; auto; f_equal; f_equal; lia. }
    split. { intros _. split; [f_equal; lia|apply g2; lia]. }
    split; auto. split; [rewrite up_eq; apply fr_0|].
    intros j hj e0. unfold up. bd; auto using fr_0.
  - intros k s hk (hk' & [(hbad & hvy)|(p1 & p2 & p3 & p4 & p5 & p6 & p7)]).
    + unfold vver_step. destruct (cy h (vx s) (vy s)) as [[[c s0] r]|] eqn:ec; cbn [fst snd]; [|left; auto].
      destruct (cy_r _ _ _ _ _ _ ec) as (er & _).
      assert (hb' : bad (up (vd s) k r)). { apply bad_up; auto; intros hn; rewrite er; apply hnf; left; rewrite hvy by lia. replace (S k - 1)%nat with k by lia. auto. }
      destruct (Nat.ltb_spec 0 k); cbn [negb fst snd vd vx]; (split; [lia|]); left; (split; auto); lia.
    + destruct (p4 ltac:(lia)) as (evx & hy). replace (S k - 1)%nat with k in evx by lia.
      assert (hINR : INR (i + 1 - k) = INR (i + 1 - S k) + 1) by (rewrite <- S_INR; f_equal; lia).
      assert (hle : INR (i + 1 - k) <= INR (i + 1)) by (apply le_INR; lia).
      assert (hb1 : b + INR (i + 1 - S k) * kp m + kp m <= m / 2).
      { eapply Rle_trans; [|exact hb]. replace (b + INR (i + 1 - S k) * kp m + kp m) with (b + INR (i + 1 - k) * kp m) by (rewrite hINR; ring). nra. }
      assert (hb0 : b + INR (i + 1 - S k) * kp m <= m / 2) by lra.
      assert (by_ : Rabs (fr (vy s)) <= m).
      { pose proof (near2_entry _ _ k (i + 1) hb0 p3 ltac:(lia) ltac:(lia)) as q. unfold zbid in q. revert q. bd; auto; lia. }
      assert (bx : Rabs (fr (vd s k)) <= m).
      { pose proof (near2_entry _ _ k k hb0 p3 ltac:(lia) ltac:(lia)) as q. unfold zbid in q. revert q. bd; auto; lia. }
      pose proof cap_m as hcap.
      pose proof (cy_f (vd s k) (vy s) (p1 k ltac:(lia)) hy ltac:(lra) ltac:(lra)) as hc.
      unfold vver_step. rewrite evx. destruct (cy h (vd s k) (vy s)) as [[[c s0] r]|]; cbn [fst snd].
      2:{ right. split; [split; [split; auto|]|auto]. apply near2_weak with (b + INR (i + 1 - S k) * kp m); [nra|].
          rewrite hc in p3. eapply near2_ext; [|exact p3]. rewrite zbid_0 by lia. apply bidm_ext; auto. intros j hj. bd; auto. subst j. symmetry. exact p6. }
      destruct hc as (hx0 & [(_ & _ & hr)|(ac & as_ & kr & er)]).
      * assert (hb' : bad (up (vd s) k r)) by (apply bad_at; auto; lia).
        destruct (Nat.ltb_spec 0 k); cbn [negb fst snd vd vx]; (split; [lia|]); left; (split; auto); lia.
      * set (X := fr (vd s k)) in *. set (Y := fr (vy s)) in *. destruct (gcs X Y hx0) as (u1 & u2 & u3).
        pose proof (cy_norm (vd s k) (vy s) bx by_) as hnorm. fold X Y in hnorm.
        pose proof um_pos as hum. pose proof uro_pos as hu. pose proof big1000 as hbig. pose proof m_v as hmv.
        assert (er' : Rabs (gc X Y * X - gs X Y * Y - fr r) <= 80 * uro * m).
        { rewrite u3. rewrite Rabs_minus_sym. eapply Rle_trans; [exact er|]. nra. }
        assert (hG : orthogonal n (gm k (i + 1) (gc X Y) (gs X Y))) by (apply gm_orthogonal; auto; try lia; lra).
        destruct (Nat.ltb_spec 0 k) as [hk0|hk0]; cbn [negb fst snd vd vx]; (split; [lia|]); right; unfold P; cbn [vd vo vx vy].
        2:{ assert (k = 0)%nat by lia. subst k.
           split. { intros j hj. unfold up. bd; auto. }
           split; auto. split.
           { replace (b + INR (i + 1 - 0) * kp m) with (b + INR (i + 1 - 1) * kp m + kp m) by (rewrite hINR; ring).
             apply (near2_right n B0 _ _ (gm 0 (i + 1) (gc X Y) (gs X Y)) _ _ hG p3). eapply Rle_trans with (3 * (80 * uro * m)); [|unfold kp; lra].
             apply ver_chase_ap; auto; try lia; try lra.
             - intros j hj hne. unfold D. rewrite up_ne by auto. reflexivity. }
           split; [lia|]. split; [rewrite up_ne by lia; auto|]. auto. }
        set (ok := vo s (k - 1)%nat).
        assert (hok : ent_ok m ok).
        { split; [apply p2; lia|]. pose proof (near2_entry _ _ (k - 1) k hb0 p3 ltac:(lia) ltac:(lia)) as q. unfold zbid in q. revert q. bd; try lia; auto. }
        assert (aok := ent_apx m ok m1 hok).
        pose proof (apx_mul _ _ _ _ _ _ _ _ aok ac ltac:(unfold amax_; lra) ltac:(lra)) as a1.
        pose proof (apx_mul _ _ _ _ _ _ _ _ as_ aok ltac:(unfold amax_; lra) ltac:(lra)) as a3.
        apply apx_err in a1 as (k1 & e1). apply apx_err in a3 as (k3 & e3).
        split. { intros j hj. unfold up. bd; auto. }
        split. { intros j hj. unfold up. bd; auto. }
        split.
        { replace (b + INR (i + 1 - k) * kp m) with (b + INR (i + 1 - S k) * kp m + kp m) by (rewrite hINR; ring).
          apply (near2_right n B0 _ _ (gm k (i + 1) (gc X Y) (gs X Y)) _ _ hG p3). eapply Rle_trans with (3 * (80 * uro * m)); [|unfold kp; lra].
          apply ver_chase_ap; auto; try lia; try lra.
          - unfold D. rewrite up_eq. fold X. exact er'.
          - intros j ej. unfold D. replace j with (k - 1)%nat by lia. rewrite up_eq. fold ok. split; rewrite Rabs_minus_sym.
            + replace (gc X Y * fr ok) with (fr ok * gc X Y) by ring. eapply Rle_trans; [exact e1|]. nra.
            + eapply Rle_trans; [exact e3|]. nra.
          - intros j hj hne. unfold D. rewrite up_ne by auto. reflexivity.
          - intros j hj hne. unfold D. rewrite up_ne by lia. reflexivity. }
        split. { intros _. split; auto. }
        split; [rewrite up_ne by lia; auto|]. split; [rewrite up_ne by lia; auto|].
        intros j hj e0. unfold up. destruct (Nat.eqb_spec j (k - 1)) as [->|]; auto.
        pose proof (p7 _ hj e0) as z. change (vo s (k - 1)%nat) with ok in z.
        destruct hok as ((_ & fo) & _). destruct (zero_sf ok fo z) as (sg & eo). fold ok. rewrite eo. destruct ac as [(_ & fc) _ _ _ _]. clear - fc.
        destruct c as [a|a| |a ma ea]; try discriminate fc; reflexivity.
  - intros s (_ & [(hbad & _)|(p1 & p2 & p3 & p4 & p5 & p6 & p7)]); [left; auto|right]. split; auto. split; [split; auto|].
    revert p3. rewrite Nat.sub_0_r. intros p3. eapply near2_ext; [|exact p3]. intros p q hp hq. unfold zbid, bidm. bd; auto.
Qed.

Ltac apx0 := solve [eassumption | apply apx_opp; eassumption | apply apx_opp, apx_opp; eassumption].
Ltac amx := first [unfold amax_; lra | lra].
Ltac apxm a := eapply (apx_weak _ _ _ a); [eapply apx_mul; [apx0|apx0|amx|amx]|lra|unfold amax_; lra].
(** *** Second rotation of a sweep step *)
Lemma row2_f a00 a01 a10 a11 m12 A00 A01 A10 A11 :
  apx a00 A00 (2 * m) 10 -> apx a01 A01 (2 * m) 10 -> apx a10 A10 (2 * m) 10 -> apx a11 A11 (2 * m) 10 -> ent_ok m m12 ->
  let '(s00, s01, s02, s11, s12) := row2 h a00 a01 a10 a11 m12 in
  nf s00 \/ exists C S, C * C + S * S = 1 /\ fokx s00 /\ fokx s01 /\ fokx s02 /\ fokx s11 /\ fokx s12 /\
    Rabs (C * A00 - S * A10 - fr s00) <= 80 * uro * m /\ Rabs (S * A00 + C * A10) <= 80 * uro * m /\
    Rabs (C * A01 - S * A11 - fr s01) <= 80 * uro * m /\ Rabs (S * A01 + C * A11 - fr s11) <= 80 * uro * m /\
    Rabs (- S * fr m12 - fr s02) <= 80 * uro * m /\ Rabs (C * fr m12 - fr s12) <= 80 * uro * m.
Proof.
  intros h00 h01 h10 h11 hm12. pose proof um_pos as hum. pose proof uro_pos as hu. pose proof uro_1024 as hu1. pose proof big1000 as hbig. pose proof m_v as hmv. pose proof cap_m as hcap.
  pose proof (apx_abs _ _ _ _ h00) as b00. pose proof (apx_abs _ _ _ _ h10) as b10.
  pose proof (apx_err _ _ _ _ h00) as (k00 & e00). pose proof (apx_err _ _ _ _ h10) as (k10 & e10).
  pose proof (apx_err _ _ _ _ h01) as (k01 & e01). pose proof (apx_err _ _ _ _ h11) as (k11 & e11).
  assert (b00' : Rabs (fr a00) <= 3 * m) by (eapply Rle_trans; [exact b00|]; nra).
  assert (b10' : Rabs (fr a10) <= 3 * m) by (eapply Rle_trans; [exact b10|]; nra).
  pose proof (cy_f a00 a10 k00 k10 ltac:(lra) ltac:(lra)) as hc. unfold row2. destruct (cy h a00 a10) as [[[c s] r]|].
  2:{ right. exists 1, 0. split; [ring|]. split; auto. split; auto. split; [apply fokx_0|]. split; auto. split; [apply hm12|].
      assert (hz : A10 = - (fr a10 - A10)) by (rewrite hc; ring).
      split. { replace (1 * A00 - 0 * A10 - fr a00) with (- (fr a00 - A00)) by ring. rewrite Rabs_Ropp. eapply Rle_trans; [exact e00|]. lra. }
      split. { replace (0 * A00 + 1 * A10) with (- (fr a10 - A10)) by lra. rewrite Rabs_Ropp. eapply Rle_trans; [exact e10|]. lra. }
      split. { replace (1 * A01 - 0 * A11 - fr a01) with (- (fr a01 - A01)) by ring. rewrite Rabs_Ropp. eapply Rle_trans; [exact e01|]. lra. }
      split. { replace (0 * A01 + 1 * A11 - fr a11) with (- (fr a11 - A11)) by ring. rewrite Rabs_Ropp. eapply Rle_trans; [exact e11|]. lra. }
      split. { rewrite fr_0. replace (-0 * fr m12 - 0) with 0 by ring. rewrite Rabs_R0. lra. }
      replace (1 * fr m12 - fr m12) with 0 by ring. rewrite Rabs_R0. lra. }
  destruct hc as (hy0 & [(_ & _ & hr)|(ac & as_ & kr & er)]); [left; exact hr|right].
  set (C := gc (fr a00) (fr a10)) in *. set (S := gs (fr a00) (fr a10)) in *. destruct (gcs (fr a00) (fr a10) hy0) as (u1 & u2 & u3). fold C S in u1, u2, u3.
  destruct (gcs_le (fr a00) (fr a10) hy0) as (lc & ls). fold C in lc. fold S in ls.
  assert (am := ent_apx m m12 m1 hm12). pose proof zero_ok as az.
  assert (P1 : apx (nadd FN (nmul FN a01 c) (nmul FN (nopp FN s) a11)) (A01 * C + - S * A11) (2 * m * 1 + 1 * (2 * m)) (10 + 6 + 2 + 2)).
  { apply apx_add; [apxm (10 + 6 + 2)|apxm (6 + 10 + 2)|amx|amx]. }
  assert (P2 : apx (nadd FN (nmul FN (n0 FN) c) (nmul FN (nopp FN s) m12)) (0 * C + - S * fr m12) (1 * 1 + 1 * m) (8 + 2)).
  { apply apx_add; [apxm (0 + 6 + 2)|apxm (6 + 0 + 2)|amx|amx]. }
  assert (P3 : apx (nadd FN (nmul FN (nopp FN (nopp FN s)) a01) (nmul FN a11 c)) (- - S * A01 + A11 * C) (1 * (2 * m) + 2 * m * 1) (18 + 2)).
  { apply apx_add; [apxm (6 + 10 + 2)|apxm (10 + 6 + 2)|amx|amx]. }
  assert (P4 : apx (nadd FN (nmul FN (nopp FN (nopp FN s)) (n0 FN)) (nmul FN m12 c)) (- - S * 0 + fr m12 * C) (1 * 1 + m * 1) (8 + 2)).
  { apply apx_add; [apxm (6 + 0 + 2)|apxm (0 + 6 + 2)|amx|amx]. }
  apply apx_err in P1 as (q1 & f1). apply apx_err in P2 as (q2 & f2). apply apx_err in P3 as (q3 & f3). apply apx_err in P4 as (q4 & f4).
  exists C, S. split; auto. split; auto. split; auto. split; auto. split; auto. split; auto.
  assert (t1 : forall x, Rabs x <= 10 * uro * (2 * m) -> Rabs (C * x) <= 20 * uro * m /\ Rabs (S * x) <= 20 * uro * m).
  { intros x hx. rewrite !Rabs_mult. pose proof (Rabs_pos x). pose proof (Rabs_pos C). pose proof (Rabs_pos S). split; nra. }
  destruct (t1 _ e00) as (v1 & v2). destruct (t1 _ e10) as (v3 & v4).
  assert (hn : sqrt (fr a00 * fr a00 + fr a10 * fr a10) <= 6 * m).
  { rewrite <- u3. apply Rle_trans with (Rabs (C * fr a00 - S * fr a10)); [apply Rle_abs|]. unfold Rminus. eapply Rle_trans; [apply Rabs_triang|]. rewrite Rabs_Ropp, !Rabs_mult.
    pose proof (Rabs_pos (fr a00)). pose proof (Rabs_pos (fr a10)). pose proof (Rabs_pos C). pose proof (Rabs_pos S). nra. }
  split.
  { rewrite <- u3 in er, hn. replace (C * A00 - S * A10 - fr r) with (- (fr r - (C * fr a00 - S * fr a10)) - C * (fr a00 - A00) + S * (fr a10 - A10)) by ring.
    eapply Rle_trans; [apply Rabs_triang|]. eapply Rle_trans; [apply Rplus_le_compat_r; unfold Rminus at 1; apply Rabs_triang|]. rewrite !Rabs_Ropp.
    assert (Rabs (fr r - (C * fr a00 - S * fr a10)) <= 18 * (uro * m)) by (eapply Rle_trans; [exact er|]; nra). lra. }
  split.
  { replace (S * A00 + C * A10) with ((S * fr a00 + C * fr a10) + (- (S * (fr a00 - A00)) + - (C * (fr a10 - A10)))) by ring. rewrite u2, Rplus_0_l.
    eapply Rle_trans; [apply Rabs_triang|]. rewrite !Rabs_Ropp. lra. }
  split; [|split; [|split]]; rewrite Rabs_minus_sym.
  - replace (C * A01 - S * A11) with (A01 * C + - S * A11) by ring. eapply Rle_trans; [exact f1|]. lra.
  - replace (S * A01 + C * A11) with (- - S * A01 + A11 * C) by ring. eapply Rle_trans; [exact f3|]. lra.
  - replace (- S * fr m12) with (0 * C + - S * fr m12) by ring. eapply Rle_trans; [exact f2|]. nra.
  - replace (C * fr m12) with (- - S * 0 + fr m12 * C) by ring. eapply Rle_trans; [exact f4|]. nra.
Qed.

(** *** A sweep *)
Section Sweep.
Variables (start e : nat) (o0 : FV).
Hypotheses (hse : (start < e)%nat) (hen : (e < n)%nat) (hz1 : (e + 1 < n)%nat -> fr (o0 e) = 0) (hz2 : (0 < start)%nat -> fr (o0 (start - 1)%nat) = 0).

Definition swf (b : R) (k : nat) (s : vst) : Prop :=
  oks (vd s) (vo s) /\
  near2 n B0 (sbid (D (vd s)) (D (vo s)) (if Nat.ltb start k && Nat.ltb k e then fr (vy s) else 0) k) b /\
  ((start < k)%nat -> (k < e)%nat -> vx s = vo s (k - 1)%nat /\ fokx (vy s)) /\
  (k = start -> (nf (vx s) \/ ent_ok cap (vx s)) /\ ent_ok cap (vy s)) /\
  (forall j, (j < start)%nat \/ (e <= j)%nat -> vo s j = o0 j).

Lemma swf_bid b k s : swf b k s -> ((start < k)%nat -> (k < e)%nat -> fr (vy s) = 0) -> good (vd s) (vo s) b.
Proof.
  intros (p1 & p2 & _) hy. split; auto. eapply near2_ext; [|exact p2]. rewrite <- sbid_0 with (k := k).
  destruct (Nat.ltb_spec start k), (Nat.ltb_spec k e); cbn [andb]; try reflexivity. rewrite hy by auto. reflexivity.
Qed.

Lemma sweep_step_f b k s : (start <= k)%nat -> (k < e)%nat -> b + kp m <= m / 2 -> (bad (vd s) \/ swf b k s) ->
  let r := vsweep_step h start e k s in
  bad (vd (snd r)) \/ if fst r then swf (b + kp m) (S k) (snd r) else good (vd (snd r)) (vo (snd r)) b /\ (forall j, (j < start)%nat \/ (e <= j)%nat -> vo (snd r) j = o0 j).
Proof.
  intros hs hk hbm hor. cbv zeta. pose proof kp_pos as kp0.
  destruct hor as [hb|hw]; [left; apply sweep_absorb; auto; lia|].
  pose proof hw as ((p1 & p1') & p2 & p3 & p4 & p5).
  pose proof um_pos as hum. pose proof uro_pos as hu. pose proof uro_1024 as hu1. pose proof big1000 as hbig. pose proof m_v as hmv. pose proof cap_m as hcap.
  assert (hb0 : b <= m / 2) by lra.
  assert (hyo : (start < k)%nat -> Rabs (fr (vy s)) <= m).
  { intros hsk. pose proof (near2_entry _ _ (k - 1) (k + 1) hb0 p2 ltac:(lia) ltac:(lia)) as q. unfold sbid in q. revert q. bd; auto; lia. }
  assert (hxo : (start < k)%nat -> Rabs (fr (vo s (k - 1)%nat)) <= m).
  { intros hsk. pose proof (near2_entry _ _ (k - 1) k hb0 p2 ltac:(lia) ltac:(lia)) as q. unfold sbid in q. revert q. bd; auto; lia. }
  assert (hdk : ent_ok m (vd s k)).
  { split; [apply p1; lia|]. pose proof (near2_entry _ _ k k hb0 p2 ltac:(lia) ltac:(lia)) as q. unfold sbid in q. revert q. bd; auto; lia. }
  assert (hdk1 : ent_ok m (vd s (k + 1)%nat)).
  { split; [apply p1; lia|]. pose proof (near2_entry _ _ (k + 1) (k + 1) hb0 p2 ltac:(lia) ltac:(lia)) as q. unfold sbid in q. revert q. bd; auto; lia. }
  assert (hok : ent_ok m (vo s k)).
  { split; [apply p1'; lia|]. pose proof (near2_entry _ _ k (k + 1) hb0 p2 ltac:(lia) ltac:(lia)) as q. unfold sbid in q. revert q. bd; auto; lia. }
  assert (hok1 : (k + 2 < n)%nat -> ent_ok m (vo s (k + 1)%nat)).
  { intros hk2. split; [apply p1'; lia|]. pose proof (near2_entry _ _ (k + 1) (k + 2) hb0 p2 ltac:(lia) ltac:(lia)) as q. unfold sbid in q. revert q. bd; auto; lia. }
  assert (hy : ent_ok cap (vy s)).
  { destruct (Nat.eq_dec k start) as [ek|nk]; [apply (p4 ek)|]. destruct (p3 ltac:(lia) hk) as (_ & q). split; auto. pose proof (hyo ltac:(lia)). lra. }
  assert (hx : nf (vx s) \/ ent_ok cap (vx s)).
  { destruct (Nat.eq_dec k start) as [ek|nk]; [apply (p4 ek)|]. destruct (p3 ltac:(lia) hk) as (q & _). right. rewrite q. split; [apply p1'; lia|]. pose proof (hxo ltac:(lia)). lra. }
  destruct hx as [hxn|hx].
  { destruct (cy h (vx s) (vy s)) as [[[c1 s1] r1]|] eqn:ec.
    - left. destruct (cy_r _ _ _ _ _ _ ec) as (_ & e1 & _). eapply sweep_bad; eauto; [lia|]. left. rewrite e1. auto with nfd.
    - right. rewrite vsweep_eq, ec. cbn [fst snd]. split; auto. apply (swf_bid b k s hw). intros q1 q2. destruct (p3 q1 q2) as (q3 & _).
      exfalso. rewrite q3 in hxn. apply (nf_ffin _ hxn). apply p1'. lia. }
  pose proof (cy_f (vx s) (vy s) (proj1 hx) (proj1 hy) (proj2 hx) (proj2 hy)) as hc.
  destruct (cy h (vx s) (vy s)) as [[[c1 s1] r1]|] eqn:ec.
  2:{ right. rewrite vsweep_eq, ec. cbn [fst snd]. split; auto. apply (swf_bid b k s hw). auto. }
  destruct hc as (hy0 & [(hn & _)|(ac & as_ & kr & er)]); [left; eapply sweep_bad; eauto; lia|].
  set (X := fr (vx s)) in *. set (Y := fr (vy s)) in *. set (C := gc X Y) in *. set (S := gs X Y) in *.
  destruct (gcs X Y hy0) as (u1 & u2 & u3). fold C S in u1, u2, u3.
  rewrite vsweep_eq, ec. cbv zeta.
  set (d := vd s) in *. set (o := vo s) in *. set (m12 := if Nat.eqb k (e - 1) then n0 FN else o (k + 1)%nat).
  assert (hm12 : ent_ok m m12).
  { unfold m12. destruct (Nat.eqb_spec k (e - 1)); [split; [apply fokx_0|rewrite fr_0, Rabs_R0; lra]|apply hok1; lia]. }
  assert (em12 : (k + 2 < n)%nat -> fr m12 = fr (o (k + 1)%nat)).
  { intros hk2. unfold m12. destruct (Nat.eqb_spec k (e - 1)); auto. rewrite fr_0. replace (k + 1)%nat with e by lia. rewrite p5 by lia. rewrite hz1 by lia. reflexivity. }
  pose proof (ent_apx m _ m1 hdk) as adk. pose proof (ent_apx m _ m1 hdk1) as adk1. pose proof (ent_apx m _ m1 hok) as aok. pose proof zero_ok as az.
  set (a00 := nadd FN (nmul FN (d k) c1) (nmul FN (nopp FN s1) (o k))).
  set (a01 := nadd FN (nmul FN (nopp FN (nopp FN s1)) (d k)) (nmul FN (o k) c1)).
  set (a10 := nadd FN (nmul FN (n0 FN) c1) (nmul FN (nopp FN s1) (d (k + 1)%nat))).
  set (a11 := nadd FN (nmul FN (nopp FN (nopp FN s1)) (n0 FN)) (nmul FN (d (k + 1)%nat) c1)).
  assert (P0 : apx a00 (fr (d k) * C + - S * fr (o k)) (2 * m) 10).
  { apply (apx_weak _ _ (m * 1 + 1 * m) (8 + 2)); [|lra|unfold amax_; lra]. apply apx_add; [apxm (0 + 6 + 2)|apxm (6 + 0 + 2)|amx|amx]. }
  assert (P1 : apx a01 (- - S * fr (d k) + fr (o k) * C) (2 * m) 10).
  { apply (apx_weak _ _ (1 * m + m * 1) (8 + 2)); [|lra|unfold amax_; lra]. apply apx_add; [apxm (6 + 0 + 2)|apxm (0 + 6 + 2)|amx|amx]. }
  assert (P2 : apx a10 (0 * C + - S * fr (d (k + 1)%nat)) (2 * m) 10).
  { apply (apx_weak _ _ (1 * 1 + 1 * m) (8 + 2)); [|lra|unfold amax_; lra]. apply apx_add; [apxm (0 + 6 + 2)|apxm (6 + 0 + 2)|amx|amx]. }
  assert (P3 : apx a11 (- - S * 0 + fr (d (k + 1)%nat) * C) (2 * m) 10).
  { apply (apx_weak _ _ (1 * 1 + m * 1) (8 + 2)); [|lra|unfold amax_; lra]. apply apx_add; [apxm (6 + 0 + 2)|apxm (0 + 6 + 2)|amx|amx]. }
  pose proof (row2_f _ _ _ _ _ _ _ _ _ P0 P1 P2 P3 hm12) as hr. destruct (row2 h a00 a01 a10 a11 m12) as [[[[s00 s01] s02] s11] s12].
  cbn [fst snd vd vo vx vy].
  destruct hr as [hn|(C2 & S2 & w1 & f00 & f01 & f02 & f11 & f12 & q00 & q10 & q01 & q11 & q02 & q12)].
  { left. exists k. split; [lia|]. rewrite up_ne by lia. rewrite up_eq. exact hn. }
  right. set (o1 := if Nat.ltb start k then up o (k - 1) r1 else o).
  set (o' := if Nat.eqb k (e - 1) then up o1 k s01 else up (up o1 k s01) (k + 1) s12).
  assert (ho'k : o' k = s01). { unfold o'. destruct (Nat.eqb_spec k (e - 1)); [apply up_eq|rewrite up_ne by lia; apply up_eq]. }
  assert (ho'n : forall j, j <> k -> j <> (k + 1)%nat -> (j + 1)%nat <> k -> o' j = o j).
  { intros j j1 j2 j3. unfold o', o1. destruct (Nat.eqb_spec k (e - 1)), (Nat.ltb_spec start k); rewrite ?up_ne by lia; reflexivity. }
  assert (ho'f : forall j, (j < start)%nat \/ (e <= j)%nat -> o' j = o j).
  { intros j hj. unfold o', o1. destruct (Nat.eqb_spec k (e - 1)), (Nat.ltb_spec start k); rewrite ?up_ne by lia; reflexivity. }
  assert (ho'p : forall j, k = Datatypes.S j -> o' j = if Nat.ltb start k then r1 else o j).
  { intros j hj. unfold o', o1. destruct (Nat.eqb_spec k (e - 1)), (Nat.ltb_spec start k); rewrite ?up_ne by lia; try reflexivity; replace (k - 1)%nat with j by lia; rewrite up_eq; reflexivity. }
  assert (ho'1 : (k + 2 < n)%nat -> fokx (o' (k + 1)%nat) /\ Rabs (C2 * fr (o (k + 1)%nat) - fr (o' (k + 1)%nat)) <= 80 * uro * m).
  { intros hk2. rewrite <- em12 by auto. unfold o'. destruct (Nat.eqb_spec k (e - 1)) as [ek|nk].
    - unfold o1. replace (up (if Nat.ltb start k then up o (k - 1) r1 else o) k s01 (k + 1)%nat) with (o (k + 1)%nat) by (destruct (Nat.ltb_spec start k); rewrite ?up_ne by lia; reflexivity).
      split; [apply p1'; lia|]. rewrite <- em12 by auto. unfold m12. bd. rewrite fr_0, Rmult_0_r, Rminus_0_r, Rabs_R0. lra.
    - rewrite up_eq. split; [exact f12|exact q12]. }
  clearbody o'. unfold swf. cbn [vd vo vx vy].
  split. { split. - intros j hj. unfold up. bd; auto.
    - intros j hj. destruct (Nat.eq_dec j k) as [->|n1]; [rewrite ho'k; auto|]. destruct (Nat.eq_dec (j + 1) k) as [e1|n2].
      + rewrite (ho'p j) by lia. destruct (Nat.ltb start k); auto.
      + destruct (Nat.eq_dec j (k + 1)) as [e1|n3]; [|rewrite ho'n by auto; auto]. subst j. apply ho'1. lia. }
  split.
  { assert (hG1 : orthogonal n (gm k (k + 1) C S)) by (apply gm_orthogonal; auto; lia).
    assert (hG2 : orthogonal n (gm k (k + 1) C2 S2)) by (apply gm_orthogonal; auto; lia).
    apply (near2_move n B0 _ _ (gm k (k + 1) C2 S2) (gm k (k + 1) C S) _ _ hG2 hG1 p2).
    eapply Rle_trans with (7 * (80 * uro * m)); [|unfold kp; lra]. replace (Datatypes.S k) with (k + 1)%nat by lia.
    apply svd_chase_ap; auto; try lia; try lra.
    - intros j ej. unfold D. rewrite (ho'p j ej). destruct (Nat.ltb_spec start k) as [hsk|hsk]; bd; cbn [andb].
      + destruct (p3 hsk hk) as (ex & _). replace (k - 1)%nat with j in * by lia. rewrite <- ex. fold X Y. split; [lra|]. rewrite u3. rewrite Rabs_minus_sym. eapply Rle_trans; [exact er|].
        assert (hn : sqrt (X * X + Y * Y) <= 2 * m). { apply cy_norm; auto. rewrite ex. auto. } nra.
      + assert (start = k) by lia. rewrite p5 by lia. replace j with (start - 1)%nat by lia. rewrite hz2 by lia. split; [ring|]. replace (C * 0 - S * 0 - 0) with 0 by ring. rewrite Rabs_R0. lra.
    - unfold D. rewrite up_ne, up_eq by lia. eapply Rle_trans; [|exact q00]. right. f_equal. ring.
    - unfold D. eapply Rle_trans; [|exact q10]. right. f_equal. ring.
    - unfold D. rewrite ho'k. eapply Rle_trans; [|exact q01]. right. f_equal. ring.
    - unfold D. rewrite up_eq. eapply Rle_trans; [|exact q11]. right. f_equal. ring.
    - intros hk2. unfold D. destruct (ho'1 hk2) as (_ & q). split; auto. bd; cbn [andb].
      + rewrite <- em12 by auto. exact q02.
      + rewrite <- em12 by auto. unfold m12. bd. rewrite fr_0. replace (- S2 * 0 - 0) with 0 by ring. rewrite Rabs_R0. lra.
    - intros j hj j1 j2. unfold D. rewrite !up_ne by auto. reflexivity.
    - intros j hj j1 j2 j3. unfold D. rewrite ho'n by auto. reflexivity. }
  split. { intros _ _. replace (Datatypes.S k - 1)%nat with k by lia. rewrite ho'k. auto. }
  split; [lia|]. intros j hj. rewrite ho'f by auto. apply p5. auto.
Qed.

Lemma sweep_f b s : b + INR (e - start) * kp m <= m / 2 -> (bad (vd s) \/ swf b start s) ->
  let s' := vbrk (e - start) start (vsweep_step h start e) s in
  bad (vd s') \/ (good (vd s') (vo s') (b + INR (e - start) * kp m) /\ forall j, (j < start)%nat \/ (e <= j)%nat -> vo s' j = o0 j).
Proof.
  intros hb hor. cbv zeta. pose proof kp_pos as kp0.
  apply (vbrk_inv _ (fun k s => bad (vd s) \/ swf (b + INR (k - start) * kp m) k s)
    (fun s' => bad (vd s') \/ (good (vd s') (vo s') (b + INR (e - start) * kp m) /\ forall j, (j < start)%nat \/ (e <= j)%nat -> vo s' j = o0 j))).
  - rewrite Nat.sub_diag, Rmult_0_l, Rplus_0_r. exact hor.
  - intros k s0 hk hs.
    assert (hINR : INR (S k - start) = INR (k - start) + 1) by (rewrite <- S_INR; f_equal; lia).
    assert (hle : INR (S k - start) <= INR (e - start)) by (apply le_INR; lia).
    pose proof (sweep_step_f (b + INR (k - start) * kp m) k s0 ltac:(lia) ltac:(lia) ltac:(nra) hs) as hq. cbv zeta in hq.
    destruct (vsweep_step h start e k s0) as [go s1]. cbn [fst snd] in *. destruct go.
    + destruct hq as [hq|hq]; [left; auto|right]. replace (b + INR (S k - start) * kp m) with (b + INR (k - start) * kp m + kp m) by (rewrite hINR; ring). exact hq.
    + destruct hq as [hq|(hq & hq')]; [left; auto|right]. split; auto. eapply good_weak; [|exact hq]. nra.
  - intros s0 [hs|hs]; [left; auto|right]. replace (start + (e - start))%nat with e in hs by lia. split; [apply (swf_bid _ e s0 hs); lia|]. apply hs.
Qed.

Lemma big_f b d o : (start + 1 < e)%nat -> b + INR (e - start) * kp m <= m / 2 -> bad d \/ good d o b -> (forall j, (j < start)%nat \/ (e <= j)%nat -> o j = o0 j) ->
  let r := vbig h start e d o in
  bad (fst r) \/ (good (fst r) (snd r) (b + INR (e - start) * kp m) /\ forall j, (j < start)%nat \/ (e <= j)%nat -> snd r j = o0 j).
Proof.
  intros hs2 hb hor ho. cbv zeta. pose proof kp_pos as kp0. pose proof (pos_INR (e - start)) as hpi. assert (hb0 : b <= m / 2) by nra.
  unfold vbig. cbv zeta. cbn [fst snd]. apply sweep_f; auto. destruct hor as [hb'|hg]; [left; exact hb'|right].
  pose proof um_pos as hum. pose proof uro_pos as hu. pose proof uro_1024 as hu1. pose proof big1000 as hbig. pose proof m_v as hmv.
  assert (sq : forall x y, ent_ok m x -> ent_ok m y -> ent_ok (2 * (m * m)) (nmul FN x y)).
  { intros x y hx hy. pose proof (apx_mul _ _ _ _ _ _ _ _ (ent_apx m x m1 hx) (ent_apx m y m1 hy) ltac:(amx) ltac:(nra)) as q. split; [apply q|].
    apply apx_abs in q. eapply Rle_trans; [exact q|]. nra. }
  assert (mm1 : 1 <= 2 * (m * m)) by nra. assert (mm2 : m * m <= 268435456 * 268435456) by nra.
  assert (ad : forall x y, ent_ok (2 * (m * m)) x -> ent_ok (2 * (m * m)) y -> ent_ok (8 * (m * m)) (nadd FN x y)).
  { intros x y hx hy. pose proof (apx_add _ _ _ _ _ _ _ (ent_apx _ x mm1 hx) (ent_apx _ y mm1 hy) ltac:(amx) ltac:(lra)) as q. split; [apply q|].
    apply apx_abs in q. eapply Rle_trans; [exact q|]. nra. }
  assert (wk : forall x, ent_ok (2 * (m * m)) x -> ent_ok (8 * (m * m)) x) by (intros x (q1 & q2); split; auto; nra).
  assert (hd := fun j => good_d d o b j hb0 hg). assert (hoo := fun j => good_o d o b j hb0 hg).
  set (M1 := (e - 1)%nat).
  pose proof (shift_f (8 * (m * m)) (nadd FN (nmul FN (d M1) (d M1)) (nmul FN (o (M1 - 1)%nat) (o (M1 - 1)%nat)))
    (nadd FN (nmul FN (d e) (d e)) (nmul FN (o M1) (o M1))) (nmul FN (d M1) (o M1)) ltac:(nra) ltac:(rewrite mbig_v; nra)
    ltac:(apply ad; apply sq; first [apply hd; unfold M1; lia|apply hoo; unfold M1; lia]) ltac:(apply ad; apply sq; first [apply hd; unfold M1; lia|apply hoo; unfold M1; lia])
    ltac:(apply wk, sq; first [apply hd; unfold M1; lia|apply hoo; unfold M1; lia])) as hsh.
  set (sh := wilkinson_shift _ _ _) in *. clearbody sh. unfold swf. cbn [vx vy vd vo].
  split; [apply hg|]. split. { rewrite Nat.ltb_irrefl. cbn [andb]. eapply near2_ext; [|apply hg]. rewrite sbid_0. reflexivity. }
  split; [lia|]. split; auto. intros _.
  assert (hcap2 : 1000 * (m * m) <= cap). { apply Rle_trans with (bpow radix2 70); [cbn; nra|]. unfold cap. apply bpow_le. lia. }
  split; [|destruct (sq _ _ (hd start ltac:(lia)) (hoo start ltac:(lia))) as (q1 & q2); split; auto; nra].
  destruct hsh as [->|hsh]; [left; rewrite nan_sub_r; apply nf_nan|right].
  pose proof (sq _ _ (hd start ltac:(lia)) (hd start ltac:(lia))) as q1.
  assert (q2 : apx (nmul FN (d start) (d start)) (fr (nmul FN (d start) (d start))) (2 * (m * m)) 0) by (apply ent_apx; auto).
  assert (q3 : apx sh (fr sh) (16 * (8 * (m * m))) 0) by (apply ent_apx; auto; nra).
  pose proof (apx_sub _ _ _ _ _ _ _ q2 q3 ltac:(amx) ltac:(lra)) as q. split; [apply q|]. apply apx_abs in q. eapply Rle_trans; [exact q|]. nra.
Qed.
End Sweep.

(** *** The final 2x2 block *)
Lemma two_core (x y z : FN) : ent_ok m x -> ent_ok m y -> ent_ok m z ->
  let den := nadd FN (h (nadd FN x z) y) (h (nsub FN x z) y) in
  let h1 := sqrt ((fr x + fr z) * (fr x + fr z) + fr y * fr y) in let h2 := sqrt ((fr x - fr z) * (fr x - fr z) + fr y * fr y) in
  let v1 := ndiv FN (nmul FN (nmul FN x z) (ntwo (N:=FN))) den in let v2 := ndiv FN den (ntwo (N:=FN)) in
  nf den \/ (fokx v1 /\ fokx v2 /\ Rabs ((h1 - h2) / 2 - fr v1) <= 60 * uro * m /\ Rabs ((h1 + h2) / 2 - fr v2) <= 60 * uro * m).
Proof.
  intros (hx & bx) (hy & by_) (hz & bz) den h1 h2 v1 v2. pose proof um_pos as hum. pose proof uro_pos as hu. pose proof uro_1024 as hu1. pose proof big1000 as hbig.
  pose proof m_v as hmv. pose proof cap_m as hcap. pose proof eta_u as heta. pose proof eta_pos as he0.
  set (a := fr x) in *. set (b := fr y) in *. set (d := fr z) in *.
  assert (hb2 : bpow radix2 1000 <= bpow radix2 1023) by (apply bpow_le; lia).
  destruct (add_err x z hx hz ltac:(fold a d; lra)) as (k1 & e1). destruct (sub_err x z hx hz ltac:(fold a d; lra)) as (k2 & dl & hdl & e2). fold a d in e1, e2.
  set (S := fr (nadd FN x z)) in *. set (T := fr (nsub FN x z)) in *.
  assert (e2' : Rabs (T - (a - d)) <= uro * (Rabs a + Rabs d)).
  { rewrite e2. replace ((a - d) * (1 + dl) - (a - d)) with (dl * (a - d)) by ring. rewrite Rabs_mult. apply Rmult_le_compat; auto using Rabs_pos. unfold Rminus. eapply Rle_trans; [apply Rabs_triang|]. rewrite Rabs_Ropp. lra. }
  clear e2 hdl dl.
  assert (p1 : 0 <= h1) by apply sqrt_pos. assert (p2 : 0 <= h2) by apply sqrt_pos.
  assert (q1 : h1 * h1 = (a + d) * (a + d) + b * b) by apply hyp_sq. assert (q2 : h2 * h2 = (a - d) * (a - d) + b * b) by apply hyp_sq.
  assert (sb : Rabs S <= 3 * m).
  { replace S with ((S - (a + d)) + a + d) by ring. eapply Rle_trans; [apply Rabs_triang|]. eapply Rle_trans; [apply Rplus_le_compat_r, Rabs_triang|]. pose proof (Rabs_pos a). pose proof (Rabs_pos d). nra. }
  assert (tb : Rabs T <= 3 * m).
  { replace T with ((T - (a - d)) + a + - d) by ring. eapply Rle_trans; [apply Rabs_triang|]. eapply Rle_trans; [apply Rplus_le_compat_r, Rabs_triang|]. rewrite Rabs_Ropp. pose proof (Rabs_pos a). pose proof (Rabs_pos d). nra. }
  destruct hh as (hg & _). unfold cap in hcap.
  destruct (hg (nadd FN x z) y (proj1 k1) (proj2 k1) (proj1 hy) (proj2 hy) ltac:(fold S; lra) ltac:(fold b; lra)) as [en|(r1 & r2 & r3)].
  { left. unfold den. rewrite en. apply nf_add_l. reflexivity. }
  destruct (hg (nsub FN x z) y (proj1 k2) (proj2 k2) (proj1 hy) (proj2 hy) ltac:(fold T; lra) ltac:(fold b; lra)) as [en|(r4 & r5 & r6)].
  { left. unfold den. rewrite en. apply nf_add_r. reflexivity. }
  pose proof (hlow _ _ r1 r2) as l1. pose proof (hlow _ _ r4 r5) as l2. fold S b in r3. fold T b in r6.
  set (g1 := fr (h (nadd FN x z) y)) in *. set (g2 := fr (h (nsub FN x z) y)) in *. right.
  pose proof (bpow_gt_0 radix2 (-1000)) as hpos.
  pose proof (hyp_lip S (a + d) b) as L1. fold h1 in L1. pose proof (hyp_lip T (a - d) b) as L2. fold h2 in L2.
  set (R1 := sqrt (S * S + b * b)) in *. set (R2 := sqrt (T * T + b * b)) in *.
  assert (R1p : 0 <= R1) by apply sqrt_pos. assert (R2p : 0 <= R2) by apply sqrt_pos.
  assert (la : Rabs a + Rabs d <= h1 + h2).
  { assert (la1 : Rabs (a + d) <= h1) by (apply Rabs_le_of_sq; auto; pose proof (Rle_0_sqr b) as qq; unfold Rsqr in qq; lra).
    assert (la2 : Rabs (a - d) <= h2) by (apply Rabs_le_of_sq; auto; pose proof (Rle_0_sqr b) as qq; unfold Rsqr in qq; lra).
    unfold Rabs in la1, la2 |- *. repeat destruct Rcase_abs; lra. }
  assert (lH : h1 + h2 <= 6 * m).
  { assert (hh1 : h1 <= Rabs (a + d) + Rabs b).
    { apply Rsqr_incr_0_var; [|pose proof (Rabs_pos (a + d)); pose proof (Rabs_pos b); lra]. unfold Rsqr. rewrite q1, <- (Rabs_sq (a + d)), <- (Rabs_sq b). pose proof (Rabs_pos (a + d)). pose proof (Rabs_pos b). nra. }
    assert (hh2 : h2 <= Rabs (a - d) + Rabs b).
    { apply Rsqr_incr_0_var; [|pose proof (Rabs_pos (a - d)); pose proof (Rabs_pos b); lra]. unfold Rsqr. rewrite q2, <- (Rabs_sq (a - d)), <- (Rabs_sq b). pose proof (Rabs_pos (a - d)). pose proof (Rabs_pos b). nra. }
    pose proof (Rabs_triang a d). pose proof (Rabs_triang a (- d)) as t2. rewrite Rabs_Ropp in t2. unfold Rminus in hh2. lra. }
  set (H := h1 + h2) in *. assert (H0 : 0 <= H) by (unfold H; lra).
  assert (uH : 0 <= uro * H) by nra. assert (uuH : uro * (uro * H) <= uro * H * / 1024) by nra.
  assert (L1' : Rabs (R1 - h1) <= uro * H) by (eapply Rle_trans; [exact L1|]; eapply Rle_trans; [exact e1|]; nra).
  assert (L2' : Rabs (R2 - h2) <= uro * H) by (eapply Rle_trans; [exact L2|]; eapply Rle_trans; [exact e2'|]; nra).
  apply Rabs_le_inv in L1', L2', r3, r6.
  assert (s1 : Rabs (g1 + g2 - H) <= 6 * uro * H).
  { assert (uro * (R1 + R2) <= uro * (H + 2 * (uro * H))) by (apply Rmult_le_compat_l; unfold H in *; lra). apply Rabs_le. unfold H in *. nra. }
  assert (s2 : 8 * uro * H <= H * / 100) by (clear - hu hu1 H0; nra). apply Rabs_le_inv in s1 as s1'.
  assert (dh : fokx den /\ Rabs (fr den - H) <= 8 * uro * H).
  { destruct (add_err (h (nadd FN x z) y) (h (nsub FN x z) y) (conj r1 r2) (conj r4 r5)) as (d1 & d2).
    { fold g1 g2. rewrite !Rabs_pos_eq by lra. lra. }
    split; auto. fold g1 g2 den in d2. rewrite (Rabs_pos_eq g1), (Rabs_pos_eq g2) in d2 by lra.
    replace (fr den - H) with ((fr den - (g1 + g2)) + (g1 + g2 - H)) by ring. eapply Rle_trans; [apply Rabs_triang|].
    assert (uro * (g1 + g2) <= uro * (2 * H)) by (apply Rmult_le_compat_l; lra). lra. }
  destruct dh as (kd & ed). apply Rabs_le_inv in ed as ed'.
  assert (Hp : 0 < H) by lra.
  assert (dlow : bpow radix2 (-1000) <= fr den).
  { lra. }
  assert (vv : (h1 - h2) / 2 = 2 * (a * d) / H) by (apply (two_val a b d); exact Hp). rewrite vv.
  assert (ad4 : Rabs (a * d) <= H * H / 4).
  { rewrite Rabs_mult. pose proof (Rabs_pos a). pose proof (Rabs_pos d). pose proof (Rle_0_sqr (Rabs a - Rabs d)) as qq. unfold Rsqr in qq. assert ((Rabs a + Rabs d) * (Rabs a + Rabs d) <= H * H) by (apply Rmult_le_compat; lra). lra. }
  assert (Pm0 : Rabs a * Rabs d <= m * m) by (apply Rmult_le_compat; auto using Rabs_pos). assert (mm2 : m * m <= 268435456 * 268435456) by (apply Rmult_le_compat; lra).
  destruct (mul_err x z hx hz) as (t1 & f1). { fold a d. lra. }
  fold a d in f1. rewrite <- Rabs_mult in f1. set (P := Rabs (a * d)) in *. assert (P0 : 0 <= P) by apply Rabs_pos.
  assert (Pm : P <= m * m). { unfold P. rewrite Rabs_mult. exact Pm0. }
  assert (uP : uro * P <= P * / 1024) by (clear - hu hu1 P0; nra). assert (uuP : 0 <= uro * P) by (clear - hu P0; nra). assert (uuP2 : uro * (uro * P) <= uro * P * / 1024) by (clear - hu hu1 uuP; nra).
  destruct two_ok as [k2' _ _ _ _]. assert (ft : fr (ntwo (N:=FN)) = 2) by (rewrite PHouseF.two_f; apply fr_f2).
  set (w := nmul FN x z) in *. assert (wb : Rabs (fr w) <= P * (1 + uro) + eta).
  { replace (fr w) with ((fr w - a * d) + a * d) by ring. eapply Rle_trans; [apply Rabs_triang|]. fold P. lra. }
  destruct (mul_err w (ntwo (N:=FN)) t1 k2') as (t2 & f2). { rewrite ft, (Rabs_pos_eq 2) by lra. lra. }
  rewrite ft, (Rabs_pos_eq 2) in f2 by lra. set (w2 := nmul FN w (ntwo (N:=FN))) in *.
  assert (f3 : Rabs (fr w2 - 2 * (a * d)) <= 5 * uro * P + 4 * eta).
  { replace (fr w2 - 2 * (a * d)) with ((fr w2 - fr w * 2) + 2 * (fr w - a * d)) by ring. eapply Rle_trans; [apply Rabs_triang|].
    rewrite (Rabs_mult 2), (Rabs_pos_eq 2) by lra. assert (uro * (Rabs (fr w) * 2) <= uro * ((P * (1 + uro) + eta) * 2)) by (apply Rmult_le_compat_l; lra).
    assert (uro * eta <= eta * / 1024) by (clear - hu1 he0; nra). lra. }
  pose proof (quot_core (fr w2) (fr den) (a * d) H m m1 Hp lH ad4 ed f3 dlow) as qc.
  assert (vb : Rabs (2 * (a * d) / H) <= 3 * m).
  { unfold Rdiv. rewrite !Rabs_mult, (Rabs_pos_eq 2), (Rabs_pos_eq (/ H)) by (try (left; apply Rinv_0_lt_compat; lra); lra). rewrite <- Rabs_mult. fold P. apply Rmult_le_reg_r with H; auto. rewrite Rmult_assoc, Rinv_l, Rmult_1_r by lra. assert (H * H <= 6 * m * H) by (apply Rmult_le_compat_r; lra). lra. }
  assert (um1 : uro * m <= m * / 1024) by (clear - hu1 m1; nra). assert (um2 : uro <= uro * m) by (clear - hu m1; nra).
  assert (qb : Rabs (fr w2 / fr den) <= 4 * m).
  { replace (fr w2 / fr den) with ((fr w2 / fr den - 2 * (a * d) / H) + 2 * (a * d) / H) by ring. eapply Rle_trans; [apply Rabs_triang|]. lra. }
  destruct (div_err w2 den t2 kd ltac:(lra) ltac:(lra)) as (o1 & o2). fold v1 in o1, o2.
  destruct (div_err den (ntwo (N:=FN)) kd k2' ltac:(lra)) as (o3 & o4).
  { rewrite ft. rewrite Rabs_pos_eq by lra. lra. }
  fold v2 in o3, o4. rewrite ft in o4. rewrite (Rabs_pos_eq (fr den / 2)) in o4 by lra.
  split; auto. split; auto. split.
  - replace (2 * (a * d) / H - fr v1) with (- ((fr v1 - fr w2 / fr den) + (fr w2 / fr den - 2 * (a * d) / H))) by ring. rewrite Rabs_Ropp.
    eapply Rle_trans; [apply Rabs_triang|]. assert (uro * Rabs (fr w2 / fr den) <= uro * (4 * m)) by (apply Rmult_le_compat_l; lra). lra.
  - replace (H / 2 - fr v2) with (- ((fr v2 - fr den / 2) + (fr den - H) / 2)) by field. rewrite Rabs_Ropp. eapply Rle_trans; [apply Rabs_triang|].
    unfold Rdiv at 2. rewrite Rabs_mult, (Rabs_pos_eq (/ 2)) by lra. assert (uro * (fr den / 2) <= uro * (4 * m)) by (apply Rmult_le_compat_l; lra).
    assert (uro * H <= uro * (6 * m)) by (apply Rmult_le_compat_l; lra). lra.
Qed.
Lemma two_f_ start d o b : (start + 1 < n)%nat -> b + kp m <= m / 2 -> good d o b ->
  ((0 < start)%nat -> fr (o (start - 1)%nat) = 0) -> ((start + 2 < n)%nat -> fr (o (start + 1)%nat) = 0) ->
  let r := vtwo h start d o in bad (fst r) \/ good (fst r) (snd r) (b + kp m).
Proof.
  intros hs hb hg hl hr. cbv zeta. pose proof kp_pos as kp0. assert (hb0 : b <= m / 2) by lra. pose proof um_pos as hum.
  pose proof (good_d d o b start hb0 hg ltac:(lia)) as ga. pose proof (good_d d o b (start + 1) hb0 hg ltac:(lia)) as gd. pose proof (good_o d o b start hb0 hg ltac:(lia)) as gb.
  pose proof (two_core (d start) (o start) (d (start + 1)%nat) ga gb gd) as tc. cbv zeta in tc. unfold vtwo. cbn [fst snd].
  set (den := nadd FN (h (nadd FN (d start) (d (start + 1)%nat)) (o start)) (h (nsub FN (d start) (d (start + 1)%nat)) (o start))) in *.
  set (v1 := ndiv FN (nmul FN (nmul FN (d start) (d (start + 1)%nat)) (ntwo (N:=FN))) den) in *. set (v2 := ndiv FN den (ntwo (N:=FN))) in *.
  destruct tc as [hn|(o1 & o2 & c1 & c2)].
  { left. apply bad_at; auto. apply nf_div_l. exact hn. }
  right. destruct hg as ((g1 & g2) & g3). split.
  - split; intros j hj.
    + destruct (Nat.eq_dec j (start + 1)) as [->|n1]; [rewrite up_eq; auto|rewrite up_ne by auto]. destruct (Nat.eq_dec j start) as [->|n2]; [rewrite up_eq; auto|rewrite up_ne by auto; auto].
    + destruct (Nat.eq_dec j start) as [->|n2]; [rewrite up_eq; apply fokx_0|rewrite up_ne by auto; auto].
  - destruct (two_svd (fr (d start)) (fr (o start)) (fr (d (start + 1)%nat))) as (cu & su & cv & sv & u1 & u2 & E1 & E2 & E3 & E4).
    set (h1 := sqrt ((fr (d start) + fr (d (start + 1)%nat)) * (fr (d start) + fr (d (start + 1)%nat)) + fr (o start) * fr (o start))) in *.
    set (h2 := sqrt ((fr (d start) - fr (d (start + 1)%nat)) * (fr (d start) - fr (d (start + 1)%nat)) + fr (o start) * fr (o start))) in *.
    set (dx := fun j => if Nat.eqb j start then (h1 - h2) / 2 else if Nat.eqb j (start + 1) then (h1 + h2) / 2 else D d j).
    set (ox := fun j => if Nat.eqb j start then 0 else D o j).
    assert (near : near2 n B0 (bidm dx ox) (b + 0)).
    { apply (near2_move n B0 (bidm (D d) (D o)) _ (gm start (start + 1) cu (- su)) (gm start (start + 1) cv (- sv))); auto.
      - apply gm_orthogonal; try lia. lra.
      - apply gm_orthogonal; try lia. lra.
      - assert (tch : mmul n (gm start (start + 1) cu (- su)) (mmul n (bidm (D d) (D o)) (mtr (gm start (start + 1) cv (- sv)))) =[n, n]= bidm dx ox).
        { apply two_chase; auto; unfold dx, ox, D; intros; bd; auto; try lia.
          - subst. specialize (hl ltac:(lia)). replace (S h0 - 1)%nat with h0 in hl by lia. exact hl. }
        right. unfold frob. rewrite (frob2_ext n n _ (fun _ _ => 0)).
        + unfold frob2. rewrite Rsum_0; [apply sqrt_0|]. intros. apply Rsum_0. intros. ring.
        + intros p q hp hq. unfold msub. rewrite (tch p q hp hq). ring. }
    rewrite Rplus_0_r in near. eapply near2_weak; [|apply (near2_close n B0 _ (bidm (D (up (up d start v1) (start + 1) v2)) (D (up o start (n0 FN)))) b (INR 2 * (60 * uro * m)) near)].
    { unfold kp. cbn [INR]. lra. }
    apply (frob_list n (60 * uro * m) [(start, start); ((start + 1)%nat, (start + 1)%nat)]); [nra|].
    intros p q hp hq. unfold msub, bidm. destruct (Nat.eqb_spec p q) as [->|npq].
    + unfold dx, D. destruct (Nat.eq_dec q (start + 1)) as [->|n1].
      { right. split; [right; left; reflexivity|]. rewrite up_eq. bd. exact c2. }
      rewrite up_ne by auto. destruct (Nat.eq_dec q start) as [->|n2].
      { right. split; [left; reflexivity|]. rewrite up_eq. bd. exact c1. }
      rewrite up_ne by auto. left. bd. ring.
    + left. unfold ox, D. destruct (Nat.eqb_spec q (p + 1)) as [->|nq]; [|ring].
      destruct (Nat.eq_dec p start) as [->|n2]; [rewrite up_eq, fr_0; bd; ring|rewrite up_ne by auto; bd; ring].
Qed.

(** *** Deflation *)
Section Delim.
Variable eps : FN.
Hypotheses (heps : fokx eps) (veps : fr eps = 10 * uro).

Definition dead (e : nat) (o : FV) : Prop := forall j, (e <= j)%nat -> (j + 1 < n)%nat -> fr (o j) = 0.
Lemma dead_zz e o o' : zz o o' -> dead e o -> dead e o'.
Proof. intros h1 h2 j hj hj'. apply h1; auto. Qed.
Lemma zz_trans o o' o'' : zz o o' -> zz o' o'' -> zz o o''.
Proof. intros h1 h2 j hj h0. apply h2; auto. Qed.

Lemma negl_le b d o k k' j : good d o b -> b <= m / 2 -> (k < n)%nat -> (k' < n)%nat -> (j + 1 < n)%nat ->
  nis_zero FN (o j) || negl eps (o j) (d k) (d k') = true -> Rabs (fr (o j)) <= 80 * uro * m.
Proof.
  intros hg hb hk hk' hj hn. pose proof um_pos as hum. pose proof uro_pos as hu. pose proof uro_1024 as hu1. pose proof big1000 as hbig. pose proof m_v as hmv.
  apply orb_prop in hn as [hn|hn]; [rewrite (zero_fr _ hn), Rabs_R0; nra|].
  destruct (good_d d o b k hb hg hk) as (kp_ & bp). destruct (good_d d o b k' hb hg hk') as (kq & bq). destruct (good_o d o b j hb hg hj) as (ko & bo).
  unfold negl in hn. set (t := nmul FN _ _) in hn.
  assert (a1 : apx (nabs FN (d k)) (fr (nabs FN (d k))) m 0) by (apply apx_exact; auto; [apply fokx_abs; auto|rewrite fr_abs, Rabs_Rabsolu; auto]).
  assert (a2 : apx (nabs FN (d k')) (fr (nabs FN (d k'))) m 0) by (apply apx_exact; auto; [apply fokx_abs; auto|rewrite fr_abs, Rabs_Rabsolu; auto]).
  pose proof (apx_add _ _ _ _ _ _ _ a1 a2 ltac:(amx) ltac:(lra)) as a3.
  assert (a4 : apx eps (fr eps) 1 0) by (apply apx_exact; auto; [lra|rewrite veps, Rabs_pos_eq; lra]).
  pose proof (apx_mul _ _ _ _ _ _ _ _ a4 a3 ltac:(amx) ltac:(lra)) as a5. fold t in a5. destruct a5 as [k1 _ _ _ k5].
  rewrite veps, !fr_abs in k5. apply Rabs_le_inv in k5.
  rewrite <- fr_abs. apply Rle_trans with (fr t); [apply leb_fr; auto using fokx_abs|]. nra.
Qed.
Lemma drop_o b d o j : good d o b -> (j + 1 < n)%nat -> Rabs (fr (o j)) <= 80 * uro * m -> good d (up o j (n0 FN)) (b + kp m).
Proof.
  intros ((g1 & g2) & g3) hj ho. pose proof um_pos as hum. split; [split; auto; intros k hk; unfold up; bd; auto; apply fokx_0|].
  apply (near2_close n B0 _ _ _ _ g3). apply Rle_trans with (1 * (80 * uro * m)); [|unfold kp; lra].
  replace 1 with (INR (length [(j, (j + 1)%nat)])) by (cbn; lra). apply frob_list; [lra|]. intros p q hp hq. unfold msub, bidm, D, up.
  destruct (Nat.eq_dec p j) as [->|]; [destruct (Nat.eq_dec q (j + 1)) as [->|]|]; bd; try (left; lra).
  right. split; [left; reflexivity|]. rewrite fr_0, Rminus_0_r. exact ho.
Qed.
Lemma drop_d b d o j : good d o b -> (j < n)%nat -> b <= m / 2 -> nle FN (nabs FN (d j)) eps = true -> good (up d j (n0 FN)) o (b + kp m).
Proof.
  intros hg hj hb hn. pose proof um_pos as hum. pose proof uro_pos as hu. destruct (good_d d o b j hb hg hj) as (kd & _). destruct hg as ((g1 & g2) & g3).
  assert (hd : Rabs (fr (d j)) <= 80 * uro * m). { rewrite <- fr_abs. apply Rle_trans with (fr eps); [apply leb_fr; auto using fokx_abs|]. rewrite veps. nra. }
  split; [split; auto; intros k hk; unfold up; bd; auto; apply fokx_0|].
  apply (near2_close n B0 _ _ _ _ g3). apply Rle_trans with (1 * (80 * uro * m)); [|unfold kp; lra].
  replace 1 with (INR (length [(j, j)])) by (cbn; lra). apply frob_list; [lra|]. intros p q hp hq. unfold msub, bidm, D, up.
  destruct (Nat.eq_dec p j) as [->|]; [destruct (Nat.eq_dec q j) as [->|]|]; bd; try (left; lra).
  right. split; [left; reflexivity|]. rewrite fr_0, Rminus_0_r. exact hd.
Qed.

Lemma clear_f i e d o b : (i < e)%nat -> (e < n)%nat -> ((e + 1 < n)%nat -> fr (o e) = 0) -> fr (d i) = 0 ->
  b + INR (e - i) * kp m + INR i * kp m <= m / 2 -> good d o b ->
  let r := vclear h i e d o in
  bad (fst r) \/ (good (fst r) (snd r) (b + INR (e - i) * kp m + INR i * kp m) /\ fr (snd r i) = 0 /\ zz o (snd r)).
Proof.
  intros hi he ho hd hb hg. cbv zeta. pose proof kp_pos as kp0. pose proof (pos_INR i) as hpi. unfold vclear.
  destruct (hor_f i e d o b hi he ho hd ltac:(nra) hg) as [hb'|(q1 & q2 & q3 & q4)].
  - left. destruct (Nat.eqb_spec i 0); cbn [negb]; auto. apply ver_absorb; auto. lia.
  - destruct (Nat.eqb_spec i 0) as [ei|ni]; cbn [negb].
    + right. split; auto. eapply good_weak; [|exact q1]. nra.
    + destruct (ver_f (i - 1) (fst (vhor h i e d o)) (snd (vhor h i e d o)) (b + INR (e - i) * kp m)) as [hb'|(r1 & r2 & r3)]; auto.
      * lia.
      * replace (i - 1 + 1)%nat with i by lia. auto.
      * replace (i - 1 + 1)%nat with i by lia. auto.
      * right. replace (i - 1 + 1)%nat with i in r1 by lia. split; auto. split; [apply r3; auto; lia|]. eapply zz_trans; eauto.
Qed.

Lemma end_f e : forall d o b, (e < n)%nat -> b + INR e * ((INR n + 3) * kp m) <= m / 2 -> bad d \/ (good d o b /\ dead e o) ->
  let r := vend h eps e d o in
  (fst (fst r) <= e)%nat /\ (bad (snd (fst r)) \/ (good (snd (fst r)) (snd r) (b + INR e * ((INR n + 3) * kp m)) /\ dead (fst (fst r)) (snd r))).
Proof.
  induction e as [|e IH]; intros d o b he hb hor; cbv zeta.
  - cbn [vend fst snd]. split; auto. rewrite Rmult_0_l, Rplus_0_r. exact hor.
  - pose proof kp_pos as kp0. pose proof (pos_INR n) as hpn. pose proof (pos_INR e) as hpe.
    assert (hne : INR e <= INR n) by (apply le_INR; lia).
    assert (hc0 : 0 <= (INR n + 3) * kp m) by nra.
    rewrite S_INR in *. set (c := (INR n + 3) * kp m) in *. assert (hcc : 0 <= INR e * c) by nra. assert (hb0 : b <= m / 2) by lra.
    assert (hkc : kp m + INR 1 * kp m + INR e * kp m <= c) by (unfold c; cbn [INR]; nra).
    assert (hkc2 : kp m + INR (e + 1) * kp m <= c) by (unfold c; rewrite plus_INR; cbn [INR]; nra).
    cbn [vend].
    assert (step : forall d' o', bad d' \/ (good d' o' (b + c) /\ dead e o') ->
      (fst (fst (vend h eps e d' o')) <= S e)%nat /\ (bad (snd (fst (vend h eps e d' o'))) \/ (good (snd (fst (vend h eps e d' o'))) (snd (vend h eps e d' o')) (b + (INR e + 1) * c) /\ dead (fst (fst (vend h eps e d' o'))) (snd (vend h eps e d' o'))))).
    { intros d' o' q. destruct (IH d' o' (b + c) ltac:(lia) ltac:(lra) q) as (k1 & k2). split; [lia|]. destruct k2 as [|(k2 & k3)]; [left; auto|right]. split; auto. eapply good_weak; [|exact k2]. lra. }
    destruct (nis_zero FN (o e) || negl eps (o e) (d (S e)) (d e)) eqn:en.
    { apply step. destruct hor as [|(hg & hd)]; [left; auto|right]. split.
      - eapply good_weak; [|apply (drop_o b d o e hg ltac:(lia)); apply (negl_le b d o (S e) e e); auto; lia]. cbn [INR] in *. assert (0 <= INR e * kp m) by nra. lra.
      - intros j hj hj'. unfold up. bd; [apply fr_0|apply hd; lia]. }
    destruct (nle FN (nabs FN (d e)) eps) eqn:e1.
    { apply step. destruct hor as [hb'|(hg & hd)].
      { left. apply clear_absorb; auto; try lia. eapply bad_zero; eauto. apply heps. }
      destruct (clear_f e (e + 1) (up d e (n0 FN)) o (b + kp m)) as [|(k1 & k2 & k3)]; auto; try lia.
      - intros hh'. apply hd; lia.
      - rewrite up_eq. apply fr_0.
      - replace (e + 1 - e)%nat with 1%nat by lia. lra.
      - apply drop_d; auto; lia.
      - right. split. + eapply good_weak; [|exact k1]. replace (e + 1 - e)%nat with 1%nat by lia. lra.
        + intros j hj hj'. destruct (Nat.eq_dec j e) as [->|]; auto. apply k3; auto. apply hd; lia. }
    destruct (nle FN (nabs FN (d (S e))) eps) eqn:e2.
    { apply step. destruct hor as [hb'|(hg & hd)].
      { left. apply ver_absorb; auto; try lia. eapply bad_zero; eauto. apply heps. }
      destruct (ver_f e (up d (S e) (n0 FN)) o (b + kp m)) as [|(k1 & k2 & k3)]; auto; try lia.
      - replace (e + 1)%nat with (S e) by lia. rewrite up_eq. apply fr_0.
      - lra.
      - apply drop_d; auto; lia.
      - right. split. + eapply good_weak; [|exact k1]. lra.
        + intros j hj hj'. destruct (Nat.eq_dec j e) as [->|]; auto. apply k3; auto. apply hd; lia. }
    cbn [fst snd]. split; [lia|]. destruct hor as [|(hg & hd)]; [left; auto|right]. split; auto. eapply good_weak; [|exact hg]. lra.
Qed.

Lemma start_f e : forall ns d o b, (ns < e)%nat -> (e < n)%nat -> b + (INR n + 3) * kp m <= m / 2 -> bad d \/ (good d o b /\ dead e o) ->
  let r := vstart h eps e ns d o in
  (fst (fst r) <= ns)%nat /\ (bad (snd (fst r)) \/ (good (snd (fst r)) (snd r) (b + (INR n + 3) * kp m) /\ dead e (snd r) /\ ((0 < fst (fst r))%nat -> fr (snd r (fst (fst r) - 1)%nat) = 0))).
Proof.
  pose proof kp_pos as kp0. pose proof (pos_INR n) as hpn.
  induction ns as [|ns IH]; intros d o b hns he hb hor; cbv zeta; cbn [vstart].
  - cbn [fst snd]. split; auto. destruct hor as [|(hg & hd)]; [left; auto|right]. split; [|split; auto; lia]. eapply good_weak; [|exact hg]. nra.
  - assert (hb0 : b <= m / 2) by nra.
    destruct (negl eps (o ns) (d (S ns)) (d ns)) eqn:en.
    { cbn [fst snd]. split; auto. destruct hor as [|(hg & hd)]; [left; auto|right]. split; [|split].
      - eapply good_weak; [|apply (drop_o b d o ns hg ltac:(lia)); apply (negl_le b d o (S ns) ns ns); auto; try lia; rewrite en; apply orb_true_r]. nra.
      - intros j hj hj'. unfold up. bd; apply hd; lia.
      - intros _. replace (S ns - 1)%nat with ns by lia. rewrite up_eq. apply fr_0. }
    destruct (nle FN (nabs FN (d ns)) eps) eqn:e1.
    { cbn [fst snd]. split; auto. destruct hor as [hb'|(hg & hd)].
      { left. apply clear_absorb; auto; try lia. eapply bad_zero; eauto. apply heps. }
      assert (hI : INR (e - ns) + INR ns <= INR n) by (rewrite <- plus_INR; apply le_INR; lia).
      destruct (clear_f ns e (up d ns (n0 FN)) o (b + kp m)) as [|(k1 & k2 & k3)]; auto; try lia.
      - rewrite up_eq. apply fr_0.
      - nra.
      - apply drop_d; auto; lia.
      - right. split; [|split]. + eapply good_weak; [|exact k1]. nra.
        + eapply dead_zz; eauto.
        + intros _. replace (S ns - 1)%nat with ns by lia. exact k2. }
    destruct (IH d o b ltac:(lia) he hb hor) as (k1 & k2). split; auto.
Qed.

Definition LI (s e : nat) (d o : FV) (b : R) : Prop :=
  (e < n)%nat /\ ((s < e)%nat \/ s = 0%nat /\ e = 0%nat) /\
  (bad d \/ (good d o b /\ dead e o /\ ((0 < s)%nat -> fr (o (s - 1)%nat) = 0))).
Lemma delim_f e d o b : (e < n)%nat -> b + (INR n + 1) * ((INR n + 3) * kp m) <= m / 2 -> bad d \/ (good d o b /\ dead e o) ->
  let '(s, e', d', o') := vdelim h eps e d o in LI s e' d' o' (b + (INR n + 1) * ((INR n + 3) * kp m)) /\ (e' <= e)%nat.
Proof.
  intros he hb hor. pose proof kp_pos as kp0. pose proof (pos_INR n) as hpn. pose proof (pos_INR e) as hpe. assert (hne : INR e <= INR n) by (apply le_INR; lia).
  set (c := (INR n + 3) * kp m) in *. assert (hc0 : 0 <= c) by (unfold c; nra).
  unfold vdelim. destruct (end_f e d o b he ltac:(fold c; nra) hor) as (k1 & k2). fold c in k2.
  destruct (vend h eps e d o) as [[e1 d1] o1]. cbn [fst snd] in *.
  destruct (Nat.eqb_spec e1 0) as [ee|ne].
  - split; [|lia]. split; [lia|]. split; auto. destruct k2 as [|(k2 & k3)]; [left; auto|right]. split; [|subst e1; split; auto; lia]. eapply good_weak; [|exact k2]. nra.
  - destruct (start_f e1 (e1 - 1) d1 o1 (b + INR e * c) ltac:(lia) ltac:(lia) ltac:(fold c; nra) k2) as (k3 & k4).
    destruct (vstart h eps e1 (e1 - 1) d1 o1) as [[s1 d2] o2]. cbn [fst snd] in *. split; [|lia]. split; [lia|]. split; [lia|].
    destruct k4 as [|(k4 & k5 & k6)]; [left; auto|right]. split; auto. eapply good_weak; [|exact k4]. fold c. nra.
Qed.
(** *** The whole iteration *)
Definition itc : R := (INR n + 3) * (INR n + 3) * kp m.
Lemma itc_pos : 0 <= itc. Proof. unfold itc. pose proof kp_pos. pose proof (pos_INR n). apply Rmult_le_pos; auto. nra. Qed.
Lemma loop_f fuel : forall s e d o b, LI s e d o b -> b + INR fuel * itc <= m / 2 ->
  match vloop h fuel eps s e d o with
  | None => True
  | Some r => bad (fst r) \/ (good (fst r) (snd r) (b + INR fuel * itc) /\ dead 0 (snd r))
  end.
Proof.
  pose proof itc_pos as it0. pose proof kp_pos as kp0. pose proof (pos_INR n) as hpn.
  induction fuel as [|fuel IH]; intros s e d o b hli hb; cbn [vloop].
  - destruct (Nat.eqb_spec e s) as [->|ne]; [|exact I]. cbn [fst snd INR] in *. destruct hli as (h1 & h2 & [h3|(h3 & h4 & h5)]); [left; auto|right].
    assert (s = 0%nat) as -> by lia. split; auto. eapply good_weak; [|exact h3]. lra.
  - pose proof (pos_INR fuel) as hpf. rewrite S_INR in *.
    destruct (Nat.eqb_spec e s) as [->|ne].
    { cbn [fst snd] in *. destruct hli as (h1 & h2 & [h3|(h3 & h4 & h5)]); [left; auto|right].
      assert (s = 0%nat) as -> by lia. split; auto. eapply good_weak; [|exact h3]. nra. }
    destruct hli as (h1 & h2 & h3). assert (hse : (s < e)%nat) by lia.
    assert (hfi : 0 <= INR fuel * itc) by nra. set (c := (INR n + 1) * ((INR n + 3) * kp m)).
    assert (hc : c + (INR n + 1) * kp m <= itc) by (unfold c, itc; nra). assert (hc0 : 0 <= c) by (unfold c; apply Rmult_le_pos; nra). assert (hnk : 0 <= INR n * kp m) by nra.
    assert (step : forall d' o' e', (e' < n)%nat -> bad d' \/ (good d' o' (b + (INR n + 1) * kp m) /\ dead e' o') ->
      let '(s1, e1, d1, o1) := vdelim h eps e' d' o' in
      match vloop h fuel eps s1 e1 d1 o1 with None => True | Some r => bad (fst r) \/ (good (fst r) (snd r) (b + (INR fuel + 1) * itc) /\ dead 0 (snd r)) end).
    { intros d' o' e' he' hor. pose proof (delim_f e' d' o' (b + (INR n + 1) * kp m) he' ltac:(fold c; nra) hor) as q.
      destruct (vdelim h eps e' d' o') as [[[s1 e1] d1] o1]. destruct q as (q & _). fold c in q.
      specialize (IH s1 e1 d1 o1 _ q ltac:(nra)). destruct (vloop h fuel eps s1 e1 d1 o1) as [r|]; auto.
      destruct IH as [hb'|(g1 & g2)]; [left; auto|right]. split; auto. eapply good_weak; [|exact g1]. nra. }
    destruct (Nat.ltb_spec 2 (S (e - s))) as [hlt|hge]; cbv zeta.
    + pose proof (step (fst (vbig h s e d o)) (snd (vbig h s e d o)) e h1) as q. destruct (vdelim h eps e (fst (vbig h s e d o)) (snd (vbig h s e d o))) as [[[s1 e1] d1] o1]. apply q. clear q.
      assert (hi : INR (e - s) <= INR n) by (apply le_INR; lia). assert (hi0 := pos_INR (e - s)).
      destruct h3 as [h3|(h3 & h4 & h5)]; [left; apply big_absorb; auto|].
      destruct (big_f s e o hse h1 ltac:(intros hn; apply h4; lia) h5 b d o ltac:(lia) ltac:(nra) (or_intror h3) ltac:(auto)) as [g|(g1 & g2)]; [left; auto|right].
      split; [eapply good_weak; [|exact g1]; nra|]. intros j hj hn. rewrite g2 by lia. apply h4; auto.
    + assert (e = s + 1)%nat as -> by lia. pose proof (step (fst (vtwo h s d o)) (snd (vtwo h s d o)) (s + 1 - 1)%nat ltac:(lia)) as q.
      destruct (vdelim h eps (s + 1 - 1)%nat (fst (vtwo h s d o)) (snd (vtwo h s d o))) as [[[s1 e1] d1] o1]. apply q. clear q.
      destruct h3 as [h3|(h3 & h4 & h5)]; [left; apply two_absorb; auto; lia|].
      destruct (two_f_ s d o b ltac:(lia)) as [g|g]; auto.
      * nra.
      * intros hn. apply h4; lia.
      * right. split; [eapply good_weak; [|exact g]; nra|].
        unfold vtwo. cbn [snd]. intros j hj hn. destruct (Nat.eq_dec j s) as [->|n1]; [rewrite up_eq; apply fr_0|rewrite up_ne by auto; apply h4; lia].
Qed.
End Delim.
End Run.
