(** * Non-finite values in svd.rs: they are never lost *)
From Coq Require Import List Arith Lia Bool ZArith.
From Coq.Floats Require Import SpecFloat.
From Verif Require Import Scalar Arr MBase MDirect MDecomp MEigh MSvd Inst SpecH Hoare Spec PTri PHouse PTrid PBid PEigh PSvd PNanE.
Import ListNotations.
Open Scope res_scope.

(** ** Bidiagonalisation *)
Section Bid.
Context {N : Num} (z : N) (hz : absorbing N z).
Notation vec := (list N).
Notation mtx := (mat N).
Ltac zz := repeat first [ rewrite (z_abs N z hz) | rewrite (z_opp N z hz) | rewrite (z_add_l N z hz) | rewrite (z_add_r N z hz) | rewrite (z_sub_l N z hz) | rewrite (z_sub_r N z hz)
  | rewrite (z_mul_l N z hz) | rewrite (z_mul_r N z hz) | rewrite (z_sign N z hz) ].

Lemma clear_column_z (m : mtx) i s p q : i + s <= p < nr m -> i <= q < nc m -> get m p q = z ->
  wp (clear_column m i s) (fun r => nr (fst r) = nr m /\ nc (fst r) = nc m /\ get (fst r) p q = z /\
    (q = i -> snd r = z /\ forall p' q', i + s <= p' < nr m -> i <= q' < nc m -> get (fst r) p' q' = z)).
Proof.
  intros hp hq hn. unfold clear_column. step1. apply post_col_from; try lia. step1.
  set (c := vmk _ _). assert (lc : length c = nr m - (i + s)) by (unfold c; rewrite length_vmk; lia).
  assert (hw : wp (reflection_axis_mut c) (fun r => length (fst r) = length c /\ (q = i -> snd r = Some z /\ forall j, j < length c -> vget (fst r) j = z))).
  { destruct (wp_ret _ _ (reflection_axis_ok c ltac:(lia))) as ([v o] & er & hv). rewrite er. simpl. cbn [fst] in hv. split; [lia|]. intros ->.
    pose proof (axis_z z hz c (p - (i + s)) ltac:(lia)) as ha. rewrite er in ha. simpl in ha. destruct ha as (_ & -> & ha).
    { unfold c. rewrite vget_vmk by lia. replace (i + s + (p - (i + s))) with p by lia. exact hn. }
    split; [reflexivity|]. intros j hj. apply ha. lia. }
  eapply post_mono; [exact hw|]. intros [ax o]. cbn [fst snd]. intros (hl & hax). clear hw.
  set (m1 := put_col m (i + s) i ax). assert (d1 : nr m1 = nr m) by (unfold m1; dims; auto). assert (d2 : nc m1 = nc m) by (unfold m1; dims; auto).
  assert (hm1 : forall r k, r < nr m -> k < nc m -> k <> i -> get m1 r k = get m r k).
  { intros r k hr hk ne. unfold m1. rewrite get_put_col by lia. bd; reflexivity. }
  destruct o as [x|].
  2: { apply post_ret. cbn [fst snd]. split; [auto|]. split; [auto|]. destruct (Nat.eq_dec q i) as [->|ne]; [destruct hax as (hx & _); [auto|discriminate]|].
    split; [rewrite hm1 by lia; exact hn|lia]. }
  step1. rewrite d1, d2. apply post_slice; try lia. step1.
  eapply post_mono; [apply reflect_cols_ok; simpl; dlia|]. intros y (g1 & g2 & g3). dims. apply post_ret. cbn [fst snd axis bias] in *.
  split; [dims; auto|]. split; [dims; auto|].
  assert (hcol : forall r, r < nr m -> get (put m1 (i + s) (i + 1) (mscale y (nsignum N x))) r i = get m1 r i).
  { intros r hr. rewrite get_put by lia. dims. bd; try reflexivity; lia. }
  assert (hrest : forall r k, i + s <= r < nr m -> i + 1 <= k < nc m -> get (put m1 (i + s) (i + 1) (mscale y (nsignum N x))) r k =
     nmul N (refl_entry (vget ax) (n0 N) (nr m - (i + s)) (get (mk (nr m - (i + s)) (nc m - (i + 1)) (fun i0 j => get m1 (i + s + i0) (i + 1 + j)))) (r - (i + s)) (k - (i + 1))) (nsignum N x)).
  { intros r k hr hk. rewrite get_put by lia. dims. rewrite g1, g2. bd; try lia. unfold mscale. rewrite get_mmap by lia. rewrite g3 by lia. reflexivity. }
  destruct (Nat.eq_dec q i) as [->|ne].
  - destruct (hax eq_refl) as (hx & ha). injection hx as ->.
    assert (hall : forall p' q', i + s <= p' < nr m -> i <= q' < nc m -> get (put m1 (i + s) (i + 1) (mscale y (nsignum N z))) p' q' = z).
    { intros p' q' hp' hq'. destruct (Nat.eq_dec q' i) as [->|].
      - rewrite hcol by lia. unfold m1. rewrite get_put_col by lia. bd; try lia. apply ha. lia.
      - rewrite hrest by lia. zz. reflexivity. }
    split; [apply hall; lia|]. intros _. split; [reflexivity|exact hall].
  - split; [|lia]. rewrite hrest by lia. unfold refl_entry. rewrite (sumn_z z hz _ _ (p - (i + s))); [zz; reflexivity|lia|].
    rewrite get_mk by lia. replace (i + s + (p - (i + s))) with p by lia. replace (i + 1 + (q - (i + 1))) with q by lia. rewrite hm1 by lia. rewrite hn. zz. reflexivity.
Qed.
Lemma clear_row_z (m : mtx) i s p q : i <= p < nr m -> i + s <= q < nc m -> get m p q = z ->
  wp (clear_row m i s) (fun r => nr (fst r) = nr m /\ nc (fst r) = nc m /\ get (fst r) p q = z /\
    (p = i -> snd r = z /\ forall p' q', i <= p' < nr m -> i + s <= q' < nc m -> get (fst r) p' q' = z)).
Proof.
  intros hp hq hn. unfold clear_row. step1.
  eapply post_mono; [apply (clear_column_z (transpose m) i s q p); dims; auto; rewrite get_transpose by lia; exact hn|].
  intros [t x]. cbn [fst snd]. dims. intros (h1 & h2 & h3 & h4). apply post_ret. cbn [fst snd]. dims. split; [lia|]. split; [lia|].
  split; [rewrite get_transpose by lia; exact h3|]. intros e. destruct (h4 e) as (h5 & h6). split; auto. intros. rewrite get_transpose by lia. apply h6; lia.
Qed.

Definition bid_z (m : mtx) (d : vec) (r c i : nat) : Prop := (exists j, j < i /\ vget d j = z) \/ exists p q, i <= p < r /\ i <= q < c /\ get m p q = z.
Lemma bid_step_z (up : bool) (m : mtx) d o r c i : nr m = r -> nc m = c -> (if up then c <= r else r <= c) -> S i < Nat.min r c -> length d = Nat.min r c -> length o = Nat.min r c - 1 -> bid_z m d r c i ->
  wp (let* (m, x) := (if up then clear_column m i 0 else clear_row m i 0) in let* d := set1 d i x in
      let* (m, y) := (if up then clear_row m i 1 else clear_column m i 1) in let* o := set1 o i y in Ret (m, d, o))
   (fun st => nr (fst (fst st)) = r /\ nc (fst (fst st)) = c /\ length (snd (fst st)) = Nat.min r c /\ length (snd st) = Nat.min r c - 1 /\ bid_z (fst (fst st)) (snd (fst st)) r c (S i)).
Proof.
  intros h1 h2 hu hi h3 h4 h5. destruct h5 as [(j & hj & e)|(p & q & hp & hq & e)].
  - assert (hd : forall x, vget (vupd d i x) j = z) by (intros x; rewrite vget_vupd by lia; bd; exact e).
    destruct up.
    + step1. eapply post_mono; [apply clear_column_safe; lia|]. intros [m1 x]. cbn [fst snd]. intros (g1 & g2). step1. apply post_set1; [lia|].
      step1. eapply post_mono; [apply clear_row_safe; lia|]. intros [m2 y]. cbn [fst snd]. intros (g3 & g4). step1. apply post_set1; [lia|]. apply post_ret. cbn [fst snd]. dims.
      do 4 (split; [lia|]). left. exists j. split; [lia|auto].
    + step1. eapply post_mono; [apply clear_row_safe; lia|]. intros [m1 x]. cbn [fst snd]. intros (g1 & g2). step1. apply post_set1; [lia|].
      step1. eapply post_mono; [apply clear_column_safe; lia|]. intros [m2 y]. cbn [fst snd]. intros (g3 & g4). step1. apply post_set1; [lia|]. apply post_ret. cbn [fst snd]. dims.
      do 4 (split; [lia|]). left. exists j. split; [lia|auto].
  - destruct up.
    + step1. eapply post_mono; [apply (clear_column_z m i 0 p q); auto; lia|]. intros [m1 x]. cbn [fst snd]. intros (g1 & g2 & g3 & g4). step1. apply post_set1; [lia|].
      destruct (Nat.eq_dec q i) as [->|ne].
      * destruct (g4 eq_refl) as (-> & _).
        step1. eapply post_mono; [apply clear_row_safe; lia|]. intros [m2 y]. cbn [fst snd]. intros (g5 & g6). step1. apply post_set1; [lia|]. apply post_ret. cbn [fst snd]. dims.
        do 4 (split; [lia|]). left. exists i. split; [lia|]. rewrite vget_vupd by lia. bd. reflexivity.
      * step1. eapply post_mono; [apply (clear_row_z m1 i 1 p q); auto; lia|]. intros [m2 y]. cbn [fst snd]. intros (g5 & g6 & g7 & g8). step1. apply post_set1; [lia|]. apply post_ret. cbn [fst snd]. dims.
        do 4 (split; [lia|]). right. destruct (Nat.eq_dec p i) as [->|ne2].
        -- destruct (g8 eq_refl) as (_ & ga). exists (S i), (S i). split; [lia|]. split; [lia|]. apply ga; lia.
        -- exists p, q. split; [lia|]. split; [lia|auto].
    + step1. eapply post_mono; [apply (clear_row_z m i 0 p q); auto; lia|]. intros [m1 x]. cbn [fst snd]. intros (g1 & g2 & g3 & g4). step1. apply post_set1; [lia|].
      destruct (Nat.eq_dec p i) as [->|ne].
      * destruct (g4 eq_refl) as (-> & _).
        step1. eapply post_mono; [apply clear_column_safe; lia|]. intros [m2 y]. cbn [fst snd]. intros (g5 & g6). step1. apply post_set1; [lia|]. apply post_ret. cbn [fst snd]. dims.
        do 4 (split; [lia|]). left. exists i. split; [lia|]. rewrite vget_vupd by lia. bd. reflexivity.
      * step1. eapply post_mono; [apply (clear_column_z m1 i 1 p q); auto; lia|]. intros [m2 y]. cbn [fst snd]. intros (g5 & g6 & g7 & g8). step1. apply post_set1; [lia|]. apply post_ret. cbn [fst snd]. dims.
        do 4 (split; [lia|]). right. destruct (Nat.eq_dec q i) as [->|ne2].
        -- destruct (g8 eq_refl) as (_ & ga). exists (S i), (S i). split; [lia|]. split; [lia|]. apply ga; lia.
        -- exists p, q. split; [lia|]. split; [lia|auto].
Qed.
Lemma bidiagonal_z (a : mtx) p q : p < nr a -> q < nc a -> get a p q = z ->
  wp (bidiagonal a) (fun b => exists j, j < length (bi_diag b) /\ vget (bi_diag b) j = z).
Proof.
  intros hp hq e. unfold bidiagonal. set (dm := Nat.min (nr a) (nc a)) in *. destruct (Nat.eqb_spec dm 0); [lia|]. step1.
  eapply post_for' with (I := fun i (st : mtx * vec * vec) => nr (fst (fst st)) = nr a /\ nc (fst (fst st)) = nc a /\ length (snd (fst st)) = dm /\ length (snd st) = dm - 1 /\
     bid_z (fst (fst st)) (snd (fst st)) (nr a) (nc a) i).
  - cbn [fst snd]. dims. do 4 (split; [lia|]). right. exists p, q. split; [lia|]. split; [lia|auto].
  - intros i [[m d] o] hi. cbn [fst snd]. intros (h1 & h2 & h3 & h4 & h5). apply bid_step_z; auto; [|lia]. destruct (Nat.leb_spec (nc a) (nr a)); lia.
  - intros [[m d] o]. cbn [fst snd Nat.add]. intros (h1 & h2 & h3 & h4 & h5).
    assert (hd : forall x : N, (exists j, j < dm - 1 /\ vget d j = z) \/ x = z -> exists j, j < length (vupd d (dm - 1) x) /\ vget (vupd d (dm - 1) x) j = z).
    { intros x [(j & hj & ej)| ->].
      - exists j. dims. split; [lia|]. rewrite vget_vupd by lia. bd. exact ej.
      - exists (dm - 1). dims. split; [lia|]. rewrite vget_vupd by lia. bd. reflexivity. }
    step1. eapply post_mono with (Q := fun mx => (exists j, j < dm - 1 /\ vget d j = z) \/ snd mx = z).
    2: { intros [m1 x]. cbn [snd]. intros hx. step1. apply post_set1; [lia|]. apply post_ret. cbn [bi_diag]. apply hd. exact hx. }
    destruct h5 as [h5|(p' & q' & hp' & hq' & e')].
    + destruct (Nat.leb_spec (nc a) (nr a)); (eapply post_mono; [first [apply clear_column_safe; lia|apply clear_row_safe; lia]|]); intros; left; exact h5.
    + destruct (Nat.leb_spec (nc a) (nr a)).
      * eapply post_mono; [apply (clear_column_z m (dm - 1) 0 p' q'); auto; lia|]. intros [m1 x]. cbn [snd fst]. intros (_ & _ & _ & g). right. apply g. lia.
      * eapply post_mono; [apply (clear_row_z m (dm - 1) 0 p' q'); auto; lia|]. intros [m1 x]. cbn [snd fst]. intros (_ & _ & _ & g). right. apply g. lia.
Qed.
End Bid.

(** ** The iteration: some diagonal entry stays NaN or infinite *)
Record infectious (N : Num) (bad : N -> Prop) (eps : N) : Prop := {
  b_add_l : forall x y, bad x -> bad (nadd N x y); b_add_r : forall x y, bad y -> bad (nadd N x y);
  b_sub_l : forall x y, bad x -> bad (nsub N x y); b_sub_r : forall x y, bad y -> bad (nsub N x y);
  b_mul_l : forall x y, bad x -> bad (nmul N x y); b_mul_r : forall x y, bad y -> bad (nmul N x y);
  b_div : forall x y, bad x -> bad (ndiv N x y); b_opp : forall x, bad x -> bad (nopp N x); b_abs : forall x, bad x -> bad (nabs N x);
  b_hyp_l : forall x y, bad x -> bad (nhypot N x y); b_hyp_r : forall x y, bad y -> bad (nhypot N x y);
  b_zero : forall x, bad x -> nis_zero N x = false; b_eps : forall x, bad x -> nle N (nabs N x) eps = false }.

Section It.
Context {N : Num} (bad : N -> Prop) (eps : N) (hb : infectious N bad eps).
Notation vec := (list N).
Notation mtx := (mat N).
Definition bin (d : vec) : Prop := exists j, j < length d /\ bad (vget d j).

Lemma bin_upd (d : vec) k x : k < length d -> (bad (vget d k) -> bad x) -> bin d -> bin (vupd d k x).
Proof.
  intros hl h (j & hj & e). exists j. rewrite length_vupd. split; auto. rewrite vget_vupd by lia. destruct (Nat.eqb_spec j k) as [->|]; auto.
Qed.
Lemma cancel_x_bad x y g r : cancel_x x y = Some (g, r) -> bad y -> bad r.
Proof. unfold cancel_x, cancel_y. destruct (negb _); [|discriminate]. intros e. injection e as _ <-. apply (b_hyp_l _ _ _ hb). Qed.
Lemma cancel_y_bad x y g r : cancel_y x y = Some (g, r) -> bad x -> bad r.
Proof. unfold cancel_y. destruct (negb _); [|discriminate]. intros e. injection e as _ <-. apply (b_hyp_l _ _ _ hb). Qed.

Lemma for_rev_brk_inv {S} (P : nat -> S -> Prop) n : forall (f : nat -> S -> res (bool * S)) (s s' : S), P n s -> (forall i s b s', P (1 + i) s -> f i s = Ret (b, s') -> if b then P i s' else exists j, P j s') ->
  for_rev_brk n f s = Ret s' -> exists j, P j s'.
Proof.
  induction n as [|n IH]; intros f s s' hs hf; cbn [for_rev_brk]; [intros e; injection e as <-; eauto|].
  intros e. apply bind_ret in e as ([b s1] & e1 & e). pose proof (hf _ _ _ _ hs e1) as h1. cbn [fst snd] in *. destruct b; [apply (IH _ _ _ h1 hf e)|injection e as <-; auto].
Qed.
Lemma for_brk_inv' {S} (P : nat -> S -> Prop) n : forall lo (f : nat -> S -> res (bool * S)) (s s' : S), P lo s ->
  (forall i s b s', lo <= i < lo + n -> P i s -> f i s = Ret (b, s') -> if b then P (1 + i) s' else exists j, P j s') ->
  for_brk n lo f s = Ret s' -> exists j, P j s'.
Proof.
  induction n as [|n IH]; intros lo f s s' hs hf; cbn [for_brk]; [intros e; injection e as <-; eauto|].
  intros e. apply bind_ret in e as ([b s1] & e1 & e). pose proof (hf lo _ _ _ ltac:(lia) hs e1) as h1. cbn [fst snd] in *.
  destruct b; [apply (IH (1 + lo) f s1 s' h1); auto; intros i s2 b s2' hi; apply hf; lia|injection e as <-; auto].
Qed.

Lemma cancel_horizontal_bad up i e st st' : cancel_horizontal up i e st = Ret st' -> bin (sd st) -> bin (sd st').
Proof.
  unfold cancel_horizontal. intros e0 hin. apply bind_ret in e0 as (v0 & _ & e0). apply bind_ret in e0 as (v1 & e1 & e0). apply bind_ret in e0 as (off & _ & e0).
  apply bind_ret in e0 as ([xy st1] & ef & e0). injection e0 as <-. apply idx1_inv in e1 as (_ & ->).
  eapply (for_brk_inv' (fun k (s : N * N * svd_state N) => (k < e -> snd (fst s) = vget (sd (snd s)) (k + 1)) /\ bin (sd (snd s))) _ _ _ _ (xy, st1)) in ef.
  - destruct ef as (j & _ & h). exact h.
  - split; auto.
  - clear - hb. intros k [[v0 v1] [d o u v]] b [[w0 w1] st2] hk. cbn [fst snd sd so su sv]. intros (hv & hin) e0.
    destruct (cancel_x v0 v1) as [[rot norm]|] eqn:ec; [|injection e0 as <- <- <- <-; exists k; cbn [fst snd sd]; auto].
    apply bind_ret in e0 as (d1 & ed & e0). apply atm1_inv in ed as (hl & ->). apply bind_ret in e0 as (u1 & _ & e0). apply bind_ret in e0 as (vt & _ & e0).
    assert (hn : bin (vupd d (k + 1) norm)).
    { apply bin_upd; auto. intros hbd. apply (cancel_x_bad _ _ _ _ ec). rewrite hv by lia. exact hbd. }
    destruct (Nat.eqb_spec (k + 1) e) as [he|he]; cbn [negb] in e0.
    + injection e0 as <- <- <- <-. cbn [fst snd sd]. split; [intros; lia|exact hn].
    + apply bind_ret in e0 as (o1 & _ & e0). apply bind_ret in e0 as (d2 & e2 & e0). apply bind_ret in e0 as (off & _ & e0). injection e0 as <- <- <- <-. cbn [fst snd sd].
      apply at1_inv in e2 as (_ & ->). split; [|exact hn]. intros _. f_equal. lia.
Qed.
Lemma cancel_vertical_bad up i st st' : cancel_vertical up i st = Ret st' -> bin (sd st) -> bin (sd st').
Proof.
  unfold cancel_vertical. intros e0 hin. apply bind_ret in e0 as (v0 & e1 & e0). apply bind_ret in e0 as (v1 & _ & e0). apply bind_ret in e0 as (off & _ & e0).
  apply bind_ret in e0 as ([xy st1] & ef & e0). injection e0 as <-. apply idx1_inv in e1 as (_ & ->).
  eapply (for_rev_brk_inv (fun k (s : N * N * svd_state N) => (0 < k -> fst (fst s) = vget (sd (snd s)) (k - 1)) /\ bin (sd (snd s))) _ _ _ (xy, st1)) in ef.
  - destruct ef as (j & _ & h). exact h.
  - cbn [fst snd sd]. split; auto. intros _. f_equal. lia.
  - clear - hb. intros k [[v0 v1] [d o u v]] b [[w0 w1] st2]. cbn [fst snd sd so su sv]. intros (hv & hin) e0.
    destruct (cancel_y v0 v1) as [[rot norm]|] eqn:ec; [|injection e0 as <- <- <- <-; exists (1 + k); cbn [fst snd sd]; auto].
    apply bind_ret in e0 as (d1 & ed & e0). apply atm1_inv in ed as (hl & ->). apply bind_ret in e0 as (vt & _ & e0). apply bind_ret in e0 as (u1 & _ & e0).
    assert (hn : bin (vupd d k norm)).
    { apply bin_upd; auto. intros hbd. apply (cancel_y_bad _ _ _ _ ec). rewrite hv by lia. replace (1 + k - 1) with k by lia. exact hbd. }
    destruct (Nat.ltb_spec 0 k) as [he|he].
    + apply bind_ret in e0 as (k1 & ek & e0). apply bind_ret in e0 as (d2 & e2 & e0). apply bind_ret in e0 as (o1 & _ & e0). apply bind_ret in e0 as (off & _ & e0). injection e0 as <- <- <- <-. cbn [fst snd sd].
      unfold usub in ek. destruct (Nat.leb_spec 1 k); [|lia]. injection ek as <-.
      apply at1_inv in e2 as (_ & ->). split; [|exact hn]. intros _. reflexivity.
    + injection e0 as <- <- <- <-. cbn [fst snd sd]. split; [intros; lia|exact hn].
Qed.
Lemma vert_opt_bad up m st st' : (if negb (Nat.eqb m 0) then let* m1 := usub m 1 in cancel_vertical up m1 st else Ret st) = Ret st' -> bin (sd st) -> bin (sd st').
Proof.
  destruct (negb _); [|intros e; injection e as <-; auto]. intros e. apply bind_ret in e as (m1 & _ & e). eapply cancel_vertical_bad; eauto.
Qed.
Lemma zero_bad (d : vec) m d' dm : atm1 d m (n0 N) = Ret d' -> dm = vget d m -> nle N (nabs N dm) eps = true -> bin d -> bin d'.
Proof.
  intros e -> hle. apply atm1_inv in e as (hl & ->). apply bin_upd; auto. intros h. rewrite (b_eps _ _ _ hb) in hle by auto. discriminate.
Qed.
Lemma delim_end_bad up n : forall st r, svd_delim_end up eps n st = Ret r -> bin (sd st) -> bin (sd (snd r)).
Proof.
  induction n as [|m IH]; intros st r e0 hin; cbn [svd_delim_end] in e0; [injection e0 as <-; exact hin|].
  apply bind_ret in e0 as (o & _ & e0). apply bind_ret in e0 as (dn & e1 & e0). apply bind_ret in e0 as (dm & e2 & e0). apply at1_inv in e1, e2.
  destruct (_ || _)%bool; [apply bind_ret in e0 as (off & _ & e0); apply (IH _ _ e0); exact hin|].
  destruct (nle N (nabs N dm) eps) eqn:hl.
  - apply bind_ret in e0 as (d & ed & e0). apply bind_ret in e0 as (st1 & es & e0). apply bind_ret in e0 as (st2 & et & e0). apply (IH _ _ e0).
    eapply vert_opt_bad; [exact et|]. eapply cancel_horizontal_bad; [exact es|]. cbn [sd]. exact (zero_bad _ _ _ _ ed (proj2 e2) hl hin).
  - destruct (nle N (nabs N dn) eps) eqn:hl2; [|injection e0 as <-; exact hin].
    apply bind_ret in e0 as (d & ed & e0). apply bind_ret in e0 as (st1 & es & e0). apply (IH _ _ e0).
    eapply cancel_vertical_bad; [exact es|]. cbn [sd]. exact (zero_bad _ _ _ _ ed (proj2 e1) hl2 hin).
Qed.
Lemma delim_start_bad up n s : forall st r, svd_delim_start up eps n s st = Ret r -> bin (sd st) -> bin (sd (snd r)).
Proof.
  induction s as [|m IH]; intros st r e0 hin; cbn [svd_delim_start] in e0; [injection e0 as <-; exact hin|].
  apply bind_ret in e0 as (o & _ & e0). apply bind_ret in e0 as (dn & e1 & e0). apply bind_ret in e0 as (dm & e2 & e0). apply at1_inv in e1, e2.
  destruct (nle N (nabs N o) _); [apply bind_ret in e0 as (off & _ & e0); injection e0 as <-; exact hin|].
  destruct (nle N (nabs N dm) eps) eqn:hl; [|apply (IH _ _ e0); exact hin].
  apply bind_ret in e0 as (d & ed & e0). apply bind_ret in e0 as (st1 & es & e0). apply bind_ret in e0 as (st2 & et & e0). injection e0 as <-. cbn [snd].
  eapply vert_opt_bad; [exact et|]. eapply cancel_horizontal_bad; [exact es|]. cbn [sd]. exact (zero_bad _ _ _ _ ed (proj2 e2) hl hin).
Qed.
Lemma svd_delimit_bad up e st a b st' : svd_delimit up e eps st = Ret (a, b, st') -> bin (sd st) -> bin (sd st').
Proof.
  unfold svd_delimit. intros e0 hin. apply bind_ret in e0 as ([n st1] & e1 & e0). pose proof (delim_end_bad _ _ _ _ e1 hin) as h1. cbn [snd] in h1.
  destruct (Nat.eqb n 0); [injection e0 as _ _ <-; exact h1|]. apply bind_ret in e0 as (ns & _ & e0). apply bind_ret in e0 as ([s st2] & e2 & e0). injection e0 as _ _ <-.
  apply (delim_start_bad _ _ _ _ _ e2 h1).
Qed.

Lemma svd_sweep_bad up start n k x y st b x' y' st' : svd_sweep_step up start n k (x, y, st) = Ret (b, (x', y', st')) -> bin (sd st) -> bin (sd st').
Proof.
  destruct st as [d o u v]. unfold svd_sweep_step. cbn [sd so su sv]. intros e0 hin. apply bind_ret in e0 as (n1_ & _ & e0). apply bind_ret in e0 as (m12 & _ & e0).
  apply bind_ret in e0 as (dk & e1 & e0). apply bind_ret in e0 as (ok & _ & e0). apply bind_ret in e0 as (dk1 & e2 & e0). apply at1_inv in e1, e2.
  destruct (cancel_y x y) as [[[c s] norm1]|]; [|injection e0 as _ _ _ <-; exact hin].
  apply bind_ret in e0 as (t1 & q & e0). cbv in q. injection q as <-. apply bind_ret in e0 as (t2 & q & e0). cbv in q. injection q as <-.
  apply bind_ret in e0 as (off & _ & e0). apply bind_ret in e0 as (v1 & q1 & e0). cbv in q1. injection q1 as hv1. apply bind_ret in e0 as (v2 & q2 & e0). cbv in q2. injection q2 as hv2.
  apply bind_ret in e0 as ([[sm rot2] norm2] & esm & e0).
  assert (hs : nr sm = 2 /\ nc sm = 3 /\ (bad dk1 -> bad (get sm 1 1)) /\ (bad dk -> bad norm2 \/ bad (get sm 1 1))).
  { assert (bd1 : bad dk1 -> bad v2). { intros h. rewrite <- hv2. apply (b_add_r _ _ _ hb), (b_mul_r _ _ _ hb). exact h. }
    assert (bd0 : bad dk -> bad v1). { intros h. rewrite <- hv1. apply (b_add_l _ _ _ hb), (b_mul_l _ _ _ hb). exact h. }
    unfold cancel_y in esm. destruct (nis_zero N v2) eqn:ez; cbn [negb] in esm.
    - injection esm as <- _ <-. split; [reflexivity|]. split; [reflexivity|]. split; [|auto]. intros h. rewrite (b_zero _ _ _ hb) in ez by auto. discriminate.
    - apply bind_ret in esm as (t3 & q & esm). cbv in q. injection q as <-. apply bind_ret in esm as (t4 & q & esm). cbv in q. injection q as <-. injection esm as <- _ _.
      split; [reflexivity|]. split; [reflexivity|]. clear - hb. split; intros h; [|right]; cbv.
      + apply (b_add_r _ _ _ hb), (b_mul_l _ _ _ hb), (b_add_r _ _ _ hb), (b_mul_l _ _ _ hb). exact h.
      + apply (b_add_l _ _ _ hb), (b_mul_r _ _ _ hb), (b_add_l _ _ _ hb), (b_mul_r _ _ _ hb). exact h. }
  clear hv1 hv2 esm. destruct hs as (s1 & s2 & s3 & s4).
  apply bind_ret in e0 as (sm2 & e3 & e0). apply bind_ret in e0 as (vt & _ & e0). apply bind_ret in e0 as (u' & _ & e0).
  apply bind_ret in e0 as (s00 & f1 & e0). apply bind_ret in e0 as (s11 & f2 & e0). apply bind_ret in e0 as (s01 & _ & e0). apply bind_ret in e0 as (s12 & _ & e0). apply bind_ret in e0 as (s02 & _ & e0).
  apply bind_ret in e0 as (d1 & g1 & e0). apply bind_ret in e0 as (d2 & g2 & e0). apply bind_ret in e0 as (o1 & _ & e0). apply bind_ret in e0 as (o2 & _ & e0). injection e0 as _ _ _ <-. cbn [sd].
  apply atm1_inv in g1 as (l1 & ->). apply atm1_inv in g2 as (l2 & ->).
  assert (h00 : s00 = norm2 /\ s11 = get sm 1 1).
  { unfold atm2 in e3. rewrite s1, s2 in e3. cbn [Nat.ltb Nat.leb andb] in e3. injection e3 as <-. unfold at2 in f1, f2. revert f1 f2.
    dims. rewrite s1, s2. cbn [Nat.ltb Nat.leb andb]. intros f1 f2. injection f1 as <-. injection f2 as <-. rewrite !get_upd by lia. cbn. auto. }
  destruct h00 as (-> & ->). rewrite length_vupd in l2. destruct e1 as (_ & ->). destruct e2 as (_ & ->). destruct hin as (j & hj & e).
  destruct (Nat.eq_dec j k) as [->|n1].
  - destruct (s4 e) as [h|h].
    + exists k. rewrite !length_vupd. split; auto. rewrite vget_vupd by (rewrite length_vupd; lia). destruct (Nat.eqb_spec k (k + 1)); [lia|]. rewrite vget_vupd by lia. rewrite Nat.eqb_refl. exact h.
    + exists (k + 1). rewrite !length_vupd. split; auto. rewrite vget_vupd by (rewrite length_vupd; lia). rewrite Nat.eqb_refl. exact h.
  - exists j. rewrite !length_vupd. split; auto. rewrite vget_vupd by (rewrite length_vupd; lia). destruct (Nat.eqb_spec j (k + 1)) as [->|]; [auto|].
    rewrite vget_vupd by lia. destruct (Nat.eqb_spec j k); [lia|exact e].
Qed.
Lemma svd_big_bad up start e st st' : svd_big up start e st = Ret st' -> bin (sd st) -> bin (sd st').
Proof.
  unfold svd_big. intros e0 hin. do 8 (apply bind_ret in e0 as (? & _ & e0)). apply bind_ret in e0 as ([xy st1] & ef & e0). injection e0 as <-.
  apply (for_brk_inv (fun s : N * N * svd_state N => bin (sd (snd s))) _ _ _ _ (xy, st1)) in ef; auto. intros i [[xa ya] s] b [[xb yb] s'] hs es0. cbn [snd] in *. eapply svd_sweep_bad; eauto.
Qed.
Lemma uptrig_bad m11 m12 m22 cu cv s1 s2 u v : compute_2x2_uptrig_svd m11 m12 m22 cu cv = (s1, s2, u, v) -> bad m11 \/ bad m22 -> bad s1.
Proof.
  unfold compute_2x2_uptrig_svd. intros e h.
  assert (h1 : forall x, bad (ndiv N (nmul N (nmul N m11 m22) ntwo) x)).
  { intros x. apply (b_div _ _ _ hb), (b_mul_l _ _ _ hb). destruct h; [apply (b_mul_l _ _ _ hb)|apply (b_mul_r _ _ _ hb)]; auto. }
  destruct (_ || _)%bool; [|injection e as <- _ _ _; apply h1]. destruct (givens_new _ _) as [csv sv]. destruct (givens_new _ _) as [csu su]. injection e as <- _ _ _.
  apply (b_mul_l _ _ _ hb), (b_mul_l _ _ _ hb), h1.
Qed.
Lemma svd_two_bad up cu cv start st st' : svd_two up cu cv start st = Ret st' -> bin (sd st) -> bin (sd st').
Proof.
  destruct st as [d o u v]. unfold svd_two. cbn [sd so su sv]. intros e0 (j & hj & e). apply bind_ret in e0 as (d0 & e1 & e0). apply bind_ret in e0 as (o1 & _ & e0). apply bind_ret in e0 as (d1 & e2 & e0).
  apply at1_inv in e1, e2. destruct (compute_2x2_uptrig_svd d0 o1 d1 _ _) as [[[s1 s2] u2] v2] eqn:ec. pose proof (uptrig_bad _ _ _ _ _ _ _ _ _ ec) as hs.
  apply bind_ret in e0 as (d2 & g1 & e0). apply bind_ret in e0 as (d3 & g2 & e0). apply bind_ret in e0 as (off & _ & e0). destruct (if up then (u2, v2) else (v2, u2)) as [ru rv].
  apply bind_ret in e0 as (u3 & _ & e0). apply bind_ret in e0 as (v3 & _ & e0). injection e0 as <-. cbn [sd].
  apply atm1_inv in g1 as (l1 & ->). apply atm1_inv in g2 as (l2 & ->). rewrite length_vupd in l2. destruct e1 as (_ & ->). destruct e2 as (_ & ->).
  assert (h0 : bad s1 -> bin (vupd (vupd d start s1) (start + 1) s2)).
  { intros h. exists start. rewrite !length_vupd. split; auto. rewrite vget_vupd by (rewrite length_vupd; lia). destruct (Nat.eqb_spec start (start + 1)); [lia|]. rewrite vget_vupd by lia. rewrite Nat.eqb_refl. exact h. }
  destruct (Nat.eq_dec j start) as [->|n1]; [auto|]. destruct (Nat.eq_dec j (start + 1)) as [->|n2]; [auto|].
  exists j. rewrite !length_vupd. split; auto. rewrite vget_vupd by (rewrite length_vupd; lia). destruct (Nat.eqb_spec j (start + 1)); [lia|]. rewrite vget_vupd by lia. destruct (Nat.eqb_spec j start); [lia|exact e].
Qed.
Lemma svd_loop_bad up cu cv fuel : forall start e st st', svd_loop fuel up cu cv eps start e st = Ret st' -> bin (sd st) -> bin (sd st').
Proof.
  induction fuel as [|fuel IH]; intros start e st st' e0 hin; cbn [svd_loop] in e0; (destruct (Nat.eqb e start); [injection e0 as <-; auto|]); [discriminate|].
  apply bind_ret in e0 as (d & _ & e0). apply bind_ret in e0 as ([st1 e1] & eb & e0). apply bind_ret in e0 as ([[s' e2] st2] & ed & e0).
  apply (IH _ _ _ _ e0). eapply svd_delimit_bad; [exact ed|]. destruct (Nat.ltb 2 (S d)); [|destruct (Nat.eqb (S d) 2)].
  - apply bind_ret in eb as (st3 & eb & q). injection q as <- _. eapply svd_big_bad; eauto.
  - apply bind_ret in eb as (st3 & eb & q). apply bind_ret in q as (e3 & _ & q). injection q as <- _. eapply svd_two_bad; eauto.
  - injection eb as <- _. auto.
Qed.
Lemma fix_signs_bad dim (d : vec) u d' u' : svd_fix_signs dim d u = Ret (d', u') -> bin d -> bin d'.
Proof.
  unfold svd_fix_signs. intros e hin.
  assert (h : forall n lo f (s s' : vec * option mtx), (forall i s s', bin (fst s) -> f i s = Ret s' -> bin (fst s')) -> bin (fst s) -> for_ n lo f s = Ret s' -> bin (fst s')).
  { clear. induction n as [|n IH]; intros lo f s s' hf hs; cbn [for_]; [intros e; injection e as <-; auto|]. intros e. apply bind_ret in e as (s1 & e1 & e). eapply IH; [exact hf| |exact e]. eapply hf; eauto. }
  apply (h _ _ _ _ (d', u')) in e; auto. clear - hb. intros i [d u] [d' u'] hs e. cbn [fst] in *. apply bind_ret in e as (val & e1 & e). apply idx1_inv in e1 as (_ & ->).
  destruct (nis_neg N _); [|injection e as <- _; auto]. apply bind_ret in e as (d1 & e1 & e). apply bind_ret in e as (u1 & _ & e). injection e as <- _. apply set1_inv in e1 as (hl & ->).
  apply bin_upd; auto. apply (b_opp _ _ _ hb).
Qed.

Lemma svd_eps_bad z (hz : absorbing N z) (zbad : bad z) fuel (m : mtx) cu cv u s vt p q : p < nr m -> q < nc m -> get (scale_down m (abs_max m)) p q = z ->
  svd_eps fuel m cu cv eps = Ret (u, s, vt) -> exists j, j < length s /\ bad (vget s j).
Proof.
  intros hp hq hn. unfold svd_eps. destruct (_ || _)%bool; [discriminate|]. intros e0.
  set (a := scale_down m (abs_max m)) in *. assert (d1 : nr a = nr m) by (unfold a, scale_down; destruct (negb _); reflexivity). assert (d2 : nc a = nc m) by (unfold a, scale_down; destruct (negb _); reflexivity).
  apply bind_ret in e0 as (bd & ebd & e0). apply bind_ret in e0 as (u0 & _ & e0). apply bind_ret in e0 as (v0 & _ & e0).
  pose proof (bidiagonal_z z hz a p q ltac:(lia) ltac:(lia) hn) as ht. rewrite ebd in ht. simpl in ht. destruct ht as (j & hj & ej).
  assert (hd : bin (fst (bi_into_diagonals bd))).
  { unfold bi_into_diagonals, vmap. cbn [fst]. exists j. rewrite length_vmk. split; auto. rewrite vget_vmk by auto. rewrite ej. apply (b_abs _ _ _ hb). exact zbad. }
  destruct (bi_into_diagonals bd) as [diag off]. cbn [fst] in hd. apply bind_ret in e0 as (dm & _ & e0). apply bind_ret in e0 as ([[st en] s1] & ed & e0). apply bind_ret in e0 as (s2 & el & e0).
  apply bind_ret in e0 as ([d3 u3] & ef & e0). injection e0 as _ <- _. eapply fix_signs_bad; [exact ef|].
  assert (h2 : bin (sd s2)). { eapply svd_loop_bad; [exact el|]. eapply svd_delimit_bad; [exact ed|]. exact hd. }
  destruct h2 as (k & hk & h2). exists k. unfold vmap. rewrite length_vmk. split; auto. rewrite vget_vmk by auto. apply (b_mul_l _ _ _ hb). exact h2.
Qed.
End It.
