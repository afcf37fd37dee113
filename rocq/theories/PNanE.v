(** * NaN in eigh.rs: it is never lost *)
From Coq Require Import List Arith Lia Bool ZArith.
From Coq.Floats Require Import SpecFloat.
From Verif Require Import Scalar Arr MBase MDirect MDecomp MEigh Inst SpecH Hoare Spec PTri PHouse PTrid PEigh.
Import ListNotations.
Open Scope res_scope.

(** A value that every operation passes on and that no comparison accepts *)
Record absorbing (N : Num) (z : N) : Prop := {
  z_add_l : forall x, nadd N z x = z; z_add_r : forall x, nadd N x z = z;
  z_sub_l : forall x, nsub N z x = z; z_sub_r : forall x, nsub N x z = z;
  z_mul_l : forall x, nmul N z x = z; z_mul_r : forall x, nmul N x z = z;
  z_div_l : forall x, ndiv N z x = z; z_div_r : forall x, ndiv N x z = z;
  z_opp : nopp N z = z; z_abs : nabs N z = z; z_sqrt : nsqrt N z = z; z_sign : nsignum N z = z;
  z_le_l : forall x, nle N z x = false; z_le_r : forall x, nle N x z = false;
  z_zero : nis_zero N z = false }.
Lemma nan_absorbing h : absorbing (FNh h) (S754_nan : FNh h).
Proof. split; try reflexivity; intros [[|]|[|]| |[|] m e]; reflexivity. Qed.

Section Nan.
Context {N : Num} (z : N) (hz : absorbing N z).
Notation vec := (list N).
Notation mtx := (mat N).
Ltac zz := repeat first [ rewrite (z_abs N z hz) | rewrite (z_opp N z hz) | rewrite (z_add_l N z hz) | rewrite (z_add_r N z hz) | rewrite (z_sub_l N z hz) | rewrite (z_sub_r N z hz) | rewrite (z_mul_l N z hz) | rewrite (z_mul_r N z hz) | rewrite (z_div_l N z hz) | rewrite (z_div_r N z hz) | rewrite (z_sqrt N z hz) | rewrite (z_sign N z hz) | rewrite (z_zero N z hz) | rewrite (z_le_l N z hz) | rewrite (z_le_r N z hz) ].

Lemma sumn_z n (f : nat -> N) k : k < n -> f k = z -> sumn n f = z.
Proof.
  induction n as [|n IH]; [lia|]. intros hk hf. cbn [sumn]. destruct (Nat.eq_dec k n) as [->|].
  - rewrite hf. zz. reflexivity.
  - rewrite IH by (auto; lia). zz. reflexivity.
Qed.
Lemma axis_z (col : vec) k : k < length col -> vget col k = z ->
  wp (reflection_axis_mut col) (fun r => length (fst r) = length col /\ snd r = Some z /\ forall i, i < length col -> vget (fst r) i = z).
Proof.
  intros hk hn. unfold reflection_axis_mut, dot1. rewrite Nat.eqb_refl. cbn [bind].
  rewrite (sumn_z _ _ k hk) by (rewrite hn; zz; reflexivity). destruct (Nat.ltb_spec 0 (length col)); [|lia]. cbn [bind].
  zz. cbn [negb]. apply post_ret. cbn [fst snd]. zz. unfold vmap. split; [dims; reflexivity|]. split; [reflexivity|].
  intros i hi. rewrite vget_vmk by (dims; lia). zz. reflexivity.
Qed.

(** ** Tridiagonalisation *)
Definition tri_z (m : mtx) (n i : nat) : Prop :=
  (exists j, j < n /\ get m j j = z) \/ exists p q, i <= q < p /\ p < n /\ get m p q = z.
Lemma tridiag_step_z (m : mtx) off p n i : i + 1 < n -> nr m = n -> nc m = n -> length off = n - 1 -> length p = n - 1 -> tri_z m n i ->
  wp (tridiag_step i (m, off, p)) (fun st => nr (fst (fst st)) = n /\ nc (fst (fst st)) = n /\ length (snd (fst st)) = n - 1 /\ length (snd st) = n - 1 /\ tri_z (fst (fst st)) n (S i)).
Proof.
  intros hi h1 h2 h3 h4 h5. unfold tridiag_step.
  step1. apply post_col_from; try lia. step1. set (c := vmk _ _). assert (lc : length c = n - (i + 1)) by (unfold c; rewrite length_vmk; lia).
  assert (hw : wp (reflection_axis_mut c) (fun r => length (fst r) = length c /\ ((exists q, i + 1 <= q < n /\ get m q i = z) -> snd r <> None /\ forall j, j < length c -> vget (fst r) j = z))).
  { destruct (wp_ret _ _ (reflection_axis_ok c ltac:(lia))) as ([v o] & er & hv). rewrite er. simpl. cbn [fst] in hv. split; [lia|]. intros (q & hq & e).
    pose proof (axis_z c (q - (i + 1)) ltac:(lia)) as ha. rewrite er in ha. simpl in ha. destruct ha as (_ & -> & ha).
    { unfold c. rewrite vget_vmk by lia. replace (i + 1 + (q - (i + 1))) with q by lia. exact e. }
    split; [discriminate|auto]. }
  eapply post_mono; [exact hw|]. intros [ax o]. cbn [fst snd]. intros (hl & hn). clear hw.
  step1. apply post_set1; [lia|].
  set (m1 := put_col m (i + 1) i ax).
  assert (hm1 : forall r s, r < n -> s < n -> s <> i \/ r <= i -> get m1 r s = get m r s).
  { intros r s hr hs hh. unfold m1. rewrite get_put_col by lia. bd; try reflexivity. }
  assert (d1 : nr m1 = n) by (unfold m1; dims; auto). assert (d2 : nc m1 = n) by (unfold m1; dims; auto).
  destruct o as [x|].
  2: { apply post_ret. cbn [fst snd]. split; auto. split; auto. split; [dims; auto|]. split; auto. destruct h5 as [(j & hj & e)|(r & s & hrs & hr & e)].
    - left. exists j. split; auto. rewrite hm1 by lia. exact e.
    - destruct (Nat.eq_dec s i) as [->|ne]; [exfalso; apply hn; [exists r; split; [lia|auto]|reflexivity]|]. right. exists r, s. split; [lia|]. split; auto. rewrite hm1 by lia. exact e. }
  step1. rewrite d1, d2. apply post_slice; try lia. step1. apply post_vfrom; [lia|]. step1. apply post_gemv0; dims; try lia.
  set (mm := mk (n - (i + 1)) (n - (i + 1)) _). set (ps := vmk (n - (i + 1)) _).
  assert (lps : length ps = n - (i + 1)) by (unfold ps; apply length_vmk).
  assert (dm1 : nr mm = n - (i + 1)) by reflexivity. assert (dm2 : nc mm = n - (i + 1)) by reflexivity.
  step1. apply post_dot1; [lia|]. step1. unfold as_col, as_row. apply post_gemm1; dims; try lia. step1. apply post_gemm1; dims; try lia. step1. apply post_gemm1; dims; try lia.
  step1. cbn [fst snd]. dims. split; [lia|]. split; [lia|]. split; auto. split; [unfold vput; dims; lia|].
  match goal with |- tri_z ?w _ _ => set (u2 := w) end.
  assert (hout : forall r s, r < n -> s < n -> s < i + 1 \/ r < i + 1 -> get u2 r s = get m1 r s).
  { intros r s hr hs hh. unfold u2. rewrite get_put by lia. dims. bd; try reflexivity; lia. }
  assert (hall : (exists r s, i + 1 <= r < n /\ i + 1 <= s < n /\ get m r s = z) \/ (exists q, i + 1 <= q < n /\ get m q i = z) -> get u2 (n - 1) (n - 1) = z).
  { intros hh.
    assert (hdot : sumn (length ax) (fun k => nmul N (vget ax k) (vget ps k)) = z).
    { destruct hh as [(r & s & hr & hs & e)|(q & hq & e)].
      - apply (sumn_z _ _ (r - (i + 1))); [lia|]. unfold ps. rewrite vget_vmk by lia.
        match goal with |- nmul N _ (nmul N _ (sumn ?k ?f)) = _ => rewrite (sumn_z k f (s - (i + 1))) end; [zz; reflexivity|lia|].
        unfold mm. rewrite get_mk by lia. replace (i + 1 + (r - (i + 1))) with r by lia. replace (i + 1 + (s - (i + 1))) with s by lia. rewrite hm1 by lia. rewrite e. zz. reflexivity.
      - apply (sumn_z _ _ 0); [lia|]. destruct (hn (ex_intro _ q (conj hq e))) as (_ & ha). rewrite ha by lia. zz. reflexivity. }
    unfold u2. rewrite get_put by lia. dims. bd. rewrite get_mk by lia. rewrite hdot. zz. reflexivity. }
  destruct h5 as [(j & hj & e)|(r & s & hrs & hr & e)].
  - left. destruct (Nat.lt_ge_cases j (i + 1)).
    + exists j. split; auto. rewrite hout by lia. rewrite hm1 by lia. exact e.
    + exists (n - 1). split; [lia|]. apply hall. left. exists j, j. auto.
  - left. exists (n - 1). split; [lia|]. apply hall. destruct (Nat.eq_dec s i) as [->|ne].
    + right. exists r. split; [lia|auto].
    + left. exists r, s. split; [lia|]. split; [lia|auto].
Qed.
Lemma sym_tridiagonal_z (m : mtx) p q : nr m = nc m -> q <= p < nr m -> get m p q = z ->
  wp (sym_tridiagonal m) (fun d => nr (diag_matrix d) = nr m /\ nc (diag_matrix d) = nr m /\ exists j, j < nr m /\ get (diag_matrix d) j j = z).
Proof.
  intros sq hp e. unfold sym_tridiagonal. step1. step1; [|lia]. intros _. bd. set (n := nr m) in *. step1.
  eapply post_for' with (I := fun i (st : mtx * vec * vec) => nr (fst (fst st)) = n /\ nc (fst (fst st)) = n /\ length (snd (fst st)) = n - 1 /\ length (snd st) = n - 1 /\ tri_z (fst (fst st)) n i).
  - cbn [fst snd]. unfold n. dims. split; auto. split; auto. split; auto. split; auto. destruct (Nat.eq_dec q p) as [->|].
    + left. exists p. split; [lia|auto].
    + right. exists p, q. split; [lia|]. split; [lia|auto].
  - intros i [[s o] ps] hi. cbn [fst snd]. intros (g1 & g2 & g3 & g4 & g5). apply tridiag_step_z; auto. lia.
  - intros [[s o] ps]. cbn [fst snd]. intros (g1 & g2 & g3 & g4 & g5). apply post_ret. cbn [diag_matrix]. split; auto. split; auto.
    destruct g5 as [(j & hj & ej)|(r & s' & hrs & hr & _)]; [exists j; auto|lia].
Qed.

(** ** The iteration: some diagonal entry stays NaN *)
Definition zin (d : vec) : Prop := exists j, j < length d /\ vget d j = z.
Lemma at1_inv (v : vec) i x : at1 v i = Ret x -> i < length v /\ x = vget v i.
Proof. unfold at1. destruct (Nat.ltb_spec i (length v)); [|discriminate]. intros e. injection e as <-. auto. Qed.
Lemma idx1_inv (v : vec) i x : idx1 v i = Ret x -> i < length v /\ x = vget v i.
Proof. unfold idx1. destruct (Nat.ltb_spec i (length v)); [|discriminate]. intros e. injection e as <-. auto. Qed.
Lemma atm1_inv (v : vec) i x v' : atm1 v i x = Ret v' -> i < length v /\ v' = vupd v i x.
Proof. unfold atm1. destruct (Nat.ltb_spec i (length v)); [|discriminate]. intros e. injection e as <-. auto. Qed.
Lemma set1_inv (v : vec) i x v' : set1 v i x = Ret v' -> i < length v /\ v' = vupd v i x.
Proof. unfold set1. destruct (Nat.ltb_spec i (length v)); [|discriminate]. intros e. injection e as <-. auto. Qed.

(** both entries of the pair are replaced, by z if one of them was z *)
Lemma zin_pair (d : vec) i a b : S i < length d -> (vget d i = z \/ vget d (S i) = z -> a = z) -> zin d -> zin (vupd (vupd d i a) (S i) b).
Proof.
  intros hl h (j & hj & e). destruct (Nat.eq_dec j i) as [->|n1].
  - exists i. rewrite !length_vupd. split; auto. rewrite vget_vupd by (rewrite length_vupd; lia). destruct (Nat.eqb_spec i (S i)); [lia|]. rewrite vget_vupd by lia. rewrite Nat.eqb_refl. auto.
  - destruct (Nat.eq_dec j (S i)) as [->|n2].
    + exists i. rewrite !length_vupd. split; [lia|]. rewrite vget_vupd by (rewrite length_vupd; lia). destruct (Nat.eqb_spec i (S i)); [lia|]. rewrite vget_vupd by lia. rewrite Nat.eqb_refl. auto.
    + exists j. rewrite !length_vupd. split; auto. rewrite vget_vupd by (rewrite length_vupd; lia). destruct (Nat.eqb_spec j (S i)); [lia|]. rewrite vget_vupd by lia. destruct (Nat.eqb_spec j i); [lia|auto].
Qed.
Lemma eig_sweep_z start e i x y es b x' y' es' : eig_sweep_step start e i (x, y, es) = Ret (b, (x', y', es')) -> zin (es_diag es) -> zin (es_diag es').
Proof.
  destruct es as [d o q]. unfold eig_sweep_step. cbn [es_diag es_off es_q]. destruct (cancel_y x y) as [[rot norm]|].
  2: { intros e0. injection e0 as <- <- <- <-. auto. }
  intros e0. apply bind_ret in e0 as (o1 & _ & e0). apply bind_ret in e0 as (mii & e1 & e0). apply bind_ret in e0 as (mjj & e2 & e0). apply bind_ret in e0 as (mij & _ & e0).
  apply bind_ret in e0 as (d1 & e3 & e0). apply bind_ret in e0 as (d2 & e4 & e0). apply bind_ret in e0 as (o2 & _ & e0). apply bind_ret in e0 as (n1_ & _ & e0).
  apply bind_ret in e0 as ([[x2 y2] o3] & _ & e0). apply bind_ret in e0 as (q1 & _ & e0). injection e0 as <- <- <- <-. cbn [es_diag].
  apply at1_inv in e1, e2. apply atm1_inv in e3, e4. destruct e1 as (_ & ->). destruct e2 as (hl & ->). destruct e3 as (_ & ->). destruct e4 as (_ & ->).
  apply zin_pair; auto. intros [-> | ->]; zz; reflexivity.
Qed.
Lemma for_brk_inv {S} (P : S -> Prop) n : forall lo (f : nat -> S -> res (bool * S)) (s s' : S), P s -> (forall i s b s', P s -> f i s = Ret (b, s') -> P s') -> for_brk n lo f s = Ret s' -> P s'.
Proof.
  induction n as [|n IH]; intros lo f s s' hs hf; cbn [for_brk]; [intros e; injection e as <-; auto|].
  intros e. apply bind_ret in e as ([b s1] & e1 & e). pose proof (hf _ _ _ _ hs e1) as h1. cbn [fst snd] in *. destruct b; [apply (IH _ _ _ _ h1 hf e)|injection e as <-; auto].
Qed.
Lemma eig_big_z start e eps es es' e' : eig_big start e eps es = Ret (es', e') -> zin (es_diag es) -> zin (es_diag es').
Proof.
  unfold eig_big. intros e0 hin. apply bind_ret in e0 as (m & _ & e0). apply bind_ret in e0 as (a1 & _ & e0). apply bind_ret in e0 as (a2 & _ & e0). apply bind_ret in e0 as (a3 & _ & e0).
  apply bind_ret in e0 as (a4 & _ & e0). apply bind_ret in e0 as (a5 & _ & e0). apply bind_ret in e0 as ([xy es1] & ef & e0).
  assert (h1 : zin (es_diag es1)).
  { apply (for_brk_inv (fun s : N * N * eig_state N => zin (es_diag (snd s))) _ _ _ _ (xy, es1)) in ef; auto. intros i [[x y] s] b [[x' y'] s'] hs es0. cbn [snd] in *. eapply eig_sweep_z; eauto. }
  apply bind_ret in e0 as (b1 & _ & e0). apply bind_ret in e0 as (b2 & _ & e0). apply bind_ret in e0 as (b3 & _ & e0).
  destruct (nle N _ _); [apply bind_ret in e0 as (b4 & _ & e0)|]; injection e0 as <- _; auto.
Qed.
Lemma eig_two_z start e eps es es' e' : eig_two start e eps es = Ret (es', e') -> zin (es_diag es) -> zin (es_diag es').
Proof.
  destruct es as [d o q]. unfold eig_two. cbn [es_diag es_off es_q]. intros e0 (j & hj & ej).
  apply bind_ret in e0 as (d0 & e1 & e0). apply bind_ret in e0 as (o1 & _ & e0). apply bind_ret in e0 as (d1 & e2 & e0). apply bind_ret in e0 as ([l1 l2] & el & e0).
  apply bind_ret in e0 as (v1 & e3 & e0). apply bind_ret in e0 as (v2 & e4 & e0). apply bind_ret in e0 as (q1 & _ & e0). apply bind_ret in e0 as (e5 & _ & e0). injection e0 as <- _. cbn [es_diag].
  apply idx1_inv in e1, e2. apply set1_inv in e3, e4. destruct e1 as (_ & ->). destruct e2 as (hl & ->). destruct e3 as (_ & ->). destruct e4 as (_ & ->).
  assert (hne : j <> start /\ j <> start + 1).
  { split; intros ->; rewrite ej in el; unfold compute_2x2_eigvals in el; revert el; zz; discriminate. }
  exists j. rewrite !length_vupd. split; auto. rewrite vget_vupd by (rewrite length_vupd; lia). destruct (Nat.eqb_spec j (start + 1)); [lia|]. rewrite vget_vupd by lia. destruct (Nat.eqb_spec j start); [lia|auto].
Qed.
Lemma eig_loop_z eps fuel : forall start e es es', eig_loop fuel eps start e es = Ret es' -> zin (es_diag es) -> zin (es_diag es').
Proof.
  induction fuel as [|fuel IH]; intros start e es es' e0 hin; cbn [eig_loop] in e0; (destruct (Nat.eqb e start); [injection e0 as <-; auto|]); [discriminate|].
  apply bind_ret in e0 as (d & _ & e0). apply bind_ret in e0 as ([es1 e1] & eb & e0). apply bind_ret in e0 as ([[s' e2] off] & _ & e0).
  apply (IH _ _ _ _ e0). cbn [es_diag]. destruct (Nat.ltb 2 (S d)); [eapply eig_big_z; eauto|]. destruct (Nat.eqb (S d) 2); [eapply eig_two_z; eauto|]. injection eb as <- _. auto.
Qed.

Lemma symmetric_eig_z fuel (m : mtx) v eps vals w p q : nr m = nc m -> q <= p < nr m -> get (scale_down m (abs_max m)) p q = z ->
  symmetric_eig fuel m v eps = Ret (vals, w) -> exists j, j < length vals /\ vget vals j = z.
Proof.
  intros sq hp hn. unfold symmetric_eig. intros e0. apply bind_ret in e0 as (dim & ed & e0).
  assert (dim = nr m) as ->. { unfold check_square in ed. destruct (Nat.eqb _ _); [|discriminate]. injection ed as <-. auto. }
  destruct (Nat.ltb_spec (nr m) 1); [lia|]. set (s := scale_down m (abs_max m)) in *.
  assert (d1 : nr s = nr m) by (unfold s, scale_down; destruct (negb _); reflexivity). assert (d2 : nc s = nc m) by (unfold s, scale_down; destruct (negb _); reflexivity).
  apply bind_ret in e0 as (td & et & e0). apply bind_ret in e0 as (q0 & _ & e0).
  pose proof (sym_tridiagonal_z s p q ltac:(lia) ltac:(lia) hn) as ht. rewrite et in ht. simpl in ht. destruct ht as (t1 & t2 & j & hj & ej).
  assert (hd : zin (fst (tri_into_diagonals td))).
  { unfold tri_into_diagonals. cbn [fst]. exists j. rewrite length_vmk. split; [lia|]. rewrite vget_vmk by lia. exact ej. }
  destruct (tri_into_diagonals td) as [diag off]. cbn [fst] in hd.
  assert (fin : forall d, zin d -> exists j, j < length (vmap (fun x => nmul N x (abs_max m)) d) /\ vget (vmap (fun x => nmul N x (abs_max m)) d) j = z).
  { intros d (k & hk & ek). exists k. unfold vmap. rewrite length_vmk. split; auto. rewrite vget_vmk by auto. rewrite ek. zz. reflexivity. }
  destruct (Nat.eqb_spec (nr m) 1).
  - injection e0 as <- _. apply fin. exact hd.
  - apply bind_ret in e0 as ([[st en] off'] & _ & e0). apply bind_ret in e0 as (es & el & e0). injection e0 as <- _. apply fin. eapply eig_loop_z; [exact el|exact hd].
Qed.
End Nan.
