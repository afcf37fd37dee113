(** * Proofs about reflection.rs *)
From Coq Require Import Reals List Arith Lia Lra Bool Setoid Morphisms.
From Verif Require Import Scalar Arr MBase Inst Hoare Spec RLin PHouse.
Import ListNotations.
Open Scope res_scope.
Local Open Scope R_scope.

Lemma reflect_cols_real (r : reflection RN) (m : mat RN) : length (axis r) = nr m ->
  exists m', reflect_cols r m = Ret m' /\ nr m' = nr m /\ nc m' = nc m /\
    forall i j, (i < nr m)%nat -> (j < nc m)%nat ->
      ent m' i j = mirror (nr m) (vent (axis r)) (bias r) (fun k => ent m k j) i.
Proof.
  intros h. destruct (wp_ret _ _ (reflect_cols_ok r m h)) as (m' & e & h1 & h2 & h3).
  exists m'. repeat split; auto. intros i j hi hj. unfold ent at 1. rewrite h3 by auto.
  rewrite refl_entry_R. unfold mirror, vdot, vent, ent. ring.
Qed.

Lemma reflect_rows_real (r : reflection RN) (m : mat RN) : length (axis r) = nc m ->
  exists m', reflect_rows r m = Ret m' /\ nr m' = nr m /\ nc m' = nc m /\
    forall i j, (i < nr m)%nat -> (j < nc m)%nat ->
      ent m' i j = mirror (nc m) (vent (axis r)) (bias r) (fun k => ent m i k) j.
Proof.
  intros h. destruct (wp_ret _ _ (reflect_rows_ok r m h)) as (m' & e & h1 & h2 & h3).
  exists m'. repeat split; auto. intros i j hi hj. unfold ent at 1. rewrite h3 by auto.
  rewrite refl_entry_R. unfold mirror, vdot, vent, ent. rewrite get_transpose by auto.
  rewrite (Rsum_ext (nc m) (fun k => @vget RN (axis r) k * @get RN (transpose m) k i)
             (fun k => @vget RN (axis r) k * @get RN m i k)).
  - ring.
  - intros k hk. rewrite get_transpose by auto. reflexivity.
Qed.

Lemma reflect_cols_mismatch {N : Num} (r : reflection N) (m : mat N) :
  (0 < nc m)%nat -> length (axis r) <> nr m -> reflect_cols r m = Panicked.
Proof.
  intros hc hl. unfold reflect_cols. destruct (nc m) as [|k] eqn:e; [lia|]. cbn [for_].
  unfold reflect_col, column, col_from. rewrite e. bd. cbn [bind]. unfold dot1.
  rewrite length_vmk. bd. reflexivity.
Qed.

Lemma mirror_dot n v b x : vdot n v v = 1 -> vdot n v (mirror n v b x) = 2 * b - vdot n v x.
Proof.
  intros h. unfold mirror. unfold vdot at 1.
  rewrite (Rsum_ext n _ (fun i => v i * x i - 2 * (vdot n v x - b) * (v i * v i))) by (intros; ring).
  rewrite Rsum_minus, Rsum_scal_l. fold (vdot n v x). fold (vdot n v v). rewrite h. ring.
Qed.
Lemma mirror_invol n v b x i : vdot n v v = 1 -> mirror n v b (mirror n v b x) i = x i.
Proof. intros h. unfold mirror at 1. rewrite mirror_dot by auto. unfold mirror. ring. Qed.
Lemma mirror_ext n v b x y i : (forall k, (k < n)%nat -> x k = y k) -> (i < n)%nat ->
  mirror n v b x i = mirror n v b y i.
Proof.
  intros h hi. unfold mirror. rewrite h by auto.
  replace (vdot n v x) with (vdot n v y); auto. apply Rsum_ext. intros. rewrite h; auto.
Qed.

Lemma mirror_isometry n v b x y : vdot n v v = 1 ->
  vnorm2 n (fun i => mirror n v b x i - mirror n v b y i) = vnorm2 n (fun i => x i - y i).
Proof.
  intros h. unfold vnorm2, mirror.
  set (g := vdot n v x - vdot n v y).
  rewrite (Rsum_ext n _ (fun i => (x i - y i) * (x i - y i) + (4 * g * g) * (v i * v i)
     - (4 * g) * (v i * x i - v i * y i))) by (intros; unfold g; ring).
  rewrite Rsum_minus, Rsum_plus, !Rsum_scal_l, Rsum_minus.
  fold (vdot n v v). fold (vdot n v x). fold (vdot n v y). fold g. rewrite h. ring.
Qed.

Lemma reflect_twice (r : reflection RN) (m : mat RN) : length (axis r) = nr m ->
  vdot (nr m) (vent (axis r)) (vent (axis r)) = 1 ->
  exists m' m'', reflect_cols r m = Ret m' /\ reflect_cols r m' = Ret m'' /\
    nr m'' = nr m /\ nc m'' = nc m /\ ent m'' =[nr m, nc m]= ent m.
Proof.
  intros h hu. destruct (reflect_cols_real r m h) as (m' & e & h1 & h2 & h3).
  destruct (reflect_cols_real r m') as (m'' & e' & g1 & g2 & g3); [congruence|].
  exists m', m''. rewrite h1, h2 in *. repeat split; auto.
  intros i j hi hj. rewrite g3 by auto.
  etransitivity; [apply mirror_ext with (y := mirror (nr m) (vent (axis r)) (bias r) (fun k => ent m k j)); auto|].
  apply (mirror_invol _ _ _ (fun k => ent m k j)); auto.
Qed.

Lemma reflect_rows_twice (r : reflection RN) (m : mat RN) : length (axis r) = nc m ->
  vdot (nc m) (vent (axis r)) (vent (axis r)) = 1 ->
  exists m' m'', reflect_rows r m = Ret m' /\ reflect_rows r m' = Ret m'' /\
    nr m'' = nr m /\ nc m'' = nc m /\ ent m'' =[nr m, nc m]= ent m.
Proof.
  intros h hu. destruct (reflect_rows_real r m h) as (m' & e & h1 & h2 & h3).
  destruct (reflect_rows_real r m') as (m'' & e' & g1 & g2 & g3); [congruence|].
  exists m', m''. rewrite h1, h2 in *. repeat split; auto.
  intros i j hi hj. rewrite g3 by auto.
  etransitivity; [apply mirror_ext with (y := mirror (nc m) (vent (axis r)) (bias r) (fun k => ent m i k)); auto|].
  apply (mirror_invol _ _ _ (fun k => ent m i k)); auto.
Qed.

(** Facts about the mirror image used to read the two theorems above *)
Lemma mirror_geometry n v b : vdot n v v = 1 ->
  (forall x i, vdot n v x = b -> mirror n v b x i = x i) /\
  (forall x, vdot n v (mirror n v b x) - b = - (vdot n v x - b)) /\
  (forall x y, vnorm2 n (fun i => mirror n v b x i - mirror n v b y i) = vnorm2 n (fun i => x i - y i)).
Proof.
  intros h. split; [|split].
  - intros x i e. unfold mirror. rewrite e. ring.
  - intros x. rewrite mirror_dot by auto. ring.
  - intros. apply mirror_isometry; auto.
Qed.

Lemma reflect_orthogonal (r : reflection RN) (m : mat RN) : length (axis r) = nr m ->
  vdot (nr m) (vent (axis r)) (vent (axis r)) = 1 -> bias r = 0 ->
  exists m' H, reflect_cols r m = Ret m' /\ orthogonal (nr m) H /\
    ent m' =[nr m, nc m]= mmul (nr m) H (ent m).
Proof.
  intros h hu hb. destruct (reflect_cols_real r m h) as (m' & e & h1 & h2 & h3).
  exists m', (hh 0 1 (vent (axis r))). split; auto. split.
  - apply hh_orthogonal. split.
    + intros i hi. lia.
    + ring.
    + left. exact hu.
  - intros i j hi hj. rewrite h3 by auto. rewrite (hh_apply (nr m) (nc m)); auto; [|lia].
    unfold mirror, vdot. rewrite hb. bd. ring.
Qed.
