(** * LOBPCG in exact arithmetic *)
From Coq Require Import Reals Lra List Arith Lia Bool ZArith.
From Verif Require Import Scalar Arr MBase MDirect MDecomp MEigh MLobpcg Inst Spec Hoare RLin PTri PChol PEigh PEighR PSort PNorm PLob.
Import ListNotations.
Local Open Scope R_scope.
Open Scope res_scope.

Notation mr := (mat RN).

(** ** Array operators *)
Lemma dot2_R (a b : mr) (Q : mr -> Prop) E F : nc a = nr b ->
  (forall c : mr, nr c = nr a -> nc c = nc b -> ent c =[nr a, nc b]= mmul (nc a) (ent a) (ent b) -> Q c) ->
  post (dot2 a b) Q E F.
Proof.
  intros h hq. apply post_dot2; auto. apply hq; auto.
  intros i j hi hj. unfold ent at 1. rewrite get_mk by auto. rewrite sumn_R. reflexivity.
Qed.
Lemma ent_transpose (a : mr) : ent (transpose a) =[nc a, nr a]= mtr (ent a).
Proof. intros i j hi hj. unfold ent, mtr. now rewrite get_transpose by auto. Qed.
Lemma dot2t_R (a b : mr) (Q : mr -> Prop) E F : nr a = nr b ->
  (forall c : mr, nr c = nc a -> nc c = nc b -> ent c =[nc a, nc b]= mmul (nr a) (mtr (ent a)) (ent b) -> Q c) ->
  post (dot2 (transpose a) b) Q E F.
Proof.
  intros h hq. apply dot2_R; [dims; auto|]. intros c h1 h2 h3. dims. apply hq; auto.
  rewrite h3. intros i j hi hj. apply Rsum_ext. intros k hk. rewrite ent_transpose by auto. reflexivity.
Qed.
Lemma gemm1_R (a b c : mr) (Q : mr -> Prop) E F : nc a = nr b -> nr a = nr c -> nc b = nc c ->
  (forall d : mr, nr d = nr c -> nc d = nc c -> ent d =[nr c, nc c]= msub (ent c) (mmul (nc a) (ent a) (ent b)) -> Q d) ->
  post (gemm1 (nopp RN (n1 RN)) a b c) Q E F.
Proof.
  intros h1 h2 h3 hq. apply post_gemm1; auto. apply hq; auto.
  intros i j hi hj. unfold ent at 1. rewrite get_mk by auto. rewrite sumn_R. rn. unfold msub, mmul, ent. rn.
  match goal with |- ?x + - (1) * ?y = _ => replace (x + - (1) * y) with (x - y) by lra end. reflexivity.
Qed.
Lemma mzip_add_R (a b : mr) (Q : mr -> Prop) E F : nr a = nr b -> nc a = nc b ->
  (forall c : mr, nr c = nr a -> nc c = nc a -> ent c =[nr a, nc a]= madd (ent a) (ent b) -> Q c) ->
  post (mzip (nadd RN) a b) Q E F.
Proof.
  intros h1 h2 hq. unfold mzip. bd. cbn [post]. apply hq; auto.
  intros i j hi hj. unfold ent at 1. rewrite get_mk by auto. reflexivity.
Qed.
Lemma mzip_dims f (a b : mr) (Q : mr -> Prop) E F : nr a = nr b -> nc a = nc b ->
  (forall c : mr, nr c = nr a -> nc c = nc a -> Q c) -> post (mzip f a b) Q E F.
Proof. intros h1 h2 hq. unfold mzip. bd. cbn [post]. apply hq; auto. Qed.
Lemma col_scale_dims (m : mr) v (Q : mr -> Prop) E F : nc m = length v ->
  (forall c : mr, nr c = nr m -> nc c = nc m -> Q c) -> post (col_scale m v) Q E F.
Proof. intros h hq. unfold col_scale. bd. cbn [post]. apply hq; auto. Qed.
Lemma hcat_dims (a b : mr) (Q : mr -> Prop) E F : nr a = nr b ->
  (forall c : mr, nr c = nr a -> nc c = (nc a + nc b)%nat -> Q c) -> post (hcat a b) Q E F.
Proof. intros h hq. unfold hcat. destruct (Nat.eqb_spec (nr a) (nr b)); [|lia]. cbn [post]. apply hq; auto. Qed.
Lemma vcat_dims (a b : mr) (Q : mr -> Prop) E F : nc a = nc b ->
  (forall c : mr, nr c = (nr a + nr b)%nat -> nc c = nc a -> Q c) -> post (vcat a b) Q E F.
Proof. intros h hq. unfold vcat. destruct (Nat.eqb_spec (nc a) (nc b)); [|lia]. cbn [post]. apply hq; auto. Qed.
Lemma hcat3_dims (a b c : mr) (Q : mr -> Prop) E F : nr a = nr b -> nr b = nr c ->
  (forall d : mr, nr d = nr a -> nc d = (nc a + nc b + nc c)%nat -> Q d) -> post (hcat3 a b c) Q E F.
Proof.
  intros h1 h2 hq. unfold hcat3. step1. apply hcat_dims; auto. intros d d1 d2. apply hcat_dims; [lia|]. intros e e1 e2. apply hq; lia.
Qed.
Lemma vcat3_dims (a b c : mr) (Q : mr -> Prop) E F : nc a = nc b -> nc b = nc c ->
  (forall d : mr, nr d = (nr a + nr b + nr c)%nat -> nc d = nc a -> Q d) -> post (vcat3 a b c) Q E F.
Proof.
  intros h1 h2 hq. unfold vcat3. step1. apply vcat_dims; auto. intros d d1 d2. apply vcat_dims; [lia|]. intros e e1 e2. apply hq; lia.
Qed.
Lemma symmetrize_dims (a : mr) (Q : mr -> Prop) E F : nr a = nc a ->
  (forall d : mr, nr d = nr a -> nc d = nc a -> Q d) -> post (symmetrize a) Q E F.
Proof.
  intros h hq. unfold symmetrize. step1. apply mzip_dims; dims; auto. intros c c1 c2. apply post_ret. apply hq; dims; auto.
Qed.
Lemma slice_R (m : mr) r0 r1 (Q : mr -> Prop) E F : (r0 <= r1)%nat -> (r1 <= nr m)%nat ->
  (forall s : mr, nr s = (r1 - r0)%nat -> nc s = nc m -> Q s) -> post (slice m r0 r1 0 (nc m)) Q E F.
Proof.
  intros h1 h2 hq. apply post_slice; try lia. apply hq; dims; lia.
Qed.

(** ** orthonormalize *)
Lemma qform_gramT n k (V A : M) x : A =[k, k]= mmul n (mtr V) V ->
  qform k A x = vnorm2 n (fun i => Rsum k (fun j => V i j * x j)).
Proof.
  intros h. unfold qform, vnorm2.
  rewrite (Rsum_ext k _ (fun i => Rsum k (fun j => Rsum n (fun l => x i * V l i * (V l j * x j))))).
  2:{ intros i hi. apply Rsum_ext. intros j hj. rewrite h by auto. unfold mmul, mtr.
      rewrite <- Rsum_scal_l, <- Rsum_scal_r. apply Rsum_ext. intros. ring. }
  rewrite (Rsum_ext k _ (fun i => Rsum n (fun l => Rsum k (fun j => x i * V l i * (V l j * x j)))))
    by (intros; apply Rsum_swap).
  rewrite Rsum_swap. apply Rsum_ext. intros l hl.
  rewrite <- Rsum_scal_r. apply Rsum_ext. intros i hi. rewrite Rsum_scal_l. ring.
Qed.
Lemma gram_injective n k V A : A =[k, k]= mmul n (mtr V) V -> posdef k A <-> injective n k V.
Proof.
  intros h. split.
  - intros hp x hx j hj. destruct (Req_dec (x j) 0) as [|ne]; auto. exfalso.
    assert (h0 : 0 < qform k A x) by (apply hp; exists j; auto).
    rewrite (qform_gramT n k V A x h) in h0. unfold vnorm2 in h0. rewrite Rsum_0 in h0; [lra|].
    intros i hi. rewrite hx by auto. ring.
  - intros hi x (j & hj & ne). rewrite (qform_gramT n k V A x h).
    destruct (Rle_lt_or_eq_dec 0 (vnorm2 n (fun i => Rsum k (fun j => V i j * x j)))) as [lt|eq]; auto.
    + apply Rsum_nonneg. intros. apply sqn.
    + exfalso. apply ne. apply (hi x); auto. symmetry in eq. intros i hi'. apply (Rsum_sq_0 n _ eq i hi').
Qed.
Lemma gram_sym n k V A : A =[k, k]= mmul n (mtr V) V -> symmetric k A.
Proof.
  intros h i j hi hj. unfold mtr. rewrite h by auto. rewrite (h j i) by auto. apply Rsum_ext. intros. unfold mtr. ring.
Qed.
(** Right cancellation of the transpose of an invertible lower triangular matrix *)
Lemma lt_cancel r k L X Z : lower_tri k k L -> (forall i, (i < k)%nat -> 0 < L i i) ->
  mmul k X (mtr L) =[r, k]= mmul k Z (mtr L) -> X =[r, k]= Z.
Proof.
  intros hl hd h. assert (hi : injective k k L) by (apply lower_injective; auto; intros i hi; specialize (hd i hi); lra).
  assert (e : mtr X =[k, r]= mtr Z).
  { apply (injective_mmul k k r L); auto. intros p q hp hq. specialize (h q p hq hp). unfold mmul, mtr in *.
    rewrite (Rsum_ext k _ (fun j => X q j * L p j)) by (intros; ring). rewrite h. apply Rsum_ext. intros; ring. }
  intros i j hi' hj. exact (e j i hj hi').
Qed.

(** What the two results of orthonormalize satisfy *)
Definition ortho_ok (v u l : mr) : Prop :=
  nr u = nr v /\ nc u = nc v /\ nr l = nc v /\ nc l = nc v /\
  orthonormal_cols (nr v) (nc v) (ent u) /\ lower_tri (nc v) (nc v) (ent l) /\
  (forall i, (i < nc v)%nat -> 0 < ent l i i) /\
  ent v =[nr v, nc v]= mmul (nc v) (ent u) (mtr (ent l)).

Lemma tri_of_lower n A : lower_tri n n A -> tri_of Lower A =[n, n]= A.
Proof. intros h i j hi hj. unfold tri_of. bd; auto. symmetry. apply h; auto. Qed.

Lemma orthonormalize_R (v : mr) :
  post (orthonormalize v) (fun r => ortho_ok v (fst r) (snd r) /\ injective (nr v) (nc v) (ent v))
    (fun e => e = NotPositiveDefinite /\ ~ injective (nr v) (nc v) (ent v)) False.
Proof.
  unfold orthonormalize. step1. apply dot2t_R; auto. intros g g1 g2 g3.
  set (n := nr v) in *. set (k := nc v) in *.
  pose proof (gram_injective n k (ent v) (ent g) g3) as hpi. pose proof (gram_sym n k _ _ g3) as hsym.
  assert (sq : nr g = nc g) by lia. rewrite <- g1 in hsym.
  destruct (cholesky_iff g sq hsym) as (hiff & hno). rewrite g1 in hiff, hno.
  destruct (cholesky g) as [l|e| | |] eqn:ec; cbn [bind post].
  - assert (hp : posdef k (ent g)) by (apply hiff; eauto).
    destruct (cholesky_factor g l hsym ec) as (_ & l1 & l2 & l3 & l4 & l5). rewrite g1 in *.
    destruct (solve_triangular_unique l (transpose v) Lower ltac:(lia) ltac:(dims; lia)) as (u & eu & u1 & u2 & u3 & _).
    { intros i hi. rewrite l1 in hi. specialize (l4 i hi). lra. }
    rewrite eu. cbn [bind post fst snd]. split; [|apply hpi; auto].
    rewrite l1 in u3. dims. fold n k in u1, u2, u3. rewrite (tri_of_lower k) in u3 by auto.
    unfold ortho_ok. fold n k. dims. fold n k.
    assert (hv : ent v =[n, k]= mmul k (ent (transpose u)) (mtr (ent l))).
    { intros i j hi hj. specialize (u3 j i hj hi). rewrite (ent_transpose v) in u3 by auto. unfold mtr at 1 in u3. rewrite <- u3.
      apply Rsum_ext. intros q hq. rewrite (ent_transpose u) by lia. unfold mtr. ring. }
    split; [exact u2|]. split; [exact u1|]. split; [lia|]. split; [lia|]. split; [|split; [auto|split; [auto|exact hv]]].
    unfold orthonormal_cols. set (U := ent (transpose u)) in *. set (L := ent l) in *. set (G := mmul n (mtr U) U).
    assert (hLL : mmul k L (mmul k G (mtr L)) =[k, k]= mmul k L (mtr L)).
    { rewrite l5, g3. unfold G.
      rewrite (mmul_assoc k n k k (mtr U) U (mtr L)). rewrite <- hv.
      rewrite <- (mmul_assoc k k n k L (mtr U) (ent v)).
      intros i j hi hj. apply Rsum_ext. intros q hq. f_equal. unfold mtr at 2. rewrite hv by auto.
      apply Rsum_ext. intros. unfold mtr. ring. }
    assert (h1 : mmul k G (mtr L) =[k, k]= mtr L).
    { apply (injective_mmul k k k L); auto. apply lower_injective; auto. intros i hi. specialize (l4 i hi). lra. }
    apply (lt_cancel k k L); auto. rewrite h1. symmetry. apply mmul_1_l.
  - assert (hn : ~ posdef k (ent g)).
    { intros hp. destruct ((proj2 hiff) hp) as (l & el). congruence. }
    specialize (hno hn). split; [congruence|]. intros hi. apply hn. apply hpi. auto.
  - destruct (cholesky_spec g sq) as [(_ & l & el & _)|(_ & el)]; congruence.
  - destruct (cholesky_spec g sq) as [(_ & l & el & _)|(_ & el)]; congruence.
  - destruct (cholesky_spec g sq) as [(_ & l & el & _)|(_ & el)]; congruence.
Qed.

(** ** apply_constraints *)
Lemma apply_constraints_R (v l y : mr) (Q : mr -> Prop) E F : nr y = nr v -> nr l = nc y -> nc l = nc y ->
  lower_tri (nc y) (nc y) (ent l) -> (forall i, (i < nc y)%nat -> 0 < ent l i i) ->
  (forall (v' : mr) U, nr v' = nr v -> nc v' = nc v ->
     mmul (nc y) (ent l) U =[nc y, nc v]= mmul (nr v) (mtr (ent y)) (ent v) ->
     ent v' =[nr v, nc v]= msub (ent v) (mmul (nc y) (ent y) U) -> Q v') ->
  post (apply_constraints v l y) Q E F.
Proof.
  intros hy l1 l2 l3 l4 hq. unfold apply_constraints. step1. apply dot2t_R; auto. intros g g1 g2 g3.
  destruct (solve_triangular_unique l g Lower ltac:(lia) ltac:(lia)) as (u & eu & u1 & u2 & u3 & _).
  { intros i hi. rewrite l1 in hi. specialize (l4 i hi). lra. }
  rewrite eu. cbn [unwrap bind]. apply gemm1_R; try lia. intros d d1 d2 d3. apply (hq d (ent u)); auto.
  rewrite l1, g2 in u3. rewrite (tri_of_lower (nc y)) in u3 by auto. rewrite u3. rewrite hy in g3. exact g3.
Qed.

(** ** Orthogonality to a block *)
Definition perp (n c k : nat) (Y V : M) : Prop := mmul n (mtr Y) V =[c, k]= (fun _ _ => 0).
Lemma mmul_zero_l n r k T : mmul n (fun _ _ => 0) T =[r, k]= (fun _ _ => 0).
Proof. intros i j _ _. apply Rsum_0. intros. ring. Qed.
Lemma perp_mul n c k q Y V T : perp n c k Y V -> perp n c q Y (mmul k V T).
Proof.
  unfold perp. intros h. rewrite <- (mmul_assoc c n k q (mtr Y) V T). rewrite h. apply mmul_zero_l.
Qed.
Lemma perp_add n c k Y V W : perp n c k Y V -> perp n c k Y W -> perp n c k Y (madd V W).
Proof.
  unfold perp. intros h g. rewrite mmul_add_r. rewrite h, g. intros i j _ _. unfold madd. ring.
Qed.
Lemma perp_sub n c k Y V W : perp n c k Y V -> perp n c k Y W -> perp n c k Y (msub V W).
Proof.
  unfold perp. intros h g. rewrite mmul_sub_r. rewrite h, g. intros i j _ _. unfold msub. ring.
Qed.
Lemma perp_ext n c k Y V W : V =[n, k]= W -> perp n c k Y V -> perp n c k Y W.
Proof. unfold perp. intros h g. rewrite <- h. exact g. Qed.

(** ** sorted_eig *)
Lemma eigh_R fuel (m : mr) (Q : list RN * mr -> Prop) E (F : Prop) : nr m = nc m -> F ->
  (forall vals q, length vals = nr m -> nr q = nr m -> nc q = nr m -> Q (vals, q)) ->
  post (eigh fuel m) Q E F.
Proof.
  intros sq hF hq. pose proof (eigh_class fuel m (eig2_total_real _)) as h.
  destruct (eigh fuel m) as [[v q]|e| | |]; cbn [post]; auto; try tauto. apply hq; tauto.
Qed.
Lemma generalized_R fuel (a b : mr) (Q : list RN * mr -> Prop) E (F : Prop) : nr a = nc a -> nr b = nr a -> nc b = nr a -> F ->
  (forall vals q, length vals = nr a -> nr q = nr a -> nc q = nr a -> Q (vals, q)) ->
  post (generalized_eig fuel a b) Q E F.
Proof.
  intros h1 h2 h3 hF hq. unfold generalized_eig. step1. apply eigh_R; [lia|auto|]. intros vb qb b1 b2 b3.
  step1. apply col_scale_dims; [dims; lia|]. intros vt t1 t2.
  step1. apply dot2_R; [lia|]. intros av v1 v2 _. step1. apply dot2_R; [dims; lia|]. intros at_ a1 a2 _. dims.
  step1. apply eigh_R; [lia|auto|]. intros va qa c1 c2 c3. step1. apply dot2_R; [lia|]. intros vv d1 d2 _.
  step1. apply hq; lia.
Qed.
Lemma sorted_eig_R fuel (a : mr) (b : option mr) size order (Q : list RN * mr -> Prop) E (F : Prop) :
  nr a = nc a -> match b with Some b => nr b = nr a /\ nc b = nr a | None => True end -> (1 <= nr a)%nat -> (size <= nr a)%nat -> F ->
  (forall vals q, length vals = size -> nr q = nr a -> nc q = size -> Q (vals, q)) ->
  post (sorted_eig fuel a b size order) Q E F.
Proof.
  intros h1 h2 h3 h4 hF hq. unfold sorted_eig. step1.
  assert (g : post (match b with Some b => generalized_eig fuel a b | None => eigh fuel a end)
     (fun '(v, q) => length v = nr a /\ nr q = nr a /\ nc q = nr a) E F).
  { destruct b as [b|]; [apply generalized_R; try tauto|apply eigh_R]; auto. }
  eapply post_mono; [exact g|]. intros [v q] (g1 & g2 & g3).
  destruct (sort_eig_ok _ num_order_R order v q ltac:(lia) ltac:(right; auto)) as (v' & m' & sg & es & _ & (s1 & _) & s2 & s3 & _).
  step1. rewrite es. cbn [post]. step1. apply post_column; [dims; lia|].
  step1. apply col_scale_dims; [dims; lia|]. intros ve e1 e2.
  step1. unfold vtake. destruct (Nat.leb_spec size (length v')); [|lia]. cbn [post].
  step1. apply post_slice; try lia. step1. apply hq; dims; lia.
Qed.

(** ** Masks *)
Lemma enumerate_from {A} (v : list A) : forall s, map snd (combine (seq s (length v)) v) = v.
Proof. induction v as [|x v IH]; intros s; cbn; [reflexivity|]. now rewrite IH. Qed.
Lemma mask_len_from (mask : list bool) : forall s, length (filter snd (combine (seq s (length mask)) mask)) = count_true mask.
Proof.
  unfold count_true. induction mask as [|b mask IH]; intros s; cbn; [reflexivity|]. destruct b; cbn; now rewrite IH.
Qed.
Lemma mask_indices_length mask : length (mask_indices mask) = count_true mask.
Proof. unfold mask_indices, enumerate. rewrite map_length. apply mask_len_from. Qed.
Lemma mask_indices_lt mask j : In j (mask_indices mask) -> (j < length mask)%nat.
Proof.
  unfold mask_indices. rewrite in_map_iff. intros ([i b] & <- & h). apply filter_In in h. destruct h as (h & _).
  apply in_enumerate in h. cbn. apply nth_error_Some. congruence.
Qed.
Lemma mask_R (m : mr) mask (Q : mr -> Prop) E F : length mask = nc m ->
  (forall m' : mr, nr m' = nr m -> nc m' = count_true mask ->
     (forall i k, (i < nr m)%nat -> (k < count_true mask)%nat -> ent m' i k = ent m i (nth k (mask_indices mask) 0%nat)) -> Q m') ->
  post (ndarray_mask m mask) Q E F.
Proof.
  intros h hq. unfold ndarray_mask. destruct (Nat.eqb_spec (length mask) (nc m)); [|lia].
  apply post_select_cols.
  - intros j hj. rewrite <- h. apply mask_indices_lt. auto.
  - rewrite mask_indices_length. apply hq; auto. intros i k hi hk. unfold ent. now rewrite get_mk by auto.
Qed.
Lemma mask_nth_lt mask k : (k < count_true mask)%nat -> (nth k (mask_indices mask) 0 < length mask)%nat.
Proof. intros h. apply mask_indices_lt. apply nth_In. now rewrite mask_indices_length. Qed.

(** ** The operator *)
(** a is the linear map with matrix A on blocks of n rows *)
Definition linear_op (n : nat) (A : M) (a : mr -> res mr) : Prop :=
  forall y, nr y = n -> exists z, a y = Ret z /\ nr z = n /\ nc z = nc y /\ ent z =[n, nc y]= mmul n A (ent y).
(** The preconditioner returns (no panic) on blocks of n rows *)
Definition total_op (n : nat) (m : mr -> res mr) : Prop := forall y, nr y = n -> exists z, m y = Ret z.

Section Exact.
Context (fuel n k c : nat) (A Y : M) (a m : mr -> res mr) (yc : option (mr * mr)) (tol : R) (order : Order).
Context (ha : linear_op n A a) (hm : total_op n m) (hk : (1 <= k)%nat).

(** The constraint step is safe and lands in the complement of the c first columns of Y *)
Definition cons_ok : Prop := match yc with
  | None => c = 0%nat
  | Some (y, l) => nr y = n /\ nr l = nc y /\ nc l = nc y /\ lower_tri (nc y) (nc y) (ent l) /\
      (forall i, (i < nc y)%nat -> 0 < ent l i i) /\
      forall q V V' U, mmul (nc y) (ent l) U =[nc y, q]= mmul n (mtr (ent y)) V ->
        V' =[n, q]= msub V (mmul (nc y) (ent y) U) -> perp n c q Y V'
  end.
Context (hc : cons_ok).

Definition blk (q : nat) (v av : mr) : Prop :=
  nr v = n /\ nc v = q /\ nr av = n /\ nc av = q /\ ent av =[n, q]= mmul n A (ent v) /\ perp n c q Y (ent v).
(** An iterate with its residual norms *)
Definition honest (h : list RN * mr * list RN) : Prop :=
  let '(lam, x, rn) := h in
  length lam = k /\ nr x = n /\ nc x = k /\ length rn = k /\ perp n c k Y (ent x) /\
  forall j, (j < k)%nat -> vent rn j = eig_resid n A (ent x) j (vent lam j).
Definition linv (st : lstate RN) : Prop :=
  length (l_lambda st) = k /\ blk k (l_x st) (l_ax st) /\ length (l_mask st) = k /\
  match l_prev st with None => True | Some (p, ap) => blk k p ap end /\
  Forall honest (l_hist st).

Lemma from_diag_R (v : list RN) i j : (i < length v)%nat -> (j < length v)%nat -> ent (from_diag v) i j = mdiag (vent v) i j.
Proof. intros hi hj. unfold ent, from_diag. rewrite get_mk by auto. reflexivity. Qed.
Lemma col_norms_R (r : mr) j : (j < nc r)%nat -> vent (col_norms r) j = frob (nr r) 1 (fun i _ => ent r i j).
Proof.
  intros hj. unfold vent, col_norms. rewrite vget_vmk by auto. rewrite norm_l2_sum. rewrite length_vmk.
  unfold frob, vnorm2, frob2. f_equal. apply Rsum_ext. intros i hi. cbn [Rsum]. unfold vent. rewrite vget_vmk by auto.
  unfold ent. rn. ring.
Qed.

Lemma measure_R (st : lstate RN) E F : linv st ->
  post (lob_measure st) (fun '(r, rn, ld, st') => linv st' /\ nr r = n /\ nc r = k /\ length rn = k /\ nr ld = k /\ nc ld = k /\
     l_best st' <> None /\ l_x st' = l_x st /\ l_mask st' = l_mask st /\ l_prev st' = l_prev st) E F.
Proof.
  intros (h1 & (x1 & x2 & x3 & x4 & x5 & x6) & h2 & h3 & h4). unfold lob_measure.
  assert (d1 : nr (from_diag (l_lambda st)) = length (l_lambda st)) by reflexivity.
  assert (d2 : nc (from_diag (l_lambda st)) = length (l_lambda st)) by reflexivity.
  step1. apply dot2_R; [lia|]. intros lx e1 e2 e3. rewrite d2, x1, x2, h1 in *.
  step1. unfold mzip. bd. cbn [post]. set (r := mk _ _ _).
  assert (r1 : nr r = n) by (unfold r; dims; auto). assert (r2 : nc r = k) by (unfold r; dims; auto).
  cbv beta iota. cbn [l_mask l_hist l_lambda l_x l_ax l_best l_prev l_flag l_calls].
  assert (hrn : length (col_norms r) = k) by (unfold col_norms; rewrite length_vmk; auto).
  split; [|repeat split; auto].
  - split; [|split; [|split; [|split]]]; cbn [l_mask l_hist l_lambda l_x l_ax l_best l_prev l_flag l_calls]; auto.
    + repeat split; auto.
    + apply Forall_app. split; auto. constructor; [|constructor].
      split; auto. split; auto. split; auto. split; auto. split; auto. intros j hj. rewrite col_norms_R by lia. rewrite r1.
      unfold eig_resid. unfold frob. f_equal. apply frob2_ext. intros i q hi _. unfold r, ent at 1. rewrite get_mk by lia. rn.
      change (ent (l_ax st) i j - ent lx i j = mmul n A (ent (l_x st)) i j - vent (l_lambda st) j * ent (l_x st) i j).
      rewrite x5, e3 by auto. f_equal. unfold mmul. rewrite (Rsum_single k j); auto.
      * rewrite from_diag_R by lia. unfold mdiag. rewrite Nat.eqb_refl. ring.
      * intros q' hq hne. rewrite from_diag_R by lia. unfold mdiag. bd; ring.
  - destruct (l_best st) as [[[b1 b2] b3]|]; [destruct (nlt RN _ _)|]; discriminate.
Qed.

Lemma blk_mask v av mask E F (Q : mr -> Prop) : blk k v av -> length mask = k ->
  (forall w, nr w = n -> nc w = count_true mask -> perp n c (count_true mask) Y (ent w) ->
     (forall i j, (i < n)%nat -> (j < count_true mask)%nat -> ent w i j = ent v i (nth j (mask_indices mask) 0%nat)) -> Q w) ->
  post (ndarray_mask v mask) Q E F.
Proof.
  intros (h1 & h2 & h3 & h4 & h5 & h6) hl hq. apply mask_R; [lia|]. intros w w1 w2 w3. rewrite h1 in w3. apply hq; auto; [lia|].
  intros i j hi hj. pose proof (mask_nth_lt mask j hj). rewrite <- (h6 i (nth j (mask_indices mask) 0%nat)) by lia.
  apply Rsum_ext. intros q hq'. rewrite w3 by auto. reflexivity.
Qed.

(** Right-multiplying an operator block by an inverse triangle *)
Lemma blk_ortho q (v av u l t : mr) : blk q v av -> ortho_ok v u l ->
  nr t = q -> nc t = n -> mmul q (ent l) (ent t) =[q, n]= mtr (ent av) -> blk q u (transpose t).
Proof.
  intros (h1 & h2 & h3 & h4 & h5 & h6) (o1 & o2 & o3 & o4 & _ & o5 & o6 & o7) t1 t2 ht.
  rewrite h1, h2 in *. unfold blk. dims.
  split; [lia|]. split; [lia|]. split; [lia|]. split; [lia|]. split.
  - assert (et : ent (transpose t) =[n, q]= mtr (ent t)).
    { pose proof (ent_transpose t) as e0. rewrite t1, t2 in e0. exact e0. }
    rewrite et. apply (lt_cancel n q (ent l)); auto.
    rewrite (mmul_assoc n n q q A (ent u) (mtr (ent l))). rewrite <- o7. rewrite <- h5.
    intros i j hi hj. specialize (ht j i hj hi). unfold mtr in ht at 1. rewrite <- ht. apply Rsum_ext. intros. unfold mtr. ring.
  - unfold perp. apply (lt_cancel c q (ent l)); auto. rewrite (mmul_assoc c n q q (mtr Y) (ent u) (mtr (ent l))). rewrite <- o7.
    unfold perp in h6. rewrite h6. symmetry. apply mmul_zero_l.
Qed.

Lemma p_ap_R prev mask E F : match prev with None => True | Some (p, ap) => blk k p ap end -> length mask = k ->
  post (lob_p_ap prev mask) (fun o => match o with None => True | Some (p, ap) => blk (count_true mask) p ap end) E F.
Proof.
  intros hp hl. unfold lob_p_ap. destruct prev as [[p ap]|]; [|exact I].
  pose proof hp as (h1 & h2 & h3 & h4 & h5 & h6). set (q := count_true mask).
  step1. apply (blk_mask p ap); auto. intros w w1 w2 w3 w4. fold q in w2, w3, w4.
  step1. apply mask_R; [lia|]. intros aw a1 a2 a3. fold q in a2, a3. rewrite h3 in a3.
  assert (hb : blk q w aw).
  { repeat split; auto; try lia. intros i j hi hj. rewrite a3 by auto. pose proof (mask_nth_lt mask j hj). rewrite h5 by lia.
    apply Rsum_ext. intros. rewrite w4 by auto. reflexivity. }
  step1. apply post_ok. eapply post_conseq; [apply orthonormalize_R| | |tauto].
  2:{ intros e _. exact I. }
  intros [u l] (ho & _). cbn [fst snd] in ho. pose proof ho as (o1 & o2 & o3 & o4 & o5 & o6 & o7 & o8). rewrite w1, w2 in *.
  step1. apply post_ok.
  destruct (solve_triangular_unique l (transpose aw) Lower ltac:(lia) ltac:(dims; lia)) as (t & et & t1 & t2 & t3 & _).
  { intros i hi. specialize (o7 i ltac:(lia)). lra. }
  rewrite et. cbn [post]. apply (blk_ortho q w aw u l t); auto; dims; try lia.
  rewrite o3, a1, h3 in t3. rewrite (tri_of_lower q) in t3 by auto. rewrite t3.
  assert (e : ent (transpose aw) =[q, n]= mtr (ent aw)) by (pose proof (ent_transpose aw) as e0; replace (nc aw) with q in e0 by lia; replace (nr aw) with n in e0 by lia; exact e0). exact e.
Qed.

Lemma eye_dims q : nr (eye (N:=RN) q) = q /\ nc (eye (N:=RN) q) = q. Proof. split; reflexivity. Qed.
Lemma grams_R flag (x ax r rar ld : mr) cbs E F : nr x = n -> nc x = k -> nr ax = n -> nc ax = k -> nr r = n -> nc r = cbs ->
  nr rar = cbs -> nc rar = cbs -> nr ld = k -> nc ld = k ->
  post (lob_grams flag x ax r rar ld cbs) (fun '(rar, xax, xx, rr, xr) =>
    (nr rar = cbs /\ nc rar = cbs) /\ (nr xax = k /\ nc xax = k) /\ (nr xx = k /\ nc xx = k) /\ (nr rr = cbs /\ nc rr = cbs) /\
    (nr xr = k /\ nc xr = cbs)) E F.
Proof.
  intros. unfold lob_grams. destruct flag.
  - step1. apply symmetrize_dims; [lia|]. intros. step1. apply dot2t_R; [lia|]. intros. step1. apply symmetrize_dims; [lia|]. intros.
    step1. apply dot2t_R; [lia|]. intros. step1. apply dot2t_R; [lia|]. intros. step1. apply dot2t_R; [lia|]. intros.
    apply post_ret. lia.
  - apply post_ret. pose proof (eye_dims (nc x)). pose proof (eye_dims cbs). cbn [zeros mk nr nc]. lia.
Qed.

Lemma rr_R flag (p_ap : option (mr * mr)) (x r xax xar rar xx rr xr : mr) cbs :
  nr x = n -> nc x = k -> nr r = n -> nc r = cbs -> (nr xax = k /\ nc xax = k) -> (nr xar = k /\ nc xar = cbs) -> (nr rar = cbs /\ nc rar = cbs) ->
  (nr xx = k /\ nc xx = k) -> (nr rr = cbs /\ nc rr = cbs) -> (nr xr = k /\ nc xr = cbs) ->
  match p_ap with None => True | Some (p, ap) => blk cbs p ap end ->
  post (lob_rr fuel flag p_ap x r xax xar rar xx rr xr cbs k order) (fun '(p', res) => p' = p_ap /\
    match res with
    | inl _ => False
    | inr (l, v) => length l = k /\ nc v = k /\ nr v = (k + cbs + match p_ap with Some _ => cbs | None => 0 end)%nat
    end) noE True.
Proof.
  intros. unfold lob_rr. destruct p_ap as [[p ap]|].
  - destruct H9 as (b1 & b2 & b3 & b4 & _). apply post_catch. unfold lob_rr3.
    do 5 (step1; apply dot2t_R; [lia|]; intros ? ? ? _).
    step1. eapply post_mono with (Q := fun '(pap, pp) => nr pap = cbs /\ nc pap = cbs /\ nr pp = cbs /\ nc pp = cbs).
    { destruct flag.
      - step1. apply symmetrize_dims; [lia|]. intros. step1. apply dot2t_R; [lia|]. intros. apply post_ret. lia.
      - apply post_ret. pose proof (eye_dims cbs). lia. }
    intros [pap pp] (p1 & p2 & p3 & p4).
    step1; apply hcat3_dims; dims; try lia; intros.
    step1; apply hcat3_dims; dims; try lia; intros.
    step1; apply hcat3_dims; dims; try lia; intros.
    step1; apply vcat3_dims; dims; try lia; intros.
    step1; apply hcat3_dims; dims; try lia; intros.
    step1; apply hcat3_dims; dims; try lia; intros.
    step1; apply hcat3_dims; dims; try lia; intros.
    step1; apply vcat3_dims; dims; try lia; intros.
    apply sorted_eig_R; dims; try lia; auto. intros v q q1 q2 q3. cbn [post]. split; auto. lia.
  - apply post_catch. unfold lob_rr2.
    step1; apply hcat_dims; dims; try lia; intros.
    step1; apply hcat_dims; dims; try lia; intros.
    step1; apply vcat_dims; dims; try lia; intros.
    step1; apply hcat_dims; dims; try lia; intros.
    step1; apply hcat_dims; dims; try lia; intros.
    step1; apply vcat_dims; dims; try lia; intros.
    apply sorted_eig_R; dims; try lia; auto. intros v q q1 q2 q3. cbn [post]. split; auto. lia.
Qed.

Lemma blk_mul q q' (v av t w aw : mr) : blk q v av -> nr t = q -> nc t = q' ->
  nr w = n -> nc w = q' -> nr aw = n -> nc aw = q' ->
  ent w =[n, q']= mmul q (ent v) (ent t) -> ent aw =[n, q']= mmul q (ent av) (ent t) -> blk q' w aw.
Proof.
  intros (h1 & h2 & h3 & h4 & h5 & h6) t1 t2 w1 w2 w3 w4 e1 e2. repeat split; auto.
  - rewrite e1, e2, h5. apply mmul_assoc.
  - eapply perp_ext; [symmetry; exact e1|]. apply perp_mul. auto.
Qed.
Lemma blk_add q (v av w aw s as_ : mr) : blk q v av -> blk q w aw -> nr s = n -> nc s = q -> nr as_ = n -> nc as_ = q ->
  ent s =[n, q]= madd (ent v) (ent w) -> ent as_ =[n, q]= madd (ent av) (ent aw) -> blk q s as_.
Proof.
  intros (h1 & h2 & h3 & h4 & h5 & h6) (g1 & g2 & g3 & g4 & g5 & g6) s1 s2 s3 s4 e1 e2. repeat split; auto.
  - rewrite e1, e2, h5, g5. symmetry. apply mmul_add_r.
  - eapply perp_ext; [symmetry; exact e1|]. apply perp_add; auto.
Qed.

Lemma update_R (p_ap : option (mr * mr)) (x ax r ar v : mr) cbs E F :
  blk k x ax -> blk cbs r ar -> match p_ap with None => True | Some (p, ap) => blk cbs p ap end ->
  nc v = k -> nr v = (k + cbs + match p_ap with Some _ => cbs | None => 0 end)%nat ->
  post (lob_update p_ap x ax r ar v cbs k) (fun '(x', ax', p, ap) => blk k x' ax' /\ blk k p ap) E F.
Proof.
  intros hx hr hp v1 v2. pose proof hx as (x1 & x2 & x3 & x4 & _). pose proof hr as (r1 & r2 & r3 & r4 & _).
  unfold lob_update. step1.
  eapply post_mono with (Q := fun '(p, ap, tau) => blk k p ap /\ nr tau = k /\ nc tau = k).
  { destruct p_ap as [[p ap]|].
    - pose proof hp as (p1 & p2 & p3 & p4 & _).
      step1. apply slice_R; try lia. intros tau t1 t2. step1. apply slice_R; try lia. intros al a1 a2.
      step1. apply slice_R; try lia. intros ga g1 g2.
      step1. apply dot2_R; [lia|]. intros ra ra1 ra2 ra3. step1. apply dot2_R; [lia|]. intros pg pg1 pg2 pg3.
      step1. apply mzip_add_R; try lia. intros p' p'1 p'2 p'3.
      step1. apply dot2_R; [lia|]. intros ara ara1 ara2 ara3. step1. apply dot2_R; [lia|]. intros apg apg1 apg2 apg3.
      step1. apply mzip_add_R; try lia. intros ap' ap'1 ap'2 ap'3. apply post_ret. split; [|lia].
      assert (ka : nc al = k) by lia. rewrite ka in *. assert (kg : nc ga = k) by lia. rewrite kg in *.
      rewrite ?ra1, ?ra2, ?ara1, ?ara2, ?pg1, ?pg2, ?apg1, ?apg2, ?r1, ?r2, ?r3, ?r4, ?p1, ?p2, ?p3, ?p4 in *.
      apply (blk_add k ra ara pg apg); auto.
      + apply (blk_mul cbs k r ar al); auto; lia.
      + apply (blk_mul cbs k p ap ga); auto; lia.
    - step1. apply slice_R; try lia. intros tau t1 t2. step1. apply slice_R; try lia. intros al a1 a2.
      step1. apply dot2_R; [lia|]. intros ra ra1 ra2 ra3.
      step1. apply dot2_R; [lia|]. intros ara ara1 ara2 ara3. apply post_ret. split; [|lia].
      assert (ka : nc al = k) by lia. rewrite ka in *. rewrite ?r1, ?r2, ?r3, ?r4 in *.
      apply (blk_mul cbs k r ar al); auto; lia. }
  intros [[p ap] tau] (hb & t1 & t2). pose proof hb as (p1 & p2 & p3 & p4 & _).
  step1. apply dot2_R; [lia|]. intros xt xt1 xt2 xt3. step1. apply mzip_add_R; try lia. intros x' x'1 x'2 x'3.
  step1. apply dot2_R; [lia|]. intros axt axt1 axt2 axt3. step1. apply mzip_add_R; try lia. intros ax' ax'1 ax'2 ax'3.
  apply post_ret. split; auto.
  rewrite t2, ?xt1, ?xt2, ?axt1, ?axt2, ?x1, ?x2, ?x3, ?x4, ?t2 in *.
  apply (blk_add k xt axt p ap); auto. apply (blk_mul k k x ax tau); auto; lia.
Qed.

Lemma precond_R (r : mr) (Q : mr -> Prop) E F : nr r = n ->
  (forall w, nr w = nr r -> nc w = nc r -> Q w) -> post (precond m r) Q E F.
Proof. intros h hq. unfold precond. destruct (hm r h) as (z & ->). cbn [bind post]. apply hq; auto. Qed.

Lemma body_R (r ld : mr) rn (st : lstate RN) : linv st -> nr r = n -> nc r = k -> nr ld = k -> nc ld = k ->
  post (lob_body fuel a m yc k order r ld rn (count_true (l_mask st)) st) (fun '(st', e) =>
    linv st' /\ l_best st' = l_best st /\ l_hist st' = l_hist st) noE True.
Proof.
  intros hi r1 r2 ld1 ld2. pose proof hi as (h1 & hx & h2 & h3 & h4). pose proof hx as (x1 & x2 & x3 & x4 & x5 & x6).
  set (q := count_true (l_mask st)). unfold lob_body.
  step1. apply mask_R; [lia|]. intros ac ac1 ac2 _. fold q in ac2.
  step1. apply precond_R; [lia|]. intros a0 a1 a2. rewrite ac1, r1 in a1. rewrite ac2 in a2.
  step1. eapply post_mono with (Q := fun w => nr w = n /\ nc w = q /\ perp n c q Y (ent w)).
  { unfold cons_ok in hc. destruct yc as [[y l]|].
    - destruct hc as (c1 & c2 & c3 & c4 & c5 & c6). apply apply_constraints_R; auto; [lia|].
      intros w U w1 w2 w3 w4. rewrite a1, a2 in *. split; [lia|]. split; [lia|]. eapply c6; eauto.
    - apply post_ret. split; auto. split; auto. intros i j hi' hj. lia. }
  intros w (w1 & w2 & w3).
  step1. apply dot2t_R; [lia|]. intros xtr t1 t2 t3.
  step1. apply gemm1_R; try lia. intros w' w'1 w'2 w'3. rewrite w1, w2, x2 in *.
  assert (w'4 : perp n c q Y (ent w')).
  { eapply perp_ext; [symmetry; exact w'3|]. apply perp_sub; auto. apply perp_mul. auto. }
  apply post_catch. eapply post_conseq; [apply orthonormalize_R| | |tauto].
  2:{ intros e _. cbn [post]. auto. }
  intros [u l] (ho & _). cbn [fst snd] in ho. pose proof ho as (o1 & o2 & o3 & o4 & o5 & o6 & o7 & o8). rewrite w'1, w'2 in *.
  step1. destruct (ha u o1) as (ar & ear & ar1 & ar2 & ar3). rewrite ear. cbn [post]. rewrite o2 in *.
  assert (hu : blk q u ar).
  { repeat split; auto. unfold perp. apply (lt_cancel c q (ent l)); auto.
    rewrite (mmul_assoc c n q q (mtr Y) (ent u) (mtr (ent l))). rewrite <- o8. unfold perp in w'4. rewrite w'4. symmetry. apply mmul_zero_l. }
  set (flag := (_ || l_flag st)%bool).
  step1. apply dot2t_R; [lia|]. intros xar f1 f2 _. step1. apply dot2t_R; [lia|]. intros rar f3 f4 _.
  step1. eapply post_mono; [apply (grams_R flag (l_x st) (l_ax st) u rar ld q); auto; lia|].
  intros [[[[rar' xax] xx] rr] xr] (g1 & g2 & g3 & g4 & g5).
  step1. eapply post_mono; [apply (p_ap_R (l_prev st) (l_mask st)); auto|]. intros p_ap hp. fold q in hp.
  step1. eapply post_mono; [apply (rr_R flag p_ap (l_x st) u xax xar rar' xx rr xr q); auto; lia|].
  intros [p' [e|[lam v]]] (-> & hv); [tauto|]. destruct hv as (v1 & v2 & v3).
  step1. eapply post_mono; [apply (update_R p_ap (l_x st) (l_ax st) u ar v q); auto|].
  intros [[[x' ax'] p] ap] (hx' & hp'). apply post_ret. cbv beta iota. split; [|split; reflexivity].
  unfold linv. cbn [l_mask l_hist l_lambda l_x l_ax l_best l_prev l_flag l_calls]. auto.
Qed.

Lemma loop_R iter : forall st, linv st ->
  post (lob_loop fuel a m yc tol k order iter st) (fun '(st', e) =>
    linv st' /\ l_best st' <> None) noE True.
Proof.
  induction iter as [|iter IH]; intros st hi; cbn [lob_loop].
  - step1. eapply post_mono; [apply measure_R; exact hi|]. intros [[[r rn] ld] st'] (hi' & r1 & r2 & rn1 & l1 & l2 & hb & ex & em & ep).
    apply post_ret. cbv beta iota. pose proof hi' as (h1 & h2 & h3 & h4 & h5). split; [|exact hb].
    unfold linv. cbn [l_mask l_hist l_lambda l_x l_ax l_best l_prev l_flag l_calls].
    split; auto. split; auto. split; [|auto]. rewrite map_length, combine_length. lia.
  - step1. eapply post_mono; [apply measure_R; exact hi|]. intros [[[r rn] ld] st'] (hi' & r1 & r2 & rn1 & l1 & l2 & hb & ex & em & ep).
    set (mask := map _ _). set (st1 := LS _ _ _ mask _ _ _ _ _).
    assert (h1 : linv st1).
    { pose proof hi' as (h1 & h2 & h3 & h4 & h5). unfold st1, linv. cbn [l_mask l_hist l_lambda l_x l_ax l_best l_prev l_flag l_calls].
      split; auto. split; auto. split; [|auto]. unfold mask. rewrite map_length, combine_length. lia. }
    destruct (count_true mask =? 0)%nat; [apply post_ret; split; auto|].
    step1. change (count_true mask) with (count_true (l_mask st1)). eapply post_mono; [apply (body_R r ld rn st1); auto|].
    intros [st2 [e|]] (g1 & g2 & g3).
    + apply post_ret. split; auto. rewrite g2. exact hb.
    + apply IH. auto.
Qed.
End Exact.

(** ** The whole of lobpcg *)
Definition cons_in (n c : nat) (Y : M) (y : option mr) : Prop :=
  match y with
  | None => c = 0%nat
  | Some y => nr y = n /\ injective n (nc y) (ent y) /\
      (c = 0%nat \/ (c = nc y /\ Y = ent y /\ orthonormal_cols n (nc y) (ent y)))
  end.

(** The factor of the Gram matrix of an orthonormal block is the identity *)
Lemma factor_id k L G : lower_tri k k L -> (forall i, (i < k)%nat -> 0 < L i i) ->
  mmul k L (mtr L) =[k, k]= G -> G =[k, k]= mid -> L =[k, k]= mid.
Proof.
  intros h1 h2 h3 h4. apply chol_unique; auto.
  - intros i j hi hj hij. unfold mid. bd. reflexivity.
  - intros i hi. unfold mid. rewrite Nat.eqb_refl. lra.
  - rewrite h3, h4. rewrite mmul_1_l. symmetry. apply mtr_mid.
Qed.
(** With an orthonormal Y the constraint step is the projection *)
Lemma project_perp n c q Y L V V' U : orthonormal_cols n c Y -> L =[c, c]= mid ->
  mmul c L U =[c, q]= mmul n (mtr Y) V -> V' =[n, q]= msub V (mmul c Y U) -> perp n c q Y V'.
Proof.
  intros ho hL hU hV. unfold perp. rewrite hV. rewrite mmul_sub_r. rewrite <- hU, hL.
  rewrite <- (mmul_assoc c n c q (mtr Y) Y U). unfold orthonormal_cols in ho. rewrite ho.
  intros i j _ _. unfold msub. ring.
Qed.

Lemma setup_R (x : mr) y c Y : cons_in (nr x) c Y y ->
  wp (match y with
      | None => Ret (x, None)
      | Some y =>
          let* yy := dot2 (transpose y) y in
          let* cyy := unwrap (cholesky yy) in
          let* x := apply_constraints x cyy y in
          Ret (x, Some (y, cyy))
      end)
     (fun '(x', yc) => nr x' = nr x /\ nc x' = nc x /\ perp (nr x) c (nc x) Y (ent x') /\ cons_ok (nr x) c Y yc).
Proof.
  intros h. destruct y as [y|]; cbn [cons_in] in h.
  - destruct h as (hy & hinj & hcase). step1. apply dot2t_R; auto. intros g g1 g2 g3. rewrite hy in g3.
    assert (sq : nr g = nc g) by lia.
    pose proof (gram_sym _ _ _ _ g3) as hsym. pose proof (gram_injective _ _ _ _ g3) as hpi. rewrite <- g1 in hsym.
    destruct (cholesky_iff g sq hsym) as (hiff & _). rewrite g1 in hiff.
    destruct ((proj2 hiff) ((proj2 hpi) hinj)) as (l & el). rewrite el. cbn [unwrap bind].
    destruct (cholesky_factor g l hsym el) as (_ & l1 & l2 & l3 & l4 & l5). rewrite g1 in *.
    assert (hproj : forall q V V' U, mmul (nc y) (ent l) U =[nc y, q]= mmul (nr x) (mtr (ent y)) V ->
        V' =[nr x, q]= msub V (mmul (nc y) (ent y) U) -> perp (nr x) c q Y V').
    { intros q V V' U hU hV. destruct hcase as [->|(-> & -> & ho)]; [intros i j hi; lia|].
      apply (project_perp (nr x) (nc y) q (ent y) (ent l) V V' U); auto.
      eapply factor_id; eauto. rewrite g3. exact ho. }
    step1. apply apply_constraints_R; auto. intros x' U x1 x2 x3 x4. apply post_ret.
    split; auto. split; auto. split; [eapply hproj; eauto|]. cbn [cons_ok]. repeat split; auto.
  - cbn [post]. subst c. split; auto. split; auto. split; [intros i j hi; lia|]. reflexivity.
Qed.

Lemma lobpcg_R fuel (x : mr) a m y tol maxiter order A c Y :
  linear_op (nr x) A a -> total_op (nr x) m -> (1 <= nc x)%nat -> cons_in (nr x) c Y y ->
  post (lobpcg_trace fuel a x m y tol maxiter order) (fun '(r, ost) =>
    match ost with
    | None => (nr x < nc x)%nat \/ r = LErr NotPositiveDefinite None
    | Some st => l_best st <> None /\ Forall (honest (nr x) (nc x) c A Y) (l_hist st)
    end) noE True.
Proof.
  intros ha hm hk hy. unfold lobpcg_trace. destruct (Nat.ltb_spec (nr x) (nc x)); [cbn [post]; auto|].
  step1. eapply wp_conseq; [apply (setup_R x y c Y hy)|]. intros [x1 yc] (x1r & x1c & x1p & hc).
  apply post_catch. eapply post_conseq; [apply orthonormalize_R| | |tauto].
  2:{ intros e (-> & _). cbn [post]. auto. }
  intros [x2 l2] (ho & _). cbn [fst snd] in ho. destruct ho as (o1 & o2 & o3 & o4 & o5 & o6 & o7 & o8). rewrite x1r, x1c in *.
  step1. destruct (ha x2 o1) as (ax & eax & ax1 & ax2 & ax3). rewrite eax. cbn [post]. rewrite o2 in *.
  assert (hb : blk (nr x) c A Y (nc x) x2 ax).
  { repeat split; auto. unfold perp. apply (lt_cancel c (nc x) (ent l2)); auto.
    rewrite (mmul_assoc c (nr x) (nc x) (nc x) (mtr Y) (ent x2) (mtr (ent l2))). rewrite <- o8. unfold perp in x1p. rewrite x1p.
    symmetry. apply mmul_zero_l. }
  step1. apply dot2t_R; [lia|]. intros xax f1 f2 _.
  apply post_catch. apply sorted_eig_R; auto; try lia. intros lam eb e1 e2 e3.
  step1. apply dot2_R; [lia|]. intros x3 k1 k2 k3. step1. apply dot2_R; [lia|]. intros ax3' k4 k5 k6.
  rewrite e3, o1, o2, ax1, ax2 in *.
  step1. eapply post_mono; [apply (loop_R fuel (nr x) (nc x) c A Y a m yc tol order ha hm hk hc)|].
  - unfold linv. cbn [l_mask l_hist l_lambda l_x l_ax l_best l_prev l_flag l_calls].
    split; auto. split; [|split; [apply repeat_length|auto]].
    apply (blk_mul (nr x) c A Y (nc x) (nc x) x2 ax eb); auto; lia.
  - intros [st e] (hi & hbest). destruct hi as (_ & _ & _ & _ & hh).
    destruct (l_best st) as [[[v1 v2] v3]|] eqn:eb'; [|congruence]. cbn [unwrap_opt bind].
    destruct e; cbn [post]; split; auto; congruence.
Qed.

(** A returned triple is one of the iterates *)
Lemma lobpcg_honest fuel (x : mr) a m y tol maxiter order A c Y r :
  linear_op (nr x) A a -> total_op (nr x) m -> (1 <= nc x)%nat -> cons_in (nr x) c Y y ->
  lobpcg fuel a x m y tol maxiter order = Ret r ->
  match r with
  | LOk out | LErr _ (Some out) => honest (nr x) (nc x) c A Y (eigvals out, eigvecs out, rnorm out)
  | LErr e None => ((nr x < nc x)%nat /\ e = NotThin (nr x) (nc x)) \/ e = NotPositiveDefinite
  end.
Proof.
  intros ha hm hk hy er. unfold lobpcg in er. apply bind_ret in er. destruct er as ([r0 ost] & et & er). injection er as ->.
  pose proof (post_inv _ _ _ _ _ (lobpcg_R fuel x a m y tol maxiter order A c Y ha hm hk hy) et) as h1.
  pose proof (weak_inv _ _ _ _ (w_lobpcg fuel a x m y tol maxiter order) et) as h2. cbv beta iota in h1, h2.
  destruct ost as [st|].
  - destruct h1 as (_ & h1). destruct h2 as (_ & h2). destruct (run_best _ _ _ _ _ _ h2) as (out & hr & _ & hin).
    rewrite Forall_forall in h1. specialize (h1 _ hin). destruct hr as [->|(e & -> & _)]; exact h1.
  - destruct (Nat.ltb_spec (nr x) (nc x)).
    + subst r. left. auto.
    + destruct h1 as [h1|h1]; [lia|]. subst r. auto.
Qed.
