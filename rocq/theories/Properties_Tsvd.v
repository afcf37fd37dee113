(** * C53: TruncatedEig and TruncatedSvd from end to end, in exact arithmetic *)
From Coq Require Import Reals Lra List Arith Lia Bool ZArith QArith.
From Verif Require Import Scalar Arr MBase MDirect MDecomp MEigh MLobpcg Inst Ex Spec Hoare RLin PSort PEighR PLob PLobR PTrunc Properties_Lobpcg Properties_Truncated Properties_Ritz.
Import ListNotations.
Local Open Scope R_scope.
Local Notation mr := (mat RN).

(** ** Specification *)
(** The symmetric eigenproblem whose solutions give the singular triplets of the n x m matrix A, and its dimension *)
Definition gram (n m : nat) (A : M) : M := if Nat.ltb m n then mmul n (mtr A) A else mmul m A (mtr A).
(** |A^T u - s v| and |A v - s u| for column i of U and row i of Vt *)
Definition left_resid (n m : nat) (A U Vt : M) (s : R) (i : nat) : R := frob m 1 (fun q _ => mmul n (mtr A) U q i - s * Vt i q).
Definition right_resid (n m : nat) (A U Vt : M) (s : R) (i : nat) : R := frob n 1 (fun p _ => mmul m A (mtr Vt) p i - s * U p i).
(** the result, complete or partial, carried by an outcome of lobpcg *)
Definition carries (r : lres RN) (out : lobpcg_out RN) : Prop := r = LOk out \/ exists e, r = LErr e (Some out).

(** ** The operator of TruncatedSvd (src/lobpcg/svd.rs:201-222) *)
Definition ts_op (p : mr) : mr -> res mr :=
  if Nat.ltb (nc p) (nr p) then fun y => (let* z := dot2 p y in dot2 (transpose p) z)%res
  else fun y => (let* z := dot2 (transpose p) y in dot2 p z)%res.
Lemma ts_op_linear (p : mr) : linear_op (Nat.min (nr p) (nc p)) (gram (nr p) (nc p) (ent p)) (ts_op p).
Proof.
  intros y hy. unfold ts_op, gram. destruct (Nat.ltb_spec (nc p) (nr p)).
  - assert (h : wp (let* z := dot2 p y in dot2 (transpose p) z)%res (fun z => nr z = nc p /\ nc z = nc y /\
      ent z =[nc p, nc y]= mmul (nc p) (mmul (nr p) (mtr (ent p)) (ent p)) (ent y))).
    { step1. apply dot2_R; [lia|]. intros c c1 c2 c3. apply dot2t_R; [auto|]. intros d d1 d2 d3. rewrite c2 in d3.
      split; [lia|]. split; [lia|]. rewrite d3, c3, (mmul_assoc (nc p) (nr p) (nc p) (nc y)). reflexivity. }
    destruct (wp_ret _ _ h) as (z & e & h1 & h2 & h3). exists z. rewrite Nat.min_r by lia. auto.
  - assert (h : wp (let* z := dot2 (transpose p) y in dot2 p z)%res (fun z => nr z = nr p /\ nc z = nc y /\
      ent z =[nr p, nc y]= mmul (nr p) (mmul (nc p) (ent p) (mtr (ent p))) (ent y))).
    { step1. apply dot2t_R; [lia|]. intros c c1 c2 c3. apply dot2_R; [auto|]. intros d d1 d2 d3. rewrite c2 in d3.
      split; [lia|]. split; [lia|]. rewrite d3, c3, (mmul_assoc (nr p) (nc p) (nr p) (nc y)). reflexivity. }
    destruct (wp_ret _ _ h) as (z & e & h1 & h2 & h3). exists z. rewrite Nat.min_l by lia. auto.
Qed.

(** decompose is one run of lobpcg on the Gram matrix, with the squared precision and a random start block; its values and
    vectors are those of the run, and the residual norms of the run are the true ones *)
Theorem C53_tsvd_run (G : Type) (draw : G -> RN * G) fuel (t : truncated_svd (N:=RN) (G:=G)) num r :
  ts_decompose draw fuel t num = Ret r -> (0 < num)%nat ->
  let p := ts_problem t in let d := Nat.min (nr p) (nc p) in let B := gram (nr p) (nc p) (ent p) in
  exists a x res out, linear_op d B a /\ nr x = d /\ nc x = num /\ x = fst (random draw d num (ts_rng t)) /\
    lobpcg fuel a x (fun y => Ret y) None (ts_precision t * ts_precision t) (ts_maxiter t) (ts_order t) = Ret res /\
    carries res out /\ tr_eigvals r = eigvals out /\ tr_eigvecs r = eigvecs out /\ tr_problem r = p /\
    length (rnorm out) = num /\
    forall j, (j < num)%nat -> vent (rnorm out) j = eig_resid d B (ent (tr_eigvecs r)) j (vent (tr_eigvals r) j).
Proof.
  intros e hn. cbv zeta. set (p := ts_problem t). unfold ts_decompose in e. destruct (Nat.eqb_spec num 0); [lia|]. fold p in e.
  destruct (random_dims draw (Nat.min (nr p) (nc p)) num (ts_rng t)) as (d1 & d2).
  destruct (random draw (Nat.min (nr p) (nc p)) num (ts_rng t)) as [x g]. cbn [fst] in d1, d2.
  change (if (nc p <? nr p)%nat then _ else _) with (ts_op p) in e.
  apply bind_ret in e. destruct e as (res & er & e). exists (ts_op p), x, res.
  pose proof (C32_honest fuel x (ts_op p) (fun y => Ret y) None _ _ _ (gram (nr p) (nc p) (ent p)) res
    ltac:(rewrite d1; apply ts_op_linear) ltac:(intros y _; eauto) ltac:(lia) I er) as hh. rewrite d1, d2 in hh.
  destruct res as [out|e' [out|]]; [| |discriminate]; injection e as <-; exists out; cbn [tr_eigvals tr_eigvecs tr_problem];
    destruct hh as (_ & _ & _ & h4 & h5); (split; [apply ts_op_linear|]); repeat (split; [auto; fail|]);
    (split; [first [left; reflexivity|right; eauto]|]); auto 10.
Qed.
Print Assumptions C53_tsvd_run.

(** It never panics; the only errors are too many requested pairs and a linearly dependent random start block *)
Theorem C53_tsvd_outcomes (G : Type) (draw : G -> RN * G) fuel (t : truncated_svd (N:=RN) (G:=G)) num : (0 < num)%nat ->
  let d := Nat.min (nr (ts_problem t)) (nc (ts_problem t)) in
  match ts_decompose draw fuel t num with
  | Ret r => (num <= d)%nat
  | Err e => if Nat.ltb d num then e = NotThin d num else e = NotPositiveDefinite /\
      ~ injective d num (ent (fst (random draw d num (ts_rng t))))
  | OutOfFuel => (num <= d)%nat
  | Panicked | OutOfBounds => False
  end.
Proof.
  intros hn. cbv zeta. set (p := ts_problem t). unfold ts_decompose. destruct (Nat.eqb_spec num 0); [lia|]. fold p.
  set (d := Nat.min (nr p) (nc p)). destruct (random_dims draw d num (ts_rng t)) as (d1 & d2).
  destruct (random draw d num (ts_rng t)) as [x g]. cbn [fst] in *.
  change (if (nc p <? nr p)%nat then _ else _) with (ts_op p).
  assert (hl : linear_op (nr x) (gram (nr p) (nc p) (ent p)) (ts_op p)) by (rewrite d1; apply ts_op_linear).
  assert (ht : total_op (nr x) (fun y => Ret y)) by (intros y _; eauto).
  destruct (Nat.ltb_spec d num) as [hd|hd].
  - unfold lobpcg, lobpcg_trace. rewrite d1, d2. destruct (Nat.ltb_spec d num); [|lia]. cbn [bind]. reflexivity.
  - pose proof (C41_no_panic fuel x (ts_op p) (fun y => Ret y) None (nmul RN (ts_precision t) (ts_precision t)) (ts_maxiter t) (ts_order t) _ hl ht ltac:(lia) I) as hp.
    destruct (lobpcg fuel (ts_op p) x (fun y => Ret y) None (nmul RN (ts_precision t) (ts_precision t)) (ts_maxiter t) (ts_order t)) as [r|e| | |] eqn:er; cbn [bind]; try tauto.
    destruct r as [out|e [out|]]; auto.
    pose proof (lobpcg_honest fuel x _ _ None _ _ _ _ 0%nat mid _ hl ht ltac:(lia) eq_refl er) as h2. cbv beta iota in h2.
    destruct h2 as [(h2 & _)| ->]; [lia|]. split; auto. intros hi.
    destruct (C36_iff x) as ((_ & h3) & _). rewrite d1, d2 in h3. destruct (h3 hi) as ([x2 l2] & e2).
    unfold lobpcg in er. apply bind_ret in er. destruct er as ([r0 ost] & et & er). injection er as ->.
    unfold lobpcg_trace in et. destruct (Nat.ltb_spec (nr x) (nc x)); [lia|]. cbn [bind] in et. rewrite e2 in et. cbn [catch] in et.
    apply bind_ret in et. destruct et as (ax & eax & et). apply bind_ret in et. destruct et as (xax & exax & et).
    assert (hx : nr x2 = d /\ nc x2 = num).
    { destruct (C36_orthonormal x x2 l2 e2) as (g1 & g2 & _). lia. }
    destruct hx as (x21 & x22). destruct (hl x2 ltac:(lia)) as (ax' & eax' & a1 & a2 & _). rewrite eax' in eax. injection eax as <-.
    assert (hxax : nr xax = num /\ nc xax = num).
    { assert (hh : wp (dot2 (transpose x2) ax') (fun z => nr z = num /\ nc z = num)) by (apply dot2t_R; [lia|]; intros; lia).
      rewrite exax in hh. exact hh. }
    destruct hxax as (x31 & x32).
    assert (hs : post (sorted_eig fuel xax None (nc x) (ts_order t)) (fun _ => True) noE True) by (apply sorted_eig_R; auto; lia).
    destruct (sorted_eig fuel xax None (nc x) (ts_order t)) as [[lam eb]|e| | |]; cbn [catch post] in *; try discriminate; [|destruct hs].
    do 2 (apply bind_ret in et; destruct et as (? & _ & et)). apply bind_ret in et. destruct et as ([st e] & _ & et).
    apply bind_ret in et. destruct et as ([[v1 v2] v3] & _ & et). destruct e; discriminate.
Qed.
Print Assumptions C53_tsvd_outcomes.

(** ** The triplets of values_vectors: one of the two equations A v = s u, A^T u = s v holds exactly; the residual of the other is
    the residual norm reported by the run, divided by s *)
Theorem C53_triplets (G : Type) (draw : G -> RN * G) fuel (t : truncated_svd (N:=RN) (G:=G)) num r (corr : R) u s vt :
  0 <= nepsilon RN * corr < 1 -> ts_decompose draw fuel t num = Ret r -> (0 < num)%nat ->
  ts_values_vectors (N:=RN) corr r = Ret (u, s, vt) ->
  let p := ts_problem t in let n := nr p in let m := nc p in let d := Nat.min n m in let A := ent p in
  exists a x res out idx, linear_op d (gram n m A) a /\ nr x = d /\
    lobpcg fuel a x (fun y => Ret y) None (ts_precision t * ts_precision t) (ts_maxiter t) (ts_order t) = Ret res /\ carries res out /\
    length idx = length s /\ NoDup idx /\
    forall i, (i < length s)%nat -> let j := nth i idx 0%nat in (j < num)%nat /\
      vent s i = sqrt (vent (eigvals out) j) /\
      (ts_order t = Largest -> 0 < vent s i) /\
      (0 < vent s i ->
       if Nat.ltb m n then right_resid n m A (ent u) (ent vt) (vent s i) i = 0 /\
         vent s i * left_resid n m A (ent u) (ent vt) (vent s i) i = vent (rnorm out) j
       else left_resid n m A (ent u) (ent vt) (vent s i) i = 0 /\
         vent s i * right_resid n m A (ent u) (ent vt) (vent s i) i = vent (rnorm out) j).
Proof.
  intros hc e hn ev. cbv zeta. set (p := ts_problem t). set (n := nr p). set (m := nc p). set (d := Nat.min n m). set (A := ent p).
  destruct (C53_tsvd_run G draw fuel t num r e hn) as (a & x & res & out & h1 & h2 & h3 & _ & h4 & h5 & h6 & h7 & h8 & h9 & h10).
  fold p in h1, h2, h8, h10. fold n m in h1, h2, h10. fold d A in h1, h2, h10.
  destruct (C39_shape RN G draw fuel t num r e hn) as (_ & g2 & g3 & g4 & g5 & g6 & g7).
  destruct (C39_vectors corr r u s vt g5 ev) as (idx & es & k1). cbv zeta in k1. rewrite h8 in k1. fold n m A in k1. destruct k1 as (u1 & u2 & v1 & v2 & k).
  pose proof (C39_values corr r s idx hc es) as hv. cbv zeta in hv. destruct hv as (l1 & l2 & l3 & l4). rewrite g2 in l4.
  exists a, x, res, out, idx. do 5 (split; [auto; fail|]). split; [auto|].
  intros i hi. destruct (l3 i ltac:(lia)) as (l5 & l6). rewrite g3 in l5. split; auto. rewrite <- h6. split; auto.
  split. { intros ho. rewrite ho in l4. destruct l4 as (_ & l4 & _). auto. }
  intros hs. set (j := nth i idx 0%nat) in *. set (lam := vent (tr_eigvals r) j) in *. set (si := vent s i) in *.
  assert (hsq : si * si = lam).
  { rewrite l6. apply sqrt_sqrt. destruct (Rle_lt_dec 0 lam); auto. rewrite sqrt_neg_0 in l6 by lra. lra. }
  rewrite (h10 j l5). fold lam. unfold eig_resid. rewrite g6 in k. fold p n m in k. unfold gram.
  destruct (Nat.ltb_spec m n) as [hmn|hmn]; destruct k as (k1 & k2).
  - assert (hd : d = m) by (unfold d; lia). rewrite hd.
    assert (hu : forall p0, (p0 < n)%nat -> mmul m A (mtr (ent vt)) p0 i = si * ent u p0 i) by (intros p0 hp; apply k2; auto; fold si; lra).
    split. { unfold right_resid. apply frob_zero. intros p0 q hp hq. rewrite hu by auto. ring. }
    unfold left_resid. rewrite <- (Rabs_right si) at 1 by lra. rewrite <- frob_scal. apply frob_ext. intros q z hq hz. unfold mscal.
    replace (mmul m (mmul n (mtr A) A) (ent (tr_eigvecs r)) q j) with (mmul n (mtr A) (mmul m A (mtr (ent vt))) q i).
    + rewrite k1 by auto. fold j. rewrite <- hsq. unfold mmul at 2. rewrite (Rsum_ext n _ (fun k => si * (mtr A q k * ent u k i))).
      2: { intros k hk. rewrite hu by auto. ring. }
      rewrite Rsum_scal_l. unfold mmul. ring.
    + rewrite <- (mmul_assoc m n m (length s)) by auto. unfold mmul at 1 3. apply Rsum_ext. intros k hk. unfold mtr at 2. rewrite k1 by auto. reflexivity.
  - assert (hd : d = n) by (unfold d; lia). rewrite hd.
    assert (hu : forall q, (q < m)%nat -> mmul n (mtr A) (ent u) q i = si * ent vt i q) by (intros p0 hp; apply k2; auto; fold si; lra).
    split. { unfold left_resid. apply frob_zero. intros p0 q hp hq. rewrite hu by auto. ring. }
    unfold right_resid. rewrite <- (Rabs_right si) at 1 by lra. rewrite <- frob_scal. apply frob_ext. intros q z hq hz. unfold mscal.
    replace (mmul n (mmul m A (mtr A)) (ent (tr_eigvecs r)) q j) with (mmul m A (mmul n (mtr A) (ent u)) q i).
    + rewrite k1 by auto. fold j. rewrite <- hsq. unfold mmul at 2. rewrite (Rsum_ext m _ (fun k => si * (A q k * mtr (ent vt) k i))).
      2: { intros k hk. rewrite hu by auto. unfold mtr. ring. }
      rewrite Rsum_scal_l. unfold mmul. ring.
    + rewrite <- (mmul_assoc n m n (length s)) by auto. unfold mmul at 1 3. apply Rsum_ext. intros k hk. rewrite k1 by auto. reflexivity.
Qed.
Print Assumptions C53_triplets.

(** ** TruncatedEig *)
(** The settings fit: square problem, preconditioner of the same size, independent constraints *)
Definition te_fits {G} (t : truncated_eig (N:=RN) (G:=G)) : Prop := let n := nr (te_problem t) in
  nc (te_problem t) = n /\
  match te_precond t with None => True | Some p => nr p = n /\ nc p = n end /\
  match te_constraints t with None => True | Some y => nr y = n /\ injective n (nc y) (ent y) end.
Lemma precond_total n (p : option mr) : match p with None => True | Some p => nr p = n /\ nc p = n end -> total_op n (precond_fn p).
Proof.
  intros h y hy. destruct p as [p|]; cbn [precond_fn]; [|eauto]. destruct h as (h1 & h2).
  assert (hw : wp (let* py := dot2 p y in if (nr py =? nr y)%nat && (nc py =? nc y)%nat then Ret py else Panicked)%res (fun _ => True)).
  { step1. apply dot2_R; [lia|]. intros c c1 c2 _. rewrite c1, c2, h1, hy, !Nat.eqb_refl. exact I. }
  destruct (wp_ret _ _ hw) as (z & e & _). eauto.
Qed.
Lemma te_run {G} (draw : G -> RN * G) fuel (t t' : truncated_eig (N:=RN) (G:=G)) num r : te_fits t -> (0 < num)%nat ->
  te_decompose draw fuel t num = Ret (r, t') ->
  t' = te_set_rng t (te_rng t') /\
  match r with
  | LOk out | LErr _ (Some out) => let n := nr (te_problem t) in
      length (eigvals out) = num /\ nr (eigvecs out) = n /\ nc (eigvecs out) = num /\ length (rnorm out) = num /\
      forall j, (j < num)%nat -> vent (rnorm out) j = eig_resid n (ent (te_problem t)) (ent (eigvecs out)) j (vent (eigvals out) j)
  | LErr _ None => True
  end.
Proof.
  intros (f1 & f2 & f3) hn e. unfold te_decompose in e. destruct (Nat.eqb_spec num 0); [lia|].
  destruct (random_dims draw (nr (te_problem t)) num (te_rng t)) as (d1 & d2).
  destruct (random draw (nr (te_problem t)) num (te_rng t)) as [x g]. cbn [fst] in d1, d2.
  apply bind_ret in e. destruct e as (res & er & e). injection e as <- <-. split; [reflexivity|].
  cbn [te_set_rng te_problem te_precond te_constraints te_precision te_maxiter te_order] in er.
  pose proof (C32_honest fuel x (fun y => dot2 (te_problem t) y) (precond_fn (te_precond t)) (te_constraints t) (te_precision t) (te_maxiter t) (te_order t) (ent (te_problem t)) res) as hh.
  rewrite d1, d2 in hh. apply hh; auto. { apply dot2_linear; auto. } { apply precond_total; auto. }
Qed.
Lemma te_safe {G} (draw : G -> RN * G) fuel (t : truncated_eig (N:=RN) (G:=G)) num : te_fits t -> (0 < num)%nat ->
  match te_decompose draw fuel t num with Err _ | Panicked | OutOfBounds => True | _ => False end -> False.
Proof.
  intros (f1 & f2 & f3) hn. unfold te_decompose. destruct (Nat.eqb_spec num 0); [auto|].
  destruct (random_dims draw (nr (te_problem t)) num (te_rng t)) as (d1 & d2).
  destruct (random draw (nr (te_problem t)) num (te_rng t)) as [x g]. cbn [fst] in d1, d2.
  cbn [te_set_rng te_problem te_precond te_constraints te_precision te_maxiter te_order].
  pose proof (C41_no_panic fuel x (fun y => dot2 (te_problem t) y) (precond_fn (te_precond t)) (te_constraints t) (te_precision t) (te_maxiter t) (te_order t) (ent (te_problem t))
    ltac:(rewrite d1; apply dot2_linear; auto) ltac:(rewrite d1; apply precond_total; auto) ltac:(lia) ltac:(rewrite d1; auto)) as h3.
  destruct (lobpcg _ _ _ _ _ _ _ _); cbn [bind]; auto.
Qed.

(** decompose: the residual norms are the true ones, and there is no panic *)
Theorem C53_teig (G : Type) (draw : G -> RN * G) fuel (t : truncated_eig (N:=RN) (G:=G)) num : te_fits t -> (0 < num)%nat ->
  let n := nr (te_problem t) in
  match te_decompose draw fuel t num with
  | Ret (LOk out, t') | Ret (LErr _ (Some out), t') => t' = te_set_rng t (te_rng t') /\
      length (eigvals out) = num /\ nr (eigvecs out) = n /\ nc (eigvecs out) = num /\ length (rnorm out) = num /\
      forall j, (j < num)%nat -> vent (rnorm out) j = eig_resid n (ent (te_problem t)) (ent (eigvecs out)) j (vent (eigvals out) j)
  | Ret (LErr e None, t') => t' = te_set_rng t (te_rng t') /\ ((n < num)%nat /\ e = NotThin n num \/ e = NotPositiveDefinite)
  | OutOfFuel => True
  | Err _ | Panicked | OutOfBounds => False
  end.
Proof.
  intros hf hn n. destruct (te_decompose draw fuel t num) as [[r t']|e0| | |] eqn:e; auto.
  - destruct (te_run draw fuel t t' num r hf hn e) as (h1 & h2). destruct r as [out|e' [out|]]; auto. split; auto.
    destruct hf as (f1 & f2 & f3). unfold te_decompose in e. destruct (Nat.eqb_spec num 0); [lia|].
    destruct (random_dims draw (nr (te_problem t)) num (te_rng t)) as (d1 & d2).
    destruct (random draw (nr (te_problem t)) num (te_rng t)) as [x g]. cbn [fst] in d1, d2.
    apply bind_ret in e. destruct e as (res & er & e). injection e as -> _.
    cbn [te_set_rng te_problem te_precond te_constraints te_precision te_maxiter te_order] in er.
    assert (hcons : cons_in (nr x) 0 mid (te_constraints t)) by (rewrite d1; destruct (te_constraints t); cbn; auto; tauto).
    pose proof (lobpcg_honest fuel x (fun y => dot2 (te_problem t) y) (precond_fn (te_precond t)) (te_constraints t) (te_precision t) (te_maxiter t) (te_order t) (ent (te_problem t)) 0%nat mid _ 
      ltac:(rewrite d1; apply dot2_linear; auto) ltac:(rewrite d1; apply precond_total; auto) ltac:(lia) hcons er) as h3.
    cbv beta iota in h3. rewrite d1, d2 in h3. exact h3.
  - exact (te_safe draw fuel t num hf hn ltac:(rewrite e; exact I)).
  - exact (te_safe draw fuel t num hf hn ltac:(rewrite e; exact I)).
  - exact (te_safe draw fuel t num hf hn ltac:(rewrite e; exact I)).
Qed.
Print Assumptions C53_teig.

(** The iterator delivers a block only if all its residuals are at most 1/10 (src/lobpcg/eig.rs:264-269), also when the run
    ended with an error; and it withholds a block only for an error without result or a residual above 1/10 *)
Theorem C53_next (G : Type) (draw : G -> RN * G) fuel (it it' : teig_iter (N:=RN) (G:=G)) item :
  let t := ti_eig it in let n := nr (te_problem t) in
  te_fits t -> (1 <= ti_step it)%nat -> ti_next draw fuel it = Ret (item, it') ->
  match item with
  | Some (vals, vecs) => forall j, (j < length vals)%nat -> eig_resid n (ent (te_problem t)) (ent vecs) j (vent vals j) <= / 10
  | None => ti_remaining it = 0%nat \/
      exists r t', te_decompose draw fuel t (Nat.min (ti_step it) (ti_remaining it)) = Ret (r, t') /\
        match r with
        | LErr _ None => True
        | LOk out | LErr _ (Some out) => exists j, (j < length (eigvals out))%nat /\
            / 10 < eig_resid n (ent (te_problem t)) (ent (eigvecs out)) j (vent (eigvals out) j)
        end
  end.
Proof.
  intros t n hf hs e. unfold ti_next in e. destruct (Nat.eqb_spec (ti_remaining it) 0) as [h0|h0].
  { injection e as <- _. auto. }
  fold t in e. set (k := Nat.min (ti_step it) (ti_remaining it)) in *. assert (hk : (0 < k)%nat) by (unfold k; lia).
  apply bind_ret in e. destruct e as ([r t'] & er & e).
  destruct (te_run draw fuel t t' k r hf hk er) as (_ & h2). fold n in h2.
  set (go := fun l : lobpcg_out RN =>
    if existsb (fun rn => nlt RN (nofQ RN 1%Z 10%positive) rn) (rnorm l) then Ret (None, TI (ti_step it) (ti_remaining it) t')
    else (let* c := (match te_constraints t' with Some c => stack_cols c (eigvecs l) | None => Ret (eigvecs l) end) in
          let* rem := usub (ti_remaining it) k in
          Ret (Some (eigvals l, eigvecs l), TI (ti_step it) rem (te_orthogonal_to t' c)))%res).
  assert (hgo : forall out, length (eigvals out) = k -> length (rnorm out) = k ->
    (forall j, (j < k)%nat -> vent (rnorm out) j = eig_resid n (ent (te_problem t)) (ent (eigvecs out)) j (vent (eigvals out) j)) ->
    go out = Ret (item, it') ->
    match item with
    | Some (vals, vecs) => forall j, (j < length vals)%nat -> eig_resid n (ent (te_problem t)) (ent vecs) j (vent vals j) <= / 10
    | None => exists j, (j < length (eigvals out))%nat /\ / 10 < eig_resid n (ent (te_problem t)) (ent (eigvecs out)) j (vent (eigvals out) j)
    end).
  { intros out l1 l2 hr eg. unfold go in eg.
    assert (h10 : nofQ RN 1 10 = / 10) by (change (IZR 1 / IZR 10 = / 10); field).
    destruct (existsb _ (rnorm out)) eqn:ex.
    - injection eg as <- _. apply existsb_exists in ex. destruct ex as (v & hin & hv). apply (In_nth _ _ 0) in hin. destruct hin as (j & hj & ej).
      assert (hjk : (j < k)%nat) by (rewrite <- l2; exact hj). exists j. split; [lia|]. rewrite <- hr by lia. replace (vent (rnorm out) j) with v by (symmetry; exact ej).
      change (Rltb (nofQ RN 1 10) v = true) in hv. rewrite h10 in hv. unfold Rltb in hv. destruct (Rlt_dec (/ 10) v) as [hl|hl]; [exact hl|discriminate].
    - apply bind_ret in eg. destruct eg as (c & _ & eg). apply bind_ret in eg. destruct eg as (rem & _ & eg). injection eg as <- _.
      intros j hj. assert (hjk : (j < k)%nat) by (rewrite <- l1; exact hj). rewrite <- hr by lia. destruct (Rle_lt_dec (vent (rnorm out) j) (/ 10)); auto. exfalso.
      assert (ht : existsb (fun rn => nlt RN (nofQ RN 1 10) rn) (rnorm out) = true).
      { apply existsb_exists. exists (vent (rnorm out) j). split; [apply nth_In; rewrite <- l2 in hjk; exact hjk|]. change (Rltb (nofQ RN 1 10) (vent (rnorm out) j) = true).
        rewrite h10. unfold Rltb. destruct (Rlt_dec (/ 10) (vent (rnorm out) j)) as [hl|hl]; [reflexivity|contradiction]. }
      rewrite ht in ex. discriminate. }
  destruct r as [out|e' [out|]].
  - destruct h2 as (q1 & _ & _ & q4 & q5). specialize (hgo out q1 q4 q5 e). destruct item as [[vals vecs]|]; auto. right. exists (LOk out), t'. auto.
  - destruct h2 as (q1 & _ & _ & q4 & q5). specialize (hgo out q1 q4 q5 e). destruct item as [[vals vecs]|]; auto. right. exists (LErr e' (Some out)), t'. auto.
  - injection e as <- _. right. exists (LErr e' None), t'. auto.
Qed.
Print Assumptions C53_next.

(** ** The hypotheses are met: a run that returns, in exact arithmetic, and one in binary64 *)
Definition rdraw (z : unit) : RN * unit := (1, z).
Definition p34 : mr := rmat 1 [[3]; [4]]%Z.
Definition ts34 : truncated_svd (N:=RN) (G:=unit) := TS Largest p34 (/ 100000) 0 tt.
Definition te5 : truncated_eig (N:=RN) (G:=unit) :=
  TE Largest (rmat 2 [[2; 1]; [1; 2]]%Z) (Some (rmat 1 [[1]; [-1]]%Z)) (Some (rmat 2 [[1; 0]; [0; 1]]%Z)) (/ 100000) 10 tt.
Lemma measure_fed (st : lstate RN) : lob_measure st <> OutOfFuel.
Proof.
  unfold lob_measure, dot2, mzip. destruct (nc (l_x st) =? _)%nat; cbn [bind]; [|discriminate].
  destruct (_ && _); cbn [bind]; discriminate.
Qed.
Lemma bind_fed {A B} (m : res A) (k : A -> res B) : m <> OutOfFuel -> (forall a, m = Ret a -> k a <> OutOfFuel) -> bind m k <> OutOfFuel.
Proof. intros h1 h2. destruct m; cbn [bind]; auto; discriminate. Qed.
Lemma dot2_fed (a b : mr) : dot2 a b <> OutOfFuel.
Proof. unfold dot2. destruct (nc a =? nr b)%nat; discriminate. Qed.
Lemma zero_iter (x : mr) a m tol ord A : linear_op (nr x) A a -> nc x = 1%nat -> (1 <= nr x)%nat ->
  lobpcg 1 a x m None tol 0 ord <> OutOfFuel.
Proof.
  intros ha h1 h0. unfold lobpcg. apply bind_fed; [|intros [r ost] _; discriminate].
  unfold lobpcg_trace. destruct (Nat.ltb_spec (nr x) (nc x)); [lia|]. cbn [bind].
  destruct (orthonormalize x) as [[x2 l2]|e| | |] eqn:eo; cbn [catch]; try discriminate.
  2:{ exfalso. pose proof (orthonormalize_R x) as hp. rewrite eo in hp. exact hp. }
  destruct (C36_orthonormal x x2 l2 eo) as (g1 & g2 & _). destruct (ha x2 g1) as (ax & eax & a1 & a2 & _). rewrite eax. cbn [bind].
  apply bind_fed; [apply dot2_fed|]. intros xax ex.
  assert (hx : wp (dot2 (transpose x2) ax) (fun z => nr z = 1%nat /\ nc z = 1%nat)) by (apply dot2t_R; [lia|]; intros; lia).
  rewrite ex in hx. destruct hx as (x1 & x2').
  destruct (fed_sorted xax None 1 ord 1 x1 x2' I ltac:(lia) ltac:(lia)) as (l & v & es). rewrite h1, es. cbn [catch].
  apply bind_fed; [apply dot2_fed|]. intros x3 _. apply bind_fed; [apply dot2_fed|]. intros ax3 _.
  rewrite Nat.min_0_r. cbn [lob_loop].
  apply bind_fed. { apply bind_fed; [apply measure_fed|]. intros [[[r rn] ld] st] _. discriminate. }
  intros [st e] _. apply bind_fed; [destruct (l_best st); discriminate|]. intros [[v1 v2] v3] _. destruct e; discriminate.
Qed.
Example C53_nonvacuous : (exists r, ts_decompose rdraw 1 ts34 1 = Ret r) /\ te_fits te5.
Proof.
  split.
  - pose proof (C53_tsvd_outcomes unit rdraw 1 ts34 1 ltac:(lia)) as h. cbv zeta in h. change (Nat.min _ _) with 1%nat in h.
    destruct (ts_decompose rdraw 1 ts34 1) as [r|e| | |] eqn:e0; try contradiction; [eauto| |].
    + exfalso. cbn [Nat.ltb Nat.leb] in h. destruct h as (_ & h). apply h. intros z hz j hj. assert (j = 0)%nat by lia. subst j.
      specialize (hz 0%nat ltac:(lia)). cbn in hz. unfold ent, get in hz. cbn in hz. lra.
    + exfalso. revert e0. unfold ts_decompose. cbn [Nat.eqb]. change (ts_problem ts34) with p34.
      destruct (random rdraw (Nat.min (nr p34) (nc p34)) 1 (ts_rng ts34)) as [x g] eqn:er.
      pose proof (random_dims rdraw (Nat.min (nr p34) (nc p34)) 1 (ts_rng ts34)) as hd. rewrite er in hd. destruct hd as (d1 & d2). cbn [fst] in *.
      change (if (nc p34 <? nr p34)%nat then _ else _) with (ts_op p34).
      apply bind_fed.
      * apply (zero_iter _ _ _ _ _ (gram (nr p34) (nc p34) (ent p34))); auto; [rewrite d1; apply ts_op_linear|rewrite d1; cbn; lia].
      * intros [out|e [out|]] _; discriminate.
  - split; [reflexivity|]. split; [split; reflexivity|]. split; [reflexivity|]. intros z hz j hj. cbn in hj. assert (j = 0)%nat by lia. subst j.
    specialize (hz 0%nat ltac:(cbn; lia)). unfold ent, get in hz. cbn in hz. lra.
Qed.
(** In binary64, for diag(3,2,1): the triplet found satisfies both equations to within 1e-4 *)
Definition fsmall (d : positive) (x : FN) : bool := Qle_bool (Qabs.Qabs (fq x)) (1 # d).
Definition fresid (a u vt : mat FN) (s : list FN) (j : nat) : bool :=
  match dot2 a (transpose vt), dot2 (transpose a) u with
  | Ret av, Ret atu =>
      forallb (fun p => fsmall 10000 (nsub FN (get av p j) (nmul FN (vget s j) (get u p j)))) (seq 0 (nr a)) &&
      forallb (fun q => fsmall 10000 (nsub FN (get atu q j) (nmul FN (vget s j) (get vt j q)))) (seq 0 (nc a))
  | _, _ => false
  end.
Example C53_run : match ts_decompose count_draw 100 ts321 1 with
  | Ret r => match ts_values_vectors (N:=FN) (f_of_Z 1000000) r with
             | Ret (u, s, vt) => (length s =? 1)%nat && fresid (ts_problem ts321) u vt s 0
             | _ => false
             end
  | _ => false
  end = true.
Proof. vm_compute. reflexivity. Qed.
