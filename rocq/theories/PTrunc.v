(** * The accessors of the truncated SVD *)
From Coq Require Import Reals Lra List Arith Lia Bool Sorting.Permutation Sorting.Sorted.
From Verif Require Import Scalar Arr MBase MDirect MDecomp MEigh MLobpcg Inst Spec Hoare RLin PSort PLob PLobR.
Import ListNotations.
Local Open Scope nat_scope.

Lemma ss_filter {A} (R : A -> A -> Prop) (f : A -> bool) l : StronglySorted R l -> StronglySorted R (filter f l).
Proof.
  induction 1 as [|x l hs IH hf]; cbn [filter]; [constructor|]. destruct (f x); auto. constructor; auto.
  rewrite Forall_forall in *. intros y hy. apply filter_In in hy. apply hf. tauto.
Qed.
Lemma nodup_fst_filter {A} (f : nat * A -> bool) l : NoDup (map fst l) -> NoDup (map fst (filter f l)).
Proof.
  induction l as [|x l IH]; cbn [map filter]; auto. intros h. inversion h as [|? ? h1 h2]; subst.
  destruct (f x); cbn [map]; auto. constructor; auto. intros hi. apply h1. apply in_map_iff in hi. destruct hi as (y & e & hy).
  apply filter_In in hy. rewrite <- e. apply in_map. tauto.
Qed.

Section Gen.
Context {N : Num}.
(** What the accessor returns, in terms of the sorted list of (index, eigenvalue) *)
Definition kept (corr : N) (order : Order) (l : list (nat * N)) : list (nat * N) :=
  match order, l with
  | Largest, (_, top) :: _ => filter (fun '(_, x) => nlt N (nmul N (nmul N (nepsilon N) corr) top) x) l
  | _, _ => l
  end.
Lemma svi_kept corr (t : tsvd_result N) : singular_values_with_indices corr t =
  (let* l := sort_idx (tr_eigvals t) (tr_order t) in
   match tr_order t, l with
   | Largest, [] => Panicked
   | _, _ => Ret (map (fun p => nsqrt N (snd p)) (kept corr (tr_order t) l), map fst (kept corr (tr_order t) l))
   end)%res.
Proof.
  unfold singular_values_with_indices. destruct (sort_idx (tr_eigvals t) (tr_order t)) as [l| | | |]; auto. cbn [bind].
  assert (e : forall l : list (nat * N), map (fun '(_, b) => nsqrt N b) l = map (fun p => nsqrt N (snd p)) l)
    by (intros; apply map_ext; intros []; reflexivity).
  destruct (tr_order t); cbn [kept]; [|rewrite e; reflexivity].
  destruct l as [|[i top] l]; auto. cbn [bind]. rewrite e. reflexivity.
Qed.
Lemma kept_incl corr order l p : In p (kept corr order l) -> In p l.
Proof. destruct order; cbn [kept]; auto. destruct l as [|[i x] l]; auto. intros h. apply filter_In in h. tauto. Qed.
Lemma kept_ss corr order l (R : nat * N -> nat * N -> Prop) : StronglySorted R l -> StronglySorted R (kept corr order l).
Proof. destruct order; cbn [kept]; auto. destruct l as [|[i x] l]; auto. apply ss_filter. Qed.
Lemma kept_nodup corr order (l : list (nat * N)) : NoDup (map fst l) -> NoDup (map fst (kept corr order l)).
Proof. destruct order; cbn [kept]; auto. destruct l as [|[i x] l]; auto. apply nodup_fst_filter. Qed.

(** The sorted list, when it exists *)
Lemma sort_idx_in nan (h : num_order N nan) (v : list N) order l : (length v <= 1 \/ forall a, In a v -> ~ nan a) ->
  sort_idx v order = Ret l -> Permutation (enumerate v) l.
Proof.
  intros hv e. assert (hg : (forall a, In a v -> ~ nan a) \/ exists x, v = [x]).
  { destruct hv as [hl|]; auto. destruct v as [|x [|y v]]; [left; simpl; tauto|eauto|simpl in hl; lia]. }
  destruct hg as [hg|(x & ->)].
  - destruct (sort_idx_ok nan h order v hg) as (l' & e' & hp & _). rewrite e in e'. injection e' as ->. exact hp.
  - cbv in e. injection e as <-. apply Permutation_refl.
Qed.

(** The accessors return *)
Lemma values_vectors_ok nan (h : num_order N nan) corr (t : tsvd_result N) :
  (tr_order t = Largest -> tr_eigvals t <> []) -> (length (tr_eigvals t) <= 1 \/ forall a, In a (tr_eigvals t) -> ~ nan a) ->
  (exists r, ts_values corr t = Ret r) /\
  (length (tr_eigvals t) <= nc (tr_eigvecs t) ->
   nr (tr_eigvecs t) = (if tr_ngm t then nc (tr_problem t) else nr (tr_problem t)) ->
   exists r, ts_values_vectors corr t = Ret r).
Proof.
  intros h1 h2. unfold ts_values, ts_values_vectors. rewrite !svi_kept.
  destruct (sorted_inv nan h (tr_order t) _ h2) as (l & e & el & hs). pose proof (sort_idx_in nan h _ _ l h2 e) as hp. rewrite e. cbn [bind].
  assert (hm : forall (K : list N * list nat -> Prop),
    K (map (fun p => nsqrt N (snd p)) (kept corr (tr_order t) l), map fst (kept corr (tr_order t) l)) ->
    exists a, K a /\ (match tr_order t, l with Largest, [] => Panicked | _, _ =>
      Ret (map (fun p => nsqrt N (snd p)) (kept corr (tr_order t) l), map fst (kept corr (tr_order t) l)) end) = Ret a).
  { intros K hK. eexists. split; [exact hK|]. destruct (tr_order t); auto. destruct l; auto. exfalso. apply (h1 eq_refl).
    destruct (tr_eigvals t); auto. discriminate. }
  set (ix := map fst (kept corr (tr_order t) l)) in *.
  destruct (hm (fun a => snd a = ix) eq_refl) as ([va ix'] & hx & ->). cbn [snd] in hx. subst ix'. cbn [bind]. split; eauto.
  intros hc hr. assert (hsel : select_cols (tr_eigvecs t) ix = Ret (mk (nr (tr_eigvecs t)) (length ix) (fun i k => get (tr_eigvecs t) i (nth k ix 0)))).
  { unfold select_cols. replace (forallb _ ix) with true; auto. symmetry. apply forallb_forall. intros j hj. apply Nat.ltb_lt.
    apply in_map_iff in hj. destruct hj as ([i x] & hi & hin). cbn [fst] in hi. subst i. apply kept_incl in hin.
    apply (Permutation_in _ (Permutation_sym hp)) in hin. apply in_enumerate in hin.
    assert (j < length (tr_eigvals t)) by (apply nth_error_Some; congruence). lia. }
  rewrite hsel. destruct (tr_ngm t); cbn [bind]; unfold dot2; dims; rewrite hr, Nat.eqb_refl; cbn [bind]; eauto.
Qed.

(** ** The eigenvalues returned by lobpcg are in order, and free of NaN as soon as there are two *)
Section Ordered.
Context (nan : N -> Prop) (hno : num_order N nan) (order : Order).
Definition ordv (v : list N) : Prop :=
  (length v <= 1 \/ forall a, In a v -> ~ nan a) /\
  forall i j, i < j -> j < length v -> before order (vget v j) (vget v i) = false.

Lemma ordv_sorted fuel (a : mat N) b size : weak (sorted_eig fuel a b size order) (fun r => ordv (fst r)) anyE.
Proof.
  unfold sorted_eig. apply weak_bind. eapply weak_mono; [apply weak_true| |intros; exact I]. intros [va ve] _.
  apply weak_bind.
  eapply weak_mono with (Q := fun r => ordv (fst r)) (E := anyE); [| |intros; exact I].
  { unfold sort_eig. destruct (sort_idx va order) as [l| | | |] eqn:el; try exact I. cbn [bind].
    destruct (assign_cols _ _ _) as [o| | | |]; try exact I. cbn [bind weak fst].
    assert (hc : length va <= 1 \/ forall a, In a va -> ~ nan a).
    { destruct (le_lt_dec (length va) 1) as [|hl]; auto. right. intros x hx hn.
      rewrite (sort_idx_bad nan hno order va hl (ex_intro _ x (conj hx hn))) in el. discriminate. }
    destruct (sorted_inv nan hno order va hc) as (l' & e' & h1 & h2). rewrite el in e'. injection e' as <-.
    pose proof (sort_idx_in nan hno va order l hc el) as hp.
    unfold ordv. rewrite map_length, h1. split.
    - destruct hc as [hc|hc]; auto. right. intros x hx. apply hc. rewrite <- (snd_enumerate va).
      apply (Permutation_in _ (Permutation_sym (Permutation_map snd hp))). exact hx.
    - destruct h2 as (_ & _ & _ & h2 & _). intros i j hij hj. auto. }
  intros [sv se] hs. cbn [fst] in hs.
  do 2 (apply weak_bind; eapply weak_mono; [apply weak_true| |intros; exact I]; intros ? _).
  unfold vtake. destruct (Nat.leb_spec size (length sv)); [|exact I]. cbn [bind].
  apply weak_bind. eapply weak_mono; [apply weak_true| |intros; exact I]. intros ? _. cbn [weak fst].
  destruct hs as (h1 & h2). unfold ordv. rewrite length_vmk. split.
  - destruct h1 as [h1|h1]; [left; lia|right]. intros x hx. apply h1. apply (In_nth _ _ (n0 N)) in hx. destruct hx as (i & hi & e).
    rewrite length_vmk in hi. change (vget (vmk size (vget sv)) i = x) in e. rewrite vget_vmk in e by auto. subst x. apply nth_In. lia.
  - intros i j hij hj. rewrite !vget_vmk by lia. apply h2; lia.
Qed.

Lemma weak_and {A} (m : res A) (Q Q' : A -> Prop) E E' : weak m Q E -> weak m Q' E' -> weak m (fun r => Q r /\ Q' r) E.
Proof. destruct m; cbn [weak]; auto. Qed.

Lemma ordv_rr fuel flag (p : option (mat N * mat N)) (x r xax xar rar xx rr xr : mat N) cbs size_x :
  weak (lob_rr fuel flag p x r xax xar rar xx rr xr cbs size_x order)
    (fun '(_, res) => match res with inl e => True | inr (l, v) => ordv l end) anyE.
Proof.
  assert (h2 : weak (lob_rr2 fuel xax xar rar xx rr xr size_x order) (fun r => ordv (fst r)) anyE).
  { unfold lob_rr2. do 6 (apply weak_bind; eapply weak_mono; [apply weak_true| |intros; exact I]; intros ? _). apply ordv_sorted. }
  assert (hs : weak (catch (lob_rr2 fuel xax xar rar xx rr xr size_x order)
      (fun s => Ret (@None (mat N * mat N), inr s)) (fun e => Ret (None, inl e)))
    (fun '(_, res) => match res with inl e => True | inr (l, v) => ordv l end) anyE).
  { apply weak_catch. eapply weak_mono; [exact h2| |]; cbn [weak]; auto. intros [l v]. auto. }
  unfold lob_rr. destruct p as [[p ap]|]; [|exact hs].
  apply weak_catch. eapply weak_mono with (Q := fun r => ordv (fst r)) (E := anyE); [|intros [l v] h; exact h|intros; exact hs].
  unfold lob_rr3.
  do 5 (apply weak_bind; eapply weak_mono; [apply weak_true| |intros; exact I]; intros ? _).
  apply weak_bind; eapply weak_mono; [apply weak_true| |intros; exact I]; intros [? ?] _.
  do 8 (apply weak_bind; eapply weak_mono; [apply weak_true| |intros; exact I]; intros ? _).
  apply ordv_sorted.
Qed.
Lemma ordv_body fuel a m yc size_x (r ld : mat N) rn cbs (st : lstate N) :
  weak (lob_body fuel a m yc size_x order r ld rn cbs st) (fun '(st', e) => e = None -> ordv (l_lambda st')) anyE.
Proof.
  unfold lob_body.
  do 5 (apply weak_bind; eapply weak_mono; [apply weak_true| |auto]; intros ? _).
  apply weak_catch. eapply weak_mono; [apply weak_true| |].
  2:{ intros e _. cbn [weak]. discriminate. }
  intros [r' l'] _.
  do 3 (apply weak_bind; eapply weak_mono; [apply weak_true| |auto]; intros ? _).
  apply weak_bind; eapply weak_mono; [apply weak_true| |auto]. intros [[[[g1 g2] g3] g4] g5] _.
  apply weak_bind; eapply weak_mono; [apply weak_true| |auto]. intros p _.
  apply weak_bind; eapply weak_mono; [apply ordv_rr| |auto]. intros [p' [e|[l v]]]; cbn [weak]; [discriminate|]. intros hl.
  apply weak_bind; eapply weak_mono; [apply weak_true| |auto]. intros [[[? ?] ?] ?] _. cbn. auto.
Qed.
Definition hist_ord (st : lstate N) : Prop := Forall (fun h => ordv (fst (fst h))) (l_hist st) /\
  match l_best st with Some b => ordv (fst (fst b)) | None => True end.
Lemma ordv_loop fuel a m yc tol size_x iter : forall st, ordv (l_lambda st) -> hist_ord st ->
  weak (lob_loop fuel a m yc tol size_x order iter st) (fun '(st', _) => hist_ord st') anyE.
Proof.
  induction iter as [|iter IH]; intros st hl hh; cbn [lob_loop].
  - apply weak_bind. eapply weak_mono; [apply w_measure with (E := anyE)| |auto].
    intros [[[r rn] ld] st'] (_ & _ & _ & _ & _ & _ & ->). cbn [weak]. destruct hh as (h1 & h2). split; cbn.
    + apply Forall_app. split; auto.
    + unfold pick. destruct (l_best st) as [b|]; [destruct (nlt N _ _)|]; auto.
  - apply weak_bind. eapply weak_mono; [apply w_measure with (E := anyE)| |auto].
    intros [[[r rn] ld] st'] (_ & _ & _ & _ & _ & _ & ->). cbn [l_mask l_hist l_lambda l_x l_ax l_best l_prev l_flag l_calls].
    set (mask := map _ (combine rn (l_mask st))). set (st1 := LS _ _ _ mask _ _ _ _ _).
    assert (h1 : hist_ord st1).
    { destruct hh as (h1 & h2). split; cbn.
      - apply Forall_app. split; auto.
      - unfold pick. destruct (l_best st) as [b|]; [destruct (nlt N _ _)|]; auto. }
    destruct (Nat.eqb_spec (count_true mask) 0); [exact h1|].
    apply weak_bind. eapply weak_mono; [apply weak_and with (E' := anyE); [apply (w_body fuel a m yc size_x order r ld rn (count_true mask) st1)|apply ordv_body]| |auto].
    intros [st2 e] ((g1 & g2 & _) & g3). assert (h2 : hist_ord st2) by (unfold hist_ord; rewrite g1, g2; exact h1).
    destruct e as [e|]; [exact h2|]. apply IH; auto.
Qed.
Lemma ordv_lobpcg fuel (a : mat N -> res (mat N)) (x : mat N) m y tol maxiter :
  weak (lobpcg fuel a x m y tol maxiter order) (fun r =>
    match r with LOk out | LErr _ (Some out) => ordv (eigvals out) | LErr _ None => True end) anyE.
Proof.
  unfold lobpcg, lobpcg_trace. destruct (nr x <? nc x); [exact I|]. apply weak_bind.
  apply weak_bind. eapply weak_mono; [apply weak_true| |auto]. intros [x1 yc] _.
  apply weak_catch. eapply weak_mono; [apply weak_true| |intros; exact I]. intros [x2 l2] _.
  do 2 (apply weak_bind; eapply weak_mono; [apply weak_true| |intros; exact I]; intros ? _).
  apply weak_catch. eapply weak_mono; [apply ordv_sorted| |intros; exact I]. intros [lam eb] hl. cbn [fst] in hl.
  do 2 (apply weak_bind; eapply weak_mono; [apply weak_true| |intros; exact I]; intros ? _).
  apply weak_bind. eapply weak_mono; [apply ordv_loop| |auto]; cbn; auto. { split; cbn; auto. }
  intros [st e] (h1 & h2). destruct (l_best st) as [[[vals vecs] rn]|]; [|exact I]. cbn [unwrap_opt bind].
  destruct e; exact h2.
Qed.
End Ordered.

(** Shapes of a decomposition *)
Lemma w_svd {G} (draw : G -> N * G) fuel (t : truncated_svd (N:=N) (G:=G)) num :
  weak (ts_decompose draw fuel t num) (fun r => tr_order r = ts_order t /\ length (tr_eigvals r) = num /\
    (num <> 0 -> nc (tr_eigvecs r) = num /\ num <= Nat.min (nr (ts_problem t)) (nc (ts_problem t)) /\ tr_problem r = ts_problem t /\
      nr (tr_eigvecs r) = (if tr_ngm r then nc (tr_problem r) else nr (tr_problem r)) /\
      tr_ngm r = (nc (ts_problem t) <? nr (ts_problem t)))) anyE.
Proof.
  unfold ts_decompose. destruct (Nat.eqb_spec num 0) as [->|h0]; [cbn; repeat split; tauto|].
  set (p := ts_problem t). destruct (random_dims draw (Nat.min (nr p) (nc p)) num (ts_rng t)) as (d1 & d2).
  destruct (random draw (Nat.min (nr p) (nc p)) num (ts_rng t)) as [x g]. cbn [fst] in d1, d2.
  apply weak_bind. eapply weak_mono; [apply w_lobpcg_shape| |auto].
  intros r hr. rewrite d1, d2 in hr. unfold shaped in hr.
  destruct r as [l|e [l|]]; cbn [fst snd] in hr; [| |exact I]; cbn [weak tr_order tr_eigvals tr_eigvecs tr_problem tr_ngm].
  - destruct hr as (q1 & q2 & q3 & q4 & q5). repeat split; auto; intros; destruct (Nat.ltb_spec (nc p) (nr p)); lia.
  - destruct hr as (q1 & (q2 & q3 & q4 & q5) & _). repeat split; auto; intros; destruct (Nat.ltb_spec (nc p) (nr p)); lia.
Qed.
End Gen.

Lemma ordv_svd {N : Num} nan (hno : num_order N nan) {G} (draw : G -> N * G) fuel (t : truncated_svd (N:=N) (G:=G)) num :
  weak (ts_decompose draw fuel t num) (fun r => ordv nan (ts_order t) (tr_eigvals r)) anyE.
Proof.
  unfold ts_decompose. destruct (num =? 0). { split; cbn; [left; lia|intros; lia]. }
  destruct (random _ _ _ _) as [x g]. apply weak_bind. eapply weak_mono; [apply (ordv_lobpcg nan hno)| |auto].
  intros [l|e [l|]]; cbn; auto.
Qed.

Local Open Scope R_scope.
(** ** Exact arithmetic *)
Definition svi_ok (c : R) (order : Order) (lam : list RN) (vals : list RN) (idx : list nat) : Prop :=
  length vals = length idx /\ NoDup idx /\
  (forall i, (i < length idx)%nat -> (nth i idx 0 < length lam)%nat /\ vent vals i = sqrt (vent lam (nth i idx 0%nat))) /\
  match order with
  | Largest => (forall i j, (i < j)%nat -> (j < length vals)%nat -> vent vals j <= vent vals i) /\
      (forall i, (i < length vals)%nat -> 0 < vent vals i) /\
      (forall j, (j < length lam)%nat -> In j idx <-> forall i, (i < length lam)%nat -> c * vent lam i < vent lam j)
  | Smallest => (forall i j, (i < j)%nat -> (j < length vals)%nat -> vent vals i <= vent vals j) /\ length idx = length lam
  end.

Lemma svi_R (corr : R) (t : tsvd_result RN) vals idx : 0 <= nepsilon RN * corr < 1 ->
  singular_values_with_indices (N:=RN) corr t = Ret (vals, idx) ->
  svi_ok (nepsilon RN * corr) (tr_order t) (tr_eigvals t) vals idx.
Proof.
  intros hc. rewrite svi_kept. set (lam := tr_eigvals t). set (order := tr_order t). set (c := nepsilon RN * corr) in *.
  destruct (sort_idx_ok _ num_order_R order lam ltac:(auto)) as (l & e & hp & hs). rewrite e. cbn [bind].
  set (k := kept (N:=RN) corr order l).
  intros hr. assert (hv : vals = map (fun p => sqrt (snd p)) k /\ idx = map fst k).
  { destruct order; [destruct l as [|[]]; [discriminate|]|]; injection hr as <- <-; auto. }
  assert (hne : order = Largest -> l <> []) by (intros -> ->; discriminate). clear hr. destruct hv as (-> & ->).
  assert (hl : forall i x, In (i, x) l <-> (i < length lam)%nat /\ x = vent lam i).
  { intros i x. split; intros h.
    - apply (Permutation_in _ (Permutation_sym hp)) in h. apply in_enumerate in h. split; [apply nth_error_Some; congruence|].
      unfold vent, vget. symmetry. apply nth_error_nth. exact h.
    - destruct h as (h1 & ->). apply (Permutation_in _ hp). apply in_enumerate. unfold vent, vget. apply nth_error_nth'. auto. }
  assert (hk : forall i, (i < length k)%nat -> exists q, nth i (map fst k) 0%nat = q /\ (q < length lam)%nat /\ nth i k (0%nat, 0) = (q, vent lam q) /\ In (q, vent lam q) k).
  { intros i hi. destruct (nth i k (0%nat, 0)) as [q x] eqn:en. assert (hin : In (q, x) k) by (rewrite <- en; apply nth_In; auto).
    pose proof (kept_incl _ _ _ _ hin) as hin'. apply hl in hin'. destruct hin' as (h1 & ->).
    exists q. split; [|split; auto]. change 0%nat with (fst (0%nat, 0)). rewrite map_nth, en. reflexivity. }
  assert (hsq : forall i, (i < length k)%nat -> vent (map (fun p => sqrt (snd p)) k) i = sqrt (vent lam (nth i (map fst k) 0%nat))).
  { intros i hi. destruct (hk i hi) as (q & -> & h1 & h2 & _). unfold vent at 1, vget.
    rewrite (nth_indep _ _ (sqrt (snd (0%nat, 0)))) by (rewrite map_length; auto). exact (eq_trans (map_nth (fun p : nat * R => sqrt (snd p)) k (0%nat, 0) i) (f_equal (fun p => sqrt (snd p)) h2)). }
  assert (hss : forall i j, (i < j)%nat -> (j < length k)%nat -> lexR (N:=RN) order (nth i k (0%nat, 0)) (nth j k (0%nat, 0))).
  { intros i j. apply ss_nth. apply kept_ss. exact hs. }
  unfold svi_ok. rewrite !map_length. split; auto. split.
  { apply kept_nodup. apply (Permutation_NoDup (Permutation_map fst hp)). rewrite fst_enumerate. apply seq_NoDup. }
  split. { intros i hi. destruct (hk i hi) as (q & e1 & e2 & _). rewrite hsq by auto. rewrite e1. auto. }
  destruct order eqn:eo.
  - destruct l as [|[i0 top] l0] eqn:el; [exfalso; apply hne; auto|]. rewrite <- el in *.
    assert (htop : forall i, (i < length lam)%nat -> vent lam i <= top).
    { intros i hi. assert (hin : In (i, vent lam i) l) by (apply hl; auto). rewrite el in hin, hs. destruct hin as [hin|hin]; [injection hin as -> ->; lra|].
      inversion hs as [|? ? _ hf]; subst. rewrite Forall_forall in hf. destruct (hf _ hin) as (hb & _). cbn [before snd] in hb.
      change (Rltb top (vent lam i) = false) in hb. destruct (Rltb_spec top (vent lam i)); [discriminate|lra]. }
    assert (htop' : (i0 < length lam)%nat /\ top = vent lam i0) by (apply hl; rewrite el; left; auto).
    assert (hin : forall i x, In (i, x) k <-> In (i, x) l /\ c * top < x).
    { intros i x. unfold k, kept. rewrite el. rewrite filter_In. change (nlt RN _ x) with (Rltb (c * top) x).
      destruct (Rltb_spec (c * top) x); intuition discriminate. }
    split; [|split].
    + intros i j hij hj. destruct (hk i (Nat.lt_trans _ _ _ hij hj)) as (q & e1 & _ & e2 & _). destruct (hk j hj) as (q' & e1' & _ & e2' & _).
      rewrite (hsq i (Nat.lt_trans _ _ _ hij hj)), (hsq j hj), e1, e1'. apply sqrt_le_1_alt. destruct (hss i j hij hj) as (hb & _). rewrite e2, e2' in hb. cbn [before snd] in hb.
      change (Rltb (vent lam q) (vent lam q') = false) in hb. destruct (Rltb_spec (vent lam q) (vent lam q')); [discriminate|lra].
    + intros i hi. destruct (hk i hi) as (q & e1 & e3 & _ & e2). rewrite (hsq i hi), e1. apply sqrt_lt_R0. apply hin in e2. destruct e2 as (_ & e2).
      specialize (htop q e3). destruct (Rle_lt_dec 0 top); nra.
    + intros j hj. rewrite in_map_iff. split.
      * intros ([j' x] & ej & hx) i hi. cbn [fst] in ej. subst j'. apply hin in hx. destruct hx as (hx & hx'). apply hl in hx. destruct hx as (_ & ->).
        specialize (htop i hi). nra.
      * intros h. exists (j, vent lam j). split; auto. apply hin. split; [apply hl; auto|]. destruct htop' as (h1 & ->). auto.
  - split.
    + intros i j hij hj. destruct (hk i (Nat.lt_trans _ _ _ hij hj)) as (q & e1 & _ & e2 & _). destruct (hk j hj) as (q' & e1' & _ & e2' & _).
      rewrite (hsq i (Nat.lt_trans _ _ _ hij hj)), (hsq j hj), e1, e1'. apply sqrt_le_1_alt. destruct (hss i j hij hj) as (hb & _). rewrite e2, e2' in hb. cbn [before snd] in hb.
      change (Rltb (vent lam q') (vent lam q) = false) in hb. destruct (Rltb_spec (vent lam q') (vent lam q)); [discriminate|lra].
    + unfold k, kept. rewrite <- (Permutation_length hp). apply length_enumerate.
Qed.

(** The vectors *)
Definition aligned (t : tsvd_result RN) (idx : list nat) (u vt : mat RN) (s : list RN) : Prop :=
  let n := nr (tr_problem t) in let m := nc (tr_problem t) in let k := length s in let A := ent (tr_problem t) in
  nr u = n /\ nc u = k /\ nr vt = k /\ nc vt = m /\
  if tr_ngm t then
    (forall i q, (i < k)%nat -> (q < m)%nat -> ent vt i q = ent (tr_eigvecs t) q (nth i idx 0%nat)) /\
    (forall i p, (i < k)%nat -> (p < n)%nat -> vent s i <> 0 -> mmul m A (mtr (ent vt)) p i = vent s i * ent u p i)
  else
    (forall i p, (i < k)%nat -> (p < n)%nat -> ent u p i = ent (tr_eigvecs t) p (nth i idx 0%nat)) /\
    (forall i q, (i < k)%nat -> (q < m)%nat -> vent s i <> 0 -> mmul n (mtr A) (ent u) q i = vent s i * ent vt i q).

Lemma svi_len {N : Num} (corr : N) t s idx : singular_values_with_indices corr t = Ret (s, idx) -> length s = length idx.
Proof.
  rewrite svi_kept. destruct (sort_idx _ _) as [l| | | |]; try discriminate. cbn [bind]. destruct (tr_order t); [destruct l|]; try discriminate;
  intros e; injection e as <- <-; rewrite !map_length; reflexivity.
Qed.
Lemma values_vectors_R (corr : R) (t : tsvd_result RN) u s vt :
  nr (tr_eigvecs t) = (if tr_ngm t then nc (tr_problem t) else nr (tr_problem t)) ->
  ts_values_vectors (N:=RN) corr t = Ret (u, s, vt) ->
  exists idx, singular_values_with_indices (N:=RN) corr t = Ret (s, idx) /\ aligned t idx u vt s.
Proof.
  intros hd. unfold ts_values_vectors. destruct (singular_values_with_indices (N:=RN) corr t) as [[s' idx]| | | |] eqn:es; try discriminate. cbn [bind].
  pose proof (svi_len _ _ _ _ es) as hlen. unfold aligned. cbv zeta. destruct (tr_ngm t).
  - unfold select_cols. destruct (forallb _ idx); [|discriminate]. cbn [bind]. set (v := mk _ _ _).
    assert (hw : wp (dot2 (tr_problem t) v) (fun w => nr w = nr (tr_problem t) /\ nc w = nc v /\ ent w =[nr (tr_problem t), nc v]= mmul (nc (tr_problem t)) (ent (tr_problem t)) (ent v))).
    { apply dot2_R; [unfold v; dims; lia|]. auto. }
    destruct (wp_ret _ _ hw) as (w & -> & w1 & w2 & w3). cbn [bind]. intros e. injection e as <- <- <-.
    exists idx. split; auto. assert (dv1 : nr v = nc (tr_problem t)) by (unfold v; dims; auto). assert (dv2 : nc v = length s') by (unfold v; dims; auto).
    rewrite dv2 in w2, w3.
    split; [unfold col_div; dims; auto|]. split; [unfold col_div; dims; auto|]. split; [dims; auto|]. split; [dims; auto|]. split.
    + intros i q hi hq. unfold ent. rewrite get_transpose by lia. unfold v. rewrite get_mk by lia. reflexivity.
    + intros i p hi hp hs. unfold col_div, ent at 3. rewrite get_mk by lia. bd. change (get w p i) with (ent w p i).
      rn. change (vget s' i) with (vent s' i). field_simplify; auto. rewrite w3 by lia. apply Rsum_ext. intros q hq. f_equal.
      unfold mtr, ent. rewrite get_transpose by lia. reflexivity.
  - unfold select_cols. destruct (forallb _ idx); [|discriminate]. cbn [bind]. set (v := mk _ _ _).
    assert (hw : wp (dot2 (transpose (tr_problem t)) v) (fun w => nr w = nc (tr_problem t) /\ nc w = nc v /\ ent w =[nc (tr_problem t), nc v]= mmul (nr (tr_problem t)) (mtr (ent (tr_problem t))) (ent v))).
    { apply dot2t_R; [unfold v; dims; lia|]. intros. repeat split; auto. }
    destruct (wp_ret _ _ hw) as (w & -> & w1 & w2 & w3). cbn [bind]. intros e. injection e as <- <- <-.
    exists idx. split; auto. assert (dv1 : nr v = nr (tr_problem t)) by (unfold v; dims; auto). assert (dv2 : nc v = length s') by (unfold v; dims; auto).
    rewrite dv2 in w2, w3.
    split; [auto|]. split; [auto|]. split; [unfold col_div; dims; auto|]. split; [unfold col_div; dims; auto|]. split.
    + intros i p hi hp. unfold ent, v. rewrite get_mk by lia. reflexivity.
    + intros i q hi hq hs. unfold ent at 3. rewrite get_transpose by (unfold col_div; dims; lia). unfold col_div. rewrite get_mk by lia. bd.
      change (get w q i) with (ent w q i). rn. change (vget s' i) with (vent s' i). field_simplify; auto. rewrite w3 by lia. reflexivity.
Qed.

(** ** From exact eigenpairs of A^T A to a truncated SVD *)
Lemma svd_core n m k (A V U : M) (s : nat -> R) : (forall i, (i < k)%nat -> s i <> 0) -> orthonormal_cols m k V ->
  (forall i q, (i < k)%nat -> (q < m)%nat -> mmul n (mtr A) (mmul m A V) q i = s i * s i * V q i) ->
  (forall i p, (i < k)%nat -> (p < n)%nat -> mmul m A V p i = s i * U p i) ->
  (forall i q, (i < k)%nat -> (q < m)%nat -> mmul n (mtr A) U q i = s i * V q i) /\ orthonormal_cols n k U.
Proof.
  intros hs ho he hu. split.
  - intros i q hi hq. apply Rmult_eq_reg_l with (s i); [|auto]. rewrite <- Rmult_assoc, <- he by auto. unfold mmul at 1 2.
    rewrite <- Rsum_scal_l. apply Rsum_ext. intros p hp. rewrite hu by auto. ring.
  - intros i j hi hj. assert (hh : s i * (s j * mmul n (mtr U) U i j) = s j * s j * mid i j).
    { unfold mmul at 1. rewrite <- !Rsum_scal_l.
      rewrite (Rsum_ext n _ (fun p => mmul m A V p i * mmul m A V p j)) by (intros p hp; rewrite !hu by auto; unfold mtr; ring).
      rewrite (Rsum_ext n _ (fun p => Rsum m (fun q => V q i * (A p q * mmul m A V p j)))).
      2:{ intros p hp. unfold mmul at 1. rewrite <- Rsum_scal_r. apply Rsum_ext. intros. ring. }
      rewrite Rsum_swap. rewrite (Rsum_ext m _ (fun q => V q i * (s j * s j * V q j))).
      2:{ intros q hq. rewrite Rsum_scal_l. f_equal. rewrite <- he by auto. apply Rsum_ext. reflexivity. }
      rewrite <- ho by auto. unfold mmul. rewrite <- Rsum_scal_l. apply Rsum_ext. intros. unfold mtr. ring. }
    pose proof (hs i hi). pose proof (hs j hj). apply Rmult_eq_reg_l with (s i * s j); [|apply Rmult_integral_contrapositive; auto].
    rewrite Rmult_assoc, hh. unfold mid. destruct (Nat.eqb_spec i j); [subst; ring|ring].
Qed.
