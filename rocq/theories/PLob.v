(** * LOBPCG: facts that hold for every scalar type, operator and preconditioner *)
From Coq Require Import List Arith Lia Bool ZArith.
From Verif Require Import Scalar Arr MBase MDirect MDecomp MEigh MLobpcg Spec Hoare PTri PChol PHouse PTrid PEigh PSort.
Import ListNotations.
Local Open Scope nat_scope.
Open Scope res_scope.

(** ** Partial correctness: Q on a normal return, E on an error, nothing on a panic *)
Definition weak {A} (m : res A) (Q : A -> Prop) (E : lerr -> Prop) : Prop :=
  match m with Ret a => Q a | Err e => E e | _ => True end.
Lemma weak_ret {A} (a : A) (Q : A -> Prop) E : Q a -> weak (Ret a) Q E.
Proof. exact (fun h => h). Qed.
Lemma weak_bind {A B} (m : res A) (f : A -> res B) Q E :
  weak m (fun a => weak (f a) Q E) E -> weak (bind m f) Q E.
Proof. destruct m; simpl; auto. Qed.
Lemma weak_mono {A} (m : res A) (Q Q' : A -> Prop) (E E' : lerr -> Prop) :
  weak m Q E -> (forall a, Q a -> Q' a) -> (forall e, E e -> E' e) -> weak m Q' E'.
Proof. destruct m; simpl; auto. Qed.
Lemma weak_catch {A B} (m : res A) (k : A -> res B) h Q E :
  weak m (fun a => weak (k a) Q E) (fun e => weak (h e) Q E) -> weak (catch m k h) Q E.
Proof. destruct m; simpl; auto. Qed.
Lemma weak_unwrap {A} (m : res A) Q E : weak m Q (fun _ => True) -> weak (unwrap m) Q E.
Proof. destruct m; simpl; auto. Qed.
Lemma weak_true {A} (m : res A) : weak m (fun _ => True) (fun _ => True).
Proof. destruct m; simpl; auto. Qed.
Lemma weak_inv {A} (m : res A) Q E a : weak m Q E -> m = Ret a -> Q a.
Proof. intros h ->. exact h. Qed.
Lemma post_weak {A} (m : res A) Q E F : post m Q E F -> weak m Q E.
Proof. destruct m; simpl; auto; tauto. Qed.
Lemma post_catch {A B} (m : res A) (k : A -> res B) h Q E F :
  post m (fun a => post (k a) Q E F) (fun e => post (h e) Q E F) F -> post (catch m k h) Q E F.
Proof. destruct m; simpl; auto. Qed.
Lemma post_ok {A} (m : res A) (Q : option A -> Prop) E F :
  post m (fun a => Q (Some a)) (fun _ => Q None) F -> post (ok_ m) Q E F.
Proof. intros h. apply post_catch. exact h. Qed.

Definition anyE (e : lerr) : Prop := True.
(** Errors other than [NotThin] *)
Definition thinE (e : lerr) : Prop := match e with NotThin _ _ => False | _ => True end.

Section Gen.
Context {N : Num}.
Notation vec := (list N).
Notation mtx := (mat N).

Lemma w_dot2 (a b : mtx) E : weak (dot2 a b) (fun c => nr c = nr a /\ nc c = nc b /\ nc a = nr b) E.
Proof. unfold dot2. bd; simpl; auto. Qed.
Lemma w_mzip f (a b : mtx) E : weak (mzip f a b) (fun c => nr c = nr a /\ nc c = nc a /\ nr a = nr b /\ nc a = nc b) E.
Proof. unfold mzip. bd; simpl; auto. Qed.
Lemma w_slice (m : mtx) r0 r1 c0 c1 E : weak (slice m r0 r1 c0 c1) (fun s => nr s = r1 - r0 /\ nc s = c1 - c0) E.
Proof. unfold slice. bd; simpl; auto. Qed.
Lemma w_vtake (v : vec) n E : weak (vtake v n) (fun s => length s = n) E.
Proof. unfold vtake. bd; cbn [weak]; auto. now rewrite length_vmk. Qed.


(** *** Errors of the parts: never [NotThin] *)
Lemma weak_for_ {S} cnt : forall lo (body : nat -> S -> res S) s,
  (forall i s, weak (body i s) (fun _ => True) noE) -> weak (for_ cnt lo body s) (fun _ => True) noE.
Proof.
  induction cnt as [|c IH]; intros lo body s h; cbn [for_]; [exact I|].
  apply weak_bind. eapply weak_mono; [apply h| |auto]. intros s' _. apply IH. auto.
Qed.
Lemma weak_for_brk {S} cnt : forall lo (body : nat -> S -> res (bool * S)) s,
  (forall i s, weak (body i s) (fun _ => True) noE) -> weak (for_brk cnt lo body s) (fun _ => True) noE.
Proof.
  induction cnt as [|c IH]; intros lo body s h; cbn [for_brk]; [exact I|].
  apply weak_bind. eapply weak_mono; [apply h| |auto]. intros [[|] s'] _; [|exact I]. apply IH. auto.
Qed.
Lemma weak_noE_bind {A B} (m : res A) (f : A -> res B) :
  weak m (fun _ => True) noE -> (forall a, weak (f a) (fun _ => True) noE) -> weak (bind m f) (fun _ => True) noE.
Proof. destruct m; simpl; auto. Qed.

Ltac ne1 :=
  match goal with
  | |- weak (Ret _) _ _ => exact I
  | |- weak (bind _ _) _ _ => apply weak_noE_bind; [|intros ?]
  | |- weak (unwrap _) _ _ => apply weak_unwrap; apply weak_true
  | |- weak (unwrap_opt ?o) _ _ => destruct o; exact I
  | |- weak (if ?b then _ else _) _ _ => destruct b
  | |- weak (match ?x with _ => _ end) _ _ => destruct x
  | |- weak Panicked _ _ => exact I
  | |- weak OutOfBounds _ _ => exact I
  | |- weak OutOfFuel _ _ => exact I
  | |- weak (usub _ _) _ _ => unfold usub
  | |- weak (at1 _ _) _ _ => unfold at1
  | |- weak (atm1 _ _ _) _ _ => unfold atm1
  | |- weak (idx1 _ _) _ _ => unfold idx1
  | |- weak (set1 _ _ _) _ _ => unfold set1
  | |- weak (slice _ _ _ _ _) _ _ => unfold slice
  | |- weak (for_brk _ _ _ _) _ _ => apply weak_for_brk; intros ? ?
  | |- weak (for_ _ _ _ _) _ _ => apply weak_for_; intros ? ?
  end.
Ltac ne := repeat (cbn [bind] in *; ne1).

Lemma rotate_q_ne g (q : option mtx) c : weak (rotate_q g q c) (fun _ => True) noE.
Proof. unfold rotate_q. ne. Qed.
Lemma sweep_ne start n i (st : N * N * eig_state N) : weak (eig_sweep_step start n i st) (fun _ => True) noE.
Proof. destruct st as [[x y] es]. unfold eig_sweep_step. ne; try apply rotate_q_ne. Qed.
Lemma eig_big_ne s e eps (es : eig_state N) : weak (eig_big s e eps es) (fun _ => True) noE.
Proof. unfold eig_big. ne. apply sweep_ne. Qed.
Lemma eig_two_ne s e eps (es : eig_state N) : weak (eig_two s e eps es) (fun _ => True) noE.
Proof. unfold eig_two. ne; apply rotate_q_ne. Qed.
Lemma delim_end_ne (d o : vec) eps n : weak (delim_end d o eps n) (fun _ => True) noE.
Proof. induction n as [|n IH]; cbn [delim_end]; ne. exact IH. Qed.
Lemma delim_start_ne (d o : vec) eps n : weak (delim_start d o eps n) (fun _ => True) noE.
Proof. induction n as [|n IH]; cbn [delim_start]; ne. exact IH. Qed.
Lemma delimit_ne (d o : vec) e eps : weak (delimit_subproblem d o e eps) (fun _ => True) noE.
Proof. unfold delimit_subproblem. ne; try apply delim_end_ne; apply delim_start_ne. Qed.
Lemma eig_loop_ne eps fuel : forall s e (es : eig_state N), weak (eig_loop fuel eps s e es) (fun _ => True) noE.
Proof.
  induction fuel as [|fuel IH]; intros s e es; cbn [eig_loop]; destruct (e =? s); try exact I.
  ne; first [apply eig_big_ne|apply eig_two_ne|apply delimit_ne|apply IH].
Qed.
Lemma column_ne (m : mtx) c : weak (column m c) (fun _ => True) noE.
Proof. unfold column, col_from. ne. Qed.
Lemma insert_ne {A} (cmp : A -> A -> res comparison) x l : (forall a b, weak (cmp a b) (fun _ => True) noE) ->
  weak (insert cmp x l) (fun _ => True) noE.
Proof. intros h. induction l as [|y l IH]; cbn [insert]; ne; auto. Qed.
Lemma sort_by_ne {A} (cmp : A -> A -> res comparison) l : (forall a b, weak (cmp a b) (fun _ => True) noE) ->
  weak (sort_by cmp l) (fun _ => True) noE.
Proof. intros h. induction l as [|y l IH]; cbn [sort_by]; ne; auto. apply insert_ne. auto. Qed.
Lemma sort_idx_ne (v : vec) o : weak (sort_idx v o) (fun _ => True) noE.
Proof. apply sort_by_ne. intros [i a] [j b]. unfold order_cmp, cmp_floats. destruct o; ne. Qed.
Lemma sort_eig_ne (v : vec) (m : mtx) o : weak (sort_eig v m o) (fun _ => True) noE.
Proof. unfold sort_eig, assign_cols. ne; try apply sort_idx_ne. apply column_ne. Qed.

Lemma w_noE {A} (m : res A) E : weak m (fun _ => True) noE -> weak m (fun _ => True) E.
Proof. destruct m; simpl; unfold noE; tauto. Qed.
Lemma tri_generate_q_ne (a : mtx) (td : tridecomp N) : sym_tridiagonal a = Ret td -> weak (tri_generate_q td) (fun _ => True) noE.
Proof.
  intros e. pose proof (sym_tridiagonal_class a) as ht. rewrite e in ht. destruct ht as (_ & t0 & t1 & t2 & t3).
  eapply weak_mono; [apply (post_weak _ _ _ False); unfold tri_generate_q; apply (assemble_q_safe (diag_matrix td)); [lia|]| |].
  - intros i hi. apply post_idx1; auto. lia.
  - auto.
  - exact (fun e h => h).
Qed.
Lemma w_eigh fuel (m : mtx) : weak (eigh fuel m) (fun _ => True) thinE.
Proof.
  unfold eigh. apply weak_bind. eapply weak_mono with (Q := fun _ => True) (E := thinE); [|intros [v [q|]] _; exact I|auto].
  unfold symmetric_eig, check_square.
  destruct (nr m =? nc m); [|exact I]. cbn [bind]. destruct (nr m <? 1); [exact I|].
  pose proof (sym_tridiagonal_class (scale_down m (abs_max m))) as hc.
  destruct (sym_tridiagonal _) as [td|e| | |] eqn:et; cbn [bind]; try exact I.
  - apply w_noE. apply weak_noE_bind.
    + ne; eapply tri_generate_q_ne; eauto.
    + intros q. destruct (tri_into_diagonals td) as [d o]. ne; [apply delimit_ne|apply eig_loop_ne].
  - destruct e; try exact I; tauto.
Qed.
Lemma w_solve (a b : mtx) u : weak (solve_triangular a b u) (fun x => nr x = nr b /\ nc x = nc b) thinE.
Proof.
  pose proof (solve_triangular_class a b u) as h. unfold weak, thinE.
  destruct (solve_triangular a b u) as [x|e| | |]; auto; [intuition|destruct e; auto].
Qed.
Lemma w_cholesky (m : mtx) : weak (cholesky m) (fun _ => True) thinE.
Proof.
  unfold cholesky, cholesky_dirty. pose proof (cholesky_class m) as h. pose proof (cholesky_dirty_shape m) as hs.
  destruct (cholesky_inplace_dirty m) as [m' o]. cbn [fst snd] in *.
  destruct o as [u|e| | |]; cbn [bind]; try exact I.
  - destruct (Nat.eq_dec (nr m') (nc m')) as [e|e].
    + pose proof (triangular_inplace_ok m' Lower e) as hk. eapply weak_mono; [apply (post_weak _ _ _ _ hk)| |]; auto. intros ? [].
    + rewrite triangular_inplace_err by auto. exact I.
  - destruct e; try exact I. destruct h as (_ & h). discriminate.
Qed.
Lemma w_orthonormalize (v : mtx) : weak (orthonormalize v) (fun r => nr (fst r) = nr v /\ nc (fst r) = nc v) thinE.
Proof.
  unfold orthonormalize. apply weak_bind. eapply weak_mono; [apply w_dot2 with (E := thinE)| |auto]. intros g _.
  apply weak_bind. eapply weak_mono; [apply w_cholesky| |auto]. intros l _.
  apply weak_bind. eapply weak_mono; [apply w_solve| |auto]. intros u (h1 & h2). simpl. dims. auto.
Qed.

Ltac wk l := apply weak_bind; eapply weak_mono; [apply l| |exact (fun _ h => h)].
Lemma w_col_scale (m : mtx) (v : vec) E : weak (col_scale m v) (fun c => nr c = nr m /\ nc c = nc m) E.
Proof. unfold col_scale. bd; simpl; auto. Qed.
Lemma w_generalized fuel (a b : mtx) : weak (generalized_eig fuel a b) (fun _ => True) thinE.
Proof.
  unfold generalized_eig. wk w_eigh. intros [vb qb] _.
  wk w_col_scale. intros vt _. wk w_dot2. intros av _. wk w_dot2. intros at_ _.
  wk w_eigh. intros [va qa] _. wk w_dot2. intros ? _. exact I.
Qed.
Lemma w_sorted_eig fuel (a : mtx) b size o :
  weak (sorted_eig fuel a b size o) (fun r => length (fst r) = size /\ nc (snd r) = size) thinE.
Proof.
  unfold sorted_eig. apply weak_bind.
  eapply weak_mono with (Q := fun _ => True); [destruct b; [apply w_generalized|apply w_eigh]| |exact (fun _ h => h)].
  intros [va ve] _. apply weak_bind. eapply weak_mono; [apply w_noE; apply sort_eig_ne| |exact (fun _ h => h)].
  intros [sa se] _. apply weak_bind. eapply weak_mono; [apply w_noE; apply column_ne| |exact (fun _ h => h)].
  intros row _. wk w_col_scale. intros ve' _. wk w_vtake. intros va' hl. wk w_slice. intros ve'' (h1 & h2).
  simpl. split; auto. lia.
Qed.

(** ** The loop *)

(** The running best: replaced only by a strictly smaller sum *)
Definition pick (b : option (vec * mtx * vec)) (cur : vec * mtx * vec) : option (vec * mtx * vec) :=
  match b with
  | Some o => if nlt N (vsum (snd cur)) (vsum (snd o)) then Some cur else b
  | None => Some cur
  end.
(** Shape of an iterate *)
Definition shaped (n k : nat) (h : vec * mtx * vec) : Prop :=
  length (fst (fst h)) = k /\ nr (snd (fst h)) = n /\ nc (snd (fst h)) = k /\ length (snd h) = k.
(** Column j is still active when every iterate so far had a residual above the tolerance *)
Definition mask_of (tol : N) (k : nat) (hist : list (vec * mtx * vec)) : list bool :=
  map (fun j => forallb (fun h => nlt N tol (vget (snd h) j)) hist) (seq 0 k).

Lemma length_mask_of tol k h : length (mask_of tol k h) = k.
Proof. unfold mask_of. now rewrite map_length, seq_length. Qed.
Lemma nth_mask_of tol k h j d : j < k -> nth j (mask_of tol k h) d = forallb (fun h => nlt N tol (vget (snd h) j)) h.
Proof. intros hj. unfold mask_of. rewrite nth_map_seq. bd. reflexivity. Qed.
Lemma mask_step tol k hist l x rn : length rn = k ->
  map (fun '(x, act) => nlt N tol x && act) (combine rn (mask_of tol k hist)) = mask_of tol k (hist ++ [(l, x, rn)]).
Proof.
  intros h. apply nth_ext with (d := false) (d' := false).
  { rewrite map_length, combine_length, !length_mask_of. lia. }
  intros j hj. rewrite map_length, combine_length, length_mask_of in hj.
  rewrite nth_mask_of by lia. rewrite forallb_app. cbn [forallb snd].
  match goal with |- nth j (map ?g _) _ = _ => set (f := g) end.
  rewrite (nth_indep _ false (f (n0 N, false))) by (rewrite map_length, combine_length, length_mask_of; lia).
  rewrite map_nth.
  rewrite combine_nth by (rewrite length_mask_of; auto). rewrite nth_mask_of by lia. unfold f.
  unfold vget. rewrite andb_true_r. apply andb_comm.
Qed.

Lemma w_measure (st : lstate N) E :
  weak (lob_measure st) (fun '(r, rn, ld, st') =>
    length (l_lambda st) = nc (l_x st) /\ nr r = nr (l_x st) /\ nc r = nc (l_x st) /\ length rn = nc (l_x st) /\ rn = col_norms r /\
    ld = from_diag (l_lambda st) /\ st' = LS (l_lambda st) (l_x st) (l_ax st) (l_mask st)
      (pick (l_best st) (l_lambda st, l_x st, rn)) (l_prev st) (l_flag st)
      (l_hist st ++ [(l_lambda st, l_x st, rn)]) (l_calls st)) E.
Proof.
  unfold lob_measure. apply weak_bind. eapply weak_mono; [apply w_dot2 with (E := E)| |auto].
  intros lx (h1 & h2 & h3). apply weak_bind. eapply weak_mono; [apply w_mzip with (E := E)| |auto].
  intros r (g1 & g2 & g3 & g4). apply weak_ret.
  assert (d1 : nr (from_diag (l_lambda st)) = length (l_lambda st)) by reflexivity.
  assert (d2 : nc (from_diag (l_lambda st)) = length (l_lambda st)) by reflexivity.
  unfold col_norms. rewrite length_vmk. repeat split; try lia.
  unfold pick. destruct (l_best st) as [[[b1 b2] b3]|]; cbn [snd]; [|reflexivity].
  destruct (nlt N _ _); reflexivity.
Qed.

Section Loop.
Context (fuel : nat) (a : mtx -> res mtx) (m : mtx -> res mtx) (yc : option (mtx * mtx))
        (tol : N) (size_x : nat) (order : Order).
Notation body := (lob_body fuel a m yc size_x order).
Notation loop := (lob_loop fuel a m yc tol size_x order).

Lemma w_rr flag (p : option (mtx * mtx)) (x r xax xar rar xx rr xr : mtx) cbs :
  weak (lob_rr fuel flag p x r xax xar rar xx rr xr cbs size_x order)
    (fun '(_, res) => match res with inl e => thinE e | inr (l, v) => length l = size_x /\ nc v = size_x end) anyE.
Proof.
  assert (h2 : weak (lob_rr2 fuel xax xar rar xx rr xr size_x order)
     (fun r => length (fst r) = size_x /\ nc (snd r) = size_x) thinE).
  { unfold lob_rr2. do 6 (apply weak_bind; eapply weak_mono; [apply w_noE; unfold hcat, vcat; ne| |exact (fun _ h => h)]; intros ? _).
    apply w_sorted_eig. }
  assert (hs : weak (catch (lob_rr2 fuel xax xar rar xx rr xr size_x order)
      (fun s => Ret (@None (mtx * mtx), inr s)) (fun e => Ret (None, inl e)))
    (fun '(_, res) => match res with inl e => thinE e | inr (l, v) => length l = size_x /\ nc v = size_x end) anyE).
  { apply weak_catch. eapply weak_mono; [exact h2| |]; cbn [weak]; auto. intros [l v]. auto. }
  unfold lob_rr. destruct p as [[p ap]|]; [|exact hs].
  apply weak_catch.
  eapply weak_mono with (Q := fun r => length (fst r) = size_x /\ nc (snd r) = size_x) (E := anyE);
    [|intros [l v] h; exact h|intros; exact hs].
  unfold lob_rr3.
  do 5 (apply weak_bind; eapply weak_mono; [apply weak_true| |intros; exact I]; intros ? _).
  apply weak_bind; eapply weak_mono; [apply weak_true| |intros; exact I]; intros [? ?] _.
  do 8 (apply weak_bind; eapply weak_mono; [apply weak_true| |intros; exact I]; intros ? _).
  eapply weak_mono; [apply w_sorted_eig|auto|intros; exact I].
Qed.

Lemma w_body (r ld : mtx) rn cbs (st : lstate N) :
  weak (body r ld rn cbs st) (fun '(st', e) =>
    l_best st' = l_best st /\ l_hist st' = l_hist st /\ l_mask st' = l_mask st /\ l_calls st' <= S (l_calls st) /\
    match e with
    | Some e => thinE e
    | None => length (l_lambda st') = size_x /\ nr (l_x st') = nr (l_x st) /\ nc (l_x st') = size_x
    end) anyE.
Proof.
  unfold lob_body. apply weak_bind. eapply weak_mono; [apply weak_true| |auto]. intros a1 _.
  apply weak_bind. eapply weak_mono; [apply weak_true| |auto]. intros a2 _.
  apply weak_bind. eapply weak_mono; [apply weak_true| |auto]. intros a3 _.
  apply weak_bind. eapply weak_mono; [apply weak_true| |auto]. intros a4 _.
  apply weak_bind. eapply weak_mono; [apply weak_true| |auto]. intros a5 _.
  apply weak_catch. eapply weak_mono; [apply w_orthonormalize| |].
  2:{ intros e he. cbn [weak]. auto 10. }
  intros [r' l'] _.
  do 3 (apply weak_bind; eapply weak_mono; [apply weak_true| |auto]; intros ? _).
  apply weak_bind; eapply weak_mono; [apply weak_true| |auto]. intros [[[[g1 g2] g3] g4] g5] _.
  apply weak_bind; eapply weak_mono; [apply weak_true| |auto]. intros p _.
  apply weak_bind; eapply weak_mono; [apply w_rr| |auto]. intros [p' [e|[l v]]]; cbn [weak].
  { intros he. cbn. auto 10. }
  intros (h1 & h2). unfold lob_update. apply weak_bind. apply weak_bind.
  eapply weak_mono with (Q := fun '(_, _, tau) => nc tau = nc v) (E := anyE); [| |auto].
  { destruct p' as [[p' ap']|].
    - apply weak_bind. eapply weak_mono; [apply w_slice with (E := anyE)| |auto]. intros tau (t1 & t2).
      do 8 (apply weak_bind; eapply weak_mono; [apply weak_true| |auto]; intros ? _). cbn. lia.
    - apply weak_bind. eapply weak_mono; [apply w_slice with (E := anyE)| |auto]. intros tau (t1 & t2).
      do 3 (apply weak_bind; eapply weak_mono; [apply weak_true| |auto]; intros ? _). cbn. lia. }
  intros [[p'' ap''] tau] ht.
  apply weak_bind. eapply weak_mono; [apply w_dot2 with (E := anyE)| |auto]. intros xt (k1 & k2 & k3).
  apply weak_bind. eapply weak_mono; [apply w_mzip with (E := anyE)| |auto]. intros x' (f1 & f2 & f3 & f4).
  do 2 (apply weak_bind; eapply weak_mono; [apply weak_true| |auto]; intros ? _).
  cbn. repeat split; auto; try lia.
Qed.

Lemma w_loop n iter : forall (st : lstate N), nr (l_x st) = n -> nc (l_x st) = size_x ->
  l_mask st = mask_of tol size_x (l_hist st) ->
  weak (loop iter st) (fun '(st', e) =>
    exists hs, l_hist st' = l_hist st ++ hs /\ 1 <= length hs <= S iter /\
      Forall (shaped n size_x) hs /\ l_best st' = fold_left pick hs (l_best st) /\
      l_mask st' = mask_of tol size_x (l_hist st') /\ l_calls st' <= l_calls st + iter /\
      match e with
      | Some e => thinE e
      | None => length hs = S iter \/ count_true (l_mask st') = 0
      end) anyE.
Proof.
  induction iter as [|iter IH]; intros st hr hc hm; cbn [lob_loop].
  - apply weak_bind. eapply weak_mono; [apply w_measure with (E := anyE)| |auto].
    intros [[[r rn] ld] st'] (h1 & h2 & h3 & h4 & _ & _ & ->). cbn [l_mask l_hist l_lambda l_x l_ax l_best l_prev l_flag l_calls weak].
    exists [(l_lambda st, l_x st, rn)]. split; [reflexivity|]. split; [simpl; lia|].
    split; [constructor; [|constructor]; unfold shaped; cbn; repeat split; lia|]. split; [reflexivity|].
    split; [rewrite hm; apply mask_step; lia|]. split; [lia|]. left. reflexivity.
  - apply weak_bind. eapply weak_mono; [apply w_measure with (E := anyE)| |auto].
    intros [[[r rn] ld] st'] (h1 & h2 & h3 & h4 & _ & _ & ->). cbn [l_mask l_hist l_lambda l_x l_ax l_best l_prev l_flag l_calls].
    set (mask := map _ (combine rn (l_mask st))).
    assert (em : mask = mask_of tol size_x (l_hist st ++ [(l_lambda st, l_x st, rn)])).
    { unfold mask. rewrite hm. apply mask_step. lia. }
    set (st1 := LS _ _ _ mask _ _ _ _ _).
    assert (hsh : Forall (shaped n size_x) [(l_lambda st, l_x st, rn)]).
    { constructor; [|constructor]. unfold shaped; cbn; repeat split; lia. }
    destruct (Nat.eqb_spec (count_true mask) 0) as [e0|e0].
    + cbn [weak]. exists [(l_lambda st, l_x st, rn)]. split; [reflexivity|]. split; [simpl; lia|].
      split; [auto|]. split; [reflexivity|]. split; [exact em|]. split; [cbn; lia|]. right. exact e0.
    + apply weak_bind. eapply weak_mono; [apply (w_body r ld rn (count_true mask) st1)| |auto].
      intros [st2 [e|]] (g1 & g2 & g3 & g4 & g5).
      * cbn [weak]. exists [(l_lambda st, l_x st, rn)]. rewrite g1, g2, g3. split; [reflexivity|]. split; [simpl; lia|].
        split; [auto|]. split; [reflexivity|]. split; [exact em|]. cbn in g4. split; [lia|]. exact g5.
      * destruct g5 as (f1 & f2 & f3). eapply weak_mono; [apply IH| |auto].
        -- rewrite f2. exact hr.
        -- exact f3.
        -- rewrite g3, g2. exact em.
        -- intros [st3 e] (hs & k1 & k2 & k3 & k4 & k5 & k6 & k7).
           exists ((l_lambda st, l_x st, rn) :: hs). rewrite g2 in k1. rewrite g1 in k4. cbn in k1, g4.
           rewrite <- app_assoc in k1. split; [exact k1|]. split; [simpl; lia|].
           split; [inversion hsh; constructor; auto|]. split; [exact k4|]. split; [exact k5|]. split; [lia|].
           destruct e; auto. destruct k7; [left; simpl; lia|right; auto].
Qed.
End Loop.

(** The running best is the first smallest *)
Definition score (h : vec * mtx * vec) : N := vsum (snd h).
Lemma pick_in l : forall b, match fold_left pick l b with Some c => In c l \/ b = Some c | None => b = None end.
Proof.
  induction l as [|h l IH]; intros b; cbn [fold_left].
  - destruct b; auto.
  - specialize (IH (pick b h)). destruct (fold_left pick l (pick b h)) as [c|].
    + destruct IH as [IH|IH]; [left; right; auto|]. unfold pick in IH. destruct b as [o|].
      * destruct (nlt N _ _); [left; left; congruence|right; auto].
      * left; left; congruence.
    + unfold pick in IH. destruct b; [destruct (nlt N _ _)|]; discriminate.
Qed.
Lemma pick_first nan (h : num_order N nan) l : (forall x, In x l -> ~ nan (score x)) ->
  forall b, fold_left pick l None = Some b ->
  exists l1 l2, l = l1 ++ b :: l2 /\ (forall x, In x l1 -> nlt N (score b) (score x) = true) /\
    (forall x, In x l2 -> nlt N (score x) (score b) = false).
Proof.
  revert l. apply (rev_ind (fun l => (forall x, In x l -> ~ nan (score x)) -> forall b, fold_left pick l None = Some b ->
    exists l1 l2, l = l1 ++ b :: l2 /\ (forall x, In x l1 -> nlt N (score b) (score x) = true) /\
    (forall x, In x l2 -> nlt N (score x) (score b) = false))); [discriminate|].
  intros c l IH hn b. rewrite fold_left_app. cbn [fold_left].
  assert (hl : forall x, In x l -> ~ nan (score x)) by (intros x hx; apply hn; apply in_or_app; auto).
  assert (hc : ~ nan (score c)) by (apply hn; apply in_or_app; right; left; auto).
  specialize (IH hl). destruct (fold_left pick l None) as [o|] eqn:eo.
  - destruct (IH o eq_refl) as (l1 & l2 & e & h1 & h2). cbn [pick].
    assert (ho : In o l) by (rewrite e; apply in_or_app; right; left; auto).
    change (vsum (snd c)) with (score c). change (vsum (snd o)) with (score o).
    destruct (nlt N (score c) (score o)) eqn:ec; intros hb; injection hb as <-.
    + exists l, []. split; [reflexivity|]. split; [|intros x []].
      assert (key : forall x, In x l -> nlt N (score x) (score o) = false -> nlt N (score c) (score x) = true).
      { intros x hx hle. destruct (nlt N (score c) (score x)) eqn:e1; auto.
        rewrite (no_trans _ _ h (score o) (score x) (score c)) in ec; auto. }
      intros x hx. apply key; auto. rewrite e in hx. apply in_app_or in hx. destruct hx as [hx|[<-|hx]]; auto.
      * assert (hxl : In x l) by (rewrite e; apply in_or_app; auto). specialize (h1 x hx).
        destruct (no_tot _ _ h (score o) (score x) (hl o ho) (hl x hxl)) as [(?&?&_)|[(?&?&_)|(?&?&_)]]; congruence.
      * destruct (no_tot _ _ h (score o) (score o) (hl o ho) (hl o ho)) as [(?&?&_)|[(?&?&_)|(?&?&_)]]; congruence.
    + exists l1, (l2 ++ [c]). split; [rewrite e, <- app_assoc; reflexivity|]. split; auto.
      intros x hx. apply in_app_or in hx. destruct hx as [hx|[<-|[]]]; auto.
  - cbn [pick]. intros hb. injection hb as <-.
    assert (l = []).
    { destruct l as [|y l]; auto. exfalso. clear -eo. cbn in eo. revert eo. generalize y. induction l as [|z l IH]; intros y0; cbn; [discriminate|].
      destruct (nlt N _ _); apply IH. }
    subst l. exists [], []. cbn. repeat split; tauto.
Qed.

(** What a run of lobpcg leaves behind *)
Definition run_ok (n k iter : nat) (tol : N) (r : lres N) (st : lstate N) : Prop :=
  exists vals vecs rn, let out := Lob vals vecs rn in
    l_best st = Some (vals, vecs, rn) /\ l_best st = fold_left pick (l_hist st) None /\
    Forall (shaped n k) (l_hist st) /\ 1 <= length (l_hist st) <= S iter /\ l_calls st <= S iter /\
    l_mask st = mask_of tol k (l_hist st) /\
    ((r = LOk out /\ (length (l_hist st) = S iter \/ count_true (l_mask st) = 0)) \/
     exists e, r = LErr e (Some out) /\ thinE e).

Lemma w_lobpcg fuel (a : mtx -> res mtx) (x : mtx) m y tol maxiter order :
  weak (lobpcg_trace fuel a x m y tol maxiter order) (fun '(r, ost) =>
    match ost with
    | None => if nr x <? nc x then r = LErr (NotThin (nr x) (nc x)) None
              else exists e, r = LErr e None /\ thinE e
    | Some st => nc x <= nr x /\ run_ok (nr x) (nc x) (Nat.min (nr x * 10) maxiter) tol r st
    end) anyE.
Proof.
  unfold lobpcg_trace. destruct (Nat.ltb_spec (nr x) (nc x)) as [hlt|hge]; [reflexivity|].
  apply weak_bind.
  eapply weak_mono with (Q := fun '(x', _) => nr x' = nr x /\ nc x' = nc x) (E := anyE); [| |auto].
  { destruct y as [y|]; [|cbn; auto].
    do 2 (apply weak_bind; eapply weak_mono; [apply weak_true| |intros; exact I]; intros ? _).
    unfold apply_constraints. apply weak_bind.
    do 2 (apply weak_bind; eapply weak_mono; [apply weak_true| |intros; exact I]; intros ? _).
    unfold gemm1. bd; cbn; auto. }
  intros [x1 yc] (hx1 & hx2). apply weak_catch. eapply weak_mono; [apply w_orthonormalize| |].
  2:{ intros e he. cbn. eauto. }
  intros [x2 l2] (hx3 & hx4). cbn [fst] in *.
  do 2 (apply weak_bind; eapply weak_mono; [apply weak_true| |intros; exact I]; intros ? _).
  apply weak_catch. eapply weak_mono; [apply w_sorted_eig| |].
  2:{ intros e he. cbn. eauto. }
  intros [lam eb] (hl & hb). cbn [fst snd] in *.
  apply weak_bind. eapply weak_mono; [apply w_dot2 with (E := anyE)| |auto]. intros x3 (k1 & k2 & k3).
  apply weak_bind; eapply weak_mono; [apply weak_true| |intros; exact I]; intros ax3 _.
  apply weak_bind. eapply weak_mono; [apply (w_loop fuel a m yc tol (nc x) order (nr x))| |auto].
  - cbn. lia.
  - cbn. lia.
  - cbn. unfold mask_of. clear. generalize 0. induction (nc x) as [|k IH]; intros s; cbn; [reflexivity|]. f_equal. apply IH.
  - intros [st e] (hs & f1 & f2 & f3 & f4 & f5 & f6 & f7). cbn [l_hist l_best l_calls] in *. rewrite app_nil_l in f1. subst hs.
    destruct (l_best st) as [[[vals vecs] rn]|] eqn:eb'; [|exact I]. cbn [unwrap_opt bind].
    assert (hok : forall r, ((r = LOk (Lob vals vecs rn) /\ (length (l_hist st) = S (Nat.min (nr x * 10) maxiter) \/ count_true (l_mask st) = 0)) \/
       exists e, r = LErr e (Some (Lob vals vecs rn)) /\ thinE e) -> run_ok (nr x) (nc x) (Nat.min (nr x * 10) maxiter) tol r st).
    { intros r hr. exists vals, vecs, rn. cbn zeta. rewrite eb'. repeat split; auto; lia. }
    destruct e as [e|]; cbn [weak]; (split; [auto|apply hok]); [right; eauto|left; auto].
Qed.

Lemma run_best n k iter tol r st : run_ok n k iter tol r st ->
  exists out, (r = LOk out \/ exists e, r = LErr e (Some out) /\ thinE e) /\
    shaped n k (eigvals out, eigvecs out, rnorm out) /\ In (eigvals out, eigvecs out, rnorm out) (l_hist st).
Proof.
  intros (va & ve & rn & h1 & h2 & h3 & _ & _ & _ & h). exists (Lob va ve rn). cbn [eigvals eigvecs rnorm].
  pose proof (pick_in (l_hist st) None) as hin. rewrite <- h2, h1 in hin.
  destruct hin as [hin|]; [|discriminate]. split; [|split; auto].
  - destruct h as [(-> & _)|h]; auto.
  - rewrite Forall_forall in h3. apply h3. auto.
Qed.

(** *** The operator is consulted on few blocks: the outcome depends on no other value of it *)
Lemma body_queries fuel (a m : mtx -> res mtx) yc size_x order (r ld : mtx) rn cbs (st : lstate N) :
  exists l, length l <= 1 /\ forall a', (forall y, In y l -> a' y = a y) ->
    lob_body fuel a' m yc size_x order r ld rn cbs st = lob_body fuel a m yc size_x order r ld rn cbs st.
Proof.
  unfold lob_body.
  destruct (ndarray_mask r (l_mask st)) as [w| | | |]; [|exists []; split; [simpl; lia|reflexivity]..]. cbn [bind].
  destruct (precond m w) as [w0| | | |]; [|exists []; split; [simpl; lia|reflexivity]..]. cbn [bind].
  destruct (match yc with Some (y, cyy) => apply_constraints w0 cyy y | None => Ret w0 end) as [w1| | | |];
    [|exists []; split; [simpl; lia|reflexivity]..]. cbn [bind].
  destruct (dot2 (transpose (l_x st)) w1) as [w2| | | |]; [|exists []; split; [simpl; lia|reflexivity]..]. cbn [bind].
  destruct (gemm1 _ (l_x st) w2 w1) as [w3| | | |]; [|exists []; split; [simpl; lia|reflexivity]..]. cbn [bind].
  destruct (orthonormalize w3) as [[u l]| | | |]; [|exists []; split; [simpl; lia|reflexivity]..]. cbn [catch].
  exists [u]. split; [simpl; lia|]. intros a' h. rewrite (h u (or_introl eq_refl)). reflexivity.
Qed.
Lemma loop_queries fuel (a m : mtx -> res mtx) yc tol size_x order iter : forall (st : lstate N),
  exists l, length l <= iter /\ forall a', (forall y, In y l -> a' y = a y) ->
    lob_loop fuel a' m yc tol size_x order iter st = lob_loop fuel a m yc tol size_x order iter st.
Proof.
  induction iter as [|iter IH]; intros st; cbn [lob_loop].
  { exists []. split; [simpl; lia|reflexivity]. }
  destruct (lob_measure st) as [[[[r rn] ld] st1]| | | |]; [|exists []; split; [apply Nat.le_0_l|intros; cbn [bind catch]; reflexivity]..]. cbn [bind].
  set (mask := map _ _). set (st2 := LS _ _ _ mask _ _ _ _ _).
  destruct (count_true mask =? 0); [exists []; split; [simpl; lia|reflexivity]|].
  destruct (body_queries fuel a m yc size_x order r ld rn (count_true mask) st2) as (l1 & h1 & h2).
  destruct (lob_body fuel a m yc size_x order r ld rn (count_true mask) st2) as [[st3 [e|]]|e| | |] eqn:eb.
  1,3-6: exists l1; split; [lia|]; intros a' ha; rewrite (h2 a' ha); reflexivity.
  destruct (IH st3) as (l2 & g1 & g2). exists (l1 ++ l2). split; [rewrite app_length; lia|].
  intros a' ha. rewrite h2 by (intros; apply ha; apply in_or_app; auto). cbn [bind].
  apply g2. intros; apply ha; apply in_or_app; auto.
Qed.
Lemma lobpcg_queries fuel (a : mtx -> res mtx) (x : mtx) m y tol maxiter order :
  exists l, length l <= (if nr x <? nc x then 0 else 1 + Nat.min (10 * nr x) maxiter) /\
    forall a', (forall z, In z l -> a' z = a z) ->
      lobpcg_trace fuel a' x m y tol maxiter order = lobpcg_trace fuel a x m y tol maxiter order.
Proof.
  unfold lobpcg_trace. destruct (nr x <? nc x); [exists []; split; [simpl; lia|reflexivity]|].
  match goal with |- context [bind ?s _] => destruct s as [[x1 yc]| | | |] end; [|exists []; split; [apply Nat.le_0_l|intros; cbn [bind catch]; reflexivity]..].
  cbn [bind]. destruct (orthonormalize x1) as [[x2 l2]| | | |]; [|exists []; split; [apply Nat.le_0_l|intros; cbn [bind catch]; reflexivity]..]. cbn [catch].
  assert (h1 : forall (P : list mtx -> Prop), P [x2] -> exists l, length l <= 1 + Nat.min (10 * nr x) maxiter /\ P l).
  { intros P hp. exists [x2]. split; [simpl; lia|auto]. }
  destruct (a x2) as [ax| | | |] eqn:ea; [|apply h1; intros a' ha; rewrite (ha x2 (or_introl eq_refl)), ea; cbn [bind catch]; reflexivity..].
  cbn [bind].
  destruct (dot2 (transpose x2) ax) as [xax| | | |] eqn:e1;
    [|apply h1; intros a' ha; rewrite (ha x2 (or_introl eq_refl)), ea; cbn [bind]; rewrite e1; cbn [bind catch]; reflexivity..]. cbn [bind].
  destruct (sorted_eig fuel xax None (nc x) order) as [[lam eb]| | | |] eqn:e2;
    [|apply h1; intros a' ha; rewrite (ha x2 (or_introl eq_refl)), ea; cbn [bind]; rewrite e1; cbn [bind]; rewrite e2; cbn [bind catch]; reflexivity..].
  cbn [catch].
  destruct (dot2 x2 eb) as [x3| | | |] eqn:e3;
    [|apply h1; intros a' ha; rewrite (ha x2 (or_introl eq_refl)), ea; cbn [bind]; rewrite e1; cbn [bind]; rewrite e2; cbn [catch]; rewrite e3; cbn [bind catch]; reflexivity..].
  cbn [bind].
  destruct (dot2 ax eb) as [ax3| | | |] eqn:e4;
    [|apply h1; intros a' ha; rewrite (ha x2 (or_introl eq_refl)), ea; cbn [bind]; rewrite e1; cbn [bind]; rewrite e2; cbn [catch]; rewrite e3; cbn [bind]; rewrite e4; cbn [bind catch]; reflexivity..].
  cbn [bind].
  destruct (loop_queries fuel a m yc tol (nc x) order (Nat.min (nr x * 10) maxiter) (LS lam x3 ax3 (repeat true (nc x)) None None true [] 1)) as (l & hl & hq).
  exists (x2 :: l). split; [cbn [length]; lia|]. intros a' ha. rewrite (ha x2 (or_introl eq_refl)), ea. cbn [bind]. rewrite e1. cbn [bind].
  rewrite e2. cbn [catch]. rewrite e3. cbn [bind]. rewrite e4. cbn [bind]. rewrite hq by (intros z hz; apply ha; right; auto). reflexivity.
Qed.

(** Shape of every triple returned *)
Lemma w_lobpcg_shape fuel (a : mtx -> res mtx) (x : mtx) m y tol maxiter order :
  weak (lobpcg fuel a x m y tol maxiter order) (fun r =>
    match r with
    | LOk out => nc x <= nr x /\ shaped (nr x) (nc x) (eigvals out, eigvecs out, rnorm out)
    | LErr e (Some out) => nc x <= nr x /\ shaped (nr x) (nc x) (eigvals out, eigvecs out, rnorm out) /\ thinE e
    | LErr e None => (nr x < nc x /\ e = NotThin (nr x) (nc x)) \/ (nc x <= nr x /\ thinE e)
    end) anyE.
Proof.
  unfold lobpcg. apply weak_bind. eapply weak_mono; [apply w_lobpcg| |auto].
  intros [r [st|]]; cbn [weak].
  - intros (hge & hr). destruct (run_best _ _ _ _ _ _ hr) as (out & [->|(e & -> & he)] & hs & _); auto.
  - destruct (Nat.ltb_spec (nr x) (nc x)); [intros ->; auto|]. intros (e & -> & he). auto.
Qed.

(** ** The iterator *)
Section Iter.
Context {G : Type} (draw : G -> N * G).

Lemma random_dims r c g : nr (fst (random draw r c g)) = r /\ nc (fst (random draw r c g)) = c.
Proof. unfold random. destruct (draws draw (r * c) g). auto. Qed.

(** Same problem, settings and constraints: only the random state differs *)
Definition same_but_rng (t t' : truncated_eig (N:=N) (G:=G)) : Prop := t' = te_set_rng t (te_rng t').

Lemma w_decompose fuel (t : truncated_eig (N:=N) (G:=G)) num :
  weak (te_decompose draw fuel t num) (fun '(r, t') => same_but_rng t t' /\
    match r with
    | LOk out => num <= nr (te_problem t) /\ length (eigvals out) = num /\ nc (eigvecs out) = num
    | LErr e (Some out) => num <= nr (te_problem t) /\ length (eigvals out) = num /\ nc (eigvecs out) = num
    | LErr e None => True
    end) anyE.
Proof.
  unfold te_decompose. destruct (Nat.eqb_spec num 0) as [->|h0].
  { cbn. repeat split; try lia. unfold same_but_rng. destruct t; reflexivity. }
  destruct (random_dims (nr (te_problem t)) num (te_rng t)) as (d1 & d2).
  destruct (random draw (nr (te_problem t)) num (te_rng t)) as [x g]. cbn [fst] in d1, d2.
  apply weak_bind. eapply weak_mono; [apply w_lobpcg_shape| |auto].
  intros r hr. cbn [weak]. split; [reflexivity|]. rewrite d1, d2 in hr.
  destruct r as [out|e [out|]]; auto; unfold shaped in hr; cbn [fst snd] in hr; tauto.
Qed.

Lemma columns_hcat (c e d : mtx) : hcat c e = Ret d -> columns d = columns c ++ columns e.
Proof.
  unfold hcat. destruct (Nat.eqb_spec (nr c) (nr e)) as [h|]; [|discriminate]. intros hd. injection hd as <-.
  unfold columns at 1. cbn [nr nc mk].
  rewrite seq_app, map_app. f_equal.
  - apply map_ext_in. intros j hj. apply in_seq in hj. apply map_ext_in. intros i hi. apply in_seq in hi.
    rewrite (get_mk (nr c) (nc c + nc e)) by lia. bd. reflexivity.
  - rewrite Nat.add_0_l. unfold columns. rewrite <- h.
    assert (g : forall k s, s + k <= nc e ->
      map (fun j => map (fun i => get (mk (nr c) (nc c + nc e) (fun i j => if j <? nc c then get c i j else get e i (j - nc c))) i j) (seq 0 (nr c))) (seq (s + nc c) k) =
      map (fun j => map (fun i => get e i j) (seq 0 (nr c))) (seq s k)).
    { induction k as [|k IH]; intros s hs; cbn [seq map]; [reflexivity|]. f_equal.
      - apply map_ext_in. intros i hi. apply in_seq in hi. rewrite (get_mk (nr c) (nc c + nc e)) by lia. bd. f_equal. lia.
      - apply (IH (S s)). lia. }
    apply (g (nc e) 0). lia.
Qed.
Lemma columns_stack (c e d : mtx) : stack_cols c e = Ret d -> columns d = columns c ++ columns e.
Proof.
  unfold stack_cols. destruct (Nat.eqb_spec (nc c + nc e) 0); [discriminate|].
  destruct (Nat.eqb_spec (nc c) 0) as [h|].
  { intros h'. injection h' as <-. unfold columns at 2. rewrite h. reflexivity. }
  destruct (Nat.eqb_spec (nc e) 0) as [h|].
  { intros h'. injection h' as <-. unfold columns at 3. rewrite h. cbn. now rewrite app_nil_r. }
  apply columns_hcat.
Qed.

Lemma w_next fuel (it : teig_iter (N:=N) (G:=G)) :
  weak (ti_next draw fuel it) (fun '(item, it') => ti_step it' = ti_step it /\
    match item with
    | None => ti_remaining it' = ti_remaining it /\ same_but_rng (ti_eig it) (ti_eig it') /\ (ti_remaining it = 0 -> it' = it)
    | Some (vals, vecs) => 0 < ti_remaining it /\ length vals = Nat.min (ti_step it) (ti_remaining it) /\
        nc vecs = Nat.min (ti_step it) (ti_remaining it) /\
        ti_remaining it' = ti_remaining it - Nat.min (ti_step it) (ti_remaining it) /\
        exists c, te_constraints (ti_eig it') = Some c /\ columns c = opt_columns (te_constraints (ti_eig it)) ++ columns vecs /\
          ti_eig it' = te_orthogonal_to (te_set_rng (ti_eig it) (te_rng (ti_eig it'))) c
    end) anyE.
Proof.
  unfold ti_next. destruct (Nat.eqb_spec (ti_remaining it) 0) as [h0|h0].
  { cbn. repeat split; auto. unfold same_but_rng. destruct (ti_eig it); reflexivity. }
  apply weak_bind. eapply weak_mono; [apply w_decompose| |auto]. intros [r eig] (hs & hr).
  set (s := Nat.min (ti_step it) (ti_remaining it)) in *.
  set (stop := TI (ti_step it) (ti_remaining it) eig).
  assert (hstop : ti_step stop = ti_step it /\ ti_remaining stop = ti_remaining it /\ same_but_rng (ti_eig it) (ti_eig stop) /\ (ti_remaining it = 0 -> stop = it)).
  { repeat split; auto. intros; contradiction. }
  match goal with |- weak (match r with LOk l => @?g l | _ => _ end) _ _ => set (go := g) end.
  assert (hgo : forall l, length (eigvals l) = s -> nc (eigvecs l) = s -> weak (go l) (fun '(item, it') => ti_step it' = ti_step it /\
    match item with
    | None => ti_remaining it' = ti_remaining it /\ same_but_rng (ti_eig it) (ti_eig it') /\ (ti_remaining it = 0 -> it' = it)
    | Some (vals, vecs) => 0 < ti_remaining it /\ length vals = s /\ nc vecs = s /\ ti_remaining it' = ti_remaining it - s /\
        exists c, te_constraints (ti_eig it') = Some c /\ columns c = opt_columns (te_constraints (ti_eig it)) ++ columns vecs /\
          ti_eig it' = te_orthogonal_to (te_set_rng (ti_eig it) (te_rng (ti_eig it'))) c
    end) anyE).
  { intros l g1 g2. unfold go. destruct (existsb _ _); [exact hstop|].
    assert (hcon : te_constraints eig = te_constraints (ti_eig it)) by (rewrite hs; reflexivity). rewrite hcon.
    apply weak_bind. eapply weak_mono with (Q := fun c => columns c = opt_columns (te_constraints (ti_eig it)) ++ columns (eigvecs l)) (E := anyE); [| |auto].
    - destruct (te_constraints (ti_eig it)) as [c|]; [|cbn; reflexivity].
      destruct (stack_cols c (eigvecs l)) as [d|e| | |] eqn:ed; cbn [weak]; try exact I. apply columns_stack. exact ed.
    - intros c hc. unfold usub. destruct (Nat.leb_spec s (ti_remaining it)); [|exact I]. cbn.
      split; auto. split; [lia|]. split; auto. split; auto. split; auto. exists c. split; auto. split; auto.
      clear - hs. unfold same_but_rng in hs. destruct (ti_eig it), eig. unfold te_set_rng, te_orthogonal_to in *. cbn in *.
      injection hs; intros; subst; reflexivity. }
  destruct r as [l|e [l|]]; [apply hgo; intuition|apply hgo; intuition|exact hstop].
Qed.

(** k successive calls of next *)
Fixpoint nexts (fuel k : nat) (it : teig_iter (N:=N) (G:=G)) : res (list (option (vec * mtx)) * teig_iter (N:=N) (G:=G)) :=
  match k with
  | 0 => Ret ([], it)
  | S k => let* (o, it) := ti_next draw fuel it in
           let* (l, it) := nexts fuel k it in Ret (o :: l, it)
  end.
Lemma w_nexts fuel k : forall it,
  weak (nexts fuel k it) (fun '(items, it') => length items = k /\ ti_step it' = ti_step it /\
    chunks (ti_step it) (ti_remaining it) items (ti_remaining it') /\
    opt_columns (te_constraints (ti_eig it')) = opt_columns (te_constraints (ti_eig it)) ++ delivered items /\
    te_problem (ti_eig it') = te_problem (ti_eig it)) anyE.
Proof.
  induction k as [|k IH]; intros it; cbn [nexts].
  { cbn. rewrite app_nil_r. auto. }
  apply weak_bind. eapply weak_mono; [apply w_next| |auto]. intros [o it1] (h1 & h2).
  apply weak_bind. eapply weak_mono; [apply IH| |auto]. intros [l it2] (g1 & g2 & g3 & g4 & g5). cbn [weak].
  destruct o as [[vals vecs]|].
  - destruct h2 as (f1 & f2 & f3 & f4 & c & f5 & f6 & f7). split; [cbn; lia|]. split; [congruence|]. split; [|split].
    + cbn [chunks]. rewrite f4, h1 in g3. auto.
    + rewrite g4, f5. cbn [opt_columns delivered map concat]. rewrite f6, app_assoc. reflexivity.
    + rewrite g5, f7. reflexivity.
  - destruct h2 as (f1 & f2 & f3). split; [cbn; lia|]. split; [congruence|]. rewrite f1, h1 in g3. rewrite f2 in g4, g5. auto.
Qed.
Lemma chunks_total s : forall items r r', @chunks N s r items r' -> total items + r' = r.
Proof.
  unfold total, list_sum. induction items as [|[[va ve]|] l IH]; intros r r'; cbn [chunks map fold_right].
  - intros ->. reflexivity.
  - intros (h1 & h2 & h3 & h4). specialize (IH _ _ h4). unfold list_sum in *. lia.
  - intros h. exact (IH _ _ h).
Qed.
Lemma chunks_0 s : forall items r', @chunks N s 0 items r' -> Forall (fun o => o = None) items.
Proof.
  induction items as [|[[va ve]|] l IH]; intros r'; cbn [chunks]; auto.
  - intros (h & _). lia.
  - intros h. constructor; eauto.
Qed.
End Iter.
End Gen.
