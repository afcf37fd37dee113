(** * Proofs about eigh.rs *)
From Coq Require Import Reals List Arith Lia Lra Bool Setoid Morphisms.
From Verif Require Import Scalar Arr MBase MDirect MDecomp MEigh Inst Hoare Spec RLin PTri PHouse PQR PTrid PGivens.
Import ListNotations.
Open Scope res_scope.

(** ** Any scalar semantics *)
Section Generic.
Context {N : Num}.
Notation vec := (list N).
Notation mtx := (mat N).

(** off[j] is above the deflation threshold, as tested by the first loop of delimit_subproblem *)
Definition above (eps : N) (diag off : vec) (j : nat) : bool :=
  nlt N (nmul N eps (nadd N (nabs N (vget diag (S j))) (nabs N (vget diag j)))) (nabs N (vget off j)).
(** off[j] is negligible, as tested by the second loop *)
Definition negl (eps : N) (diag off : vec) (j : nat) : bool :=
  nis_zero N (vget off j) ||
  nle N (nabs N (vget off j)) (nmul N eps (nadd N (nabs N (vget diag (S j))) (nabs N (vget diag j)))).

Lemma delim_end_ok eps (diag off : vec) e : e < length diag -> length off = length diag - 1 ->
  wp (delim_end diag off eps e) (fun k => k <= e /\
    (forall j, k <= j < e -> above eps diag off j = false) /\
    (0 < k -> above eps diag off (k - 1) = true)).
Proof.
  intros h ho. induction e as [|e IH]; cbn [delim_end].
  - apply post_ret. repeat split; intros; lia.
  - steps. change (nlt N _ _) with (above eps diag off e).
    destruct (above eps diag off e) eqn:ea.
    + apply post_ret. split; [lia|]. split; [intros; lia|]. intros _. rewrite Nat.sub_succ, Nat.sub_0_r. auto.
    + eapply post_mono; [apply IH; lia|]. intros k (h1 & h2 & h3). split; [lia|]. split; auto.
      intros j hj. destruct (Nat.eq_dec j e) as [->|]; auto. apply h2. lia.
Qed.

Lemma delim_start_ok eps (diag off : vec) s : s < length diag -> length off = length diag - 1 ->
  wp (delim_start diag off eps s) (fun r => fst r <= s /\
    (forall j, fst r <= j < s -> negl eps diag off j = false) /\
    ((fst r = 0 /\ snd r = off) \/
     (0 < fst r /\ negl eps diag off (fst r - 1) = true /\ snd r = vupd off (fst r - 1) (n0 N)))).
Proof.
  intros h ho. induction s as [|s IH]; cbn [delim_start].
  - apply post_ret. cbn [fst snd]. split; auto. split; [intros; lia|]. auto.
  - steps. change (nis_zero N (vget off s) || _) with (negl eps diag off s).
    destruct (negl eps diag off s) eqn:ea.
    + steps. cbn [fst snd]. split; auto. split; [intros; lia|]. right.
      rewrite Nat.sub_succ, Nat.sub_0_r. split; [lia|auto].
    + eapply post_mono; [apply IH; lia|]. intros [k o]. cbn [fst snd]. intros (h1 & h2 & h3).
      split; [lia|]. split; auto.
      intros j hj. destruct (Nat.eq_dec j s) as [->|]; auto. apply h2. lia.
Qed.

(** delimit_subproblem: with result (s, k, off') *)
Definition delim_post (eps : N) (diag off : vec) (e s k : nat) (off' : vec) : Prop :=
  s <= k /\ k <= e /\ length off' = length off /\
  (forall j, k <= j < e -> above eps diag off j = false) /\
  (k = 0 -> s = 0 /\ off' = off) /\
  (0 < k -> s < k /\ above eps diag off (k - 1) = true /\
     (forall j, s <= j < k - 1 -> negl eps diag off j = false) /\
     ((s = 0 /\ off' = off) \/
      (0 < s /\ negl eps diag off (s - 1) = true /\ off' = vupd off (s - 1) (n0 N)))).

Lemma delimit_ok eps (diag off : vec) e : e < length diag -> length off = length diag - 1 ->
  wp (delimit_subproblem diag off e eps) (fun r => delim_post eps diag off e (fst (fst r)) (snd (fst r)) (snd r)).
Proof.
  intros h ho. unfold delimit_subproblem. step1.
  eapply post_mono; [apply delim_end_ok; auto|]. intros k (h1 & h2 & h3).
  destruct (Nat.eqb_spec k 0) as [->|].
  - apply post_ret. cbn [fst snd]. unfold delim_post. repeat split; auto; intros; lia.
  - step1. apply post_usub; [lia|]. step1.
    eapply post_mono; [apply delim_start_ok; [lia|auto]|]. intros [s o]. cbn [fst snd].
    intros (g1 & g2 & g3). apply post_ret. cbn [fst snd]. unfold delim_post.
    split; [lia|]. split; [lia|]. split; [destruct g3 as [(_ & ->)|(_ & _ & ->)]; dims; auto|].
    split; auto. split; [lia|]. intros _. split; [lia|]. split; [apply h3; lia|]. split; auto.
Qed.

(** *** Shapes of the iteration state *)
Definition q_shape (n : nat) (q : option mtx) : Prop :=
  match q with Some q => nr q = n /\ nc q = n | None => True end.
Definition es_shape (n : nat) (es : eig_state N) : Prop :=
  length (es_diag es) = n /\ length (es_off es) = n - 1 /\ q_shape n (es_q es).
Definition same_flag {A} (q q' : option A) : Prop :=
  match q, q' with Some _, Some _ => True | None, None => True | _, _ => False end.

Lemma rotate_q_shape' (g : givens N) (q : option mtx) n c : c + 1 < n -> q_shape n q ->
  wp (rotate_q g q c) (fun o => q_shape n o /\ same_flag q o).
Proof.
  intros h hq. eapply post_mono; [apply (rotate_q_shape g q n c); auto|].
  - destruct q; auto. apply hq.
  - intros o. destruct q, o; simpl in *; try tauto. intros (h1 & h2). repeat split; auto. destruct hq. congruence.
Qed.

Lemma eig_sweep_step_safe n start e i st : es_shape n (snd st) -> start <= i -> i < e -> e < n ->
  wp (eig_sweep_step start e i st) (fun r => es_shape n (snd (snd r)) /\ same_flag (es_q (snd st)) (es_q (snd (snd r)))).
Proof.
  destruct st as [[x y] [d o q]]. cbn [snd]. intros (h1 & h2 & h3) hs hi he. cbn [es_diag es_off es_q] in *.
  unfold eig_sweep_step. cbn [es_diag es_off es_q]. destruct (cancel_y x y) as [[rot norm]|].
  - step1. 
    assert (hoff : wp (if start <? i then let* i1 := usub i 1 in atm1 o i1 norm else Ret o) (fun o' => length o' = n - 1)).
    { destruct (Nat.ltb_spec start i); [|apply post_ret; auto].
      step1. apply post_usub; [lia|]. apply post_atm1; [lia|]. dims. auto. }
    eapply post_mono; [exact hoff|]. intros o1 ho1. cbv beta in ho1.
    steps.
    eapply post_mono with (Q := fun r => length (snd r) = n - 1).
    { destruct (Nat.eqb_spec i (e - 1)); cbn [negb]; steps; cbn [snd]; dims; auto. }
    intros [[x' y'] o2]. cbn [snd]. intros ho2.
    step1. eapply post_mono; [apply rotate_q_shape'; [|exact h3]; lia|]. intros q' (hq & hf).
    apply post_ret. cbn [snd es_q]. split; auto. split; [|split]; cbn [es_diag es_off es_q]; dims; auto.
  - apply post_ret. cbn [snd es_q]. split; [split; [|split]; auto|]. destruct q; simpl; auto.
Qed.

Lemma same_flag_refl {A} (q : option A) : same_flag q q. Proof. destruct q; simpl; auto. Qed.
Lemma same_flag_trans {A} (a b c : option A) : same_flag a b -> same_flag b c -> same_flag a c.
Proof. destruct a, b, c; simpl; tauto. Qed.

Lemma eig_big_safe n start e eps es : es_shape n es -> start + 1 < e -> e < n ->
  wp (eig_big start e eps es) (fun r => es_shape n (fst r) /\ same_flag (es_q es) (es_q (fst r)) /\
    (snd r = e \/ snd r = e - 1)).
Proof.
  intros hs h1 h2. pose proof hs as (s1 & s2 & s3). unfold eig_big. steps.
  eapply post_mono with (Q := fun st => es_shape n (snd st) /\ same_flag (es_q es) (es_q (snd st))).
  { eapply post_for_brk with (I := fun _ st => es_shape n (snd st) /\ same_flag (es_q es) (es_q (snd st))).
  - cbn [snd]. split; auto. apply same_flag_refl.
  - intros i st hi (g1 & g2). eapply post_mono; [apply (eig_sweep_step_safe n); auto; lia|].
    intros [go st'] (k1 & k2). cbn [fst snd] in *.
    assert (es_shape n (snd st') /\ same_flag (es_q es) (es_q (snd st'))) by (split; auto; eapply same_flag_trans; eauto).
    destruct go; auto.
  - auto. }
  - intros [xy es'] (g1 & g2). cbn [snd] in *. pose proof g1 as (t1 & t2 & t3). steps.
    destruct (nle N _ _); steps; cbn [fst snd]; auto.
Qed.

(** The 2x2 eigenvalue routine succeeds whenever delimit_subproblem has selected the block *)
Definition eig2_total (eps : N) : Prop := forall d0 d1 o,
  nlt N (nmul N eps (nadd N (nabs N d1) (nabs N d0))) (nabs N o) = true ->
  compute_2x2_eigvals d0 o o d1 <> None.

Lemma eig_two_safe n start e eps es : eig2_total eps -> es_shape n es -> e = start + 1 -> e < n ->
  above eps (es_diag es) (es_off es) start = true ->
  wp (eig_two start e eps es) (fun r => es_shape n (fst r) /\ same_flag (es_q es) (es_q (fst r)) /\ snd r = start).
Proof.
  intros tot hs h1 h2 ha. pose proof hs as (s1 & s2 & s3). unfold eig_two. steps.
  assert (hc : compute_2x2_eigvals (vget (es_diag es) start) (vget (es_off es) start) (vget (es_off es) start)
                (vget (es_diag es) (start + 1)) <> None).
  { apply tot. rewrite Nat.add_1_r. exact ha. }
  destruct (compute_2x2_eigvals _ _ _ _) as [[l1 l2]|] eqn:ec; [|congruence].
  cbn [unwrap_opt]. apply post_ret. steps.
  eapply post_mono with (Q := fun q' => q_shape n q' /\ same_flag (es_q es) q').
  - destruct (es_q es) as [q|] eqn:eq; [|apply post_ret; split; [exact I|exact I]].
    destruct (try_new _ _ _) as [[rot r]|].
    + apply rotate_q_shape'; auto. lia.
    + apply post_ret. split; auto. exact I.
  - intros q' (g1 & g2). steps. cbn [fst snd es_q]. split; [|split; [auto|lia]].
    split; [|split]; cbn [es_diag es_off es_q]; dims; auto.
Qed.

Definition loop_inv (n : nat) (eps : N) (start e : nat) (es : eig_state N) : Prop :=
  es_shape n es /\ start <= e /\ e < n /\
  (start < e -> above eps (es_diag es) (es_off es) (e - 1) = true).

(** What delimit_subproblem leaves intact *)
Lemma delimit_loop_inv n eps es e : es_shape n es -> e < n ->
  wp (delimit_subproblem (es_diag es) (es_off es) e eps)
     (fun r => loop_inv n eps (fst (fst r)) (snd (fst r)) (ES (es_diag es) (snd r) (es_q es))).
Proof.
  intros (s1 & s2 & s3) he. eapply post_mono; [apply delimit_ok; lia|].
  intros [[s k] off']. cbn [fst snd]. intros (h1 & h2 & h3 & h4 & h5 & h6).
  split; [split; [|split]; cbn [es_diag es_off es_q]; auto; lia|]. split; auto. split; [lia|].
  cbn [es_diag es_off]. intros hk. destruct (h6 ltac:(lia)) as (g1 & g2 & g3 & g4).
  destruct g4 as [(_ & ->)|(p1 & _ & ->)]; auto.
  unfold above in *. rewrite vget_vupd by lia. bd. auto.
Qed.

Lemma eig_loop_safe n eps : eig2_total eps -> forall fuel start e es, loop_inv n eps start e es ->
  post (eig_loop fuel eps start e es) (fun es' => es_shape n es' /\ same_flag (es_q es) (es_q es')) noE True.
Proof.
  intros tot. induction fuel as [|fuel IH]; intros start e es (h1 & h2 & h3 & h4); cbn [eig_loop];
  (destruct (Nat.eqb_spec e start); [apply post_ret; split; auto; apply same_flag_refl|]).
  - exact I.
  - step1. apply post_usub; [lia|]. step1.
    assert (hstep : wp (if 2 <? S (e - start) then eig_big start e eps es
         else if S (e - start) =? 2 then eig_two start e eps es else Ret (es, e))
       (fun r => es_shape n (fst r) /\ same_flag (es_q es) (es_q (fst r)) /\ snd r < n)).
    { destruct (Nat.ltb_spec 2 (S (e - start))).
      - eapply post_mono; [apply (eig_big_safe n); auto; lia|]. intros r (g1 & g2 & g3). repeat split; auto; try apply g1. lia.
      - destruct (Nat.eqb_spec (S (e - start)) 2); [|lia].
        eapply post_mono; [apply (eig_two_safe n); auto; try lia|].
        + replace start with (e - 1) by lia. apply h4. lia.
        + intros r (g1 & g2 & g3). repeat split; auto; try apply g1. lia. }
    eapply wp_conseq; [exact hstep|]. intros [es1 e1]. cbn [fst snd]. intros (g1 & g2 & g3).
    step1. eapply wp_conseq; [apply (delimit_loop_inv n); auto|].
    intros [[s' e'] off']. cbn [fst snd]. intros hl.
    eapply post_mono; [apply IH; exact hl|]. cbn [es_q]. intros es' (k1 & k2). split; auto.
    eapply same_flag_trans; eauto.
Qed.

Lemma nr_scale_down (m : mtx) a : nr (scale_down m a) = nr m.
Proof. unfold scale_down. destruct (negb _); auto. Qed.
Lemma nc_scale_down (m : mtx) a : nc (scale_down m a) = nc m.
Proof. unfold scale_down. destruct (negb _); auto. Qed.

Lemma symmetric_eig_class fuel (m : mtx) (ev : bool) eps : eig2_total eps ->
  match symmetric_eig fuel m ev eps with
  | Ret (vals, q) => nr m = nc m /\ length vals = nr m /\
      match q with Some q => ev = true /\ nr q = nr m /\ nc q = nr m | None => ev = false end
  | Err e => nr m <> nc m /\ e = NotSquare (nr m) (nc m)
  | OutOfFuel => nr m = nc m /\ 2 <= nr m
  | _ => False
  end.
Proof.
  intros tot. unfold symmetric_eig, check_square.
  destruct (Nat.eqb_spec (nr m) (nc m)) as [sq|]; [|cbn [bind]; auto]. cbn [bind].
  destruct (Nat.ltb_spec (nr m) 1).
  { destruct ev; simpl; repeat split; auto; lia. }
  set (m' := scale_down m (abs_max m)).
  assert (d1 : nr m' = nr m) by apply nr_scale_down.
  assert (d2 : nc m' = nc m) by apply nc_scale_down.
  pose proof (sym_tridiagonal_class m') as ht. rewrite d1, d2 in ht.
  destruct (sym_tridiagonal m') as [td|e| | |]; cbn [bind].
  2: { destruct e; try tauto; lia. }
  2-4: tauto.
  destruct ht as (_ & _ & t1 & t2 & t3).
  assert (hq : wp (if ev then let* q := tri_generate_q td in Ret (Some q) else Ret None)
    (fun q => q_shape (nr m) q /\ match q with Some _ => ev = true | None => ev = false end)).
  { destruct ev; [|apply post_ret; split; auto; exact I]. step1.
    unfold tri_generate_q. eapply post_mono; [apply assemble_q_safe; [lia|]|].
    - intros i hi. apply post_idx1; auto. lia.
    - intros q (q1 & q2). apply post_ret. simpl. rewrite q1, q2. repeat split; auto; lia. }
  destruct (wp_ret _ _ hq) as (q & -> & q1 & q2). cbn [bind].
  destruct (tri_into_diagonals td) as [diag off] eqn:et.
  assert (l1 : length diag = nr m).
  { unfold tri_into_diagonals in et. injection et as <- _. rewrite length_vmk. lia. }
  assert (l2 : length off = nr m - 1).
  { unfold tri_into_diagonals in et. injection et as _ <-. unfold vmap. rewrite length_vmk. lia. }
  assert (hout : forall v, length v = nr m -> length (vmap (fun x => nmul N x (abs_max m)) v) = nr m).
  { intros v hv. unfold vmap. rewrite length_vmk. auto. }
  destruct (Nat.eqb_spec (nr m) 1).
  { split; auto. split; [auto|]. destruct q; auto. }
  destruct (wp_ret _ _ (delimit_loop_inv (nr m) eps (ES diag off q) (nr m - 1) ltac:(repeat split; auto) ltac:(lia)))
    as ([[s k] off'] & hd & hl). cbn [es_diag es_off es_q fst snd] in hd, hl. rewrite hd. cbn [bind].
  pose proof (eig_loop_safe (nr m) eps tot fuel _ _ _ hl) as hloop.
  destruct (eig_loop _ _ _ _ _) as [es'|e| | |]; cbn [bind]; simpl in hloop; try tauto.
  - destruct hloop as ((k1 & k2 & k3) & k4). split; auto. split; [auto|].
    destruct q, (es_q es'); simpl in *; tauto.
  - split; auto. lia.
Qed.

(** One 2x2 step always deflates: matrices up to 2x2 need no more fuel *)
Lemma symmetric_eig_small (m : mtx) (ev : bool) eps : eig2_total eps -> nr m = nc m -> nr m <= 2 ->
  exists r, symmetric_eig 1 m ev eps = Ret r.
Proof.
  intros tot sq hn. pose proof (symmetric_eig_class 1 m ev eps tot) as hc.
  unfold symmetric_eig, check_square in *. rewrite (proj2 (Nat.eqb_eq _ _) sq) in *. cbn [bind] in *.
  destruct (Nat.ltb_spec (nr m) 1); [eauto|].
  set (m' := scale_down m (abs_max m)) in *.
  assert (d1 : nr m' = nr m) by apply nr_scale_down.
  assert (d2 : nc m' = nc m) by apply nc_scale_down.
  pose proof (sym_tridiagonal_class m') as ht. rewrite d1, d2 in ht.
  destruct (sym_tridiagonal m') as [td|e| | |]; cbn [bind] in *; [|destruct e; try tauto; lia|tauto..].
  destruct ht as (_ & _ & t1 & t2 & t3).
  assert (hq : wp (if ev then let* q := tri_generate_q td in Ret (Some q) else Ret None)
    (fun q => q_shape (nr m) q)).
  { destruct ev; [|apply post_ret; exact I]. step1.
    unfold tri_generate_q. eapply post_mono; [apply assemble_q_safe; [lia|]|].
    - intros i hi. apply post_idx1; auto. lia.
    - intros q (q1 & q2). apply post_ret. simpl. rewrite q1, q2. split; auto; lia. }
  destruct (wp_ret _ _ hq) as (q & eq & q1). rewrite eq in *. cbn [bind] in *.
  destruct (tri_into_diagonals td) as [diag off] eqn:et.
  assert (l1 : length diag = nr m).
  { unfold tri_into_diagonals in et. injection et as <- _. rewrite length_vmk. lia. }
  assert (l2 : length off = nr m - 1).
  { unfold tri_into_diagonals in et. injection et as _ <-. unfold vmap. rewrite length_vmk. lia. }
  destruct (Nat.eqb_spec (nr m) 1); [eauto|].
  assert (n2 : nr m = 2) by lia.
  destruct (wp_ret _ _ (delimit_loop_inv (nr m) eps (ES diag off q) (nr m - 1) ltac:(repeat split; auto) ltac:(lia)))
    as ([[s k] off'] & hd & hl). cbn [es_diag es_off es_q fst snd] in hd, hl. rewrite hd. cbn [bind].
  destruct hl as (g1 & g2 & g3 & g4).
  cbn [eig_loop]. destruct (Nat.eqb_spec k s) as [|hne]; [cbn [bind]; eauto|].
  assert (s = 0 /\ k = 1) as (-> & ->) by lia. clear hc hd.
  cbn [usub Nat.leb Nat.sub bind Nat.ltb Nat.eqb].
  destruct (wp_ret _ _ (eig_two_safe (nr m) 0 1 eps _ tot g1 eq_refl ltac:(lia) (g4 ltac:(lia)))) as ([es1 e1] & e & h1 & h2 & h3).
  rewrite e. cbn [fst snd] in h1, h3. subst e1. cbn [bind delimit_subproblem delim_end Nat.eqb]. eauto.
Qed.
Lemma eigh_small (m : mtx) : eig2_total (nepsilon N) -> nr m = nc m -> nr m <= 2 ->
  exists r, eigh 1 m = Ret r.
Proof.
  intros tot sq hn. destruct (symmetric_eig_small m true _ tot sq hn) as ([v q] & e).
  pose proof (symmetric_eig_class 1 m true _ tot) as hc. unfold eigh. rewrite e in *. cbn [bind].
  destruct q as [q|]; [|destruct hc as (_ & _ & hc); discriminate]. simpl. eauto.
Qed.

Lemma eigh_class fuel (m : mtx) : eig2_total (nepsilon N) ->
  match eigh fuel m with
  | Ret (vals, q) => nr m = nc m /\ length vals = nr m /\ nr q = nr m /\ nc q = nr m
  | Err e => nr m <> nc m /\ e = NotSquare (nr m) (nc m)
  | OutOfFuel => nr m = nc m /\ 2 <= nr m
  | _ => False
  end.
Proof.
  intros tot. pose proof (symmetric_eig_class fuel m true _ tot) as h. unfold eigh.
  destruct (symmetric_eig fuel m true _) as [[vals [q|]]|e| | |]; cbn [bind unwrap_opt]; auto; try tauto.
  destruct h as (_ & _ & h). discriminate.
Qed.

Lemma eigvalsh_class fuel (m : mtx) : eig2_total (nepsilon N) ->
  match eigvalsh fuel m with
  | Ret vals => nr m = nc m /\ length vals = nr m
  | Err e => nr m <> nc m /\ e = NotSquare (nr m) (nc m)
  | OutOfFuel => nr m = nc m /\ 2 <= nr m
  | _ => False
  end.
Proof.
  intros tot. pose proof (symmetric_eig_class fuel m false _ tot) as h. unfold eigvalsh.
  destruct (symmetric_eig fuel m false _) as [[vals q]|e| | |]; cbn [bind unwrap_opt]; auto; try tauto.
Qed.

(** Enough fuel for one more size step is enough: a run that returns is unchanged by more fuel *)
Lemma eig_loop_more (eps : N) fuel : forall start e (es : eig_state N) r, eig_loop fuel eps start e es = Ret r ->
  forall fuel', fuel <= fuel' -> eig_loop fuel' eps start e es = Ret r.
Proof.
  induction fuel as [|fuel IH]; intros start e es r h fuel' hf.
  - cbn [eig_loop] in h. destruct fuel'; cbn [eig_loop]; destruct (Nat.eqb e start); auto; discriminate.
  - destruct fuel' as [|fuel']; [lia|]. cbn [eig_loop] in *. destruct (Nat.eqb e start); auto.
    destruct (bind_ret _ _ _ h) as (d & -> & h1). cbn [bind].
    destruct (bind_ret _ _ _ h1) as ([es1 e1] & -> & h2). cbn [bind].
    destruct (bind_ret _ _ _ h2) as ([[s' e'] off'] & -> & h3). cbn [bind]. apply IH; auto. lia.
Qed.

(** *** Runs with and without eigenvectors in lock step *)
Lemma sim_post {A} (m : res A) (P : A -> Prop) : wp m P -> sim (fun a b => a = b /\ P a) m m.
Proof. destruct m; simpl; auto. Qed.

Definition es_rel (n : nat) (es es' : eig_state N) : Prop :=
  (es_shape n es /\ es_q es <> None) /\ es_diag es = es_diag es' /\ es_off es = es_off es' /\ es_q es' = None.

Lemma rotate_q_sim n (g : givens N) q c : c + 1 < n -> q_shape n q -> q <> None ->
  sim (fun a b => (q_shape n a /\ a <> None) /\ b = None) (rotate_q g q c) (rotate_q g None c).
Proof.
  intros h hq hn. destruct (wp_ret _ _ (rotate_q_shape' g q n c h hq)) as (q' & -> & h1 & h2).
  simpl. split; auto. split; auto. destruct q, q'; simpl in h2; congruence.
Qed.

Ltac same := eapply sim_bind; [apply sim_eq; reflexivity|intros ? ? <-].

Lemma eig_sweep_step_sim n start e i x y es es' : es_rel n es es' -> start <= i -> i < e -> e < n ->
  sim (fun r r' => fst r = fst r' /\ fst (snd r) = fst (snd r') /\ es_rel n (snd (snd r)) (snd (snd r')))
    (eig_sweep_step start e i (x, y, es)) (eig_sweep_step start e i (x, y, es')).
Proof.
  destruct es as [d o q], es' as [d' o' q']. intros (((s1 & s2 & s3) & hn) & e1 & e2 & e3) hs hi he.
  cbn [es_diag es_off es_q] in *. subst d' o' q'. unfold eig_sweep_step. cbn [es_diag es_off es_q].
  destruct (cancel_y x y) as [[rot norm]|].
  - eapply sim_bind; [apply sim_post with (P := fun o' => length o' = n - 1)|intros o1 ? (<- & ho1)].
    { destruct (Nat.ltb_spec start i); [|apply post_ret; auto].
      step1. apply post_usub; [lia|]. apply post_atm1; [lia|]. dims. auto. }
    same. same. same.
    eapply sim_bind; [apply sim_post with (P := fun v => length v = n); apply post_atm1; [lia|dims; auto]|intros ? ? (<- & ?)].
    eapply sim_bind; [apply sim_post with (P := fun v => length v = n); apply post_atm1; [lia|dims; auto]|intros ? ? (<- & ?)].
    eapply sim_bind; [apply sim_post with (P := fun v => length v = n - 1); apply post_atm1; [lia|dims; auto]|intros ? ? (<- & ?)].
    eapply sim_bind; [apply sim_post with (P := fun v => v = e - 1); apply post_usub; [lia|auto]|intros ? ? (<- & ->)].
    eapply sim_bind; [apply sim_post with (P := fun r => length (snd r) = n - 1)|intros [[x' y'] o2] ? (<- & ho2)].
    { destruct (Nat.eqb_spec i (e - 1)); cbn [negb]; steps; cbn [snd]; dims; auto. }
    eapply sim_bind; [apply (rotate_q_sim n); [lia|auto|auto]|]. intros qa qb ((hq & hn') & ->).
    cbn [sim fst snd]. do 2 (split; [auto|]). split; [|auto]. split; auto. split; [|split]; auto.
  - cbn [sim fst snd]. do 2 (split; [auto|]). split; [|auto]. split; auto. split; [|split]; auto.
Qed.

Lemma sim_for_brk {S S'} (R : nat -> S -> S' -> Prop) (Q : S -> S' -> Prop) cnt lo f g s s' :
  R lo s s' ->
  (forall i s s', lo <= i < lo + cnt -> R i s s' ->
     sim (fun r r' => fst r = fst r' /\ (if fst r : bool then R (Datatypes.S i) (snd r) (snd r') else Q (snd r) (snd r')))
       (f i s) (g i s')) ->
  (forall s s', R (lo + cnt) s s' -> Q s s') ->
  sim Q (for_brk cnt lo f s) (for_brk cnt lo g s').
Proof.
  revert lo s s'. induction cnt as [|c IH]; intros lo s s' h hb hq; simpl.
  - apply hq. rewrite Nat.add_0_r. auto.
  - eapply sim_bind; [apply hb; [lia|exact h]|]. intros [b1 s1] [b2 s2]. cbn [fst snd]. intros (<- & h').
    destruct b1; [|exact h']. apply IH; auto.
    + intros. apply hb; [lia|auto].
    + replace (lo + Datatypes.S c) with (Datatypes.S lo + c) in hq by lia. exact hq.
Qed.

Lemma eig_big_sim n start e eps es es' : es_rel n es es' -> start + 1 < e -> e < n ->
  sim (fun r r' => es_rel n (fst r) (fst r') /\ snd r = snd r' /\ snd r < n)
    (eig_big start e eps es) (eig_big start e eps es').
Proof.
  intros hr h1 h2. unfold eig_big. destruct (hr) as (hs & e1 & e2 & e3). rewrite <- e1, <- e2.
  same. same. same. same. same. same.
  eapply sim_bind with (R := fun st st' => es_rel n (snd st) (snd st')).
  - eapply sim_for_brk with (R := fun _ st st' => fst st = fst st' /\ es_rel n (snd st) (snd st')).
    + auto.
    + intros i [[x y] es1] [[x' y'] es1'] hi. cbn [fst snd]. intros (ex & hr1). injection ex as <- <-.
      eapply sim_mono; [apply (eig_sweep_step_sim n); eauto; lia|].
      intros [b1 [xy1 s1]] [b2 [xy2 s2]]. cbn [fst snd]. intros (<- & <- & h). split; auto. destruct b1; auto.
    + intros s s' (_ & h). exact h.
  - intros [xy es1] [xy' es1']. cbn [snd]. intros (hs1 & f1 & f2 & f3). rewrite <- f1, <- f2.
    same. same. same. destruct (nle N _ _).
    + eapply sim_bind; [apply sim_post with (P := fun v => v = e - 1); apply post_usub; [lia|auto]|intros ? ? (<- & ->)].
      cbn [sim fst snd]. split; [|split; [auto|lia]]. split; auto.
    + cbn [sim fst snd]. split; [|split; [auto|lia]]. split; auto.
Qed.

Lemma eig_two_sim n start e eps es es' : es_rel n es es' -> e = start + 1 -> e < n ->
  sim (fun r r' => es_rel n (fst r) (fst r') /\ snd r = snd r' /\ snd r < n)
    (eig_two start e eps es) (eig_two start e eps es').
Proof.
  intros ((hs & hn) & e1 & e2 & e3) h1 h2. unfold eig_two. rewrite <- e1, <- e2, e3. 
  pose proof hs as (s1 & s2 & s3).
  same. same. same. eapply sim_bind; [apply sim_eq; reflexivity|intros [l1 l2] ? <-].
  eapply sim_bind; [apply sim_post with (P := fun v => length v = n); apply post_set1; [lia|dims; auto]|intros ? ? (<- & ?)].
  eapply sim_bind; [apply sim_post with (P := fun v => length v = n); apply post_set1; [lia|dims; auto]|intros ? ? (<- & ?)].
  eapply sim_bind with (R := fun q q' => (q_shape n q /\ q <> None) /\ q' = None).
  - destruct (es_q es) as [q|]; [|congruence].
    destruct (try_new _ _ _) as [[rot r]|]; [|cbn [sim]; auto].
    apply (rotate_q_sim n); auto. lia.
  - intros q ? ((hq & hn') & ->).
    eapply sim_bind; [apply sim_post with (P := fun v => v = e - 1); apply post_usub; [lia|auto]|intros ? ? (<- & ->)].
    cbn [sim fst snd]. split; [|split; [auto|lia]]. split; auto. split; auto. split; [|split]; auto.
Qed.

Lemma eig_loop_sim n eps fuel : forall start e es es', es_rel n es es' -> start <= e -> e < n ->
  sim (es_rel n) (eig_loop fuel eps start e es) (eig_loop fuel eps start e es').
Proof.
  induction fuel as [|fuel IH]; intros start e es es' hr h1 h2; cbn [eig_loop];
  (destruct (Nat.eqb_spec e start); [exact hr|]).
  - exact I.
  - eapply sim_bind; [apply sim_post with (P := fun v => v = e - start); apply post_usub; [lia|auto]|intros ? ? (<- & ->)].
    eapply sim_bind with (R := fun r r' => es_rel n (fst r) (fst r') /\ snd r = snd r' /\ snd r < n).
    + destruct (Nat.ltb_spec 2 (S (e - start))).
      * apply eig_big_sim; auto. lia.
      * destruct (Nat.eqb_spec (S (e - start)) 2); [|lia]. apply eig_two_sim; auto. lia.
    + intros [es1 e1] [es1' e1']. cbn [fst snd]. intros (hr1 & <- & he1).
      destruct (hr1) as ((hs1 & hn1) & f1 & f2 & f3). rewrite <- f1, <- f2.
      eapply sim_bind; [apply sim_post; apply (delimit_loop_inv n); auto|].
      intros [[s' e'] off'] ? (<- & hl). cbn [fst snd] in hl. destruct hl as (k1 & k2 & k3 & _).
      apply IH; auto. split; auto.
Qed.

Lemma symmetric_eig_sim fuel (m : mtx) eps :
  sim (fun a b => fst a = fst b /\ snd a <> None) (symmetric_eig fuel m true eps) (symmetric_eig fuel m false eps).
Proof.
  unfold symmetric_eig. unfold check_square.
  destruct (Nat.eqb_spec (nr m) (nc m)) as [sq|]; [|cbn [bind]; exact eq_refl]. cbn [bind].
  destruct (Nat.ltb_spec (nr m) 1). { split; [exact eq_refl|discriminate]. }
  set (m' := scale_down m (abs_max m)).
  assert (d1 : nr m' = nr m) by apply nr_scale_down.
  assert (d2 : nc m' = nc m) by apply nc_scale_down.
  pose proof (sym_tridiagonal_class m') as ht. rewrite d1, d2 in ht.
  destruct (sym_tridiagonal m') as [td|e| | |]; cbn [bind].
  2: { destruct e; try tauto; lia. }
  2-4: tauto.
  destruct ht as (_ & _ & t1 & t2 & t3).
  assert (hq : wp (let* q := tri_generate_q td in Ret (Some q)) (fun q => q_shape (nr m) q /\ q <> None)).
  { step1. unfold tri_generate_q. eapply post_mono; [apply assemble_q_safe; [lia|]|].
    - intros i hi. apply post_idx1; auto. lia.
    - intros q (q1 & q2). apply post_ret. simpl. rewrite q1, q2. split; [lia|discriminate]. }
  destruct (wp_ret _ _ hq) as (q & -> & q1 & qn). cbn [bind].
  destruct (tri_into_diagonals td) as [diag off] eqn:et.
  assert (l1 : length diag = nr m).
  { unfold tri_into_diagonals in et. injection et as <- _. rewrite length_vmk. lia. }
  assert (l2 : length off = nr m - 1).
  { unfold tri_into_diagonals in et. injection et as _ <-. unfold vmap. rewrite length_vmk. lia. }
  destruct (Nat.eqb_spec (nr m) 1). { split; [exact eq_refl|exact qn]. }
  destruct (wp_ret _ _ (delimit_loop_inv (nr m) eps (ES diag off q) (nr m - 1) ltac:(split; [|split]; auto) ltac:(lia)))
    as ([[s k] off'] & hd & hl). cbn [es_diag es_off es_q fst snd] in hd, hl. rewrite hd. cbn [bind].
  destruct hl as (k1 & k2 & k3 & _).
  eapply sim_bind; [apply (eig_loop_sim (nr m)); eauto|].
  - split; eauto.
  - intros es1 es1' ((_ & fn) & f1 & _). cbn [sim fst snd]. rewrite f1. auto.
Qed.

Lemma eigvalsh_eigh fuel (m : mtx) :
  eigvalsh fuel m = (let* (vals, _) := eigh fuel m in Ret vals).
Proof.
  apply sim_eq_inv. unfold eigvalsh, eigh.
  pose proof (symmetric_eig_sim fuel m (nepsilon N)) as h.
  destruct (symmetric_eig fuel m true _) as [[v q]|e| | |] eqn:e1,
           (symmetric_eig fuel m false _) as [[v' q']|e'| | |]; simpl in *; auto; try tauto.
  destruct h as (<- & hn). destruct q as [q|]; [reflexivity|congruence].
Qed.

End Generic.
