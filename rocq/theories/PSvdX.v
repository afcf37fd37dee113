(** * svd.rs: the run for a matrix with more rows than columns and the run for its transpose in lock step *)
From Coq Require Import List Arith Lia Bool ZArith.
From Verif Require Import Scalar Arr MBase MDirect MDecomp MEigh MSvd Hoare PTri PHouse PQR PGivens PTrid PBid PEigh PSvd PScale.
Import ListNotations.
Open Scope res_scope.

Section Transp.
Context {N : Num}.
Notation vec := (list N).
Notation mtx := (mat N).
Hypothesis opp2 : forall x : N, nopp N (nopp N x) = x.

(** ** Matrices without junk outside of their dimensions *)
Definition canon (m : mtx) : Prop := m = mk (nr m) (nc m) (get m).
Lemma canon_mk r c f : canon (mk r c f).
Proof. unfold canon. rewrite nr_mk, nc_mk. apply mk_ext. intros i j hi hj. now rewrite get_mk. Qed.
Lemma tt m : canon m -> transpose (transpose m) = m.
Proof.
  intros h. transitivity (mk (nr m) (nc m) (get m)); [|symmetry; exact h]. unfold transpose. rewrite !nr_mk, !nc_mk. apply mk_ext. intros i j hi hj. now rewrite get_mk.
Qed.
Lemma canon_tr m : canon (transpose m). Proof. apply canon_mk. Qed.
Lemma canon_put m a b s : canon (put m a b s). Proof. apply canon_mk. Qed.
Definition tr : option mtx -> option mtx := option_map transpose.
Definition ocanon (u : option mtx) : Prop := match u with Some u => canon u | None => True end.

Lemma for_ret {S} (P : S -> Prop) n lo f (s s' : S) : P s -> (forall i s s', P s -> f i s = Ret s' -> P s') -> for_ n lo f s = Ret s' -> P s'.
Proof.
  revert lo s. induction n as [|n IH]; intros lo s hs hf; cbn [for_]; [intros e; injection e as <-; auto|].
  intros e. apply bind_ret in e as (s1 & e1 & e). apply (IH _ _ (hf _ _ _ hs e1) hf e).
Qed.
Lemma for_rev_ret {S} (P : S -> Prop) n f (s s' : S) : P s -> (forall i s s', P s -> f i s = Ret s' -> P s') -> for_rev n f s = Ret s' -> P s'.
Proof.
  revert s. induction n as [|n IH]; intros s hs hf; cbn [for_rev]; [intros e; injection e as <-; auto|].
  intros e. apply bind_ret in e as (s1 & e1 & e). apply (IH _ (hf _ _ _ hs e1) hf e).
Qed.
Lemma atm2_canon (m : mtx) i j x m' : atm2 m i j x = Ret m' -> canon m'.
Proof. unfold atm2. destruct (_ && _); [|discriminate]. intros e. injection e as <-. apply canon_mk. Qed.
Lemma rotate_rows_canon g (m m' : mtx) : canon m -> rotate_rows g m = Ret m' -> canon m'.
Proof.
  intros hm. unfold rotate_rows. destruct (negb _); [discriminate|]. apply for_ret; auto. intros i s s' _ e. unfold rotate_row in e.
  apply bind_ret in e as (a & _ & e). apply bind_ret in e as (b & _ & e). apply bind_ret in e as (m1 & _ & e). eapply atm2_canon; eauto.
Qed.
Lemma rotate_cols_tr g (s : mtx) : canon s ->
  unwrap (rotate_cols g (transpose s)) = let* t := unwrap (rotate_rows (inverse g) s) in Ret (transpose t).
Proof.
  intros hs. unfold rotate_cols. rewrite tt by auto. destruct (rotate_rows (inverse g) s) as [x|e| | |]; try reflexivity. destruct e; reflexivity.
Qed.

(** ** Rotations of the two factors *)
Lemma rot_vt_stride_tr g u lo hi step : ocanon u ->
  rot_vt_stride g (tr u) lo hi step = let* u' := rot_u_stride (inverse g) u lo hi step in Ret (tr u').
Proof.
  destruct u as [u|]; [|reflexivity]. intros hu. simpl in hu. unfold rot_vt_stride, rot_u_stride, tr, option_map. rewrite (tt u hu).
  destruct (cols_stride u lo hi step) as [[s ix]| | | |] eqn:ec; try reflexivity. cbn [bind].
  assert (hs : canon s). { unfold cols_stride in ec. destruct (_ && _); [|discriminate]. injection ec as <- <-. apply canon_mk. }
  rewrite rotate_cols_tr by auto. destruct (rotate_rows (inverse g) s) as [x| | | |] eqn:ex; try reflexivity. cbn [unwrap bind].
  rewrite (tt x); [reflexivity|]. eapply rotate_rows_canon; eauto.
Qed.
Lemma rot_u_stride_canon g u lo hi step u' : rot_u_stride g u lo hi step = Ret u' -> ocanon u'.
Proof.
  destruct u as [u|]; cbn [rot_u_stride]; intros e; [|injection e as <-; exact I].
  apply bind_ret in e as ([s ix] & _ & e). apply bind_ret in e as (t & _ & e). injection e as <-. apply canon_mk.
Qed.
Lemma rot_u_canon g u k u' : rot_u g u k = Ret u' -> ocanon u'.
Proof.
  unfold rot_u, rotate_q. destruct u as [u|]; intros e; [|injection e as <-; exact I].
  apply bind_ret in e as (s & _ & e). apply bind_ret in e as (t & _ & e). injection e as <-. apply canon_mk.
Qed.
Lemma rotate_rows_dim g (m m' : mtx) : rotate_rows g m = Ret m' -> nr m' = nr m /\ nc m' = nc m.
Proof.
  unfold rotate_rows. destruct (negb _); [discriminate|]. apply (for_ret (fun x => nr x = nr m /\ nc x = nc m)); auto. intros i s s' (h1 & h2) e. unfold rotate_row in e.
  apply bind_ret in e as (a & _ & e). apply bind_ret in e as (b & _ & e). apply bind_ret in e as (m1 & e1 & e).
  unfold atm2 in e, e1. destruct (_ && _) in e1; [|discriminate]. injection e1 as <-. destruct (_ && _) in e; [|discriminate]. injection e as <-. unfold upd. rewrite !nr_mk, !nc_mk. auto.
Qed.
Lemma rot_vt_tr g u k : ocanon u -> rot_vt g (tr u) k = let* u' := rot_u (inverse g) u k in Ret (tr u').
Proof.
  destruct u as [u|]; [|reflexivity]. intros hu. simpl in hu. unfold rot_vt, rot_u, rotate_q, tr, option_map.
  assert (es : slice (transpose u) k (k + 2) 0 (nc (transpose u)) = let* s := slice u 0 (nr u) k (k + 2) in Ret (transpose s)).
  { unfold slice. rewrite nr_transpose, nc_transpose. rewrite !Nat.leb_refl. change (0 <=? nr u) with true. cbn [andb]. rewrite !andb_true_r.
    destruct ((k <=? k + 2) && (k + 2 <=? nc u)) eqn:eb; [|reflexivity]. cbn [bind]. f_equal. apply andb_prop in eb as (b1 & b2). apply Nat.leb_le in b1, b2.
    unfold transpose. rewrite !nr_mk, !nc_mk, !Nat.sub_0_r. apply mk_ext. intros i j hi hj. rewrite !get_mk by lia. reflexivity. }
  rewrite es. destruct (slice u 0 (nr u) k (k + 2)) as [s| | | |] eqn:e1; try reflexivity. cbn [bind].
  assert (hs : canon s /\ nr s = nr u /\ nc s = 2 /\ k + 2 <= nc u).
  { unfold slice in e1. destruct (_ && _) eqn:eb in e1; [|discriminate]. injection e1 as <-. rewrite nr_mk, nc_mk. split; [apply canon_mk|].
    apply andb_prop in eb as (eb & b4). apply andb_prop in eb as (eb & b3). apply Nat.leb_le in b4, b3. lia. }
  destruct hs as (hs & d1 & d2 & d3). rewrite rotate_cols_tr by auto. destruct (rotate_rows (inverse g) s) as [x| | | |] eqn:ex; try reflexivity. cbn [unwrap bind].
  destruct (rotate_rows_dim _ _ _ ex) as (x1 & x2). do 2 f_equal. unfold put, transpose. rewrite !nr_mk, !nc_mk. apply mk_ext. intros i j hi hj.
  rewrite x1, x2, d1, d2. change (0 <=? j) with true. cbn [andb].
  destruct (Nat.leb_spec k i), (Nat.ltb_spec i (k + 2)), (Nat.ltb_spec j (0 + nr u)); cbn [andb]; try lia;
    rewrite !get_mk by lia; rewrite ?x1, ?x2, ?d1, ?d2;
    try (destruct (Nat.leb_spec k i); try lia); try (destruct (Nat.ltb_spec i (k + 2)); try lia); try (destruct (Nat.ltb_spec j (0 + nr u)); try lia); cbn [andb]; reflexivity.
Qed.
Lemma inverse2 (g : givens N) : inverse (inverse g) = g.
Proof. destruct g as [x y]. unfold inverse. cbn [rc rs]. rewrite opp2. reflexivity. Qed.

(** ** The states of the two runs *)
Definition xrel (r c n : nat) (st st' : svd_state N) : Prop := exists d o u v, st = SS d o u (tr v) /\ st' = SS d o v (tr u) /\
  ush r n u /\ ush c n v /\ ocanon u /\ ocanon v.
Ltac same := eapply sim_bind; [apply sim_eq; reflexivity|intros ? ? <-].
Ltac xr := do 4 eexists; split; [reflexivity|]; split; [reflexivity|]; auto.

Lemma ust g u r n lo hi : lo < hi -> hi < n -> ush r n u -> exists u', rot_u_stride g u lo hi (hi - lo) = Ret u' /\ ush r n u' /\ ocanon u'.
Proof. intros h1 h2 h3. destruct (wp_ret _ _ (rot_u_stride_sh g u r n lo hi h1 h2 h3)) as (u' & e & h & _). exists u'. split; auto. split; auto. eapply rot_u_stride_canon; eauto. Qed.
Lemma uro g u r n k : k + 1 < n -> ush r n u -> exists u', rot_u g u k = Ret u' /\ ush r n u' /\ ocanon u'.
Proof. intros h1 h3. destruct (wp_ret _ _ (rot_u_sh g u r n k h1 h3)) as (u' & e & h & _). exists u'. split; auto. split; auto. eapply rot_u_canon; eauto. Qed.

Lemma cancel_horizontal_x r c n i e st st' : xrel r c n st st' -> i < e -> e < n ->
  sim (xrel r c n) (cancel_horizontal true i e st) (cancel_horizontal false i e st').
Proof.
  intros (d & o & u & v & -> & -> & hu & hv & cu & cv) hi he. unfold cancel_horizontal. cbn [sd so su sv]. same. same. same.
  eapply sim_bind with (R := fun s s' => fst s = fst s' /\ xrel r c n (snd s) (snd s')).
  2: { intros [p1 s1] [p2 s2]. cbn [fst snd]. intros (_ & h). exact h. }
  eapply sim_for_brk with (R := fun _ s s' => fst s = fst s' /\ xrel r c n (snd s) (snd s')).
  - cbn [fst snd]. split; auto. xr.
  - intros k [[v0 v1] s1] [[v0' v1'] s'] hk. cbn [fst snd]. intros (e1 & d1 & o1 & u1 & w1 & -> & -> & g1 & g2 & g3 & g4). injection e1 as <- <-. cbn [sd so su sv].
    destruct (cancel_x v0 v1) as [[rot norm]|].
    2: { cbn [sim fst snd]. split; auto. split; auto. xr. }
    same. replace (k - i + 1) with ((k + 1) - i) by lia.
    rewrite rot_vt_stride_tr by auto. destruct (ust (inverse rot) u1 r n i (k + 1) ltac:(lia) ltac:(lia) g1) as (u2 & eu & k1 & k2). rewrite eu. cbn [bind].
    destruct (negb _).
    + same. same. same. cbn [sim fst snd]. split; auto. split; auto. xr.
    + cbn [sim fst snd]. split; auto. split; auto. xr.
  - auto.
Qed.

Lemma cancel_vertical_x r c n i st st' : xrel r c n st st' -> i + 1 < n ->
  sim (xrel r c n) (cancel_vertical true i st) (cancel_vertical false i st').
Proof.
  intros (d & o & u & v & -> & -> & hu & hv & cu & cv) hi. unfold cancel_vertical. cbn [sd so su sv]. same. same. same.
  eapply sim_bind with (R := fun s s' => fst s = fst s' /\ xrel r c n (snd s) (snd s')).
  2: { intros [p1 s1] [p2 s2]. cbn [fst snd]. intros (_ & h). exact h. }
  eapply sim_for_rev_brk with (R := fun _ s s' => fst s = fst s' /\ xrel r c n (snd s) (snd s')).
  - cbn [fst snd]. split; auto. xr.
  - intros k [[v0 v1] s1] [[v0' v1'] s'] hk. cbn [fst snd]. intros (e1 & d1 & o1 & u1 & w1 & -> & -> & g1 & g2 & g3 & g4). injection e1 as <- <-. cbn [sd so su sv].
    destruct (cancel_y v0 v1) as [[rot norm]|].
    2: { cbn [sim fst snd]. split; auto. split; auto. xr. }
    same. replace (i - k + 1) with ((i + 1) - k) by lia.
    rewrite rot_vt_stride_tr by auto. destruct (ust (inverse rot) w1 c n k (i + 1) ltac:(lia) ltac:(lia) g2) as (u2 & eu & k1 & k2). rewrite eu. cbn [bind].
    destruct (Nat.ltb 0 k).
    + same. same. same. same. cbn [sim fst snd]. split; auto. split; auto. xr.
    + cbn [sim fst snd]. split; auto. split; auto. xr.
  - auto.
Qed.

Lemma svd_delim_end_x r c n eps e : forall st st', xrel r c n st st' -> e < n ->
  sim (fun x y => fst x = fst y /\ fst x <= e /\ xrel r c n (snd x) (snd y)) (svd_delim_end true eps e st) (svd_delim_end false eps e st').
Proof.
  induction e as [|m IH]; intros st st' hv he; cbn [svd_delim_end].
  - cbn [sim fst snd]. auto.
  - assert (next : forall st' st'', xrel r c n st' st'' -> sim (fun x y => fst x = fst y /\ fst x <= S m /\ xrel r c n (snd x) (snd y))
      (svd_delim_end true eps m st') (svd_delim_end false eps m st'')).
    { intros s1 s2 hs. eapply sim_mono; [apply IH; [exact hs|lia]|]. intros x y (h1 & h2 & h3). auto. }
    destruct hv as (d & o & u & v & -> & -> & hu & hv & cu & cv). cbn [sd so su sv].
    same. same. same. destruct (_ || _).
    { same. apply next. xr. }
    destruct (nle N _ eps).
    { same. eapply sim_bind; [apply (cancel_horizontal_x r c n); [xr|lia..]|]. intros st1 st2 k1.
      eapply sim_bind with (R := xrel r c n); [|exact next].
      destruct (Nat.eqb_spec m 0); cbn [negb]; [exact k1|].
      eapply sim_bind; [apply sim_post with (P := fun v => v = m - 1); apply post_usub; [lia|auto]|intros ? ? (<- & ->)].
      apply cancel_vertical_x; auto. lia. }
    destruct (nle N _ eps).
    { same. eapply sim_bind; [apply (cancel_vertical_x r c n); [xr|lia]|exact next]. }
    cbn [sim fst snd]. split; auto. split; auto. xr.
Qed.

Lemma svd_delim_start_x r c n eps k s : forall st st', xrel r c n st st' -> s < k -> k < n ->
  sim (fun x y => fst x = fst y /\ fst x <= s /\ xrel r c n (snd x) (snd y)) (svd_delim_start true eps k s st) (svd_delim_start false eps k s st').
Proof.
  induction s as [|m IH]; intros st st' hv hk he; cbn [svd_delim_start].
  - cbn [sim fst snd]. auto.
  - destruct hv as (d & o & u & v & -> & -> & hu & hv & cu & cv). cbn [sd so su sv].
    same. same. same. destruct (nle N _ _).
    { same. cbn [sim fst snd]. split; auto. split; auto. xr. }
    destruct (nle N _ eps).
    { same. eapply sim_bind; [apply (cancel_horizontal_x r c n); [xr|lia..]|]. intros st1 st2 k1.
      eapply sim_bind with (R := xrel r c n).
      - destruct (Nat.eqb_spec m 0); cbn [negb]; [exact k1|].
        eapply sim_bind; [apply sim_post with (P := fun v => v = m - 1); apply post_usub; [lia|auto]|intros ? ? (<- & ->)].
        apply cancel_vertical_x; auto. lia.
      - intros aa bb hr. cbn [sim fst snd]. auto. }
    eapply sim_mono; [apply IH; [xr|lia..]|]. intros x y (h1 & h2 & h3). auto.
Qed.

Lemma svd_delimit_x r c n e eps st st' : xrel r c n st st' -> e < n ->
  sim (fun x y => fst x = fst y /\ (fst (fst x) <= snd (fst x) /\ snd (fst x) <= e) /\ xrel r c n (snd x) (snd y))
    (svd_delimit true e eps st) (svd_delimit false e eps st').
Proof.
  intros hv he. unfold svd_delimit. eapply sim_bind; [apply (svd_delim_end_x r c n); eauto|].
  intros [k st1] [k' st1']. cbn [fst snd]. intros (<- & h1 & h2). destruct (Nat.eqb_spec k 0).
  - cbn [sim fst snd]. split; auto. split; [lia|]. auto.
  - eapply sim_bind; [apply sim_post with (P := fun v => v = k - 1); apply post_usub; [lia|auto]|intros ? ? (<- & ->)].
    eapply sim_bind; [apply (svd_delim_start_x r c n); [exact h2|lia..]|].
    intros [s st2] [s' st2']. cbn [fst snd]. intros (<- & h3 & h4). cbn [sim fst snd].
    split; auto. split; [lia|]. auto.
Qed.

Lemma svd_sweep_step_x r c n start e k xy st st' : xrel r c n st st' -> start <= k -> k < e -> e < n ->
  sim (fun x y => fst x = fst y /\ fst (snd x) = fst (snd y) /\ xrel r c n (snd (snd x)) (snd (snd y)))
    (svd_sweep_step true start e k (xy, st)) (svd_sweep_step false start e k (xy, st')).
Proof.
  destruct xy as [x y]. intros (d & o & u & v & -> & -> & hu & hv & cu & cv) hs hk he.
  unfold svd_sweep_step. cbn [sd so su sv]. same. same. same. same. same.
  destruct (cancel_y x y) as [[rot1 norm1]|].
  2: { cbn [sim fst snd]. split; auto. split; auto. xr. }
  same. same. same. same. same.
  eapply sim_bind; [apply sim_eq; reflexivity|intros [[sm rot2] norm2] ? <-]. same. cbn [negb].
  rewrite rot_vt_tr by auto. destruct (uro (inverse rot1) v c n k ltac:(lia) hv) as (v2 & ev & k1 & k2). rewrite ev. cbn [bind].
  destruct rot2 as [rot2|].
  - rewrite rot_vt_tr by auto. destruct (uro (inverse rot2) u r n k ltac:(lia) hu) as (u2 & eu & k3 & k4). rewrite eu. cbn [bind].
    do 9 same. cbn [sim fst snd]. split; auto. split; auto. xr.
  - cbn [bind]. do 9 same. cbn [sim fst snd]. split; auto. split; auto. xr.
Qed.

Lemma svd_big_x r c n start e st st' : xrel r c n st st' -> start + 1 < e -> e < n ->
  sim (xrel r c n) (svd_big true start e st) (svd_big false start e st').
Proof.
  intros hx h1 h2. assert (hx' := hx). destruct hx' as (d & o & u & v & e1 & e2 & _).
  unfold svd_big. replace (so st') with (so st) by (subst; reflexivity). replace (sd st') with (sd st) by (subst; reflexivity).
  do 8 same.
  eapply sim_bind with (R := fun s s' => fst s = fst s' /\ xrel r c n (snd s) (snd s')).
  2: { intros [p1 s1] [p2 s2]. cbn [fst snd]. intros (_ & h). exact h. }
  eapply sim_for_brk with (R := fun _ s s' => fst s = fst s' /\ xrel r c n (snd s) (snd s')).
  - cbn [fst snd]. auto.
  - intros k [xy st1] [xy' st1'] hk. cbn [fst snd]. intros (<- & hv1).
    eapply sim_mono; [apply (svd_sweep_step_x r c n); [exact hv1|lia..]|].
    intros [b [p q]] [b' [p' q']]. cbn [fst snd]. intros (<- & <- & hr). split; auto. destruct b; auto.
  - auto.
Qed.

Lemma svd_two_x r c n cu cv start st st' : xrel r c n st st' -> flags cu cv st -> start + 1 < n ->
  sim (xrel r c n) (svd_two true cu cv start st) (svd_two false cv cu start st').
Proof.
  intros (d & o & u & v & -> & -> & hu & hv & ku & kv) (f1 & f2) hn. cbn [su sv] in f1, f2.
  unfold svd_two. cbn [sd so su sv]. same. same. same. cbn [negb].
  replace (cv && false || cu && true) with (cu && true || cv && false) by (destruct cu, cv; reflexivity).
  replace (cu && false || cv && true) with (cv && true || cu && false) by (destruct cu, cv; reflexivity).
  destruct (compute_2x2_uptrig_svd _ _ _ _ _) as [[[s1 s2] u2] v2] eqn:ec.
  assert (hg : (cu = true -> u2 <> None) /\ (cv = true -> v2 <> None)).
  { unfold compute_2x2_uptrig_svd in ec. destruct (givens_new _ _) as [csv sgv] in ec. destruct (givens_new _ _) as [csu sgu] in ec.
    split; intros ->; destruct cu || destruct cv; cbn in ec; injection ec; intros; subst; discriminate. }
  same. same. same.
  destruct u as [u|], v as [v|]; cbn [tr option_map] in *; subst cu cv; destruct hg as (hg1 & hg2);
    try specialize (hg1 eq_refl); try specialize (hg2 eq_refl); destruct u2 as [u2|], v2 as [v2|]; try congruence; cbn [unwrap_opt bind].
  all: try change (Some (transpose u)) with (tr (Some u)); try change (Some (transpose v)) with (tr (Some v)).
  all: rewrite ?rot_vt_tr by auto; rewrite ?inverse2.
  all: try (destruct (uro u2 (Some u) r n start hn hu) as (u' & eu & k1 & k2); rewrite eu; cbn [bind]).
  all: try (destruct (uro v2 (Some v) c n start hn hv) as (v' & ev & k3 & k4); rewrite ev; cbn [bind]).
  all: cbn [sim].
  all: first [exists a3, a4, u', v'; split; [reflexivity|]; split; [reflexivity|]; now auto
    |exists a3, a4, u', None; split; [reflexivity|]; split; [reflexivity|]; now auto
    |exists a3, a4, None, v'; split; [reflexivity|]; split; [reflexivity|]; now auto
    |exists a3, a4, None, None; split; [reflexivity|]; split; [reflexivity|]; now auto].
Qed.

Lemma svd_loop_x r c n cu cv eps fuel : forall start e st st', xrel r c n st st' -> ss_shape r c n st -> flags cu cv st -> start <= e -> e < n ->
  sim (xrel r c n) (svd_loop fuel true cu cv eps start e st) (svd_loop fuel false cv cu eps start e st').
Proof.
  induction fuel as [|fuel IH]; intros start e st st' hx hs hfl h1 h2; cbn [svd_loop].
  - destruct (Nat.eqb e start); cbn [sim]; auto.
  - destruct (Nat.eqb_spec e start); [cbn [sim]; auto|].
    eapply sim_bind; [apply sim_post with (P := fun v => v = e - start); apply post_usub; [lia|auto]|intros ? ? (<- & ->)].
    eapply sim_bind with (R := fun x y => snd x = snd y /\ snd x <= e /\ sok r c n st (fst x) /\ xrel r c n (fst x) (fst y)).
    { destruct (Nat.ltb_spec 2 (S (e - start))).
      - eapply sim_bind; [apply sim_and_wp; [apply (svd_big_x r c n); [exact hx|lia..]|apply (svd_big_safe r c n); auto; lia]|].
        intros st1 st1' (g1 & g). cbn [sim fst snd]. auto.
      - destruct (Nat.eqb_spec (S (e - start)) 2); [|lia].
        eapply sim_bind; [apply sim_and_wp; [apply (svd_two_x r c n); [exact hx|auto|lia]|apply (svd_two_safe r c n); auto; lia]|].
        intros st1 st1' (g1 & g).
        eapply sim_bind; [apply sim_post with (P := fun v => v = e - 1); apply post_usub; [lia|auto]|intros ? ? (<- & ->)].
        cbn [sim fst snd]. split; auto. split; [lia|]. auto. }
    intros [st1 e1] [st1' e1']. cbn [fst snd]. intros (<- & g1 & g2 & g3).
    eapply sim_bind; [apply sim_and_wp; [apply (svd_delimit_x r c n); [exact g3|lia]|apply (svd_delimit_safe r c n); [apply g2|lia]]|].
    intros [[s' e'] st2] [[s'' e''] st2']. cbn [fst snd]. intros ((k1 & k2 & k3) & (_ & _ & k4)).
    injection k1 as <- <-. apply IH; [exact k3|apply k4| |lia..].
    eapply flags_mono; [exact hfl|]. eapply ss_flag_trans; [apply g2|apply k4].
Qed.

(** ** The bidiagonalisations *)
Lemma clear_column_canon (m m' : mtx) i s x : clear_column m i s = Ret (m', x) -> canon m'.
Proof.
  unfold clear_column. intros e. apply bind_ret in e as (ax & _ & e). apply bind_ret in e as ([ax' rn] & _ & e). destruct rn as [rn|].
  - apply bind_ret in e as (t & _ & e). apply bind_ret in e as (t' & _ & e). injection e as <- _. apply canon_mk.
  - injection e as <- _. apply canon_mk.
Qed.
Lemma clear_x (m : mtx) i s : canon m ->
  sim (fun x y => snd x = snd y /\ fst y = transpose (fst x) /\ canon (fst x)) (clear_column m i s) (clear_row (transpose m) i s).
Proof.
  intros hm. unfold clear_row. rewrite (tt m hm). destruct (clear_column m i s) as [[t x]| | | |] eqn:e; cbn [bind sim fst snd]; auto.
  apply clear_column_canon in e. auto.
Qed.
Lemma clear_x' (m : mtx) i s : sim (fun x y => snd x = snd y /\ fst y = transpose (fst x) /\ canon (fst x)) (clear_row m i s) (clear_column (transpose m) i s).
Proof.
  unfold clear_row. destruct (clear_column (transpose m) i s) as [[t x]| | | |] eqn:e; cbn [bind sim fst snd]; auto.
  apply clear_column_canon in e. rewrite (tt t e). split; auto. split; auto. apply canon_mk.
Qed.
Definition brel (b b' : bidecomp N) : Prop := bi_off b = bi_off b' /\ bi_diag b = bi_diag b' /\ upper_diag b = true /\ upper_diag b' = false /\
  uv b' = transpose (uv b) /\ canon (uv b).
Lemma bidiagonal_x (s : mtx) : canon s -> nc s < nr s -> sim brel (bidiagonal s) (bidiagonal (transpose s)).
Proof.
  intros hs hn. unfold bidiagonal. rewrite nr_transpose, nc_transpose, (Nat.min_comm (nc s) (nr s)).
  destruct (Nat.eqb _ _); [reflexivity|]. destruct (Nat.leb_spec (nc s) (nr s)); [|lia]. destruct (Nat.leb_spec (nr s) (nc s)); [lia|].
  eapply sim_bind with (R := fun x y => snd x = snd y /\ snd (fst x) = snd (fst y) /\ fst (fst y) = transpose (fst (fst x)) /\ canon (fst (fst x))).
  - eapply sim_for with (R := fun _ x y => snd x = snd y /\ snd (fst x) = snd (fst y) /\ fst (fst y) = transpose (fst (fst x)) /\ canon (fst (fst x))).
    + cbn [fst snd]. auto.
    + intros i [[m d] o] [[m' d'] o'] hi. cbn [fst snd]. intros (<- & <- & -> & hm).
      eapply sim_bind; [apply clear_x, hm|]. intros [m1 x] [m1' x']. cbn [fst snd]. intros (<- & -> & hm1). same.
      eapply sim_bind; [apply clear_x'|]. intros [m2 y] [m2' y']. cbn [fst snd]. intros (<- & -> & hm2). same.
      cbn [sim fst snd]. auto.
  - intros [[m d] o] [[m' d'] o']. cbn [fst snd]. intros (<- & <- & -> & hm).
    eapply sim_bind; [apply clear_x, hm|]. intros [m1 x] [m1' x']. cbn [fst snd]. intros (<- & -> & hm1). same.
    cbn [sim]. unfold brel. cbn [bi_off bi_diag upper_diag uv]. auto 7.
Qed.

Lemma assemble_q_canon (m : mtx) k f q : assemble_q m k f = Ret q -> canon q.
Proof.
  unfold assemble_q. intros e. apply bind_ret in e as (cnt & _ & e). revert e. apply for_rev_ret.
  - destruct (Nat.eqb _ _); apply canon_mk.
  - intros i a a' _ e. apply bind_ret in e as (x1 & _ & e). apply bind_ret in e as (x2 & _ & e). apply bind_ret in e as (x3 & _ & e). apply bind_ret in e as (x4 & _ & e).
    injection e as <-. apply canon_mk.
Qed.
Lemma generate_x b b' : brel b b' ->
  sim (fun u v => v = transpose u /\ canon u) (generate_u b) (generate_vt b') /\ sim (fun u v => u = transpose v /\ canon v) (generate_vt b) (generate_u b').
Proof.
  intros (h1 & h2 & h3 & h4 & h5 & h6). unfold generate_u, generate_vt. rewrite h3, h4, h5, <- h1, <- h2, (tt _ h6). split.
  - destruct (assemble_q (uv b) 0 _) as [q| | | |] eqn:e; cbn [bind sim]; auto. split; auto. eapply assemble_q_canon; eauto.
  - destruct (assemble_q (transpose (uv b)) 1 _) as [q| | | |] eqn:e; cbn [bind sim]; auto. split; auto. eapply assemble_q_canon; eauto.
Qed.

(** ** The whole decomposition, before the normalisation of the signs *)
Lemma svd_core_x fuel (s : mtx) cu cv eps : canon s -> nc s < nr s -> 1 <= nc s ->
  sim (fun x y => exists d u v, x = (d, u, tr v) /\ y = (d, v, tr u) /\ ush (nr s) (nc s) u /\ ush (nc s) (nc s) v /\ length d = nc s)
    (svd_core fuel s cu cv eps) (svd_core fuel (transpose s) cv cu eps).
Proof.
  intros hs hn h1. unfold svd_core. rewrite nr_transpose, nc_transpose, (Nat.min_comm (nc s) (nr s)).
  destruct (svd_init s cu cv ltac:(lia) h1) as (b & u0 & v0 & eb & hb & eu & ev & hsh & hfl).
  pose proof (bidiagonal_x s hs hn) as hx. rewrite eb in *. cbn [bind].
  destruct (bidiagonal (transpose s)) as [b'| | | |]; simpl in hx; try contradiction. cbn [bind].
  destruct (generate_x b b' hx) as (g1 & g2). destruct hx as (x1 & x2 & x3 & x4 & x5 & x6).
  replace (Nat.min (nr s) (nc s)) with (nc s) in * by lia.
  assert (hi : exists u v, (if cu then let* u := generate_u b in Ret (Some u) else Ret None) = Ret u /\
     (if cv then let* v := generate_vt b in Ret (Some v) else Ret None) = Ret (tr v) /\
     (if cv then let* u := generate_u b' in Ret (Some u) else Ret None) = Ret v /\
     (if cu then let* v := generate_vt b' in Ret (Some v) else Ret None) = Ret (tr u) /\ u0 = u /\ v0 = tr v /\ ocanon u /\ ocanon v).
  { exists u0. destruct cu, cv; cbn [bind] in *.
    - destruct (generate_u b) as [u| | | |]; try discriminate. destruct (generate_vt b) as [v| | | |]; try discriminate. cbn [bind] in *. injection eu as <-. injection ev as <-.
      destruct (generate_u b') as [u'| | | |]; simpl in g2; try contradiction. destruct (generate_vt b') as [v'| | | |]; simpl in g1; try contradiction. destruct g1 as (-> & k1). destruct g2 as (-> & k2).
      exists (Some u'). cbn. auto 10.
    - destruct (generate_u b) as [u| | | |]; try discriminate. cbn [bind] in *. injection eu as <-. injection ev as <-.
      destruct (generate_vt b') as [v'| | | |]; simpl in g1; try contradiction. destruct g1 as (-> & k1).
      exists None. cbn. auto 10.
    - destruct (generate_vt b) as [v| | | |]; try discriminate. cbn [bind] in *. injection eu as <-. injection ev as <-.
      destruct (generate_u b') as [u'| | | |]; simpl in g2; try contradiction. destruct g2 as (-> & k2).
      exists (Some u'). cbn. auto 10.
    - injection eu as <-. injection ev as <-. exists None. cbn. auto 10. }
  destruct hi as (u & v & i1 & i2 & i3 & i4 & -> & -> & c1 & c2). rewrite i1, i2, i3, i4. cbn [bind].
  unfold bi_into_diagonals in *. rewrite <- x1, <- x2, x3, x4. cbn [fst snd] in *. set (st := SS _ _ u (tr v)) in *.
  eapply sim_bind; [apply sim_post with (P := fun v => v = nc s - 1); apply post_usub; [lia|auto]|intros ? ? (<- & ->)].
  assert (hx : xrel (nr s) (nc s) (nc s) st (SS (vmap (nabs N) (bi_diag b)) (vmap (nabs N) (bi_off b)) v (tr u))).
  { exists (vmap (nabs N) (bi_diag b)), (vmap (nabs N) (bi_off b)), u, v. split; [reflexivity|]. split; [reflexivity|]. destruct hsh as (_ & _ & k3 & k4). unfold st in k3, k4. cbn [su sv] in k3, k4.
    split; auto. split; auto. destruct v as [v|]; auto. unfold ush, tr, option_map in *. rewrite nr_transpose, nc_transpose in k4. tauto. }
  eapply sim_bind; [apply sim_and_wp; [apply (svd_delimit_x (nr s) (nc s) (nc s)); [exact hx|lia]|apply (svd_delimit_safe (nr s) (nc s) (nc s)); [exact hsh|lia]]|].
  intros [[s1 e1] st1] [[s2 e2] st2]. cbn [fst snd]. intros ((k1 & k2 & k3) & (_ & _ & k4)). injection k1 as <- <-.
  assert (hfl' : flags cu cv st1) by (eapply flags_mono; [exact hfl|apply k4]).
  pose proof (svd_loop_x (nr s) (nc s) (nc s) cu cv eps fuel s1 e1 st1 st2 k3 (proj1 k4) hfl' ltac:(lia) ltac:(lia)) as hl.
  pose proof (svd_loop_safe (nr s) (nc s) (nc s) true cu cv eps fuel s1 e1 st1 (proj1 k4) hfl' ltac:(lia) ltac:(lia)) as hl2.
  destruct (svd_loop fuel true cu cv eps s1 e1 st1) as [st3| | | |]; simpl in hl2; try contradiction;
    destruct (svd_loop fuel false cv cu eps s1 e1 st2) as [st4| | | |]; simpl in hl; try contradiction; cbn [bind sim]; auto.
  destruct hl as (d & o & u1 & v1 & -> & -> & m1 & m2 & m3 & m4). cbn [sd su sv]. exists d, u1, v1. destruct hl2 as ((q1 & _) & _). cbn [sd] in q1. auto 6.
Qed.

(** ** The whole function *)
Lemma fix_signs_x r c n (d : vec) (u v : option mtx) : length d = n -> ush r n u -> ush c n v ->
  sim (fun x y => fst x = fst y) (svd_fix_signs n d u) (svd_fix_signs n d v).
Proof.
  intros hd hu hv. unfold svd_fix_signs.
  eapply sim_mono; [eapply sim_for with (R := fun _ (s s' : vec * option mtx) => fst s = fst s' /\ length (fst s) = n /\ ush r n (snd s) /\ ush c n (snd s'))|].
  - cbn [fst snd]. auto.
  - intros i [d1 u1] [d1' v1] hi. cbn [fst snd]. intros (<- & h1 & h2 & h3).
    same. destruct (nis_neg N a); [|cbn [sim fst snd]; auto].
    eapply sim_bind; [apply sim_post with (P := fun x => length x = n); apply post_set1; [lia|now rewrite length_vupd]|intros d2 ? (<- & hd2)].
    eapply sim_bind with (R := fun x y => ush r n x /\ ush c n y).
    + destruct u1 as [u1|], v1 as [v1|]; simpl in h2, h3; unfold column, col_from;
       repeat match goal with |- context [?x <? ?y] => destruct (Nat.ltb_spec x y); [|lia] end; repeat match goal with |- context [0 <=? ?x] => change (0 <=? x) with true end; cbn [andb bind sim ush]; rewrite ?nr_put_col, ?nc_put_col; auto.
    + intros x y (hx & hy). cbn [sim fst snd]. auto.
  - intros x y h. apply h.
Qed.

Theorem svd_x fuel (a : mtx) cu cv eps : canon a -> nc a < nr a -> 1 <= nc a -> abs_max (transpose a) = abs_max a ->
  sim (fun x y => snd (fst x) = snd (fst y) /\
      exists d u v u1 v1, svd_fix_signs (nc a) d u = Ret (snd (fst x), u1) /\ svd_fix_signs (nc a) d v = Ret (snd (fst y), v1) /\
        fst (fst x) = u1 /\ snd x = tr v /\ fst (fst y) = v1 /\ snd y = tr u /\ ush (nr a) (nc a) u /\ ush (nc a) (nc a) v /\ length d = nc a)
    (svd_eps fuel a cu cv eps) (svd_eps fuel (transpose a) cv cu eps).
Proof.
  intros ha hn h1 hm. rewrite !svd_eps_core by (rewrite ?nr_transpose, ?nc_transpose; lia). rewrite hm, nr_transpose, nc_transpose.
  replace (Nat.min (nr a) (nc a)) with (nc a) by lia. replace (Nat.min (nc a) (nr a)) with (nc a) by lia.
  assert (es : scale_down (transpose a) (abs_max a) = transpose (scale_down a (abs_max a)) /\ canon (scale_down a (abs_max a))).
  { unfold scale_down. destruct (negb _); auto. split; [|apply canon_mk]. unfold mmap, transpose. rewrite ?nr_mk, ?nc_mk. apply mk_ext. intros i j hi hj. rewrite !get_mk by auto. reflexivity. }
  destruct es as (es & hc). rewrite es. set (s := scale_down a (abs_max a)) in *.
  assert (d1 : nr s = nr a) by apply nr_scale_down. assert (d2 : nc s = nc a) by apply nc_scale_down.
  eapply sim_bind; [apply (svd_core_x fuel s cu cv eps hc); lia|].
  intros ? ? (d & u & v & -> & -> & hu & hv & hd). cbn [fst snd]. rewrite d1, d2 in *.
  set (dd := vmap _ d). assert (hl : length dd = nc a) by (unfold dd, vmap; rewrite length_vmk; auto).
  pose proof (fix_signs_x (nr a) (nc a) (nc a) dd u v hl hu hv) as hf.
  destruct (svd_fix_signs (nc a) dd u) as [[x1 x2]| | | |] eqn:e1, (svd_fix_signs (nc a) dd v) as [[y1 y2]| | | |] eqn:e2; simpl in hf; try contradiction; subst; cbn [bind sim fst snd]; auto.
  split; auto. exists dd, u, v, x2, y2. auto 12.
Qed.
End Transp.
