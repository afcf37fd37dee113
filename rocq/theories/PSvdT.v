(** * Every update of U and Vt in svd.rs is a plane rotation: a trace of the run, any scalar semantics *)
From Coq Require Import Reals List Arith Lia Bool.
From Verif Require Import Scalar Arr MBase MDirect MDecomp MEigh MSvd Inst Hoare Spec RLin PTri PHouse PQR PTrid PBid PGivens PEigh PSvd.
Import ListNotations.
Open Scope res_scope.

Section Trace.
Context {N : Num}.
Notation vec := (list N).
Notation mtx := (mat N).
Local Open Scope nat_scope.

(** The rotations of givens.rs: the identity, the results of cancel_y and of try_new, a changed sign of
    the sine (inverse, cancel_x) *)
Inductive rsrc : N -> N -> Prop :=
| rs_id : rsrc (n1 N) (n0 N)
| rs_y x y : nis_zero N y = false -> rsrc (ndiv N x (nhypot N x y)) (ndiv N (nopp N y) (nhypot N x y))
| rs_new x y : nlt N (n0 N) (nhypot N x y) = true -> rsrc (ndiv N x (nhypot N x y)) (ndiv N y (nhypot N x y))
| rs_opp c s : rsrc c s -> rsrc c (nopp N s)
| rs_m1 c s : rsrc c s -> rsrc c (nmul N s (nopp N (n1 N))).
Definition gsrc (g : givens N) : Prop := rsrc (rc g) (rs g).

Lemma cancel_y_src x y g r : cancel_y x y = Some (g, r) -> gsrc g.
Proof.
  unfold cancel_y. destruct (nis_zero N y) eqn:e; cbn [negb]; intros h; [discriminate|]. injection h as <- <-. unfold gsrc. cbn [rc rs]. constructor. auto.
Qed.
Lemma cancel_x_src x y g r : cancel_x x y = Some (g, r) -> gsrc g.
Proof.
  unfold cancel_x. destruct (cancel_y y x) as [[g' r']|] eqn:e; intros h; [|discriminate]. injection h as <- <-. apply rs_m1. eapply (cancel_y_src _ _ _ _ e).
Qed.
Lemma inverse_src g : gsrc g -> gsrc (inverse g).
Proof. intros h. unfold gsrc. cbn [inverse rc rs]. apply rs_opp. exact h. Qed.
Lemma givens_new_src c s : gsrc (fst (givens_new c s)).
Proof.
  unfold givens_new, try_new. destruct (nlt N (n0 N) (nhypot N c s)) eqn:e; [|apply rs_id]. apply rs_new. auto.
Qed.

(** at most k steps of R lead from u to u' *)
Inductive rots (R : givens N -> nat -> nat -> mtx -> mtx -> Prop) (n : nat) (u : mtx) : nat -> mtx -> Prop :=
| rots_0 : rots R n u 0 u
| rots_skip k u1 : rots R n u k u1 -> rots R n u (S k) u1
| rots_step k u1 u2 g a b : rots R n u k u1 -> gsrc g -> a < n -> b < n -> a <> b -> R g a b u1 u2 -> rots R n u (S k) u2.

Lemma rots_le R n u k k' u' : k <= k' -> rots R n u k u' -> rots R n u k' u'.
Proof. induction 1; auto. intros h. apply rots_skip. auto. Qed.
Lemma rots_trans R n u k u1 k' u2 : rots R n u k u1 -> rots R n u1 k' u2 -> rots R n u (k + k') u2.
Proof.
  intros h1 h2. induction h2 as [|k' u2 h2 IH|k' u2 u3 g a b h2 IH hg ha hb hab hc].
  - rewrite Nat.add_0_r. auto.
  - rewrite Nat.add_succ_r. apply rots_skip. auto.
  - rewrite Nat.add_succ_r. exact (rots_step R n u _ _ _ g a b IH hg ha hb hab hc).
Qed.
Definition orots R (n k : nat) (u u' : option mtx) : Prop :=
  match u, u' with Some u, Some u' => rots R n u k u' | None, None => True | _, _ => False end.
Lemma orots_0 R n u : orots R n 0 u u. Proof. destruct u; simpl; auto. apply rots_0. Qed.
Lemma orots_le R n k k' u u' : k <= k' -> orots R n k u u' -> orots R n k' u u'.
Proof. destruct u, u'; simpl; auto. apply rots_le. Qed.
Lemma orots_trans R n k k' u u1 u2 : orots R n k u u1 -> orots R n k' u1 u2 -> orots R n (k + k') u u2.
Proof. destruct u, u1, u2; simpl; try tauto. apply rots_trans. Qed.
Lemma orots_1 R n g a b u u' : gsrc g -> a < n -> b < n -> a <> b -> orel (R g a b) u u' -> orots R n 1 u u'.
Proof. destruct u as [u|], u' as [u'|]; simpl; auto. intros hg ha hb hab hc. exact (rots_step R n u _ _ _ g a b (rots_0 R n u) hg ha hb hab hc). Qed.
Lemma orots_flag R n k u u' : orots R n k u u' -> same_flag u u'.
Proof. destruct u, u'; simpl; auto. Qed.

Lemma rot_u_stride_tr (g : givens N) (u : option mtx) r n a b : a < b -> b < n -> gsrc g -> ush r n u ->
  wp (rot_u_stride g u a b (b - a)) (fun u' => ush r n u' /\ orots colrot n 1 u u').
Proof.
  intros h1 h2 hg hu. eapply post_mono; [eapply rot_u_stride_ok; eauto using ush_cols|].
  intros u' h. split; [eapply orel_colrot_sh; eauto|apply (orots_1 colrot n g a b); auto; lia].
Qed.
Lemma rot_vt_stride_tr (g : givens N) (v : option mtx) n c a b : a < b -> b < n -> gsrc g -> ush n c v ->
  wp (rot_vt_stride g v a b (b - a)) (fun u' => ush n c u' /\ orots rowrot n 1 v u').
Proof.
  intros h1 h2 hg hu. eapply post_mono; [eapply rot_vt_stride_ok; eauto using ush_rows|].
  intros u' h. split; [eapply orel_rowrot_sh; eauto|apply (orots_1 rowrot n g a b); auto; lia].
Qed.
Lemma rot_u_tr (g : givens N) (u : option mtx) r n k : k + 1 < n -> gsrc g -> ush r n u ->
  wp (rot_u g u k) (fun u' => ush r n u' /\ orots colrot n 1 u u').
Proof.
  intros h1 hg hu. eapply post_mono; [eapply rot_u_ok; eauto using ush_cols|].
  intros u' h. split; [eapply orel_colrot_sh; eauto|apply (orots_1 colrot n g k (k + 1)); auto; lia].
Qed.
Lemma rot_vt_tr (g : givens N) (v : option mtx) n c k : k + 1 < n -> gsrc g -> ush n c v ->
  wp (rot_vt g v k) (fun u' => ush n c u' /\ orots rowrot n 1 v u').
Proof.
  intros h1 hg hu. eapply post_mono; [eapply rot_vt_ok; eauto using ush_rows|].
  intros u' h. split; [eapply orel_rowrot_sh; eauto|apply (orots_1 rowrot n g k (k + 1)); auto; lia].
Qed.
Lemma ret_u r n u : ush r n u -> wp (Ret u) (fun u' => ush r n u' /\ orots colrot n 1 u u').
Proof. intros h. apply post_ret. split; auto. eapply orots_le; [|apply orots_0]. lia. Qed.
Lemma ret_v n c u : ush n c u -> wp (Ret u) (fun u' => ush n c u' /\ orots rowrot n 1 u u').
Proof. intros h. apply post_ret. split; auto. eapply orots_le; [|apply orots_0]. lia. Qed.

(** st' has the shapes of an r x c problem and comes from st by at most k rotations on either side *)
Definition tok (r c n k : nat) (st st' : svd_state N) : Prop :=
  ss_shape r c n st' /\ orots colrot n k (su st) (su st') /\ orots rowrot n k (sv st) (sv st').
Lemma tok_le r c n k k' a b : k <= k' -> tok r c n k a b -> tok r c n k' a b.
Proof. intros h (h1 & h2 & h3). split; auto. split; eapply orots_le; eauto. Qed.
Lemma tok_trans r c n k k' a b d : tok r c n k a b -> tok r c n k' b d -> tok r c n (k + k') a d.
Proof. intros (h1 & h2 & h3) (h4 & h5 & h6). split; auto. split; eapply orots_trans; eauto. Qed.
Lemma tok_refl r c n st : ss_shape r c n st -> tok r c n 0 st st.
Proof. intros h. split; auto. split; apply orots_0. Qed.
Lemma tok_set r c n st d o : ss_shape r c n st -> length d = n -> length o = n - 1 -> tok r c n 0 st (SS d o (su st) (sv st)).
Proof. intros (h1 & h2 & h3 & h4) hd ho. split; [repeat split; auto|split; apply orots_0]. Qed.
Lemma tok_flag r c n k a b : tok r c n k a b -> ss_flag a b.
Proof. intros (h1 & h2 & h3). split; eapply orots_flag; eauto. Qed.

Lemma cancel_horizontal_tr r c n up i e st : ss_shape r c n st -> i < e -> e < n ->
  wp (cancel_horizontal up i e st) (tok r c n n st).
Proof.
  intros (h1 & h2 & h3 & h4) hi he. destruct st as [d o u v]. cbn [sd so su sv] in *.
  unfold cancel_horizontal. cbn [sd so su sv]. steps.
  eapply post_mono with (Q := fun s => tok r c n n (SS d o u v) (snd s)).
  2: { intros [vv s] hs. cbn [snd] in hs. apply post_ret. exact hs. }
  eapply post_for_brk with (I := fun k s => tok r c n (k - i) (SS d o u v) (snd s)).
  - cbn [snd]. rewrite Nat.sub_diag. split; [|split; apply orots_0]. repeat split; cbn [sd so su sv]; dims; auto.
  - intros k [[v0 v1] [d1 o1 u1 w1]] hk. cbn [snd]. intros ((g1 & g2 & g3 & g4) & (f1 & f2)). cbn [sd so su sv] in *.
    destruct (cancel_x v0 v1) as [[rot norm]|] eqn:er.
    2: { apply post_ret. cbn [fst snd]. apply (tok_le r c n (k - i)); [lia|]. repeat split; auto. }
    apply cancel_x_src in er.
    steps. replace (k - i + 1) with ((k + 1) - i) by lia.
    eapply post_mono with (Q := fun u' => ush r n u' /\ orots colrot n 1 u1 u').
    { destruct up; [apply rot_u_stride_tr; auto using inverse_src; lia|apply ret_u; auto]. }
    intros u2 (k1 & k2). step1.
    eapply post_mono with (Q := fun v' => ush n c v' /\ orots rowrot n 1 w1 v').
    { destruct up; [apply ret_v; auto|apply rot_vt_stride_tr; auto; lia]. }
    intros v2 (k3 & k4).
    assert (hf1 : orots colrot n (S k - i) u u2) by (replace (S k - i) with (k - i + 1) by lia; eapply orots_trans; eauto).
    assert (hf2 : orots rowrot n (S k - i) v v2) by (replace (S k - i) with (k - i + 1) by lia; eapply orots_trans; eauto).
    destruct (Nat.eqb_spec (k + 1) e); cbn [negb].
    + apply post_ret. cbn [fst snd]. repeat split; cbn [sd so su sv]; dims; auto.
    + steps. cbn [fst snd]. repeat split; cbn [sd so su sv]; dims; auto.
  - intros s hs. eapply tok_le; [|exact hs]. lia.
Qed.

Lemma cancel_vertical_tr r c n up i st : ss_shape r c n st -> i + 1 < n ->
  wp (cancel_vertical up i st) (tok r c n n st).
Proof.
  intros (h1 & h2 & h3 & h4) hi. destruct st as [d o u v]. cbn [sd so su sv] in *.
  unfold cancel_vertical. cbn [sd so su sv]. steps.
  eapply post_mono with (Q := fun s => tok r c n n (SS d o u v) (snd s)).
  2: { intros [vv s] hs. cbn [snd] in hs. apply post_ret. exact hs. }
  eapply post_for_rev_brk with (I := fun k s => tok r c n (i + 1 - k) (SS d o u v) (snd s)).
  - cbn [snd]. rewrite Nat.sub_diag. split; [|split; apply orots_0]. repeat split; cbn [sd so su sv]; dims; auto.
  - intros k [[v0 v1] [d1 o1 u1 w1]] hk. cbn [snd]. intros ((g1 & g2 & g3 & g4) & (f1 & f2)). cbn [sd so su sv] in *.
    destruct (cancel_y v0 v1) as [[rot norm]|] eqn:er.
    2: { apply post_ret. cbn [fst snd]. apply (tok_le r c n (i + 1 - S k)); [lia|]. repeat split; auto. }
    apply cancel_y_src in er.
    steps. replace (i - k + 1) with ((i + 1) - k) by lia.
    eapply post_mono with (Q := fun v' => ush n c v' /\ orots rowrot n 1 w1 v').
    { destruct up; [apply rot_vt_stride_tr; auto; lia|apply ret_v; auto]. }
    intros v2 (k3 & k4). step1.
    eapply post_mono with (Q := fun u' => ush r n u' /\ orots colrot n 1 u1 u').
    { destruct up; [apply ret_u; auto|apply rot_u_stride_tr; auto using inverse_src; lia]. }
    intros u2 (k1 & k2).
    assert (hf1 : orots colrot n (i + 1 - k) u u2) by (replace (i + 1 - k) with (i + 1 - S k + 1) by lia; eapply orots_trans; eauto).
    assert (hf2 : orots rowrot n (i + 1 - k) v v2) by (replace (i + 1 - k) with (i + 1 - S k + 1) by lia; eapply orots_trans; eauto).
    destruct (Nat.ltb_spec 0 k).
    + steps. cbn [fst snd]. repeat split; cbn [sd so su sv]; dims; auto.
    + apply post_ret. cbn [fst snd]. repeat split; cbn [sd so su sv]; dims; auto.
  - intros s hs. eapply tok_le; [|exact hs]. lia.
Qed.

Lemma svd_delim_end_tr r c n up eps e : forall st, ss_shape r c n st -> e < n ->
  wp (svd_delim_end up eps e st) (fun x => fst x <= e /\ tok r c n (e * (2 * n)) st (snd x)).
Proof.
  induction e as [|m IH]; intros st hs he; cbn [svd_delim_end].
  - apply post_ret. split; auto. apply tok_refl; auto.
  - pose proof hs as (h1 & h2 & h3 & h4). steps.
    assert (next : forall st', tok r c n (2 * n) st st' -> wp (svd_delim_end up eps m st') (fun x => fst x <= S m /\ tok r c n (S m * (2 * n)) st (snd x))).
    { intros st' hs'. eapply post_mono; [apply IH; [apply hs'|lia]|]. intros x (k1 & k2). split; [lia|].
      exact (tok_trans _ _ _ _ _ _ _ _ hs' k2). }
    destruct (_ || _).
    { steps. apply next. eapply tok_le; [|apply tok_set; auto; dims; auto]. lia. }
    destruct (nle N (nabs N (vget (sd st) m)) eps).
    { steps.
      assert (hs1 : tok r c n 0 st (SS (vupd (sd st) m (n0 N)) (so st) (su st) (sv st))) by (apply tok_set; auto; dims; auto).
      eapply post_mono; [apply cancel_horizontal_tr; [apply hs1|lia|lia]|]. intros st1 hs2.
      step1. eapply post_mono with (Q := tok r c n n st1).
      { destruct (Nat.eqb_spec m 0); cbn [negb]; [apply post_ret; eapply tok_le; [|apply tok_refl, hs2]; lia|].
        step1. apply post_usub; [lia|]. apply cancel_vertical_tr; [apply hs2|lia]. }
      intros st2 hs3. apply next. eapply tok_le; [|exact (tok_trans _ _ _ _ _ _ _ _ hs1 (tok_trans _ _ _ _ _ _ _ _ hs2 hs3))]. lia. }
    destruct (nle N (nabs N (vget (sd st) (S m))) eps).
    { steps.
      assert (hs1 : tok r c n 0 st (SS (vupd (sd st) (S m) (n0 N)) (so st) (su st) (sv st))) by (apply tok_set; auto; dims; auto).
      eapply post_mono; [apply cancel_vertical_tr; [apply hs1|lia]|]. intros st1 hs2.
      apply next. eapply tok_le; [|exact (tok_trans _ _ _ _ _ _ _ _ hs1 hs2)]. lia. }
    apply post_ret. split; auto. eapply tok_le; [|apply tok_refl; auto]. lia.
Qed.

Lemma svd_delim_start_tr r c n up eps k s : forall st, ss_shape r c n st -> s < k -> k < n ->
  wp (svd_delim_start up eps k s st) (fun x => fst x <= s /\ tok r c n (2 * n) st (snd x)).
Proof.
  induction s as [|m IH]; intros st hs hk hn; cbn [svd_delim_start].
  - apply post_ret. split; auto. eapply tok_le; [|apply tok_refl; auto]. lia.
  - pose proof hs as (h1 & h2 & h3 & h4). steps.
    destruct (nle N (nabs N (vget (so st) m)) _).
    { steps. cbn [fst snd]. split; auto. eapply tok_le; [|apply tok_set; auto; dims; auto]. lia. }
    destruct (nle N (nabs N (vget (sd st) m)) eps).
    { steps.
      assert (hs1 : tok r c n 0 st (SS (vupd (sd st) m (n0 N)) (so st) (su st) (sv st))) by (apply tok_set; auto; dims; auto).
      eapply post_mono; [apply cancel_horizontal_tr; [apply hs1|lia|lia]|]. intros st1 hs2.
      step1. eapply post_mono with (Q := tok r c n n st1).
      { destruct (Nat.eqb_spec m 0); cbn [negb]; [apply post_ret; eapply tok_le; [|apply tok_refl, hs2]; lia|].
        step1. apply post_usub; [lia|]. apply cancel_vertical_tr; [apply hs2|lia]. }
      intros st2 hs3. apply post_ret. cbn [fst snd]. split; auto. eapply tok_le; [|exact (tok_trans _ _ _ _ _ _ _ _ hs1 (tok_trans _ _ _ _ _ _ _ _ hs2 hs3))]. lia. }
    eapply post_mono; [apply IH; auto; lia|]. intros x (k1 & k2). split; auto.
Qed.

Lemma svd_delimit_tr r c n up e eps st : ss_shape r c n st -> e < n ->
  wp (svd_delimit up e eps st) (fun x => fst (fst x) <= snd (fst x) /\ snd (fst x) <= e /\ tok r c n (2 * n * n) st (snd x)).
Proof.
  intros hs he. unfold svd_delimit. step1. eapply post_mono; [apply (svd_delim_end_tr r c n); auto|].
  intros [k st1] (h1 & h2). cbn [fst snd] in *. destruct (Nat.eqb_spec k 0).
  - apply post_ret. cbn [fst snd]. split; auto. split; [lia|]. eapply tok_le; [|exact h2]. nia.
  - step1. apply post_usub; [lia|]. step1.
    eapply post_mono; [apply (svd_delim_start_tr r c n); [apply h2|lia|lia]|].
    intros [s st2] (h3 & h4). cbn [fst snd] in *. apply post_ret. cbn [fst snd].
    split; [lia|]. split; [lia|]. eapply tok_le; [|exact (tok_trans _ _ _ _ _ _ _ _ h2 h4)]. nia.
Qed.

Lemma svd_sweep_step_tr r c n up start e k xy st : ss_shape r c n st -> start <= k -> k < e -> e < n ->
  wp (svd_sweep_step up start e k (xy, st)) (fun x => tok r c n 1 st (snd (snd x))).
Proof.
  destruct xy as [x y], st as [d o u v]. intros (h1 & h2 & h3 & h4) hs hk he. cbn [sd so su sv] in *.
  unfold svd_sweep_step. cbn [sd so su sv]. step1. apply post_usub; [lia|]. step1.
  eapply post_mono with (Q := fun _ => True).
  { destruct (Nat.eqb_spec k (e - 1)); [exact I|]. apply post_at1; [lia|exact I]. }
  intros m12 _. steps.
  destruct (cancel_y x y) as [[rot1 norm1]|] eqn:er.
  2: { apply post_ret. cbn [snd]. apply (tok_le r c n 0); [lia|]. apply tok_refl. repeat split; auto. }
  apply cancel_y_src in er.
  step1. apply post_slice; try (simpl; lia). step1. apply post_unwrap.
  eapply post_mono; [apply rotate_rows_ok; dims; auto|]. intros s01 (g1 & g2 & _). dims.
  step1. eapply post_mono with (Q := fun o' => length o' = n - 1).
  { destruct (Nat.ltb_spec start k); [|apply post_ret; auto]. step1. apply post_usub; [lia|].
    apply post_atm1; [lia|]. dims. auto. }
  intros o1 ho1. set (sm := put _ 0 0 s01).
  assert (d1 : nr sm = 2) by reflexivity. assert (d2 : nc sm = 3) by reflexivity. clearbody sm.
  steps.
  eapply post_mono with (Q := fun q => (nr (fst (fst q)) = 2 /\ nc (fst (fst q)) = 3) /\ match snd (fst q) with Some g => gsrc g | None => True end).
  { destruct (cancel_y (get sm 0 0) (get sm 1 0)) as [[rot norm]|] eqn:er2; [|apply post_ret; cbn [fst snd]; auto].
    apply cancel_y_src in er2.
    step1. apply post_slice; [lia|lia|lia|lia|]. step1. apply post_unwrap.
    eapply post_mono; [apply rotate_cols_ok; dims; auto|]. intros s12 (k1 & k2 & _). apply post_ret. cbn [fst snd]. split; [dims; auto|exact er2]. }
  intros [[sm2 rot2] norm2]. cbn [fst snd]. intros ((d3 & d4) & er2). steps.
  eapply post_mono with (Q := fun v' => ush n c v' /\ orots rowrot n 1 v v').
  { destruct up; [apply rot_vt_tr; auto; lia|]. destruct rot2; [|apply ret_v; auto]. apply rot_vt_tr; auto; lia. }
  intros v' (k1 & k2). step1.
  eapply post_mono with (Q := fun v' => ush r n v' /\ orots colrot n 1 u v').
  { destruct up; cbn [negb]; [|apply rot_u_tr; auto using inverse_src; lia]. destruct rot2; [|apply ret_u; auto]. apply rot_u_tr; auto using inverse_src; lia. }
  intros u' (k3 & k4). steps.
  eapply post_mono with (Q := fun o' => length o' = n - 1).
  { destruct (Nat.eqb_spec k (e - 1)); cbn [negb]; steps; dims; auto. }
  intros o2 ho2. apply post_ret. cbn [snd]. split; [|split; auto]. repeat split; cbn [sd so su sv]; dims; auto.
Qed.

Lemma svd_big_tr r c n up start e st : ss_shape r c n st -> start + 1 < e -> e < n ->
  wp (svd_big up start e st) (tok r c n n st).
Proof.
  intros hs h1 h2. pose proof hs as (s1 & s2 & s3 & s4). unfold svd_big. steps.
  eapply post_mono with (Q := fun s => tok r c n n st (snd s)).
  2: { intros [xy st'] h. exact h. }
  eapply post_for_brk with (I := fun k s => tok r c n (k - start) st (snd s)).
  - cbn [snd]. rewrite Nat.sub_diag. apply tok_refl; auto.
  - intros i [xy st1] hi. cbn [snd]. intros g.
    eapply post_mono; [apply (svd_sweep_step_tr r c n); [apply g|lia..]|].
    intros [b [xy' st2]]. cbn [fst snd]. intros g2. pose proof (tok_trans _ _ _ _ _ _ _ _ g g2) as g3. destruct b; eapply tok_le; [|exact g3| |exact g3]; lia.
  - intros s hs'. eapply tok_le; [|exact hs']. lia.
Qed.

Lemma uptrig_src (m11 m12 m22 : N) cu cv s1 s2 u2 v2 :
  compute_2x2_uptrig_svd m11 m12 m22 cu cv = (s1, s2, u2, v2) ->
  match u2 with Some g => gsrc g | None => True end /\ match v2 with Some g => gsrc g | None => True end.
Proof.
  unfold compute_2x2_uptrig_svd. destruct cv, cu; cbn [orb].
  1-3: match goal with |- context [givens_new ?a ?b] => pose proof (givens_new_src a b) as p1; destruct (givens_new a b) as [csv sgv] end;
       match goal with |- context [givens_new ?a ?b] => pose proof (givens_new_src a b) as p2; destruct (givens_new a b) as [csu sgu] end; cbn [fst] in *.
  all: intros h; injection h as <- <- <- <-; auto.
Qed.

Lemma svd_two_tr r c n up cu cv start st : ss_shape r c n st -> start + 1 < n -> flags cu cv st ->
  wp (svd_two up cu cv start st) (tok r c n 1 st).
Proof.
  intros (h1 & h2 & h3 & h4) hn (f1 & f2). destruct st as [d o u v]. cbn [sd so su sv] in *.
  unfold svd_two. cbn [sd so su sv]. steps.
  destruct (compute_2x2_uptrig_svd _ _ _ _ _) as [[[s1 s2] u2] v2] eqn:e.
  pose proof (uptrig_src _ _ _ _ _ _ _ _ _ e) as (q1 & q2).
  apply uptrig_flags in e. destruct e as (e1 & e2). steps.
  destruct (if up then (u2, v2) else (v2, u2)) as [ru rv] eqn:er.
  assert (qu : match ru with Some g => gsrc g | None => True end) by (destruct up; injection er as <- <-; auto).
  assert (qv : match rv with Some g => gsrc g | None => True end) by (destruct up; injection er as <- <-; auto).
  step1. eapply post_mono with (Q := fun u' => ush r n u' /\ orots colrot n 1 u u').
  { destruct u as [u|]; [|apply post_ret; split; exact I].
    assert (ru <> None).
    { destruct up; injection er as <- <-; subst cu; cbn [negb andb orb] in *;
      [destruct u2; [congruence|]|destruct v2; [congruence|]]; destruct cv; discriminate. }
    destruct ru as [g|]; [|congruence]. cbn [unwrap_opt]. cbn [bind]. apply rot_u_tr; auto. }
  intros u' (k1 & k2). step1.
  eapply post_mono with (Q := fun v' => ush n c v' /\ orots rowrot n 1 v v').
  { destruct v as [v|]; [|apply post_ret; split; exact I].
    assert (rv <> None).
    { destruct up; injection er as <- <-; subst cv; cbn [negb andb orb] in *;
      [destruct v2; [congruence|]|destruct u2; [congruence|]]; destruct cu; discriminate. }
    destruct rv as [g|]; [|congruence]. cbn [unwrap_opt]. cbn [bind]. apply rot_vt_tr; auto using inverse_src. }
  intros v' (k3 & k4). apply post_ret. split; [|split; auto]. repeat split; cbn [sd so su sv]; dims; auto.
Qed.

(** rotations per iteration *)
Definition per (n : nat) : nat := 2 * n * n + n.
Lemma svd_loop_tr r c n up cu cv eps fuel : forall start e st, ss_shape r c n st -> flags cu cv st ->
  start <= e -> e < n ->
  post (svd_loop fuel up cu cv eps start e st) (tok r c n (fuel * per n) st) noE (2 <= n).
Proof.
  induction fuel as [|fuel IH]; intros start e st hs hf h1 h2; cbn [svd_loop];
  (destruct (Nat.eqb_spec e start); [apply post_ret; eapply tok_le; [|apply tok_refl; auto]; lia|]).
  - simpl. lia.
  - step1. apply post_usub; [lia|]. step1.
    eapply wp_conseq with (Q := fun x => tok r c n n st (fst x) /\ snd x <= e).
    { destruct (Nat.ltb_spec 2 (S (e - start))).
      - step1. eapply post_mono; [apply (svd_big_tr r c n); auto; lia|]. intros st1 g. apply post_ret. auto.
      - destruct (Nat.eqb_spec (S (e - start)) 2); [|lia].
        step1. eapply post_mono; [apply (svd_two_tr r c n); auto; lia|]. intros st1 g.
        step1. apply post_usub; [lia|]. apply post_ret. cbn [fst snd]. split; [|lia]. eapply tok_le; [|exact g]. lia. }
    intros [st1 e1]. cbn [fst snd]. intros (g1 & g2). step1.
    eapply wp_conseq; [apply (svd_delimit_tr r c n); [apply g1|lia]|].
    intros [[s' e'] st2]. cbn [fst snd]. intros (g3 & g4 & g5).
    pose proof (tok_trans _ _ _ _ _ _ _ _ g1 g5) as g6.
    eapply post_mono; [apply IH; [apply g5| |auto|lia]|].
    + eapply flags_mono; [eauto|eapply tok_flag; exact g6].
    + intros st3 g7. eapply tok_le; [|exact (tok_trans _ _ _ _ _ _ _ _ g6 g7)]. unfold per. lia.
Qed.

(** The columns of u after the sign normalisation: unchanged or multiplied by minus zero *)
Definition nzero (x : N) : N := nmul N x (nopp N (n0 N)).
Definition signed (r n : nat) (u u' : mtx) : Prop :=
  nr u' = r /\ nc u' = n /\ forall j, j < n -> (forall i, i < r -> get u' i j = get u i j) \/ (forall i, i < r -> get u' i j = nzero (get u i j)).
Lemma fix_signs_tr r n (d : vec) (u : mtx) : length d = n -> nr u = r -> nc u = n ->
  wp (svd_fix_signs n d (Some u)) (fun x => length (fst x) = n /\ exists u', snd x = Some u' /\ signed r n u u').
Proof.
  intros hd hr hc. unfold svd_fix_signs.
  eapply post_for' with (I := fun k (s : vec * option mtx) => length (fst s) = n /\ exists u', snd s = Some u' /\ signed r n u u' /\ forall j, k <= j -> j < n -> forall i, i < r -> get u' i j = get u i j).
  - cbn [fst snd]. split; auto. exists u. split; auto. split; [|auto]. repeat split; auto.
  - intros k [d1 o1] hk. cbn [fst snd]. intros (h1 & u1 & -> & (h2 & h3 & h4) & h5). steps. destruct (nis_neg N _).
    2: { apply post_ret. cbn [fst snd]. split; auto. exists u1. split; auto. split; [repeat split; auto|]. intros j hj. apply h5. lia. }
    steps; try lia. cbn [fst snd]. split; [dims; auto|]. eexists. split; [reflexivity|].
    match goal with |- signed _ _ _ ?w /\ _ => set (u2 := w) end.
    assert (hg : forall i j, i < r -> j < n -> get u2 i j = if j =? k then nzero (get u1 i k) else get u1 i j).
    { intros i j hi hj. unfold u2. rewrite get_put_col by lia. dims. rewrite h2, Nat.sub_0_r. 
      cbn [Nat.leb]. destruct (Nat.ltb_spec i (0 + r)); [|lia]. cbn [andb]. destruct (j =? k); auto. unfold vmap. rewrite vget_vmk by dlia. rewrite vget_vmk by dlia. reflexivity. }
    assert (d1_ : nr u2 = nr u1) by reflexivity. assert (d2_ : nc u2 = nc u1) by reflexivity. clearbody u2. split.
    + split; [lia|]. split; [lia|]. intros j hj. destruct (Nat.eq_dec j k) as [->|ne].
      * right. intros i hi. rewrite hg by auto. rewrite Nat.eqb_refl. rewrite (h5 k) by lia. reflexivity.
      * destruct (h4 j hj) as [q|q]; [left|right]; intros i hi; rewrite hg by auto; destruct (Nat.eqb_spec j k); try lia; auto.
    + intros j hj hn i hi. rewrite hg by auto. destruct (Nat.eqb_spec j k); [lia|]. apply h5; lia.
  - intros [d1 o1]. cbn [fst snd]. intros (h1 & u1 & e & h2 & _). split; auto. exists u1. auto.
Qed.

Lemma svd_trace fuel (m : mtx) eps u s vt : svd_eps fuel m true true eps = Ret (Some u, s, Some vt) ->
  let r := nr m in let c := nc m in let n := Nat.min r c in let k := (fuel + 1) * per n in
  exists b u0 v0 u1, bidiagonal (scale_down m (abs_max m)) = Ret b /\ generate_u b = Ret u0 /\ generate_vt b = Ret v0 /\
    nr u0 = r /\ nc u0 = n /\ nr v0 = n /\ nc v0 = c /\ nr u1 = r /\ nc u1 = n /\ nr vt = n /\ nc vt = c /\
    rots colrot n u0 k u1 /\ signed r n u1 u /\ rots rowrot n v0 k vt.
Proof.
  intros hr r c n k. unfold svd_eps in hr. destruct (Nat.eqb_spec (nr m) 0) as [|nz1]; [discriminate|].
  destruct (Nat.eqb_spec (nc m) 0) as [|nz2]; cbn [orb] in hr; [discriminate|].
  set (m' := scale_down m (abs_max m)) in *.
  assert (d1 : nr m' = nr m) by apply nr_scale_down.
  assert (d2 : nc m' = nc m) by apply nc_scale_down.
  destruct (svd_init m' true true ltac:(lia) ltac:(lia)) as (b & uo & vo & eb & hb & eu & ev & hs & hf).
  rewrite eb in hr. cbn [bind] in hr.
  destruct (generate_u b) as [u0| | | |] eqn:eu0; cbn [bind] in eu; try discriminate. injection eu as <-.
  destruct (generate_vt b) as [v0| | | |] eqn:ev0; cbn [bind] in ev; try discriminate. injection ev as <-. cbn [bind] in hr.
  rewrite d1, d2 in *. fold r c in hs, hr. fold n in hs, hr.
  destruct (bi_into_diagonals b) as [diag off]. cbn [fst snd] in hs, hf.
  assert (hn : 1 <= n) by (unfold n, r, c; lia).
  unfold usub in hr. destruct (Nat.leb_spec 1 n); [|lia]. cbn [bind] in hr.
  destruct (wp_ret _ _ (svd_delimit_tr _ _ _ (upper_diag b) (n - 1) eps _ hs ltac:(lia))) as ([[s0 e] st] & ed & g1 & g2 & g3).
  rewrite ed in hr. cbn [bind fst snd] in *.
  pose proof (svd_loop_tr _ _ _ (upper_diag b) true true eps fuel s0 e st (proj1 g3) (flags_mono _ _ _ _ hf (tok_flag _ _ _ _ _ _ g3)) g1 ltac:(lia)) as hl.
  destruct (svd_loop _ _ _ _ _ _ _ _) as [st'| | | |]; cbn [bind] in hr; simpl in hl; try discriminate.
  pose proof (tok_trans _ _ _ _ _ _ _ _ g3 hl) as ((k1 & k2 & k3 & k4) & k5 & k6). cbn [su sv] in k5, k6.
  destruct (su st') as [u1|]; [|contradiction k5]. destruct (sv st') as [v1|]; [|contradiction k6]. cbn [ush orots] in *.
  destruct (wp_ret _ _ (fix_signs_tr r n (vmap (fun x => nmul N x (abs_max m)) (sd st')) u1
    ltac:(unfold vmap; rewrite length_vmk; auto) (proj1 k3) (proj2 k3))) as ([dg u'] & ef & p1 & p2). rewrite ef in hr. cbn [bind fst snd] in *.
  destruct p2 as (u2 & -> & p2). injection hr as <- <- <-.
  assert (hk : 2 * n * n + fuel * per n <= k) by (unfold k, per; lia).
  destruct hs as (_ & _ & (q1 & q2) & (q3 & q4)). cbn [su sv] in *.
  exists b, u0, v0, u1. repeat split; auto; try tauto.
  - eapply rots_le; [exact hk|exact k5].
  - apply p2.
  - apply p2.
  - apply p2.
  - eapply rots_le; [exact hk|exact k6].
Qed.
End Trace.
