(** * Proofs about svd.rs, any scalar semantics *)
From Coq Require Import Reals List Arith Lia Lra Bool Setoid Morphisms.
From Verif Require Import Scalar Arr MBase MDirect MDecomp MEigh MSvd Inst Hoare Spec RLin PTri PHouse PQR PTrid PBid PGivens PEigh.
Import ListNotations.
Open Scope res_scope.

Section Generic.
Context {N : Num}.
Notation vec := (list N).
Notation mtx := (mat N).
Local Open Scope num_scope.
Local Open Scope nat_scope.

(** Columns a, b of u times the rotation; rows a, b of v *)
Definition colrot (g : givens N) (a b : nat) (u u' : mtx) : Prop :=
  nr u' = nr u /\ nc u' = nc u /\
  forall i j, i < nr u -> j < nc u -> get u' i j =
    if j =? a then nadd N (nmul N (get u i a) (rc g)) (nmul N (rs g) (get u i b))
    else if j =? b then nadd N (nmul N (nopp N (rs g)) (get u i a)) (nmul N (get u i b) (rc g))
    else get u i j.
Definition rowrot (g : givens N) (a b : nat) (v v' : mtx) : Prop :=
  nr v' = nr v /\ nc v' = nc v /\
  forall i j, i < nr v -> j < nc v -> get v' i j =
    if i =? a then nadd N (nmul N (get v a j) (rc g)) (nmul N (nopp N (rs g)) (get v b j))
    else if i =? b then nadd N (nmul N (nopp N (nopp N (rs g))) (get v a j)) (nmul N (get v b j) (rc g))
    else get v i j.
Definition orel (R : mtx -> mtx -> Prop) (u u' : option mtx) : Prop :=
  match u, u' with Some u, Some u' => R u u' | None, None => True | _, _ => False end.

Lemma stride_two a b : a < b -> stride (S b) a b (b - a) = [a; b].
Proof.
  intros h. destruct b as [|b]; [lia|]. cbn [stride].
  destruct (Nat.leb_spec a (S b)); [|lia]. replace (a + (S b - a)) with (S b) by lia.
  rewrite Nat.leb_refl. f_equal. f_equal. destruct b as [|b]; [reflexivity|]. cbn [stride].
  destruct (Nat.leb_spec (S (S b) + (S (S b) - a)) (S (S b))); [lia|auto].
Qed.

Lemma cols_stride_two (m : mtx) a b : a < b -> b < nc m ->
  cols_stride m a b (b - a) = Ret (mk (nr m) 2 (fun i j => get m i (nth j [a; b] 0)), [a; b]).
Proof.
  intros h1 h2. unfold cols_stride. rewrite stride_two by auto.
  destruct (Nat.ltb_spec b (nc m)); [|lia]. destruct (Nat.leb_spec a (S b)); [|lia].
  destruct (Nat.ltb_spec 0 (b - a)); [|lia]. reflexivity.
Qed.

Definition ocols (n : nat) (u : option mtx) : Prop := match u with Some u => nc u = n | None => True end.
Definition orows (n : nat) (v : option mtx) : Prop := match v with Some v => nr v = n | None => True end.

Lemma rot_u_stride_ok (g : givens N) (u : option mtx) n a b : a < b -> b < n -> ocols n u ->
  wp (rot_u_stride g u a b (b - a)) (orel (colrot g a b) u).
Proof.
  intros h1 h2 hu. destruct u as [u|]; [|exact I]. simpl in hu. unfold rot_u_stride.
  rewrite cols_stride_two by lia. cbn [bind]. step1. apply post_unwrap.
  eapply post_mono; [apply rotate_rows_ok; dims; auto|]. dims. intros m' (g1 & g2 & g3). apply post_ret.
  unfold orel, colrot, put_cols. dims. do 2 (split; [auto|]). intros i j hi hj. rewrite get_mk by auto.
  destruct (g3 i hi) as (e1 & e2). rewrite !get_mk in e1, e2 by lia. cbn [nth] in *.
  cbn [find_idx]. rewrite (Nat.eqb_sym a j), (Nat.eqb_sym b j). bd; auto.
Qed.

Lemma rot_vt_stride_ok (g : givens N) (v : option mtx) n a b : a < b -> b < n -> orows n v ->
  wp (rot_vt_stride g v a b (b - a)) (orel (rowrot g a b) v).
Proof.
  intros h1 h2 hu. destruct v as [v|]; [|exact I]. simpl in hu. unfold rot_vt_stride.
  rewrite cols_stride_two by (dims; lia). cbn [bind]. step1. apply post_unwrap.
  eapply post_mono; [apply rotate_cols_ok; dims; auto|]. dims. intros m' (g1 & g2 & g3). apply post_ret.
  unfold orel, rowrot. dims. do 2 (split; [auto|]). intros i j hi hj. rewrite get_transpose by (unfold put_cols; dims; auto).
  unfold put_cols. dims. rewrite get_mk by auto.
  destruct (g3 j hj) as (e1 & e2).
  repeat (rewrite get_transpose in e1, e2 by (dims; lia)). rewrite !get_mk in e1, e2 by lia.
  cbn [nth] in *. rewrite (get_transpose v j a), (get_transpose v j b) in e1, e2 by lia.
  cbn [find_idx]. rewrite (Nat.eqb_sym a i), (Nat.eqb_sym b i). 
  bd; rewrite ?get_transpose by lia; auto.
Qed.

Lemma rot_u_ok (g : givens N) (u : option mtx) n k : k + 1 < n -> ocols n u ->
  wp (rot_u g u k) (orel (colrot g k (k + 1)) u).
Proof.
  intros h hu. destruct u as [u|]; [|exact I]. simpl in hu. unfold rot_u.
  eapply post_mono; [apply rotate_q_ok; lia|]. intros o (q' & -> & h1 & h2 & h3). simpl. repeat split; auto.
Qed.

Lemma rot_vt_ok (g : givens N) (v : option mtx) n k : k + 1 < n -> orows n v ->
  wp (rot_vt g v k) (orel (rowrot g k (k + 1)) v).
Proof.
  intros h hu. destruct v as [v|]; [|exact I]. simpl in hu. unfold rot_vt. step1. apply post_slice; try lia.
  step1. apply post_unwrap. eapply post_mono; [apply rotate_cols_ok; dims; lia|]. dims.
  intros m' (h1 & h2 & h3). apply post_ret. simpl. unfold rowrot. dims. do 2 (split; [auto|]).
  intros i j hi hj. rewrite get_put by auto. rewrite h1, h2. 
  destruct (h3 j ltac:(lia)) as (e1 & e2). rewrite !get_mk in e1, e2 by lia. rewrite !Nat.add_0_l, Nat.add_0_r in *.
  bd; auto; try lia; subst; rewrite ?Nat.sub_0_r.
  - replace (k - k) with 0 by lia. auto.
  - replace (k + 1 - k) with 1 by lia. auto.
Qed.

(** ** Shapes *)
Definition ush (r c : nat) (u : option mtx) : Prop :=
  match u with Some u => nr u = r /\ nc u = c | None => True end.
Definition ss_shape (r c n : nat) (st : svd_state N) : Prop :=
  length (sd st) = n /\ length (so st) = n - 1 /\ ush r n (su st) /\ ush n c (sv st).
Definition ss_flag (st st' : svd_state N) : Prop := same_flag (su st) (su st') /\ same_flag (sv st) (sv st').

Lemma ush_cols r c u : ush r c u -> ocols c u. Proof. destruct u; simpl; tauto. Qed.
Lemma ush_rows r c u : ush r c u -> orows r u. Proof. destruct u; simpl; tauto. Qed.
Lemma orel_colrot_sh g a b r c u u' : orel (colrot g a b) u u' -> ush r c u -> ush r c u' /\ same_flag u u'.
Proof. destruct u, u'; simpl; try tauto. intros (h1 & h2 & _). rewrite h1, h2. auto. Qed.
Lemma orel_rowrot_sh g a b r c u u' : orel (rowrot g a b) u u' -> ush r c u -> ush r c u' /\ same_flag u u'.
Proof. destruct u, u'; simpl; try tauto. intros (h1 & h2 & _). rewrite h1, h2. auto. Qed.

Lemma rot_u_stride_sh (g : givens N) (u : option mtx) r n a b : a < b -> b < n -> ush r n u ->
  wp (rot_u_stride g u a b (b - a)) (fun u' => ush r n u' /\ same_flag u u').
Proof.
  intros h1 h2 hu. eapply post_mono; [eapply rot_u_stride_ok; eauto using ush_cols|].
  intros u' h. eapply orel_colrot_sh; eauto.
Qed.
Lemma rot_vt_stride_sh (g : givens N) (v : option mtx) n c a b : a < b -> b < n -> ush n c v ->
  wp (rot_vt_stride g v a b (b - a)) (fun u' => ush n c u' /\ same_flag v u').
Proof.
  intros h1 h2 hu. eapply post_mono; [eapply rot_vt_stride_ok; eauto using ush_rows|].
  intros u' h. eapply orel_rowrot_sh; eauto.
Qed.
Lemma rot_u_sh (g : givens N) (u : option mtx) r n k : k + 1 < n -> ush r n u ->
  wp (rot_u g u k) (fun u' => ush r n u' /\ same_flag u u').
Proof.
  intros h1 hu. eapply post_mono; [eapply rot_u_ok; eauto using ush_cols|].
  intros u' h. eapply orel_colrot_sh; eauto.
Qed.
Lemma rot_vt_sh (g : givens N) (v : option mtx) n c k : k + 1 < n -> ush n c v ->
  wp (rot_vt g v k) (fun u' => ush n c u' /\ same_flag v u').
Proof.
  intros h1 hu. eapply post_mono; [eapply rot_vt_ok; eauto using ush_rows|].
  intros u' h. eapply orel_rowrot_sh; eauto.
Qed.

Definition sok (r c n : nat) (st st' : svd_state N) : Prop := ss_shape r c n st' /\ ss_flag st st'.

Lemma ss_flag_refl st : ss_flag st st. Proof. split; apply same_flag_refl. Qed.
Lemma ss_flag_trans a b d : ss_flag a b -> ss_flag b d -> ss_flag a d.
Proof. intros (h1 & h2) (h3 & h4). split; eapply same_flag_trans; eauto. Qed.

Lemma cancel_horizontal_safe r c n up i e st : ss_shape r c n st -> i < e -> e < n ->
  wp (cancel_horizontal up i e st) (sok r c n st).
Proof.
  intros (h1 & h2 & h3 & h4) hi he. destruct st as [d o u v]. cbn [sd so su sv] in *.
  unfold cancel_horizontal. cbn [sd so su sv]. steps.
  eapply post_mono with (Q := fun s => sok r c n (SS d o u v) (snd s)).
  2: { intros [vv s] hs. cbn [snd] in hs. apply post_ret. exact hs. }
  eapply post_for_brk with (I := fun _ s => sok r c n (SS d o u v) (snd s)).
  - cbn [snd]. split; [|split; apply same_flag_refl]. repeat split; cbn [sd so su sv]; dims; auto.
  - intros k [[v0 v1] [d1 o1 u1 w1]] hk. cbn [snd]. intros ((g1 & g2 & g3 & g4) & (f1 & f2)). cbn [sd so su sv] in *.
    destruct (cancel_x v0 v1) as [[rot norm]|].
    2: { apply post_ret. cbn [fst snd]. repeat split; auto. }
    steps. replace (k - i + 1) with ((k + 1) - i) by lia.
    eapply post_mono with (Q := fun u' => ush r n u' /\ same_flag u1 u').
    { destruct up; [apply rot_u_stride_sh; auto; lia|apply post_ret; split; auto; apply same_flag_refl]. }
    intros u2 (k1 & k2). step1.
    eapply post_mono with (Q := fun v' => ush n c v' /\ same_flag w1 v').
    { destruct up; [apply post_ret; split; auto; apply same_flag_refl|apply rot_vt_stride_sh; auto; lia]. }
    intros v2 (k3 & k4).
    assert (hf : ss_flag (SS d o u v) (SS (vupd d1 (k + 1) norm) o1 u2 v2)).
    { split; cbn [su sv]; eapply same_flag_trans; eauto. }
    destruct (Nat.eqb_spec (k + 1) e); cbn [negb].
    + apply post_ret. cbn [fst snd]. split; auto. repeat split; cbn [sd so su sv]; dims; auto.
    + steps. cbn [fst snd]. split; auto. repeat split; cbn [sd so su sv]; dims; auto.
  - auto.
Qed.

Lemma cancel_vertical_safe r c n up i st : ss_shape r c n st -> i + 1 < n ->
  wp (cancel_vertical up i st) (sok r c n st).
Proof.
  intros (h1 & h2 & h3 & h4) hi. destruct st as [d o u v]. cbn [sd so su sv] in *.
  unfold cancel_vertical. cbn [sd so su sv]. steps.
  eapply post_mono with (Q := fun s => sok r c n (SS d o u v) (snd s)).
  2: { intros [vv s] hs. cbn [snd] in hs. apply post_ret. exact hs. }
  eapply post_for_rev_brk with (I := fun _ s => sok r c n (SS d o u v) (snd s)).
  - cbn [snd]. split; [|split; apply same_flag_refl]. repeat split; cbn [sd so su sv]; dims; auto.
  - intros k [[v0 v1] [d1 o1 u1 w1]] hk. cbn [snd]. intros ((g1 & g2 & g3 & g4) & (f1 & f2)). cbn [sd so su sv] in *.
    destruct (cancel_y v0 v1) as [[rot norm]|].
    2: { apply post_ret. cbn [fst snd]. repeat split; auto. }
    steps. replace (i - k + 1) with ((i + 1) - k) by lia.
    eapply post_mono with (Q := fun v' => ush n c v' /\ same_flag w1 v').
    { destruct up; [apply rot_vt_stride_sh; auto; lia|apply post_ret; split; auto; apply same_flag_refl]. }
    intros v2 (k3 & k4). step1.
    eapply post_mono with (Q := fun u' => ush r n u' /\ same_flag u1 u').
    { destruct up; [apply post_ret; split; auto; apply same_flag_refl|apply rot_u_stride_sh; auto; lia]. }
    intros u2 (k1 & k2).
    assert (hf : ss_flag (SS d o u v) (SS (vupd d1 (k + 1) norm) o1 u2 v2)).
    { split; cbn [su sv]; eapply same_flag_trans; eauto. }
    destruct (Nat.ltb_spec 0 k).
    + steps. cbn [fst snd]. split; auto. repeat split; cbn [sd so su sv]; dims; auto.
    + apply post_ret. cbn [fst snd]. split; auto. repeat split; cbn [sd so su sv]; dims; auto.
  - auto.
Qed.

Lemma sok_trans r c n a b d : sok r c n a b -> sok r c n b d -> sok r c n a d.
Proof. intros (h1 & h2) (h3 & h4). split; auto. eapply ss_flag_trans; eauto. Qed.
Lemma sok_refl r c n st : ss_shape r c n st -> sok r c n st st.
Proof. split; auto. apply ss_flag_refl. Qed.

Lemma sok_set r c n st d o : ss_shape r c n st -> length d = n -> length o = n - 1 -> sok r c n st (SS d o (su st) (sv st)).
Proof. intros (h1 & h2 & h3 & h4) hd ho. split; [repeat split; auto|split; apply same_flag_refl]. Qed.

Lemma svd_delim_end_safe r c n up eps e : forall st, ss_shape r c n st -> e < n ->
  wp (svd_delim_end up eps e st) (fun x => fst x <= e /\ sok r c n st (snd x)).
Proof.
  induction e as [|m IH]; intros st hs he; cbn [svd_delim_end].
  - apply post_ret. split; auto. apply sok_refl; auto.
  - pose proof hs as (h1 & h2 & h3 & h4). steps.
    assert (next : forall st', sok r c n st st' -> wp (svd_delim_end up eps m st') (fun x => fst x <= S m /\ sok r c n st (snd x))).
    { intros st' hs'. eapply post_mono; [apply IH; [apply hs'|lia]|]. intros x (k1 & k2). split; [lia|].
      solve [eauto using sok_trans]. }
    destruct (_ || _).
    { steps. apply next, sok_set; auto; dims; auto. }
    destruct (nle N (nabs N (vget (sd st) m)) eps).
    { steps. 
      assert (hs1 : sok r c n st (SS (vupd (sd st) m (n0 N)) (so st) (su st) (sv st))) by (apply sok_set; auto; dims; auto).
      eapply post_mono; [apply cancel_horizontal_safe; [apply hs1|lia|lia]|]. intros st1 hs2.
      step1. eapply post_mono with (Q := sok r c n st1).
      { destruct (Nat.eqb_spec m 0); cbn [negb]; [apply post_ret, sok_refl, hs2|].
        step1. apply post_usub; [lia|]. apply cancel_vertical_safe; [apply hs2|lia]. }
      intros st2 hs3. apply next. exact (sok_trans _ _ _ _ _ _ hs1 (sok_trans _ _ _ _ _ _ hs2 hs3)). }
    destruct (nle N (nabs N (vget (sd st) (S m))) eps).
    { steps. 
      assert (hs1 : sok r c n st (SS (vupd (sd st) (S m) (n0 N)) (so st) (su st) (sv st))) by (apply sok_set; auto; dims; auto).
      eapply post_mono; [apply cancel_vertical_safe; [apply hs1|lia]|]. intros st1 hs2.
      apply next. solve [eauto using sok_trans]. }
    apply post_ret. split; auto. apply sok_refl; auto.
Qed.

Lemma svd_delim_start_safe r c n up eps k s : forall st, ss_shape r c n st -> s < k -> k < n ->
  wp (svd_delim_start up eps k s st) (fun x => fst x <= s /\ sok r c n st (snd x)).
Proof.
  induction s as [|m IH]; intros st hs hk hn; cbn [svd_delim_start].
  - apply post_ret. split; auto. apply sok_refl; auto.
  - pose proof hs as (h1 & h2 & h3 & h4). steps.
    destruct (nle N (nabs N (vget (so st) m)) _).
    { steps. cbn [fst snd]. split; auto. apply sok_set; auto; dims; auto. }
    destruct (nle N (nabs N (vget (sd st) m)) eps).
    { steps.
      assert (hs1 : sok r c n st (SS (vupd (sd st) m (n0 N)) (so st) (su st) (sv st))) by (apply sok_set; auto; dims; auto).
      eapply post_mono; [apply cancel_horizontal_safe; [apply hs1|lia|lia]|]. intros st1 hs2.
      step1. eapply post_mono with (Q := sok r c n st1).
      { destruct (Nat.eqb_spec m 0); cbn [negb]; [apply post_ret, sok_refl, hs2|].
        step1. apply post_usub; [lia|]. apply cancel_vertical_safe; [apply hs2|lia]. }
      intros st2 hs3. apply post_ret. cbn [fst snd]. split; auto. exact (sok_trans _ _ _ _ _ _ hs1 (sok_trans _ _ _ _ _ _ hs2 hs3)). }
    eapply post_mono; [apply IH; auto; lia|]. intros x (k1 & k2). split; auto.
Qed.

Lemma svd_delimit_safe r c n up e eps st : ss_shape r c n st -> e < n ->
  wp (svd_delimit up e eps st) (fun x => fst (fst x) <= snd (fst x) /\ snd (fst x) <= e /\ sok r c n st (snd x)).
Proof.
  intros hs he. unfold svd_delimit. step1. eapply post_mono; [apply (svd_delim_end_safe r c n); auto|].
  intros [k st1] (h1 & h2). cbn [fst snd] in *. destruct (Nat.eqb_spec k 0).
  - apply post_ret. cbn [fst snd]. split; auto. split; [lia|auto].
  - step1. apply post_usub; [lia|]. step1.
    eapply post_mono; [apply (svd_delim_start_safe r c n); [apply h2|lia|lia]|].
    intros [s st2] (h3 & h4). cbn [fst snd] in *. apply post_ret. cbn [fst snd].
    split; [lia|]. split; [lia|]. solve [eauto using sok_trans].
Qed.

Lemma svd_sweep_step_safe r c n up start e k xy st : ss_shape r c n st -> start <= k -> k < e -> e < n ->
  wp (svd_sweep_step up start e k (xy, st)) (fun x => sok r c n st (snd (snd x))).
Proof.
  destruct xy as [x y], st as [d o u v]. intros (h1 & h2 & h3 & h4) hs hk he. cbn [sd so su sv] in *.
  unfold svd_sweep_step. cbn [sd so su sv]. step1. apply post_usub; [lia|]. step1.
  eapply post_mono with (Q := fun _ => True).
  { destruct (Nat.eqb_spec k (e - 1)); [exact I|]. apply post_at1; [lia|exact I]. }
  intros m12 _. steps.
  destruct (cancel_y x y) as [[rot1 norm1]|].
  2: { apply post_ret. cbn [snd]. apply sok_refl. repeat split; auto. }
  step1. apply post_slice; try (simpl; lia). step1. apply post_unwrap.
  eapply post_mono; [apply rotate_rows_ok; dims; auto|]. intros s01 (g1 & g2 & _). dims.
  step1. eapply post_mono with (Q := fun o' => length o' = n - 1).
  { destruct (Nat.ltb_spec start k); [|apply post_ret; auto]. step1. apply post_usub; [lia|].
    apply post_atm1; [lia|]. dims. auto. }
  intros o1 ho1. set (sm := put _ 0 0 s01).
  assert (d1 : nr sm = 2) by reflexivity. assert (d2 : nc sm = 3) by reflexivity. clearbody sm.
  steps.
  eapply post_mono with (Q := fun q => nr (fst (fst q)) = 2 /\ nc (fst (fst q)) = 3).
  { destruct (cancel_y (get sm 0 0) (get sm 1 0)) as [[rot norm]|]; [|apply post_ret; auto].
    step1. apply post_slice; try lia. step1. apply post_unwrap.
    eapply post_mono; [apply rotate_cols_ok; dims; auto|]. intros s12 (k1 & k2 & _). apply post_ret. cbn [fst]. dims. auto. }
  intros [[sm2 rot2] norm2]. cbn [fst]. intros (d3 & d4). steps.
  eapply post_mono with (Q := fun v' => ush n c v' /\ same_flag v v').
  { assert (wp (Ret v) (fun v' => ush n c v' /\ same_flag v v')) by (split; auto; apply same_flag_refl).
    destruct up; [apply rot_vt_sh; auto; lia|]. destruct rot2; auto. apply rot_vt_sh; auto; lia. }
  intros v' (k1 & k2). step1.
  eapply post_mono with (Q := fun v' => ush r n v' /\ same_flag u v').
  { assert (wp (Ret u) (fun v' => ush r n v' /\ same_flag u v')) by (split; auto; apply same_flag_refl).
    destruct up; cbn [negb]; [|apply rot_u_sh; auto; lia]. destruct rot2; auto. apply rot_u_sh; auto; lia. }
  intros u' (k3 & k4). steps.
  eapply post_mono with (Q := fun o' => length o' = n - 1).
  { destruct (Nat.eqb_spec k (e - 1)); cbn [negb]; steps; dims; auto. }
  intros o2 ho2. apply post_ret. cbn [snd]. split; [|split; auto]. repeat split; cbn [sd so su sv]; dims; auto.
Qed.

Lemma svd_big_safe r c n up start e st : ss_shape r c n st -> start + 1 < e -> e < n ->
  wp (svd_big up start e st) (sok r c n st).
Proof.
  intros hs h1 h2. pose proof hs as (s1 & s2 & s3 & s4). unfold svd_big. steps.
  eapply post_mono with (Q := fun s => sok r c n st (snd s)).
  2: { intros [xy st'] h. exact h. }
  eapply post_for_brk with (I := fun _ s => sok r c n st (snd s)).
  - cbn [snd]. apply sok_refl; auto.
  - intros i [xy st1] hi. cbn [snd]. intros g. 
    eapply post_mono; [apply (svd_sweep_step_safe r c n); [apply g|lia..]|].
    intros [b [xy' st2]]. cbn [fst snd]. intros g2. assert (sok r c n st st2) by (solve [eauto using sok_trans]). destruct b; auto.
  - auto.
Qed.

Definition flags (cu cv : bool) (st : svd_state N) : Prop :=
  match su st with Some _ => cu = true | None => cu = false end /\
  match sv st with Some _ => cv = true | None => cv = false end.

Lemma flags_mono cu cv st st' : flags cu cv st -> ss_flag st st' -> flags cu cv st'.
Proof.
  destruct st as [d o u v], st' as [d' o' u' v']. unfold flags, ss_flag, same_flag. cbn [su sv].
  destruct u, u', v, v'; tauto.
Qed.

Lemma uptrig_flags (m11 m12 m22 : N) cu cv s1 s2 u2 v2 :
  compute_2x2_uptrig_svd m11 m12 m22 cu cv = (s1, s2, u2, v2) ->
  match u2 with Some _ => cu = true | None => cu = false end /\
  match v2 with Some _ => cv = true | None => cv = false end.
Proof.
  unfold compute_2x2_uptrig_svd. destruct cv, cu; cbn [orb].
  1-3: destruct (givens_new _ _) as [csv sgv]; destruct (givens_new _ _) as [csu sgu].
  all: intros h; injection h as <- <- <- <-; auto.
Qed.

Lemma svd_two_safe r c n up cu cv start st : ss_shape r c n st -> start + 1 < n -> flags cu cv st ->
  wp (svd_two up cu cv start st) (sok r c n st).
Proof.
  intros (h1 & h2 & h3 & h4) hn (f1 & f2). destruct st as [d o u v]. cbn [sd so su sv] in *.
  unfold svd_two. cbn [sd so su sv]. steps.
  destruct (compute_2x2_uptrig_svd _ _ _ _ _) as [[[s1 s2] u2] v2] eqn:e.
  apply uptrig_flags in e. destruct e as (e1 & e2). steps.
  destruct (if up then (u2, v2) else (v2, u2)) as [ru rv] eqn:er.
  step1. eapply post_mono with (Q := fun u' => ush r n u' /\ same_flag u u').
  { destruct u as [u|]; [|apply post_ret; split; exact I]. 
    assert (ru <> None).
    { destruct up; injection er as <- <-; subst cu; cbn [negb andb orb] in *;
      [destruct u2; [congruence|]|destruct v2; [congruence|]]; destruct cv; discriminate. }
    destruct ru as [g|]; [|congruence]. cbn [unwrap_opt]. cbn [bind]. apply rot_u_sh; auto. }
  intros u' (k1 & k2). step1.
  eapply post_mono with (Q := fun v' => ush n c v' /\ same_flag v v').
  { destruct v as [v|]; [|apply post_ret; split; exact I]. 
    assert (rv <> None).
    { destruct up; injection er as <- <-; subst cv; cbn [negb andb orb] in *;
      [destruct v2; [congruence|]|destruct u2; [congruence|]]; destruct cu; discriminate. }
    destruct rv as [g|]; [|congruence]. cbn [unwrap_opt]. cbn [bind]. apply rot_vt_sh; auto. }
  intros v' (k3 & k4). apply post_ret. split; [|split; auto]. repeat split; cbn [sd so su sv]; dims; auto.
Qed.

Lemma svd_loop_safe r c n up cu cv eps fuel : forall start e st, ss_shape r c n st -> flags cu cv st ->
  start <= e -> e < n ->
  post (svd_loop fuel up cu cv eps start e st) (sok r c n st) noE (2 <= n).
Proof.
  induction fuel as [|fuel IH]; intros start e st hs hf h1 h2; cbn [svd_loop];
  (destruct (Nat.eqb_spec e start); [apply post_ret, sok_refl; auto|]).
  - simpl. lia.
  - step1. apply post_usub; [lia|]. step1.
    eapply wp_conseq with (Q := fun x => sok r c n st (fst x) /\ snd x <= e).
    { destruct (Nat.ltb_spec 2 (S (e - start))).
      - step1. eapply post_mono; [apply (svd_big_safe r c n); auto; lia|]. intros st1 g. apply post_ret. auto.
      - destruct (Nat.eqb_spec (S (e - start)) 2); [|lia].
        step1. eapply post_mono; [apply (svd_two_safe r c n); auto; lia|]. intros st1 g.
        step1. apply post_usub; [lia|]. apply post_ret. cbn [fst snd]. split; auto. lia. }
    intros [st1 e1]. cbn [fst snd]. intros (g1 & g2). step1.
    eapply wp_conseq; [apply (svd_delimit_safe r c n); [apply g1|lia]|].
    intros [[s' e'] st2]. cbn [fst snd]. intros (g3 & g4 & g5).
    assert (g6 : sok r c n st st2) by (solve [eauto using sok_trans]).
    eapply post_mono; [apply IH; [apply g5| |auto|lia]|].
    + eapply flags_mono; [eauto|apply g6].
    + intros st3 g7. solve [eauto using sok_trans].
Qed.

Lemma svd_fix_signs_safe r n (d : vec) (u : option mtx) : length d = n -> ush r n u ->
  wp (svd_fix_signs n d u) (fun x => length (fst x) = n /\ ush r n (snd x) /\ same_flag u (snd x)).
Proof.
  intros hd hu. unfold svd_fix_signs.
  eapply post_for' with (I := fun _ (s : vec * option mtx) => length (fst s) = n /\ ush r n (snd s) /\ same_flag u (snd s)).
  - cbn [fst snd]. repeat split; auto. apply same_flag_refl.
  - intros i [d1 u1] hi. cbn [fst snd]. intros (h1 & h2 & h3). steps. destruct (nis_neg N _).
    2: { apply post_ret. auto. }
    steps. destruct u1 as [u1|]; [|apply post_ret; cbn [fst snd]; steps; cbn [fst snd]; dims; auto].
    destruct h2 as (k1 & k2). steps; try lia. cbn [fst snd ush same_flag]. dims. auto.
  - auto.
Qed.

Definition svd_out (r c : nat) (cu cv : bool) (x : option mtx * vec * option mtx) : Prop :=
  length (snd (fst x)) = Nat.min r c /\ match fst (fst x) with Some u => cu = true /\ nr u = r /\ nc u = Nat.min r c | None => cu = false end /\
  match snd x with Some v => cv = true /\ nr v = Nat.min r c /\ nc v = c | None => cv = false end.

Lemma svd_init (m : mtx) (cu cv : bool) : 1 <= nr m -> 1 <= nc m ->
  exists b u v, bidiagonal m = Ret b /\ bid_wf (nr m) (nc m) b /\
    (if cu then let* u := generate_u b in Ret (Some u) else Ret None) = Ret u /\
    (if cv then let* v := generate_vt b in Ret (Some v) else Ret None) = Ret v /\
    ss_shape (nr m) (nc m) (Nat.min (nr m) (nc m)) (SS (fst (bi_into_diagonals b)) (snd (bi_into_diagonals b)) u v) /\
    flags cu cv (SS (fst (bi_into_diagonals b)) (snd (bi_into_diagonals b)) u v).
Proof.
  intros h1 h2. pose proof (bidiagonal_class m) as hb.
  destruct (bidiagonal m) as [b|e| | |]; try tauto; [|lia]. destruct hb as (_ & hb).
  assert (hu : wp (if cu then let* u := generate_u b in Ret (Some u) else Ret None)
    (fun u => ush (nr m) (Nat.min (nr m) (nc m)) u /\ match u with Some _ => cu = true | None => cu = false end)).
  { destruct cu; [|apply post_ret; split; auto; exact I]. step1.
    eapply post_mono; [apply (generate_u_safe _ _ b hb)|]. intros u hu. apply post_ret. simpl. auto. }
  assert (hv : wp (if cv then let* u := generate_vt b in Ret (Some u) else Ret None)
    (fun u => ush (Nat.min (nr m) (nc m)) (nc m) u /\ match u with Some _ => cv = true | None => cv = false end)).
  { destruct cv; [|apply post_ret; split; auto; exact I]. step1.
    eapply post_mono; [apply (generate_vt_safe _ _ b hb)|]. intros u hv. apply post_ret. simpl. auto. }
  destruct (wp_ret _ _ hu) as (u & eu & u1 & u2). destruct (wp_ret _ _ hv) as (v & ev & v1 & v2).
  exists b, u, v. split; auto. split; auto. split; auto. split; auto.
  destruct hb as (k1 & k2 & k3 & k4 & k5 & k6).
  split; [|split; auto]. unfold bi_into_diagonals. cbn [fst snd].
  repeat split; cbn [sd so su sv]; auto; unfold vmap; rewrite length_vmk; lia.
Qed.

Lemma svd_class fuel (m : mtx) cu cv eps :
  match svd_eps fuel m cu cv eps with
  | Ret x => 1 <= nr m /\ 1 <= nc m /\ svd_out (nr m) (nc m) cu cv x
  | Err e => e = EmptyMatrix /\ (nr m = 0 \/ nc m = 0)
  | OutOfFuel => 2 <= Nat.min (nr m) (nc m)
  | _ => False
  end.
Proof.
  unfold svd_eps. destruct (Nat.eqb_spec (nr m) 0) as [|nz1]; [cbn [orb]; auto|].
  destruct (Nat.eqb_spec (nc m) 0) as [|nz2]; cbn [orb]; auto.
  set (m' := scale_down m (abs_max m)).
  assert (d1 : nr m' = nr m) by apply nr_scale_down.
  assert (d2 : nc m' = nc m) by apply nc_scale_down.
  destruct (svd_init m' cu cv ltac:(lia) ltac:(lia)) as (b & u & v & eb & hb & eu & ev & hs & hf).
  rewrite eb. cbn [bind]. rewrite eu. cbn [bind]. rewrite ev. cbn [bind].
  rewrite d1, d2 in *. set (n := Nat.min (nr m) (nc m)) in *.
  destruct (bi_into_diagonals b) as [diag off]. cbn [fst snd] in hs, hf.
  unfold usub. destruct (Nat.leb_spec 1 n); [|lia]. cbn [bind].
  destruct (wp_ret _ _ (svd_delimit_safe _ _ _ (upper_diag b) (n - 1) eps _ hs ltac:(lia))) as ([[s e] st] & -> & g1 & g2 & g3).
  cbn [bind fst snd] in *.
  pose proof (svd_loop_safe _ _ _ (upper_diag b) cu cv eps fuel s e st (proj1 g3) (flags_mono _ _ _ _ hf (proj2 g3)) g1 ltac:(lia)) as hl.
  destruct (svd_loop _ _ _ _ _ _ _ _) as [st'| | | |]; cbn [bind]; simpl in hl; try contradiction; try lia.
  destruct hl as ((k1 & k2 & k3 & k4) & k5).
  assert (hf' : flags cu cv st') by (eapply flags_mono; [exact hf|]; eapply ss_flag_trans; [apply g3|auto]).
  destruct (wp_ret _ _ (svd_fix_signs_safe (nr m) n (vmap (fun x => nmul N x (abs_max m)) (sd st')) (su st')
    ltac:(unfold vmap; rewrite length_vmk; auto) k3)) as ([dg u'] & -> & p1 & p2 & p3). cbn [bind fst snd] in *.
  split; [lia|]. split; [lia|]. unfold svd_out. cbn [fst snd]. split; auto. destruct hf' as (f1 & f2). split.
  - destruct u' as [u'|]; destruct (su st'), cu; simpl in *; intuition congruence.
  - destruct (sv st') as [v'|], cv; simpl in *; intuition congruence.
Qed.

(** One 2x2 step always deflates: no more fuel is needed up to dimension 2 *)
Lemma svd_small (m : mtx) cu cv eps : 1 <= nr m -> 1 <= nc m -> Nat.min (nr m) (nc m) <= 2 ->
  exists x, svd_eps 1 m cu cv eps = Ret x.
Proof.
  intros hr hc hn. pose proof (svd_class 1 m cu cv eps) as hcl. unfold svd_eps in *.
  destruct (Nat.eqb_spec (nr m) 0) as [|nz1]; [lia|]. destruct (Nat.eqb_spec (nc m) 0) as [|nz2]; [lia|]. cbn [orb] in *.
  set (m' := scale_down m (abs_max m)) in *.
  assert (d1 : nr m' = nr m) by apply nr_scale_down.
  assert (d2 : nc m' = nc m) by apply nc_scale_down.
  destruct (svd_init m' cu cv ltac:(lia) ltac:(lia)) as (b & u & v & eb & hb & eu & ev & hs & hf).
  rewrite eb in *. cbn [bind] in *. rewrite eu in *. cbn [bind] in *. rewrite ev in *. cbn [bind] in *.
  rewrite d1, d2 in *. set (n := Nat.min (nr m) (nc m)) in *.
  destruct (bi_into_diagonals b) as [diag off]. cbn [fst snd] in hs, hf.
  unfold usub in hcl at 1 |- * at 1. destruct (Nat.leb_spec 1 n); [|lia]. cbn [bind] in *.
  destruct (wp_ret _ _ (svd_delimit_safe _ _ _ (upper_diag b) (n - 1) eps _ hs ltac:(lia))) as ([[s e] st] & ed & g1 & g2 & g3).
  rewrite ed in *. cbn [bind fst snd] in *.
  assert (hl : exists st', svd_loop 1 (upper_diag b) cu cv eps s e st = Ret st').
  { cbn [svd_loop]. destruct (Nat.eqb_spec e s); [eauto|]. assert (s = 0 /\ e = 1) as (-> & ->) by lia.
    cbn [usub Nat.leb Nat.sub bind Nat.ltb Nat.eqb].
    clear hcl. destruct (wp_ret _ _ (svd_two_safe (nr m) (nc m) n (upper_diag b) cu cv 0 st (proj1 g3) ltac:(lia)
      (flags_mono _ _ _ _ hf (proj2 g3)))) as (st1 & -> & h1). cbn [bind svd_delimit svd_delim_end Nat.eqb]. eauto. }
  pose proof (svd_loop_safe _ _ _ (upper_diag b) cu cv eps 1 s e st (proj1 g3) (flags_mono _ _ _ _ hf (proj2 g3)) g1 ltac:(lia)) as hls.
  destruct hl as (st' & hl). rewrite hl in *. cbn [bind] in *. destruct hls as ((k1 & k2 & k3 & k4) & k5).
  destruct (wp_ret _ _ (svd_fix_signs_safe (nr m) n (vmap (fun x => nmul N x (abs_max m)) (sd st')) (su st')
    ltac:(unfold vmap; rewrite length_vmk; auto) k3)) as ([dg u'] & -> & _). cbn [bind]. eauto.
Qed.


(** A run that returns is unchanged by more fuel *)
Lemma svd_loop_more up cu cv (eps : N) fuel : forall start e st r, svd_loop fuel up cu cv eps start e st = Ret r ->
  forall fuel', fuel <= fuel' -> svd_loop fuel' up cu cv eps start e st = Ret r.
Proof.
  induction fuel as [|fuel IH]; intros start e st r h fuel' hf.
  - cbn [svd_loop] in h. destruct fuel'; cbn [svd_loop]; destruct (Nat.eqb e start); auto; discriminate.
  - destruct fuel' as [|fuel']; [lia|]. cbn [svd_loop] in *. destruct (Nat.eqb e start); auto.
    destruct (bind_ret _ _ _ h) as (d & -> & h1). cbn [bind].
    destruct (bind_ret _ _ _ h1) as ([es1 e1] & -> & h2). cbn [bind].
    destruct (bind_ret _ _ _ h2) as ([[s' e'] off'] & -> & h3). cbn [bind]. apply IH; auto. lia.
Qed.

(** ** Runs with and without singular vectors in lock step *)
Definition omsk (f : bool) (u : option mtx) : option mtx := if f then u else None.
Definition msk (fu fv : bool) (st : svd_state N) : svd_state N :=
  SS (sd st) (so st) (omsk fu (su st)) (omsk fv (sv st)).
(** shapes of u and vt only *)
Definition vsh (r c n : nat) (st : svd_state N) : Prop := ush r n (su st) /\ ush n c (sv st).
Definition mrel (r c n : nat) (fu fv : bool) (st st' : svd_state N) : Prop := vsh r c n st /\ st' = msk fu fv st.

Lemma sim_wp_none {A} (P : A -> Prop) (m : res A) (f : A -> A -> Prop) b : wp m P -> (forall a, P a -> f a b) -> sim f m (Ret b).
Proof. destruct m; simpl; auto. Qed.

Lemma rot_sim (f : bool) (m : option mtx -> res (option mtx)) r n u : m None = Ret None ->
  wp (m u) (fun u' => ush r n u' /\ same_flag u u') ->
  sim (fun a b => ush r n a /\ b = omsk f a) (m u) (m (omsk f u)).
Proof.
  intros h0 hw. destruct f; cbn [omsk].
  - eapply sim_mono; [apply sim_post; exact hw|]. intros a b (<- & h & _). auto.
  - rewrite h0. eapply sim_wp_none; [exact hw|]. intros a (h & _). auto.
Qed.
Lemma keep_sim (f : bool) r n u : ush r n u -> sim (fun a b => ush r n a /\ b = omsk f a) (Ret u) (Ret (omsk f u)).
Proof. simpl. auto. Qed.

Ltac same := eapply sim_bind; [apply sim_eq; reflexivity|intros ? ? <-].

Lemma cancel_horizontal_sim r c n fu fv up i e st : vsh r c n st -> i < e -> e < n ->
  sim (mrel r c n fu fv) (cancel_horizontal up i e st) (cancel_horizontal up i e (msk fu fv st)).
Proof.
  intros hv hi he. destruct st as [d o u v]. unfold cancel_horizontal. cbn [sd so su sv msk]. same. same. same.
  eapply sim_bind with (R := fun s s' => fst s = fst s' /\ mrel r c n fu fv (snd s) (snd s')).
  2: { intros [p1 s1] [p2 s2]. cbn [fst snd]. intros (_ & h). exact h. }
  eapply sim_for_brk with (R := fun _ s s' => fst s = fst s' /\ mrel r c n fu fv (snd s) (snd s')).
  - cbn [fst snd]. split; auto. split; auto.
  - intros k [[v0 v1] [d1 o1 u1 w1]] [[v0' v1'] s'] hk. cbn [fst snd]. intros (e1 & hv1 & ->). injection e1 as <- <-.
    destruct hv1 as (g1 & g2). cbn [su sv] in g1, g2. cbn [sd so su sv msk].
    destruct (cancel_x v0 v1) as [[rot norm]|].
    2: { cbn [sim fst snd]. split; auto. split; auto. split; auto. split; auto. }
    same. replace (k - i + 1) with ((k + 1) - i) by lia.
    eapply sim_bind with (R := fun a b => ush r n a /\ b = omsk fu a).
    { destruct up; [|apply keep_sim; auto].
      apply (rot_sim fu (fun u => rot_u_stride (inverse rot) u i (k + 1) (k + 1 - i))); [reflexivity|].
      apply rot_u_stride_sh; auto; lia. }
    intros u2 ? (k1 & ->).
    eapply sim_bind with (R := fun a b => ush n c a /\ b = omsk fv a).
    { destruct up; [apply keep_sim; auto|].
      apply (rot_sim fv (fun u => rot_vt_stride rot u i (k + 1) (k + 1 - i))); [reflexivity|].
      apply rot_vt_stride_sh; auto; lia. }
    intros v2 ? (k2 & ->).
    destruct (negb _).
    + same. same. same. cbn [sim fst snd]. split; auto. split; auto. split; auto. split; auto.
    + cbn [sim fst snd]. split; auto. split; auto. split; auto. split; auto.
  - auto.
Qed.

Lemma sim_for_rev_brk {S S'} (R : nat -> S -> S' -> Prop) (Q : S -> S' -> Prop) cnt f g s s' :
  R cnt s s' ->
  (forall i s s', i < cnt -> R (Datatypes.S i) s s' ->
     sim (fun r r' => fst r = fst r' /\ (if fst r : bool then R i (snd r) (snd r') else Q (snd r) (snd r')))
       (f i s) (g i s')) ->
  (forall s s', R 0 s s' -> Q s s') ->
  sim Q (for_rev_brk cnt f s) (for_rev_brk cnt g s').
Proof.
  revert s s'. induction cnt as [|k IH]; intros s s' h hb hq; cbn [for_rev_brk].
  - apply hq. auto.
  - eapply sim_bind; [apply hb; [lia|exact h]|]. intros [b1 s1] [b2 s2]. cbn [fst snd]. intros (<- & h').
    destruct b1; [|exact h']. apply IH; auto.
Qed.

Lemma cancel_vertical_sim r c n fu fv up i st : vsh r c n st -> i + 1 < n ->
  sim (mrel r c n fu fv) (cancel_vertical up i st) (cancel_vertical up i (msk fu fv st)).
Proof.
  intros hv hi. destruct st as [d o u v]. unfold cancel_vertical. cbn [sd so su sv msk]. same. same. same.
  eapply sim_bind with (R := fun s s' => fst s = fst s' /\ mrel r c n fu fv (snd s) (snd s')).
  2: { intros [p1 s1] [p2 s2]. cbn [fst snd]. intros (_ & h). exact h. }
  eapply sim_for_rev_brk with (R := fun _ s s' => fst s = fst s' /\ mrel r c n fu fv (snd s) (snd s')).
  - cbn [fst snd]. split; auto. split; auto.
  - intros k [[v0 v1] [d1 o1 u1 w1]] [[v0' v1'] s'] hk. cbn [fst snd]. intros (e1 & hv1 & ->). injection e1 as <- <-.
    destruct hv1 as (g1 & g2). cbn [su sv] in g1, g2. cbn [sd so su sv msk].
    destruct (cancel_y v0 v1) as [[rot norm]|].
    2: { cbn [sim fst snd]. split; auto. split; auto. split; auto. split; auto. }
    same. replace (i - k + 1) with ((i + 1) - k) by lia.
    eapply sim_bind with (R := fun a b => ush n c a /\ b = omsk fv a).
    { destruct up; [|apply keep_sim; auto].
      apply (rot_sim fv (fun u => rot_vt_stride rot u k (i + 1) (i + 1 - k))); [reflexivity|].
      apply rot_vt_stride_sh; auto; lia. }
    intros v2 ? (k2 & ->).
    eapply sim_bind with (R := fun a b => ush r n a /\ b = omsk fu a).
    { destruct up; [apply keep_sim; auto|].
      apply (rot_sim fu (fun u => rot_u_stride (inverse rot) u k (i + 1) (i + 1 - k))); [reflexivity|].
      apply rot_u_stride_sh; auto; lia. }
    intros u2 ? (k1 & ->).
    destruct (Nat.ltb 0 k).
    + same. same. same. same. cbn [sim fst snd]. split; auto. split; auto. split; auto. split; auto.
    + cbn [sim fst snd]. split; auto. split; auto. split; auto. split; auto.
  - auto.
Qed.

Lemma msk_set fu fv st d o : SS d o (su (msk fu fv st)) (sv (msk fu fv st)) = msk fu fv (SS d o (su st) (sv st)).
Proof. reflexivity. Qed.

Lemma cancel_both_sim r c n fu fv up i e st : vsh r c n st -> i < e -> e < n ->
  sim (mrel r c n fu fv)
    (let* st := cancel_horizontal up i e st in
     if negb (i =? 0) then let* m1 := usub i 1 in cancel_vertical up m1 st else Ret st)
    (let* st := cancel_horizontal up i e (msk fu fv st) in
     if negb (i =? 0) then let* m1 := usub i 1 in cancel_vertical up m1 st else Ret st).
Proof.
  intros hv hi he. eapply sim_bind; [apply (cancel_horizontal_sim r c n fu fv); auto|].
  intros st1 ? (k1 & ->). destruct (Nat.eqb_spec i 0); cbn [negb]; [cbn [sim]; split; auto|].
  eapply sim_bind; [apply sim_post with (P := fun v => v = i - 1); apply post_usub; [lia|auto]|intros ? ? (<- & ->)].
  apply cancel_vertical_sim; auto. lia.
Qed.

Lemma svd_delim_end_sim r c n fu fv up eps e : forall st, vsh r c n st -> e < n ->
  sim (fun x y => fst x = fst y /\ fst x <= e /\ mrel r c n fu fv (snd x) (snd y))
    (svd_delim_end up eps e st) (svd_delim_end up eps e (msk fu fv st)).
Proof.
  induction e as [|m IH]; intros st hv he; cbn [svd_delim_end].
  - cbn [sim fst snd]. split; auto. split; auto. split; auto.
  - assert (next : forall st' st'', mrel r c n fu fv st' st'' -> sim (fun x y => fst x = fst y /\ fst x <= S m /\ mrel r c n fu fv (snd x) (snd y))
      (svd_delim_end up eps m st') (svd_delim_end up eps m st'')).
    { intros st' st'' (hs & ->). eapply sim_mono; [apply IH; auto; lia|]. intros x y (h1 & h2 & h3). auto. }
    change (so (msk fu fv st)) with (so st). change (sd (msk fu fv st)) with (sd st).
    same. same. same. destruct (_ || _).
    { same. apply next. split; auto. }
    destruct (nle N _ eps).
    { same. rewrite msk_set.
      eapply sim_bind; [apply (cancel_horizontal_sim r c n fu fv); auto; lia|]. intros st1 ? (k1 & ->).
      eapply sim_bind with (R := mrel r c n fu fv); [|exact next].
      destruct (Nat.eqb_spec m 0); cbn [negb]; [cbn [sim]; split; auto|].
      eapply sim_bind; [apply sim_post with (P := fun v => v = m - 1); apply post_usub; [lia|auto]|intros ? ? (<- & ->)].
      apply cancel_vertical_sim; auto. lia. }
    destruct (nle N _ eps).
    { same. rewrite msk_set. eapply sim_bind; [apply (cancel_vertical_sim r c n fu fv); auto; lia|exact next]. }
    cbn [sim fst snd]. split; auto. split; auto. split; auto.
Qed.

Lemma svd_delim_start_sim r c n fu fv up eps k s : forall st, vsh r c n st -> s < k -> k < n ->
  sim (fun x y => fst x = fst y /\ fst x <= s /\ mrel r c n fu fv (snd x) (snd y))
    (svd_delim_start up eps k s st) (svd_delim_start up eps k s (msk fu fv st)).
Proof.
  induction s as [|m IH]; intros st hv hk he; cbn [svd_delim_start].
  - cbn [sim fst snd]. split; auto. split; auto. split; auto.
  - change (so (msk fu fv st)) with (so st). change (sd (msk fu fv st)) with (sd st).
    same. same. same. destruct (nle N _ _).
    { same. cbn [sim fst snd]. split; auto. split; auto. split; auto. }
    destruct (nle N _ eps).
    { same. rewrite msk_set.
      eapply sim_bind; [apply (cancel_horizontal_sim r c n fu fv); auto; lia|]. intros st1 ? (k1 & ->).
      eapply sim_bind with (R := mrel r c n fu fv).
      - destruct (Nat.eqb_spec m 0); cbn [negb]; [cbn [sim]; split; auto|].
        eapply sim_bind; [apply sim_post with (P := fun v => v = m - 1); apply post_usub; [lia|auto]|intros ? ? (<- & ->)].
        apply cancel_vertical_sim; auto. lia.
      - intros aa bb hr. cbn [sim fst snd]. auto. }
    eapply sim_mono; [apply IH; auto; lia|]. intros x y (h1 & h2 & h3). auto.
Qed.

Lemma svd_delimit_sim r c n fu fv up e eps st : vsh r c n st -> e < n ->
  sim (fun x y => fst x = fst y /\ (fst (fst x) <= snd (fst x) /\ snd (fst x) <= e) /\ mrel r c n fu fv (snd x) (snd y))
    (svd_delimit up e eps st) (svd_delimit up e eps (msk fu fv st)).
Proof.
  intros hv he. unfold svd_delimit. eapply sim_bind; [apply (svd_delim_end_sim r c n fu fv); auto|].
  intros [k st1] [k' st1']. cbn [fst snd]. intros (<- & h1 & h2 & ->). destruct (Nat.eqb_spec k 0).
  - cbn [sim fst snd]. split; auto. split; [lia|]. split; auto.
  - eapply sim_bind; [apply sim_post with (P := fun v => v = k - 1); apply post_usub; [lia|auto]|intros ? ? (<- & ->)].
    eapply sim_bind; [apply (svd_delim_start_sim r c n fu fv); auto; lia|].
    intros [s st2] [s' st2']. cbn [fst snd]. intros (<- & h3 & h4 & ->). cbn [sim fst snd].
    split; auto. split; [lia|]. split; auto.
Qed.

Lemma svd_sweep_step_sim r c n fu fv up start e k xy st : vsh r c n st -> start <= k -> k < e -> e < n ->
  sim (fun x y => fst x = fst y /\ fst (snd x) = fst (snd y) /\ mrel r c n fu fv (snd (snd x)) (snd (snd y)))
    (svd_sweep_step up start e k (xy, st)) (svd_sweep_step up start e k (xy, msk fu fv st)).
Proof.
  destruct xy as [x y], st as [d o u v]. intros (h1 & h2) hs hk he. cbn [su sv] in *.
  unfold svd_sweep_step. cbn [sd so su sv msk]. same. same. same. same. same.
  destruct (cancel_y x y) as [[rot1 norm1]|].
  2: { cbn [sim fst snd]. split; auto. split; auto. split; auto. split; auto. }
  same. same. same. same. same.
  eapply sim_bind; [apply sim_eq; reflexivity|intros [[sm rot2] norm2] ? <-]. same.
  eapply sim_bind with (R := fun a b => ush n c a /\ b = omsk fv a).
  { destruct up; [|destruct rot2 as [rot2|]; [|apply keep_sim; auto]].
    - apply (rot_sim fv (fun u => rot_vt rot1 u k)); [reflexivity|]. apply rot_vt_sh; auto; lia.
    - apply (rot_sim fv (fun u => rot_vt rot2 u k)); [reflexivity|]. apply rot_vt_sh; auto; lia. }
  intros v2 ? (k2 & ->).
  eapply sim_bind with (R := fun a b => ush r n a /\ b = omsk fu a).
  { destruct up; cbn [negb]; [destruct rot2 as [rot2|]; [|apply keep_sim; auto]|].
    - apply (rot_sim fu (fun u => rot_u (inverse rot2) u k)); [reflexivity|]. apply rot_u_sh; auto; lia.
    - apply (rot_sim fu (fun u => rot_u (inverse rot1) u k)); [reflexivity|]. apply rot_u_sh; auto; lia. }
  intros u2 ? (k1 & ->).
  do 9 same. cbn [sim fst snd]. split; auto. split; auto. split; auto. split; auto.
Qed.

Lemma svd_big_sim r c n fu fv up start e st : vsh r c n st -> start + 1 < e -> e < n ->
  sim (mrel r c n fu fv) (svd_big up start e st) (svd_big up start e (msk fu fv st)).
Proof.
  intros hv h1 h2. unfold svd_big. change (so (msk fu fv st)) with (so st). change (sd (msk fu fv st)) with (sd st).
  do 8 same.
  eapply sim_bind with (R := fun s s' => fst s = fst s' /\ mrel r c n fu fv (snd s) (snd s')).
  2: { intros [p1 s1] [p2 s2]. cbn [fst snd]. intros (_ & h). exact h. }
  eapply sim_for_brk with (R := fun _ s s' => fst s = fst s' /\ mrel r c n fu fv (snd s) (snd s')).
  - cbn [fst snd]. split; auto. split; auto.
  - intros k [xy st1] [xy' st1'] hk. cbn [fst snd]. intros (<- & hv1 & ->).
    eapply sim_mono; [apply (svd_sweep_step_sim r c n fu fv); auto; lia|].
    intros [b [p q]] [b' [p' q']]. cbn [fst snd]. intros (<- & <- & hr). split; auto. destruct b; auto.
  - auto.
Qed.

(** the 2x2 routine: the values do not depend on which vectors are asked for, as long as one is *)
Lemma uptrig_any (m11 m12 m22 : N) : exists v1 v2 csu csv, forall b1 b2, b1 || b2 = true ->
  compute_2x2_uptrig_svd m11 m12 m22 b1 b2 =
  (v1, v2, (if b1 then Some csu else None), (if b2 then Some csv else None)).
Proof.
  unfold compute_2x2_uptrig_svd. destruct (givens_new _ _) as [csv sgv]. destruct (givens_new _ _) as [csu sgu].
  do 4 eexists. intros b1 b2 hb. rewrite orb_comm, hb. reflexivity.
Qed.

Lemma svd_two_sim r c n fu fv up start st : vsh r c n st -> flags true true st -> fu || fv = true -> start + 1 < n ->
  sim (mrel r c n fu fv) (svd_two up true true start st) (svd_two up fu fv start (msk fu fv st)).
Proof.
  intros (h1 & h2) (f1 & f2) hf hn. destruct st as [d o u v]. cbn [su sv] in *.
  destruct u as [u|]; [|discriminate]. destruct v as [v|]; [|discriminate].
  unfold svd_two. cbn [sd so su sv msk]. same. same. same.
  destruct (uptrig_any a a0 a1) as (s1 & s2 & csu & csv & ev).
  assert (hg : (fu && up || fv && negb up) || (fv && up || fu && negb up) = true).
  { destruct up, fu, fv; auto. }
  rewrite (ev _ _ hg). rewrite (ev (true && up || true && negb up) (true && up || true && negb up)) by (destruct up; reflexivity).
  same. same. same.
  assert (e1 : (if up then ((if true && up || true && negb up then Some csu else None), (if true && up || true && negb up then Some csv else None))
     else ((if true && up || true && negb up then Some csv else None), (if true && up || true && negb up then Some csu else None)))
     = (Some (if up then csu else csv), Some (if up then csv else csu))) by (destruct up; reflexivity).
  rewrite e1. clear e1.
  assert (e1 : (if up then ((if fu && up || fv && negb up then Some csu else None), (if fv && up || fu && negb up then Some csv else None))
     else ((if fv && up || fu && negb up then Some csv else None), (if fu && up || fv && negb up then Some csu else None)))
     = ((if fu then Some (if up then csu else csv) else None), (if fv then Some (if up then csv else csu) else None))) by (destruct up, fu, fv; reflexivity).
  rewrite e1. clear e1.
  eapply sim_bind with (R := fun a b => ush r n a /\ b = omsk fu a).
  { set (g := if up then csu else csv). destruct fu; cbn [omsk].
    - apply (rot_sim true (fun u => rot_u g u start) r n (Some u)); [reflexivity|]. apply rot_u_sh; auto.
    - cbn [unwrap_opt bind]. eapply sim_wp_none; [apply (rot_u_sh g (Some u) r n start); auto|]. intros x (hx & _). auto. }
  intros u2 ? (k1 & ->).
  eapply sim_bind with (R := fun a b => ush n c a /\ b = omsk fv a).
  { set (g := if up then csv else csu). destruct fv; cbn [omsk].
    - apply (rot_sim true (fun u => rot_vt (inverse g) u start) n c (Some v)); [reflexivity|]. apply rot_vt_sh; auto.
    - cbn [unwrap_opt bind]. eapply sim_wp_none; [apply (rot_vt_sh (inverse g) (Some v) n c start); auto|]. intros x (hx & _). auto. }
  intros v2 ? (k2 & ->). cbn [sim]. split; auto. split; auto.
Qed.

Lemma sim_and_wp {A B} (R : A -> B -> Prop) (P : A -> Prop) m m' : sim R m m' -> wp m P -> sim (fun a b => R a b /\ P a) m m'.
Proof. destruct m, m'; simpl; auto. Qed.

Lemma ss_vsh r c n st : ss_shape r c n st -> vsh r c n st. Proof. intros (_ & _ & h1 & h2). split; auto. Qed.

Lemma svd_loop_sim r c n fu fv up eps fuel : fu || fv = true ->
  forall start e st, ss_shape r c n st -> flags true true st -> start <= e -> e < n ->
  sim (mrel r c n fu fv) (svd_loop fuel up true true eps start e st) (svd_loop fuel up fu fv eps start e (msk fu fv st)).
Proof.
  intros hf. induction fuel as [|fuel IH]; intros start e st hs hfl h1 h2; cbn [svd_loop].
  - destruct (Nat.eqb e start); cbn [sim]; auto. split; auto. apply ss_vsh; auto.
  - destruct (Nat.eqb_spec e start); [cbn [sim]; split; auto; apply ss_vsh; auto|].
    eapply sim_bind; [apply sim_post with (P := fun v => v = e - start); apply post_usub; [lia|auto]|intros ? ? (<- & ->)].
    eapply sim_bind with (R := fun x y => snd x = snd y /\ snd x <= e /\ snd y <= e /\ sok r c n st (fst x) /\ fst y = msk fu fv (fst x)).
    { destruct (Nat.ltb_spec 2 (S (e - start))).
      - eapply sim_bind; [apply sim_and_wp; [apply (svd_big_sim r c n fu fv); [apply ss_vsh; auto|lia..]|apply (svd_big_safe r c n); auto; lia]|].
        intros st1 ? ((_ & ->) & g). cbn [sim fst snd]. auto.
      - destruct (Nat.eqb_spec (S (e - start)) 2); [|lia].
        eapply sim_bind; [apply sim_and_wp; [apply (svd_two_sim r c n fu fv); auto; [apply ss_vsh; auto|lia]|apply (svd_two_safe r c n); auto; lia]|].
        intros st1 ? ((_ & ->) & g).
        eapply sim_bind; [apply sim_post with (P := fun v => v = e - 1); apply post_usub; [lia|auto]|intros ? ? (<- & ->)].
        cbn [sim fst snd]. split; auto. split; [lia|]. split; [lia|]. auto. }
    intros [st1 e1] [st1' e1']. cbn [fst snd]. intros (<- & g1 & _ & g2 & ->).
    eapply sim_bind; [apply sim_and_wp; [apply (svd_delimit_sim r c n fu fv); [apply ss_vsh, g2|lia]|apply (svd_delimit_safe r c n); [apply g2|lia]]|].
    intros [[s' e'] st2] [[s'' e''] st2']. cbn [fst snd]. intros ((k1 & k2 & k3 & ->) & (_ & _ & k4)).
    injection k1 as <- <-. apply IH; [apply k4| |lia..].
    eapply flags_mono; [exact hfl|]. eapply ss_flag_trans; [apply g2|apply k4].
Qed.

Lemma svd_fix_signs_sim r n (f : bool) (d : vec) (u : option mtx) : length d = n -> ush r n u ->
  sim (fun x y => fst x = fst y /\ snd y = omsk f (snd x)) (svd_fix_signs n d u) (svd_fix_signs n d (omsk f u)).
Proof.
  intros hd hu. unfold svd_fix_signs.
  eapply sim_mono; [eapply sim_for with (R := fun _ (s s' : vec * option mtx) => (fst s = fst s' /\ snd s' = omsk f (snd s)) /\ length (fst s) = n /\ ush r n (snd s))|].
  - cbn [fst snd]. auto.
  - intros i [d1 u1] [d1' u1'] hi. cbn [fst snd]. intros ((<- & ->) & h1 & h2). same. destruct (nis_neg N _); [|cbn [sim]; auto].
    eapply sim_bind; [apply sim_post with (P := fun v => length v = n); apply post_set1; [lia|dims; auto]|intros ? ? (<- & hl)].
    eapply sim_bind with (R := fun a b => b = omsk f a /\ ush r n a).
    + destruct u1 as [u1|]; [|destruct f; cbn [omsk sim]; auto].
      assert (hw : wp (let* c := column u1 i in Ret (Some (put_col u1 0 i (vmap (fun x : N => (x * - n0 N)%num) c)))) (ush r n)).
      { destruct h2 as (k1 & k2). steps; try lia. simpl. dims. auto. }
      destruct f; cbn [omsk].
      * eapply sim_mono; [apply sim_post; exact hw|]. intros a' b (<- & h). auto.
      * eapply sim_wp_none; [exact hw|]. auto.
    + intros u2 ? (-> & k1). cbn [sim fst snd]. auto.
  - intros s s' (h & _). exact h.
Qed.

(** The flags select outputs: (true,true) against any other combination that asks for a vector *)
Lemma svd_flags fuel (m : mtx) fu fv eps : fu || fv = true ->
  sim (fun x y => y = (omsk fu (fst (fst x)), snd (fst x), omsk fv (snd x)))
    (svd_eps fuel m true true eps) (svd_eps fuel m fu fv eps).
Proof.
  intros hf. unfold svd_eps. destruct (Nat.eqb_spec (nr m) 0) as [|nz1]; [simpl; auto|].
  destruct (Nat.eqb_spec (nc m) 0) as [|nz2]; [simpl; auto|]. cbn [orb].
  set (m' := scale_down m (abs_max m)).
  assert (d1 : nr m' = nr m) by apply nr_scale_down.
  assert (d2 : nc m' = nc m) by apply nc_scale_down.
  destruct (svd_init m' true true ltac:(lia) ltac:(lia)) as (b & u & v & eb & hb & eu & ev & hs & hfl).
  rewrite eb. cbn [bind]. rewrite eu. cbn [bind]. rewrite ev. cbn [bind].
  replace (if fu then Ret u else Ret None) with (Ret (omsk fu u)) by (destruct fu; reflexivity).
  replace (if fv then Ret v else Ret None) with (Ret (omsk fv v)) by (destruct fv; reflexivity).
  cbn [bind]. clear eu ev.
  rewrite d1, d2 in *. set (n := Nat.min (nr m) (nc m)) in *.
  destruct (bi_into_diagonals b) as [diag off]. cbn [fst snd] in hs, hfl.
  unfold usub. destruct (Nat.leb_spec 1 n); [|lia]. cbn [bind].
  change (SS diag off (omsk fu u) (omsk fv v)) with (msk fu fv (SS diag off u v)).
  eapply sim_bind; [apply sim_and_wp; [apply (svd_delimit_sim (nr m) (nc m) n fu fv); [apply ss_vsh; exact hs|lia]|apply (svd_delimit_safe _ _ _ (upper_diag b) (n - 1) eps _ hs); lia]|].
  intros [[s e] st] [[s' e'] st']. cbn [fst snd]. intros ((k1 & k2 & k3 & ->) & (_ & _ & k4)). injection k1 as <- <-.
  assert (hfl' : flags true true st) by (eapply flags_mono; [exact hfl|apply k4]).
  pose proof (svd_loop_sim _ _ _ fu fv (upper_diag b) eps fuel hf s e st (proj1 k4) hfl' ltac:(lia) ltac:(lia)) as hl.
  pose proof (svd_loop_safe _ _ _ (upper_diag b) true true eps fuel s e st (proj1 k4) hfl' ltac:(lia) ltac:(lia)) as hl2.
  destruct (svd_loop fuel (upper_diag b) true true eps s e st) as [st1| | | |] eqn:el; simpl in hl2; try contradiction.
  2: { destruct (svd_loop fuel (upper_diag b) fu fv _ _ _ _); simpl in *; try contradiction; auto. }
  destruct (svd_loop fuel (upper_diag b) fu fv _ _ _ _) as [st2| | | |]; simpl in hl; try contradiction.
  destruct hl as (hv & ->). destruct hl2 as ((p1 & p2 & p3 & p4) & _). cbn [bind]. cbn [sd so su sv msk].
  eapply sim_bind; [apply (svd_fix_signs_sim (nr m) n fu); auto; unfold vmap; rewrite length_vmk; auto|].
  intros [dg u1] [dg' u1']. cbn [fst snd]. intros (<- & ->). cbn [sim fst snd]. auto.
Qed.

End Generic.
