(** * Proofs about the sorting of eigen- and singular value decompositions *)
From Coq Require Import Reals List Arith ZArith Lia Lra Bool Permutation Sorted.
From Coq.Floats Require Import SpecFloat.
From Verif Require Import Scalar Arr MBase MDirect MDecomp MEigh MSvd Inst Hoare Spec RLin.
Import ListNotations.
Open Scope res_scope.

(** ** The sort *)
Section Sort.
Context {A : Type} (cmp : A -> A -> res comparison) (P : A -> Prop) (R pre : A -> A -> Prop).
Context (cmp_bad : forall x y, ~ P x \/ ~ P y -> cmp x y = Panicked).
Context (cmp_gt : forall x y, P x -> P y -> pre x y -> cmp x y = Ret Gt -> R y x).
Context (cmp_le : forall x y, P x -> P y -> pre x y -> cmp x y = Ret Lt \/ cmp x y = Ret Eq -> R x y).
Context (cmp_ok : forall x y, P x -> P y -> exists c, cmp x y = Ret c).
Context (R_trans : forall x y z, P x -> P y -> P z -> R x y -> R y z -> R x z).

Lemma insert_ok x l : P x -> Forall P l -> Forall (pre x) l -> StronglySorted R l ->
  exists l', insert cmp x l = Ret l' /\ Permutation (x :: l) l' /\ StronglySorted R l'.
Proof.
  intros px pl prel hs. induction l as [|y l IH]; cbn [insert].
  - exists [x]. split; auto. split; auto. constructor; constructor.
  - inversion pl; inversion prel; inversion hs; subst. destruct (cmp_ok x y) as (c & e); auto. rewrite e. cbn [bind].
    assert (hle : cmp x y = Ret Lt \/ cmp x y = Ret Eq -> StronglySorted R (x :: y :: l)).
    { intros hle. assert (R x y) by auto. constructor; auto. constructor; auto.
      rewrite Forall_forall in *. intros z hz. apply R_trans with y; auto. }
    destruct c; [exists (x :: y :: l); split; auto; split; auto; fail|exists (x :: y :: l); split; auto; split; auto; fail|].
    destruct IH as (l' & -> & hp & hs'); auto. cbn [bind]. exists (y :: l'). split; auto. split.
    + rewrite perm_swap. constructor. auto.
    + constructor; auto. eapply Permutation_Forall; [exact hp|]. constructor; auto.
Qed.

Lemma sort_ok l : Forall P l -> ForallOrdPairs pre l ->
  exists l', sort_by cmp l = Ret l' /\ Permutation l l' /\ StronglySorted R l'.
Proof.
  induction l as [|x l IH]; intros hp hpre; cbn [sort_by].
  - exists []. split; auto. split; auto. constructor.
  - inversion hp; inversion hpre; subst. destruct IH as (r & -> & hr & hs); auto. cbn [bind].
    destruct (insert_ok x r) as (l' & e & hp' & hs'); auto; try (eapply Permutation_Forall; eauto).
    exists l'. split; auto. split; auto. rewrite <- hp'. constructor. auto.
Qed.

Lemma insert_bad x l : l <> [] -> ~ P x \/ Forall (fun y => ~ P y) l -> insert cmp x l = Panicked.
Proof.
  intros hl hb. destruct l as [|y l]; [congruence|]. cbn [insert]. rewrite cmp_bad; auto.
  destruct hb as [hb|hb]; auto. inversion hb. auto.
Qed.

(** With two elements or more, every element is compared with another one *)
Lemma sort_bad l : ForallOrdPairs pre l -> (forall x, P x \/ ~ P x) -> 2 <= length l -> Exists (fun x => ~ P x) l -> sort_by cmp l = Panicked.
Proof.
  intros hpre dec. induction l as [|x l IH]; intros hlen hex; cbn [sort_by]; [simpl in hlen; lia|].
  inversion hpre as [|? ? _ hpre']; subst. simpl in hlen.
  destruct l as [|y [|z l]]; [simpl in hlen; lia| |].
  - cbn [sort_by bind insert]. rewrite cmp_bad; auto. inversion hex as [? ? h|? ? h]; subst; auto.
    inversion h as [? ? h'|? ? h']; subst; auto. inversion h'.
  - assert (Forall P (y :: z :: l) \/ Exists (fun x => ~ P x) (y :: z :: l)) as [hg|hb].
    { clear - dec. induction (y :: z :: l) as [|w k [h|h]]; auto. destruct (dec w); auto. }
    + destruct (sort_ok (y :: z :: l)) as (r & -> & hr & _); auto. cbn [bind].
      apply insert_bad; [intros ->; apply Permutation_sym in hr; apply Permutation_nil in hr; discriminate|].
      left. inversion hex as [? ? h|? ? h]; subst; auto. apply Exists_exists in h. destruct h as (w & hw & nw).
      rewrite Forall_forall in hg. exfalso. auto.
    + rewrite IH; auto. simpl. lia.
Qed.

(** The result is the only sorted permutation *)
Lemma sorted_unique (asym : forall x y, P x -> P y -> R x y -> R y x -> False) l l' :
  Forall P l -> Permutation l l' -> StronglySorted R l -> StronglySorted R l' -> l = l'.
Proof.
  revert l'. induction l as [|x l IH]; intros l' hp hperm h h'.
  - symmetry. apply Permutation_nil. auto.
  - destruct l' as [|y l']; [apply Permutation_sym, Permutation_nil in hperm; discriminate|].
    inversion h as [|? ? h1 h2]; inversion h' as [|? ? h3 h4]; inversion hp as [|? ? h5 h6]; subst.
    assert (py : P y) by (pose proof (Permutation_Forall hperm hp) as hq; inversion hq; auto).
    assert (x = y) as ->.
    { assert (iy : In y (x :: l)) by (eapply Permutation_in; [apply Permutation_sym, hperm|left; auto]).
      assert (ix : In x (y :: l')) by (eapply Permutation_in; [exact hperm|left; auto]).
      destruct iy as [|iy]; auto. destruct ix as [|ix]; auto. exfalso.
      rewrite Forall_forall in *. apply (asym x y); auto. }
    f_equal. apply IH; auto. eapply Permutation_cons_inv; eauto.
Qed.
End Sort.

(** Sorting commutes with a projection used by the comparator *)
Lemma insert_map {A B} (f : A -> B) (cmp : B -> B -> res comparison) x l :
  insert cmp (f x) (map f l) = let* r := insert (fun a b => cmp (f a) (f b)) x l in Ret (map f r).
Proof.
  induction l as [|y l IH]; cbn [insert map]; auto.
  destruct (cmp (f x) (f y)) as [[]| | | |]; auto. cbn [bind]. rewrite IH.
  destruct (insert (fun a b => cmp (f a) (f b)) x l); auto.
Qed.
Lemma sort_map {A B} (f : A -> B) (cmp : B -> B -> res comparison) l :
  sort_by cmp (map f l) = let* r := sort_by (fun a b => cmp (f a) (f b)) l in Ret (map f r).
Proof.
  induction l as [|x l IH]; cbn [sort_by map]; auto. rewrite IH.
  destruct (sort_by (fun a b => cmp (f a) (f b)) l) as [r| | | |]; auto. cbn [bind]. apply insert_map.
Qed.

(** ** Enumeration *)
Lemma length_enumerate {A} (v : list A) : length (enumerate v) = length v.
Proof. unfold enumerate. rewrite combine_length, seq_length. lia. Qed.
Lemma snd_enumerate {A} (v : list A) : map snd (enumerate v) = v.
Proof.
  unfold enumerate. generalize 0 at 1. induction v as [|x v IH]; intros k; cbn [length seq combine map snd]; auto. rewrite IH. auto.
Qed.
Lemma fst_enumerate {A} (v : list A) : map fst (enumerate v) = seq 0 (length v).
Proof.
  unfold enumerate. generalize 0. induction v as [|x v IH]; intros k; cbn [length seq combine map fst]; auto. rewrite IH. auto.
Qed.
Lemma in_enumerate {A} (v : list A) i x : In (i, x) (enumerate v) <-> nth_error v i = Some x.
Proof.
  unfold enumerate. replace i with (i - 0) at 2 by lia.
  assert (h : forall k, In (i, x) (combine (seq k (length v)) v) <-> k <= i /\ nth_error v (i - k) = Some x).
  { induction v as [|y v IH]; intros k; cbn [length seq combine].
    - simpl. destruct (i - k); simpl; split; try tauto; intros (_ & h); discriminate.
    - cbn [In]. rewrite IH. split.
      + intros [e|(h1 & h2)]; [injection e as -> ->; split; auto; rewrite Nat.sub_diag; reflexivity|].
        split; [lia|]. replace (i - k) with (S (i - S k)) by lia. exact h2.
      + intros (h1 & h2). destruct (Nat.eq_dec i k) as [->|n]; [left; rewrite Nat.sub_diag in h2; simpl in h2; congruence|].
        right. split; [lia|]. replace (i - k) with (S (i - S k)) in h2 by lia. exact h2. }
  rewrite h. split; [tauto|]. split; [lia|auto].
Qed.
Lemma enumerate_ord {A} (v : list A) : ForallOrdPairs (fun a b => fst a < fst b) (enumerate v).
Proof.
  unfold enumerate. generalize 0. induction v as [|x v IH]; intros k; cbn [length seq combine]; constructor; auto.
  apply Forall_forall. intros [i y] h. apply in_combine_l in h. apply in_seq in h. simpl. lia.
Qed.

(** ** Orders *)

Section Ord.
Context {N : Num} (nan : N -> Prop) (h : num_order N nan) (order : Order).

Lemma before_asym a b : ~ nan a -> ~ nan b -> before order a b = true -> before order b a = false.
Proof. intros ha hb. destruct (no_tot _ _ h a b ha hb) as [k|[k|k]], order; simpl; intuition congruence. Qed.

Lemma order_cmp_nan (a b : N) : nan a \/ nan b -> order_cmp order a b = Panicked.
Proof.
  intros hn. destruct (no_nan _ _ h a b hn) as (h1 & h2), (no_nan _ _ h b a ltac:(tauto)) as (h3 & h4).
  destruct order; cbn [order_cmp]; unfold cmp_floats, ncmp; rewrite ?h1, ?h2, ?h3, ?h4; auto.
Qed.
Lemma order_cmp_ok (a b : N) : ~ nan a -> ~ nan b ->
  order_cmp order a b = Ret (if before order a b then Lt else if before order b a then Gt else Eq).
Proof.
  intros ha hb. pose proof (no_sym _ _ h a b) as hs.
  destruct (no_tot _ _ h a b ha hb) as [(k1 & k2 & k3)|[(k1 & k2 & k3)|(k1 & k2 & k3)]], order;
    cbn [order_cmp before]; unfold cmp_floats, ncmp; rewrite k1, ?k2, <- ?hs, ?k3; auto.
Qed.
Lemma before_trans (a b c : N) : ~ nan a -> ~ nan b -> ~ nan c -> before order b a = false -> before order c b = false -> before order c a = false.
Proof. destruct order; simpl; intros ha hb hc k1 k2; [apply (no_trans _ _ h c b a)|apply (no_trans _ _ h a b c)]; auto. Qed.
Lemma before_false (a b : N) : ~ nan a -> ~ nan b -> before order b a = false -> before order a b = true \/ neq N a b = true.
Proof. intros ha hb. destruct (no_tot _ _ h a b ha hb) as [k|[k|k]], order; simpl; intuition congruence. Qed.

(** Lexicographic order on (index, value): by value, then by index *)
Definition lexR (x y : nat * N) : Prop :=
  before order (snd y) (snd x) = false /\ (before order (snd x) (snd y) = false -> fst x < fst y).
Definition okv (x : nat * N) : Prop := ~ nan (snd x).

Lemma lex_trans x y z : okv x -> okv y -> okv z -> lexR x y -> lexR y z -> lexR x z.
Proof.
  unfold okv. intros hx hy hz (a1 & a2) (b1 & b2). split; [apply before_trans with (snd y); auto|].
  intros hc. assert (fst x < fst y). { apply a2. apply before_trans with (snd z); auto. }
  assert (fst y < fst z). { apply b2. apply before_trans with (snd x); auto. } lia.
Qed.
Lemma lex_asym x y : okv x -> okv y -> lexR x y -> lexR y x -> False.
Proof.
  unfold okv. intros hx hy (a1 & a2) (b1 & b2). assert (fst x < fst y) by auto. assert (fst y < fst x) by auto. lia.
Qed.

Definition pcmp (a b : nat * N) := order_cmp order (snd a) (snd b).
Definition pre (a b : nat * N) := fst a < fst b.

Lemma pcmp_bad x y : ~ okv x \/ ~ okv y -> pcmp x y = Panicked.
Proof.
  intros hb. apply order_cmp_nan. unfold okv in hb.
  destruct (no_dec _ _ h (snd x)), (no_dec _ _ h (snd y)); tauto.
Qed.
Lemma pcmp_ok x y : okv x -> okv y -> exists c, pcmp x y = Ret c.
Proof. intros hx hy. unfold pcmp. rewrite order_cmp_ok; eauto. Qed.
Lemma pcmp_gt x y : okv x -> okv y -> pre x y -> pcmp x y = Ret Gt -> lexR y x.
Proof.
  intros hx hy hp. unfold pcmp. rewrite order_cmp_ok by auto. unfold lexR.
  destruct (before order (snd x) (snd y)) eqn:e1; [discriminate|].
  destruct (before order (snd y) (snd x)) eqn:e2; [|discriminate]. intros _. split; auto. discriminate.
Qed.
Lemma pcmp_le x y : okv x -> okv y -> pre x y -> pcmp x y = Ret Lt \/ pcmp x y = Ret Eq -> lexR x y.
Proof.
  intros hx hy hp. unfold pcmp. rewrite order_cmp_ok by auto. unfold lexR, pre in *.
  destruct (before order (snd x) (snd y)) eqn:e1.
  - intros _. split; [apply before_asym; auto|discriminate].
  - destruct (before order (snd y) (snd x)) eqn:e2; [intros [k|k]; discriminate|]. intros _. split; auto.
Qed.

Lemma enum_ok vals : (forall a, In a vals -> ~ nan a) -> Forall okv (enumerate vals).
Proof.
  intros hv. apply Forall_forall. intros [i a] hi. apply in_enumerate in hi. apply nth_error_In in hi. unfold okv. simpl. auto.
Qed.

Lemma sort_idx_ok vals : (forall a, In a vals -> ~ nan a) ->
  exists l, sort_idx vals order = Ret l /\ Permutation (enumerate vals) l /\ StronglySorted lexR l.
Proof.
  intros hv. apply (sort_ok pcmp okv lexR pre); auto using pcmp_gt, pcmp_le, pcmp_ok, enum_ok. - exact lex_trans. - apply enumerate_ord.
Qed.
Lemma sort_idx_bad vals : 2 <= length vals -> (exists a, In a vals /\ nan a) -> sort_idx vals order = Panicked.
Proof.
  intros hl (a & ha & na). apply (sort_bad pcmp okv lexR pre); auto using pcmp_gt, pcmp_le, pcmp_ok, pcmp_bad.
  - exact lex_trans.
  - apply enumerate_ord.
  - intros x. unfold okv. destruct (no_dec _ _ h (snd x)); tauto.
  - rewrite length_enumerate. auto.
  - apply Exists_exists. apply In_nth_error in ha. destruct ha as (i & e). exists (i, a). split; [apply in_enumerate; auto|unfold okv; simpl; tauto].
Qed.
Lemma sort_idx_unique vals l l' : (forall a, In a vals -> ~ nan a) -> sort_idx vals order = Ret l ->
  Permutation (enumerate vals) l' -> StronglySorted lexR l' -> l' = l.
Proof.
  intros hv e hp hs. destruct (sort_idx_ok vals hv) as (k & e' & hp' & hs'). rewrite e in e'. injection e' as <-.
  apply (sorted_unique okv lexR lex_asym); auto. - eapply Permutation_Forall; [exact hp|]. apply enum_ok; auto.
  - rewrite <- hp. auto.
Qed.
Lemma sort_vals_idx (vals : list N) : sort_vals vals order = let* l := sort_idx vals order in Ret (map snd l).
Proof. unfold sort_vals, sort_idx. rewrite <- (snd_enumerate vals) at 1. apply sort_map. Qed.
End Ord.

Lemma ss_nth {A} (R : A -> A -> Prop) l d : StronglySorted R l -> forall i j, i < j -> j < length l -> R (nth i l d) (nth j l d).
Proof.
  induction 1 as [|x l hs IH hf]; intros i j hij hj; [simpl in hj; lia|]. destruct j as [|j]; [lia|]. simpl in hj.
  destruct i as [|i]; cbn [nth]; [|apply IH; lia]. rewrite Forall_forall in hf. apply hf. apply nth_In. lia.
Qed.

Lemma sorted_of_pairs {N : Num} order (v : list N) l : Permutation (enumerate v) l -> StronglySorted (lexR order) l ->
  length l = length v /\ sorted_by order (length v) v (map snd l) (fun k => nth k (map fst l) 0).
Proof.
  intros hp hs. assert (hl : length l = length v) by (rewrite <- (Permutation_length hp); apply length_enumerate).
  split; auto. split; [rewrite map_length; auto|].
  assert (hf : Permutation (seq 0 (length v)) (map fst l)) by (rewrite <- fst_enumerate; apply Permutation_map; auto).
  assert (hn : forall k, k < length v -> exists i a, nth_error l k = Some (i, a) /\ nth k (map fst l) 0 = i /\ vget (map snd l) k = a /\ nth k l (0, n0 N) = (i, a)).
  { intros k hk. destruct (nth_error l k) as [[i a]|] eqn:e; [|apply nth_error_None in e; lia].
    exists i, a. split; auto. rewrite (nth_error_nth l k (0, n0 N) e). split; [|split; [|auto]].
    - apply nth_error_nth. rewrite nth_error_map, e. reflexivity.
    - unfold vget. apply nth_error_nth. rewrite nth_error_map, e. reflexivity. }
  split; [|split; [|split]].
  - split.
    + intros k hk. assert (hi : In (nth k (map fst l) 0) (map fst l)) by (apply nth_In; rewrite map_length; lia).
      apply (Permutation_in _ (Permutation_sym hf)) in hi. apply in_seq in hi. lia.
    + intros i j hi hj e. assert (hd : NoDup (map fst l)) by (apply (Permutation_NoDup hf), seq_NoDup).
      eapply NoDup_nth; try exact e; auto; rewrite map_length; lia.
  - intros k hk. destruct (hn k hk) as (i & a & e & -> & -> & _). apply nth_error_In in e.
    apply (Permutation_in _ (Permutation_sym hp)) in e. apply in_enumerate in e. symmetry. unfold vget. apply nth_error_nth. auto.
  - intros k j hk hj. destruct (hn k ltac:(lia)) as (i & a & e & _ & -> & e1), (hn j hj) as (i' & a' & e' & _ & -> & e1').
    pose proof (ss_nth _ l (0, n0 N) hs k j hk ltac:(lia)) as (r1 & r2). rewrite e1, e1' in r1. auto.
  - intros k j hk hj. destruct (hn k ltac:(lia)) as (i & a & e & -> & -> & e1), (hn j hj) as (i' & a' & e' & -> & -> & e1').
    pose proof (ss_nth _ l (0, n0 N) hs k j hk ltac:(lia)) as (r1 & r2). rewrite e1, e1' in r2. auto.
Qed.

(** ** Moving the columns *)
Lemma assign_cols_ok {N : Num} (src dst : mat N) ix : nr src = nr dst -> length ix <= nc dst -> (forall k, k < length ix -> nth k ix 0 < nc src) ->
  wp (assign_cols src dst ix) (fun out => nr out = nr dst /\ nc out = nc dst /\
    forall i j, i < nr dst -> j < nc dst -> get out i j = if j <? length ix then get src i (nth j ix 0) else get dst i j).
Proof.
  intros h1 h2 h3. unfold assign_cols.
  eapply post_for' with (I := fun k out => nr out = nr dst /\ nc out = nc dst /\
    forall i j, i < nr dst -> j < nc dst -> get out i j = if j <? k then get src i (nth j ix 0) else get dst i j).
  - split; auto.
  - intros k out hk (i1 & i2 & i3). step1. apply post_column; [apply h3; lia|].
    destruct (Nat.ltb_spec k (nc out)); [|lia]. apply post_ret. unfold put_col. dims. split; auto. split; auto.
    intros i j hi hj. rewrite get_mk by lia. dims.
    destruct (Nat.eq_dec j k) as [->|n].
    + bd. rewrite vget_vmk by lia. f_equal; lia.
    + rewrite i3 by auto. bd; auto; lia.
  - intros out (i1 & i2 & i3). auto.
Qed.

(** ** The two instances *)

Lemma num_order_R : num_order RN (fun _ => False).
Proof.
  constructor; auto; try tauto.
  - intros a b _ _. change (nlt RN a b) with (Rltb a b). change (nlt RN b a) with (Rltb b a). change (neq RN a b) with (Reqb a b).
    destruct (Rltb_spec a b), (Rltb_spec b a), (Reqb_spec a b); try tauto; try (exfalso; cbn [T RN] in *; lra).
  - intros a b. change (neq RN a b) with (Reqb a b). change (neq RN b a) with (Reqb b a).
    destruct (Reqb_spec a b), (Reqb_spec b a); congruence.
  - intros a b c _ _ _. change (nlt RN b a) with (Rltb b a). change (nlt RN c b) with (Rltb c b). change (nlt RN c a) with (Rltb c a).
    destruct (Rltb_spec b a), (Rltb_spec c b), (Rltb_spec c a); auto; try discriminate. exfalso; cbn [T RN] in *; lra.
Qed.

Definition fkey (f : spec_float) : Z * Z * Z :=
  match f with
  | S754_infinity true => (-2, 0, 0)
  | S754_finite true m e => (-1, - e, Z.neg m)
  | S754_zero _ => (0, 0, 0)
  | S754_finite false m e => (1, e, Z.pos m)
  | S754_infinity false => (2, 0, 0)
  | S754_nan => (3, 0, 0)
  end%Z.
Definition klt (a b : Z * Z * Z) : Prop :=
  let '(a1, a2, a3) := a in let '(b1, b2, b3) := b in (a1 < b1 \/ a1 = b1 /\ (a2 < b2 \/ a2 = b2 /\ a3 < b3))%Z.
Lemma fcmp_key f g : f <> S754_nan -> g <> S754_nan ->
  match SFcompare f g with Some Lt => klt (fkey f) (fkey g) | Some Eq => fkey f = fkey g | Some Gt => klt (fkey g) (fkey f) | None => False end.
Proof.
  intros hf hg. destruct f as [s|[]| |[] m e], g as [s'|[]| |[] m' e']; try congruence; cbn [SFcompare fkey klt]; try lia; auto.
  - destruct (Z.compare_spec e e'); cbn [CompOpp]; try lia. subst. change (Pcompare m m' Eq) with (m ?= m')%positive.
    destruct (Pos.compare_spec m m'); cbn [CompOpp]; try lia. subst. auto.
  - destruct (Z.compare_spec e e'); try lia. subst. change (Pcompare m m' Eq) with (m ?= m')%positive.
    destruct (Pos.compare_spec m m'); try lia. subst. auto.
Qed.
Definition fis_nan (x : FN) : Prop := x = S754_nan.
Lemma num_order_F : num_order FN fis_nan.
Proof.
  assert (tr : forall k1 k2 k3, klt k1 k2 -> klt k2 k3 -> klt k1 k3) by (intros [[? ?] ?] [[? ?] ?] [[? ?] ?]; unfold klt; lia).
  assert (ir : forall k, ~ klt k k) by (intros [[? ?] ?]; unfold klt; lia).
  assert (tot : forall k1 k2, klt k1 k2 \/ k1 = k2 \/ klt k2 k1).
  { intros [[a1 a2] a3] [[b1 b2] b3]. unfold klt. destruct (Z.eq_dec a1 b1), (Z.eq_dec a2 b2), (Z.eq_dec a3 b3); subst; auto; lia. }
  assert (ltk : forall a b : FN, a <> S754_nan -> b <> S754_nan -> (nlt FN a b = true <-> klt (fkey a) (fkey b)) /\ (neq FN a b = true <-> fkey a = fkey b)).
  { intros a b ha hb. change (nlt FN a b) with (SFltb a b). change (neq FN a b) with (SFeqb a b). unfold SFltb, SFeqb.
    pose proof (fcmp_key a b ha hb) as k. destruct (SFcompare a b) as [[]|]; split; split; intros k'; auto; try discriminate; try tauto.
    - rewrite k in k'. apply ir in k'. tauto.
    - rewrite k' in k. apply ir in k. tauto.
    - exfalso. eapply ir, tr; [exact k|exact k'].
    - rewrite k' in k. apply ir in k. tauto. }
  unfold fis_nan. constructor.
  - intros [| | |]; auto; right; congruence.
  - intros a b [-> | ->]; [split; reflexivity|]. destruct a as [|[]| |[]]; split; reflexivity.
  - intros a b ha hb. destruct (ltk a b ha hb) as (h1 & h2), (ltk b a hb ha) as (h3 & h4).
    destruct (nlt FN a b), (nlt FN b a), (neq FN a b); try tauto; exfalso.
    + apply (ir (fkey a)). apply tr with (fkey b); tauto.
    + apply (ir (fkey a)). apply tr with (fkey b); tauto.
    + assert (e : fkey a = fkey b) by tauto. rewrite e in *. apply (ir (fkey b)). tauto.
    + assert (e : fkey a = fkey b) by tauto. rewrite e in *. apply (ir (fkey b)). tauto.
    + destruct (tot (fkey a) (fkey b)) as [k|[k|k]]; intuition discriminate.
  - intros a b. assert (hd : forall x : spec_float, x = S754_nan \/ x <> S754_nan) by (intros [| | |]; auto; right; congruence).
    destruct (hd a) as [-> |ha]; [destruct b as [|[]| |[]]; reflexivity|].
    destruct (hd b) as [-> |hb]; [destruct a as [|[]| |[]]; reflexivity|].
    destruct (ltk a b ha hb) as (_ & h1), (ltk b a hb ha) as (_ & h2).
    destruct (neq FN a b), (neq FN b a); auto; [symmetry; apply h2; symmetry; tauto|apply h1; symmetry; tauto].
  - intros a b c ha hb hc h1 h2. destruct (ltk b a hb ha) as (k1 & _), (ltk c b hc hb) as (k2 & _), (ltk c a hc ha) as (k3 & _).
    destruct (nlt FN c a); auto. exfalso. rewrite h1 in k1. rewrite h2 in k2.
    assert (k : klt (fkey c) (fkey a)) by tauto. assert (n1 : ~ klt (fkey b) (fkey a)) by (intros e; apply k1 in e; discriminate).
    assert (n2 : ~ klt (fkey c) (fkey b)) by (intros e; apply k2 in e; discriminate).
    destruct (tot (fkey b) (fkey c)) as [t|[t|t]]; [apply n1; eapply tr; eauto|rewrite t in n1; tauto|tauto].
Qed.

(** ** sort_eig and sort_svd *)
Lemma sorted_inv {N : Num} nan (h : num_order N nan) order (v : list N) :
  (length v <= 1 \/ forall a, In a v -> ~ nan a) ->
  exists l, sort_idx v order = Ret l /\ length l = length v /\
    sorted_by order (length v) v (map snd l) (fun k => nth k (map fst l) 0).
Proof.
  intros hv. assert (hg : (forall a, In a v -> ~ nan a) \/ exists x, v = [x]).
  { destruct hv as [hl|]; auto. destruct v as [|x [|y v]]; [left; simpl; tauto|eauto|simpl in hl; lia]. }
  destruct hg as [hg|(x & ->)].
  - destruct (sort_idx_ok nan h order v hg) as (l & e & hp & hs). exists l. split; auto. apply sorted_of_pairs; auto.
  - exists [(0, x)]. split; auto. split; auto. split; auto. split; [|split; [|split; intros; simpl in *; lia]].
    + split; [intros i hi; simpl in *; assert (i = 0) by lia; subst; simpl; lia|intros i j hi hj _; simpl in *; lia].
    + intros k hk. simpl in hk. assert (k = 0) by lia. subst. reflexivity.
Qed.

Lemma moved {N : Num} order n v v' sg : @sorted_by N order n v v' sg -> forall k, k < n -> sg k < n.
Proof. intros (_ & (h & _) & _). auto. Qed.

Lemma sort_eig_ok {N : Num} nan (h : num_order N nan) order (v : list N) (m : mat N) :
  length v <= nc m -> (length v <= 1 \/ forall a, In a v -> ~ nan a) ->
  exists v' m' sg, sort_eig v m order = Ret (v', m') /\ sort_vals v order = Ret v' /\ sorted_by order (length v) v v' sg /\
    nr m' = nr m /\ nc m' = nc m /\
    forall i k, i < nr m -> k < length v -> get m' i k = get m i (sg k).
Proof.
  intros hl hv. destruct (sorted_inv nan h order v hv) as (l & e & el & hs).
  unfold sort_eig. rewrite sort_vals_idx, e. cbn [bind].
  destruct (wp_ret _ _ (assign_cols_ok m (zeros (nr m) (nc m)) (map fst l) eq_refl ltac:(cbn [zeros mk nr nc]; dims; rewrite map_length; lia)
    ltac:(intros k hk; rewrite map_length in hk; pose proof (moved _ _ _ _ _ hs k ltac:(lia)); cbv beta in *; lia))) as (m' & -> & d1 & d2 & hm).
  cbn [bind]. rewrite map_length in hm. eexists _, m', _. split; [reflexivity|]. split; [reflexivity|]. split; [exact hs|]. cbn [zeros mk nr nc] in *; dims. split; auto. split; auto.
  intros i k hi hk. rewrite hm by (cbn [zeros mk nr nc]; dims; lia). bd; auto; lia.
Qed.

Lemma sort_eig_bad {N : Num} nan (h : num_order N nan) order (v : list N) (m : mat N) :
  2 <= length v -> (exists a, In a v /\ nan a) -> sort_eig v m order = Panicked /\ sort_vals v order = Panicked.
Proof. intros hl hv. unfold sort_eig. rewrite sort_vals_idx, (sort_idx_bad nan h order v hl hv). auto. Qed.

Lemma sort_svd_ok {N : Num} nan (h : num_order N nan) order (s : list N) (u vt : option (mat N)) :
  (match u with Some u => length s <= nc u | None => True end) ->
  (match vt with Some v => length s <= nr v | None => True end) ->
  (length s <= 1 \/ forall a, In a s -> ~ nan a) ->
  exists u' s' vt' sg, sort_svd (u, s, vt) order = Ret (u', s', vt') /\ sort_vals s order = Ret s' /\ sorted_by order (length s) s s' sg /\
    match u, u' with
    | Some u, Some u' => nr u' = nr u /\ nc u' = nc u /\ forall i k, i < nr u -> k < length s -> get u' i k = get u i (sg k)
    | None, None => True
    | _, _ => False
    end /\
    match vt, vt' with
    | Some v, Some v' => nr v' = nr v /\ nc v' = nc v /\ forall k j, k < length s -> j < nc v -> get v' k j = get v (sg k) j
    | None, None => True
    | _, _ => False
    end.
Proof.
  intros hu hvt hv. destruct (sorted_inv nan h order s hv) as (l & e & el & hs).
  unfold sort_svd. rewrite sort_vals_idx, e. cbn [bind].
  set (sg := fun k => nth k (map fst l) 0) in *.
  assert (hb : forall k, k < length (map fst l) -> nth k (map fst l) 0 < length s).
  { intros k hk. rewrite map_length in hk. apply (moved _ _ _ _ _ hs k ltac:(lia)). }
  assert (eu : exists u', (match u with None => Ret None | Some u => let* o := assign_cols u (zeros (nr u) (nc u)) (map fst l) in Ret (Some o) end) = Ret u' /\
    match u, u' with
    | Some u, Some u' => nr u' = nr u /\ nc u' = nc u /\ forall i k, i < nr u -> k < length s -> get u' i k = get u i (sg k)
    | None, None => True
    | _, _ => False
    end).
  { destruct u as [u|]; [|exists None; auto].
    destruct (wp_ret _ _ (assign_cols_ok u (zeros (nr u) (nc u)) (map fst l) eq_refl ltac:(cbn [zeros mk nr nc]; dims; rewrite map_length; lia)
      ltac:(intros k hk; specialize (hb k hk); lia))) as (m' & -> & d1 & d2 & hm).
    cbn [bind]. exists (Some m'). split; auto. cbn [zeros mk nr nc] in *; dims. split; auto. split; auto. rewrite map_length in hm.
    intros i k hi hk. rewrite hm by (cbn [zeros mk nr nc]; dims; lia). bd; auto; lia. }
  destruct eu as (u' & -> & hu'). cbn [bind].
  assert (ev : exists v', (match vt with None => Ret None | Some v => let t := transpose v in let* o := assign_cols t (zeros (nr t) (nc t)) (map fst l) in Ret (Some (transpose o)) end) = Ret v' /\
    match vt, v' with
    | Some v, Some v' => nr v' = nr v /\ nc v' = nc v /\ forall k j, k < length s -> j < nc v -> get v' k j = get v (sg k) j
    | None, None => True
    | _, _ => False
    end).
  { destruct vt as [v|]; [|exists None; auto]. cbv zeta.
    destruct (wp_ret _ _ (assign_cols_ok (transpose v) (zeros (nr (transpose v)) (nc (transpose v))) (map fst l) eq_refl ltac:(cbn [zeros mk nr nc]; dims; rewrite map_length; lia)
      ltac:(intros k hk; specialize (hb k hk); cbn [zeros mk nr nc]; dims; lia))) as (m' & -> & d1 & d2 & hm).
    cbn [bind]. exists (Some (transpose m')). split; auto. cbn [zeros mk nr nc] in *; dims. split; auto. split; auto. rewrite map_length in hm.
    intros k j hk hj. rewrite get_transpose by (rewrite ?d1, ?d2; cbn [zeros mk nr nc]; dims; lia). rewrite hm by (cbn [zeros mk nr nc]; dims; lia). bd; try lia.
    rewrite get_transpose; auto. pose proof (moved _ _ _ _ _ hs k hk). unfold sg in *. lia. }
  destruct ev as (v' & ev & hv'). cbv zeta in ev. rewrite ev. cbn [bind].
  exists u', (map snd l), v', sg. auto.
Qed.
Lemma sort_svd_bad {N : Num} nan (h : num_order N nan) order (s : list N) (u vt : option (mat N)) :
  2 <= length s -> (exists a, In a s /\ nan a) -> sort_svd (u, s, vt) order = Panicked.
Proof. intros hl hv. unfold sort_svd. rewrite (sort_idx_bad nan h order s hl hv). auto. Qed.

(** ** Sums over a permutation *)
Lemma Rsum_fold n f : Rsum n f = fold_right Rplus 0%R (map f (seq 0 n)).
Proof.
  induction n as [|n IH]; [reflexivity|]. rewrite seq_S, map_app, fold_right_app. cbn [Rsum map fold_right plus]. rewrite IH.
  generalize (seq 0 n). induction l as [|x l IHl]; cbn [map fold_right]; [lra|]. rewrite <- IHl. lra.
Qed.
Lemma fold_perm l l' : Permutation l l' -> fold_right Rplus 0%R l = fold_right Rplus 0%R l'.
Proof. induction 1; cbn [fold_right]; try congruence; lra. Qed.
Lemma perm_seq n sg : perm_of n sg -> Permutation (map sg (seq 0 n)) (seq 0 n).
Proof.
  intros (h1 & h2).
  apply NoDup_Permutation_bis; rewrite ?map_length, ?seq_length; auto.
  - assert (hd : forall m k, (k + m <= n)%nat -> NoDup (map sg (seq k m))).
    { induction m as [|m IH]; intros k hk; cbn [seq map]; constructor.
      - intros hi. apply in_map_iff in hi. destruct hi as (x & e & hx). apply in_seq in hx.
        apply h2 in e; lia.
      - apply IH. lia. }
    apply hd. lia.
  - intros x hx. apply in_map_iff in hx. destruct hx as (y & <- & hy). apply in_seq in hy. apply in_seq. specialize (h1 y). lia.
Qed.
Lemma Rsum_perm n sg f : perm_of n sg -> Rsum n (fun k => f (sg k)) = Rsum n f.
Proof. intros h. rewrite !Rsum_fold. rewrite <- (map_map sg f). apply fold_perm, Permutation_map, perm_seq, h. Qed.

(** A stable sort is unique: any other implementation of [slice::sort_by] gives the same result *)
Lemma ss_seq {A} (R : A -> A -> Prop) (f : nat -> A) n : (forall i j, i < j -> j < n -> R (f i) (f j)) -> StronglySorted R (map f (seq 0 n)).
Proof.
  intros h. assert (hd : forall m k, (k + m <= n)%nat -> StronglySorted R (map f (seq k m))).
  { induction m as [|m IH]; intros k hk; cbn [seq map]; constructor; [apply IH; lia|].
    apply Forall_forall. intros x hx. apply in_map_iff in hx. destruct hx as (y & <- & hy). apply in_seq in hy. apply h; lia. }
  apply hd. lia.
Qed.
Lemma sorted_by_unique {N : Num} nan (h : num_order N nan) order (v v1 v2 : list N) s1 s2 :
  (forall a, In a v -> ~ nan a) -> sorted_by order (length v) v v1 s1 -> sorted_by order (length v) v v2 s2 ->
  v1 = v2 /\ forall k, k < length v -> s1 k = s2 k.
Proof.
  intros hv h1 h2. set (g := fun i => (i, vget v i)).
  assert (key : forall w s, sorted_by order (length v) v w s ->
    w = map snd (map g (map s (seq 0 (length v)))) /\ StronglySorted (lexR order) (map g (map s (seq 0 (length v)))) /\
    Permutation (map g (map s (seq 0 (length v)))) (map g (seq 0 (length v)))).
  { intros w s (k1 & k2 & k3 & k4 & k5). split; [|split].
    - apply nth_ext with (d := n0 N) (d' := n0 N); [rewrite !map_length, seq_length; auto|].
      intros k hk. rewrite !map_map. cbn [g snd]. rewrite nth_map_seq. change (nth k w (n0 N)) with (vget w k). rewrite k3 by lia. bd. auto.
    - rewrite map_map. apply ss_seq. intros i j hij hj. unfold g, lexR. cbn [fst snd]. rewrite <- !k3 by lia. split; auto.
    - apply Permutation_map, perm_seq. auto. }
  destruct (key _ _ h1) as (e1 & so1 & p1), (key _ _ h2) as (e2 & so2 & p2).
  assert (e : map g (map s1 (seq 0 (length v))) = map g (map s2 (seq 0 (length v)))).
  { apply (sorted_unique (okv nan) (lexR order) (lex_asym nan order)); auto.
    - apply Permutation_Forall with (map g (seq 0 (length v))); [symmetry; auto|].
      apply Forall_forall. intros x hx. apply in_map_iff in hx. destruct hx as (i & <- & hi). apply in_seq in hi.
      unfold okv, g. cbn [snd]. apply hv. unfold vget. apply nth_In. lia.
    - rewrite p1, p2. auto. }
  split; [congruence|]. intros k hk.
  assert (ek : nth k (map fst (map g (map s1 (seq 0 (length v))))) 0 = nth k (map fst (map g (map s2 (seq 0 (length v))))) 0) by (rewrite e; auto).
  rewrite !map_map in ek. cbn [g fst] in ek. rewrite !nth_map_seq in ek. revert ek. bd. auto.
Qed.

Lemma any_nan {N : Num} nan (h : num_order N nan) (v : list N) : (exists a, In a v /\ nan a) \/ forall a, In a v -> ~ nan a.
Proof.
  induction v as [|x v [(a & h1 & h2)|IH]]; [right; simpl; tauto|left; exists a; simpl; auto|].
  destruct (no_dec _ _ h x); [left; exists x; simpl; auto|]. right. intros a [<-|ha]; auto.
Qed.
