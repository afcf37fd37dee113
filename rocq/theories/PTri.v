(** * Proofs about triangular.rs *)
From Coq Require Import Reals List Arith Lia Lra Bool.
From Verif Require Import Scalar Arr MBase MDirect Inst Hoare Spec RLin.
Import ListNotations.
Open Scope res_scope.

Section Generic.
Context {N : Num}.
Notation vec := (list N).
Notation mtx := (mat N).

Lemma triangular_inplace_ok (m : mtx) u : nr m = nc m ->
  wp (triangular_inplace m u) (fun m' =>
    nr m' = nr m /\ nc m' = nc m /\
    (forall i j, i < nr m -> j < nc m -> outside u i j -> get m' i j = n0 N) /\
    (forall i j, i < nr m -> j < nc m -> ~ outside u i j -> get m' i j = get m i j)).
Proof.
  intros sq. unfold triangular_inplace. step1. step1; [|lia]. intros _.
  destruct u; simpl.
  - eapply post_for' with (I := fun i m' => nr m' = nr m /\ nc m' = nc m /\
      forall a b, a < nr m -> b < nc m ->
        get m' a b = if (a <? i) && (b <? a) then n0 N else get m a b).
    + repeat split; auto; intros; bd; auto.
    + intros i s hi (h1 & h2 & h3).
      eapply post_for' with (I := fun j m' => nr m' = nr m /\ nc m' = nc m /\
        forall a b, a < nr m -> b < nc m ->
          get m' a b = if ((a <? i) && (b <? a)) || ((a =? i) && (b <? j)) then n0 N else get m a b).
      * repeat split; auto. intros. rewrite h3; auto. bd; auto.
      * intros j s' hj (h1' & h2' & h3'). step1; [lia|lia|]. repeat split; auto.
        intros. rewrite get_upd by lia. rewrite h3' by auto. bd; auto.
      * intros s' (h1' & h2' & h3'). repeat split; auto. intros. rewrite h3'; auto.
        bd; auto.
    + intros s (h1 & h2 & h3). repeat split; auto; intros; rewrite h3; auto; bd; auto; try lia.
  - eapply post_for' with (I := fun i m' => nr m' = nr m /\ nc m' = nc m /\
      forall a b, a < nr m -> b < nc m ->
        get m' a b = if (a <? i) && (a <? b) then n0 N else get m a b).
    + repeat split; auto; intros; bd; auto.
    + intros i s hi (h1 & h2 & h3).
      eapply post_for' with (I := fun j m' => nr m' = nr m /\ nc m' = nc m /\
        forall a b, a < nr m -> b < nc m ->
          get m' a b = if ((a <? i) && (a <? b)) || ((a =? i) && (a <? b) && (b <? j))
                       then n0 N else get m a b).
      * repeat split; auto. intros. rewrite h3; auto. bd; auto.
      * intros j s' hj (h1' & h2' & h3'). step1; [lia|lia|]. repeat split; auto.
        intros. rewrite get_upd by lia. rewrite h3' by auto. bd; auto.
      * intros s' (h1' & h2' & h3'). repeat split; auto. intros. rewrite h3'; auto.
        bd; auto.
    + intros s (h1 & h2 & h3). repeat split; auto; intros; rewrite h3; auto; bd; auto; try lia.
Qed.

Lemma triangular_inplace_err (m : mtx) u : nr m <> nc m ->
  triangular_inplace m u = Err (NotSquare (nr m) (nc m)).
Proof. intros. unfold triangular_inplace, check_square. bd. reflexivity. Qed.

(** is_triangular *)
Lemma is_triangular_ok (m : mtx) u :
  wp (is_triangular m u) (fun b =>
    b = true <-> (nr m = nc m /\ forall i j, i < nr m -> j < nc m -> outside u i j ->
                    nis_zero N (get m i j) = true)).
Proof.
  unfold is_triangular, check_square. destruct (Nat.eqb_spec (nr m) (nc m)) as [e|e]; simpl.
  2: split; [discriminate|intros [? _]; lia].
  set (P := fun i => forall j, j < nc m -> outside u i j -> nis_zero N (get m i j) = true).
  eapply post_for_brk with (I := fun i b => b = true /\ forall a, a < i -> P a).
  - split; auto. intros; lia.
  - intros i b hi (-> & hP).
    assert (hrow : wp (if is_upper u
        then for_brk i 0 (fun j (_ : bool) => let* x := at2 m i j in
               if negb (nis_zero N x) then Ret (false, false) else Ret (true, true)) true
        else for_brk (nr m - (i + 1)) (i + 1) (fun j (_ : bool) => let* x := at2 m i j in
               if negb (nis_zero N x) then Ret (false, false) else Ret (true, true)) true)
        (fun ok => ok = true <-> P i)).
    { destruct u; simpl.
      - eapply post_for_brk with (I := fun j b => b = true /\ forall a, a < j -> nis_zero N (get m i a) = true).
        + split; auto. intros; lia.
        + intros j b hj (-> & hz). step1. step1; try lia.
          destruct (nis_zero N (get m i j)) eqn:ez; simpl.
          * split; auto. intros a ha. destruct (Nat.eq_dec a j) as [->|]; auto. apply hz. lia.
          * split; [discriminate|]. intros h. rewrite h in ez; [discriminate|lia|simpl; lia].
        + intros b (-> & hz). split; auto. intros _ j hj ho. apply hz. simpl in ho. lia.
      - eapply post_for_brk with (I := fun j b => b = true /\ forall a, i < a -> a < j -> nis_zero N (get m i a) = true).
        + split; auto. intros; lia.
        + intros j b hj (-> & hz). step1. step1; try lia.
          destruct (nis_zero N (get m i j)) eqn:ez; simpl.
          * split; auto. intros a ha1 ha2. destruct (Nat.eq_dec a j) as [->|]; auto. apply hz; lia.
          * split; [discriminate|]. intros h. rewrite h in ez; [discriminate|lia|simpl; lia].
        + intros b (-> & hz). split; auto. intros _ j hj ho. apply hz; simpl in ho; lia. }
    apply post_bind. eapply post_mono; [exact hrow|]. intros ok hok. simpl.
    destruct ok.
    + split; auto. intros a ha. destruct (Nat.eq_dec a i) as [->|]; [tauto|]. apply hP. lia.
    + split; [discriminate|]. intros [_ h]. exfalso. assert (false = true); [|discriminate].
      apply hok. intros j hj ho. apply h; auto; lia.
  - intros b (-> & hP). split; auto. intros _. split; auto. intros i j hi hj ho. apply hP; auto.
Qed.

Lemma triangular_inplace_spec (m : mtx) u :
  match triangular_inplace m u with
  | Ret m' => nr m = nc m /\ nr m' = nr m /\ nc m' = nc m /\
      (forall i j, i < nr m -> j < nc m -> outside u i j -> get m' i j = n0 N) /\
      (forall i j, i < nr m -> j < nc m -> ~ outside u i j -> get m' i j = get m i j)
  | Err e => nr m <> nc m /\ e = NotSquare (nr m) (nc m)
  | _ => False
  end.
Proof.
  destruct (Nat.eq_dec (nr m) (nc m)) as [e|e].
  - destruct (wp_ret _ _ (triangular_inplace_ok m u e)) as (m' & -> & h). tauto.
  - rewrite triangular_inplace_err by auto. auto.
Qed.
Lemma is_triangular_spec (m : mtx) u :
  exists b, is_triangular m u = Ret b /\
    (b = true <-> nr m = nc m /\
       forall i j, i < nr m -> j < nc m -> outside u i j -> nis_zero N (get m i j) = true).
Proof. destruct (wp_ret _ _ (is_triangular_ok m u)) as (b & e & h). eauto. Qed.
Lemma into_triangular_is_triangular (m m' : mtx) u :
  nis_zero N (n0 N) = true -> into_triangular m u = Ret m' -> is_triangular m' u = Ret true.
Proof.
  intros hz e. pose proof (triangular_inplace_spec m u) as h. unfold into_triangular in e.
  rewrite e in h. destruct h as (h0 & h1 & h2 & h3 & _).
  destruct (is_triangular_spec m' u) as (b & eb & hb). rewrite eb.
  replace b with true; auto. symmetry. apply hb. split; [congruence|].
  intros i j hi hj ho. rewrite h3; auto; congruence.
Qed.

(** Shape and safety of the triangular solver, any scalar semantics *)
Lemma solve_row_safe (a : mtx) u diag_fn k i (b : mtx) E F (Q : N -> Prop) :
  nr a = nc a -> nr b = nr a -> i < nr a -> k < nc b ->
  post (diag_fn i) (fun _ => True) E F ->
  post (solve_row a u diag_fn k i b) (fun b' => nr b' = nr b /\ nc b' = nc b) E F.
Proof.
  intros sq hb hi hk hd. unfold solve_row. apply post_bind.
  eapply post_mono; [exact hd|]. intros d _. steps.
  destruct u; simpl; steps; dims; auto.
Qed.

Lemma solve_system_safe (a b : mtx) u diag_fn E F :
  nr a = nc a -> nr b = nr a ->
  (forall i, i < nr a -> post (diag_fn i) (fun _ => True) E F) ->
  post (solve_triangular_system a b u diag_fn) (fun b' => nr b' = nr b /\ nc b' = nc b) E F.
Proof.
  intros sq hb hd. unfold solve_triangular_system. step1. step1; [|lia]. intros _.
  bd; simpl.
  eapply post_for' with (I := fun _ b' => nr b' = nr b /\ nc b' = nc b); auto.
  intros k s hk (h1 & h2). destruct u; simpl.
  - eapply post_for_rev with (I := fun _ b' => nr b' = nr b /\ nc b' = nc b); auto.
    intros i s' hi (h1' & h2').
    eapply post_mono; [apply solve_row_safe; auto; lia|]. intros s'' (? & ?). split; congruence.
  - eapply post_for' with (I := fun _ b' => nr b' = nr b /\ nc b' = nc b); auto.
    intros i s' hi (h1' & h2').
    eapply post_mono; [apply solve_row_safe; auto; try lia; apply hd; lia|].
    intros s'' (? & ?). split; congruence.
Qed.

Lemma solve_triangular_class (a b : mtx) u :
  match solve_triangular a b u with
  | Ret x => nr a = nc a /\ nr b = nr a /\ nr x = nr b /\ nc x = nc b
  | Err (NotSquare r c) => nr a <> nc a /\ r = nr a /\ c = nc a
  | Err (WrongRows e x) => nr a = nc a /\ nr b <> nr a /\ e = nr a /\ x = nr b
  | _ => False
  end.
Proof.
  destruct (Nat.eq_dec (nr a) (nc a)) as [sq|sq].
  - destruct (Nat.eq_dec (nr b) (nr a)) as [hb|hb].
    + assert (h : wp (solve_triangular a b u) (fun b' => nr b' = nr b /\ nc b' = nc b)).
      { apply solve_system_safe; auto. intros. apply post_at2; auto; lia. }
      destruct (solve_triangular a b u); simpl in h; unfold noE in h; tauto.
    + unfold solve_triangular, solve_triangular_system, check_square. bd; simpl; bd; simpl; auto.
  - unfold solve_triangular, solve_triangular_system, check_square. bd; simpl; bd; simpl; auto.
Qed.

(** Extensionality of loops *)
Lemma for_ext {S} cnt lo (f g : nat -> S -> res S) s :
  (forall i s, lo <= i < lo + cnt -> f i s = g i s) -> for_ cnt lo f s = for_ cnt lo g s.
Proof.
  revert lo s. induction cnt as [|c IH]; intros lo s h; simpl; auto.
  rewrite h by lia. destruct (g lo s); simpl; auto. apply IH. intros. apply h. lia.
Qed.
Lemma for_rev_ext {S} n (f g : nat -> S -> res S) s :
  (forall i s, i < n -> f i s = g i s) -> for_rev n f s = for_rev n g s.
Proof.
  revert s. induction n as [|c IH]; intros s h; simpl; auto.
  rewrite h by lia. destruct (g c s); simpl; auto.
Qed.
Lemma vmk_ext n (f g : nat -> N) : (forall i, i < n -> f i = g i) -> vmk n f = vmk n g.
Proof.
  intros h. unfold vmk. apply map_ext_in. intros i hi. apply in_seq in hi. apply h. lia.
Qed.
Lemma mk_ext r c (f g : nat -> nat -> N) :
  (forall i j, i < r -> j < c -> f i j = g i j) -> mk r c f = mk r c g.
Proof.
  intros h. unfold mk. f_equal. apply map_ext_in. intros i hi. apply in_seq in hi.
  apply map_ext_in. intros j hj. apply in_seq in hj. apply h; lia.
Qed.

(** The solver consults only the requested triangle *)
Lemma solve_triangular_frame (a a' b : mtx) u :
  nr a = nr a' -> nc a = nc a' ->
  (forall i j, i < nr a -> j < nc a -> ~ outside u i j -> get a i j = get a' i j) ->
  solve_triangular a b u = solve_triangular a' b u.
Proof.
  intros hr hc h. unfold solve_triangular, solve_triangular_system, check_square.
  rewrite <- hr, <- hc. destruct (Nat.eqb_spec (nr a) (nc a)) as [e|e]; simpl; auto.
  destruct (negb (nr b =? nr a)); auto.
  assert (hrow : forall k i s, i < nr a ->
            solve_row a u (fun i => at2 a i i) k i s = solve_row a' u (fun i => at2 a' i i) k i s).
  { intros k i s hi. unfold solve_row.
    assert (hd : at2 a i i = at2 a' i i).
    { unfold at2. rewrite <- hr, <- hc. bd; simpl; auto.
      rewrite h; auto; try lia. destruct u; simpl; lia. }
    rewrite hd. destruct (at2 a' i i); simpl; auto.
    destruct (at2 s i k); simpl; auto. destruct (atm2 s i k _); simpl; auto.
    destruct u; simpl.
    - destruct (col_to _ _ _); simpl; auto. unfold col_to. rewrite <- hr, <- hc. bd; simpl; auto.
      rewrite (vmk_ext i _ (fun p => get a' p i)); auto.
      intros p hp. apply h; auto; try lia. simpl. lia.
    - destruct (col_from _ _ _); simpl; auto. unfold col_from. rewrite <- hr, <- hc. bd; simpl; auto.
      rewrite (vmk_ext (nr a - (i + 1)) _ (fun p => get a' (i + 1 + p) i)); auto.
      intros p hp. apply h; auto; try lia. simpl. lia. }
  apply for_ext. intros k s hk. destruct u; simpl.
  - apply for_rev_ext. auto.
  - apply for_ext. intros. apply hrow. lia.
Qed.
End Generic.

(** ** Exact arithmetic *)
Local Open Scope R_scope.

(** The triangle of [a] selected by [u], with diagonal [d] *)
Definition tri_part (u : UPLO) (d : nat -> R) (A : M) : M := fun i j =>
  if Nat.eqb i j then d i
  else match u with
       | Upper => if Nat.ltb i j then A i j else 0
       | Lower => if Nat.ltb j i then A i j else 0
       end.

Lemma solve_upper_col (a b : mat RN) d diag_fn k :
  nr a = nc a -> nr b = nr a -> (k < nc b)%nat ->
  (forall i, (i < nr a)%nat -> diag_fn i = Ret (d i)) -> (forall i, (i < nr a)%nat -> d i <> 0) ->
  wp (for_rev (nr a) (solve_row a Upper diag_fn k) b) (fun x =>
    nr x = nr b /\ nc x = nc b /\
    (forall i j, (i < nr b)%nat -> (j < nc b)%nat -> j <> k -> ent x i j = ent b i j) /\
    (forall i, (i < nr a)%nat ->
       Rsum (nr a) (fun q => tri_part Upper d (ent a) i q * ent x q k) = ent b i k)).
Proof.
  intros sq hb hk hdf hd. set (n := nr a).
  eapply post_for_rev with (I := fun i x => nr x = nr b /\ nc x = nc b /\
    (forall p j, (p < nr b)%nat -> (j < nc b)%nat -> j <> k -> ent x p j = ent b p j) /\
    (forall p, (p < i)%nat -> ent x p k = ent b p k - Rsum n (fun q => if Nat.leb i q then ent a p q * ent x q k else 0)) /\
    (forall p, (i <= p < n)%nat ->
       Rsum n (fun q => tri_part Upper d (ent a) p q * ent x q k) = ent b p k)).
  - repeat split; auto; try lia.
    intros. rewrite Rsum_0; [lra|]. intros q hq. bd. auto.
  - intros i x hi (h1 & h2 & h3 & h4 & h5). unfold solve_row. simpl is_upper.
    rewrite hdf by auto. step1. step1. steps. dims.
    fold n in hi.
    set (co := ent x i k / d i).
    set (y := put_col _ _ _ _).
    assert (y1 : nr y = nr b) by (unfold y; dims; auto).
    assert (y2 : nc y = nc b) by (unfold y; dims; auto).
    assert (yv : forall p j, (p < nr b)%nat -> (j < nc b)%nat -> ent y p j =
       if Nat.eqb j k then if Nat.eqb p i then co else
           if Nat.ltb p i then ent x p k - co * ent a p i else ent x p k
       else ent x p j).
    { intros p j hp hj. unfold ent, y. rewrite get_put_col by dlia. dims.
      simpl. destruct (Nat.ltb_spec p i).
      - destruct (Nat.eqb_spec j k) as [->|]; simpl.
        + rewrite vget_vmk by lia. rewrite Nat.sub_0_r. rewrite !vget_vmk by lia.
          rewrite get_upd by lia. bd. rn. fold co. unfold co, ent. rn. field. apply hd. auto.
        + rewrite get_upd by lia. bd. auto.
      - simpl. rewrite get_upd by lia.
        destruct (Nat.eqb_spec j k) as [->|]; destruct (Nat.eqb_spec p i) as [->|]; simpl; auto. }
    clearbody y. repeat split; auto.
    + intros p j hp hj ne. rewrite yv by auto. bd. apply h3; auto.
    + intros p hp. rewrite yv by lia. bd. rewrite h4 by lia.
      assert (esum : Rsum n (fun q => if Nat.leb i q then ent a p q * ent y q k else 0)
                = ent a p i * co + Rsum n (fun q => if Nat.leb (S i) q then ent a p q * ent x q k else 0)).
      { rewrite <- (Rsum_delta n i (fun q => ent a p q * co)) by auto.
        rewrite <- Rsum_plus. apply Rsum_ext. intros q hq. rewrite yv by lia.
        bd; subst; try lia; lra. }
      rewrite esum. lra.
    + intros p hp. destruct (Nat.eq_dec p i) as [->|ne].
      * assert (esum : Rsum n (fun q => tri_part Upper d (ent a) i q * ent y q k)
                = d i * co + Rsum n (fun q => if Nat.leb (S i) q then ent a i q * ent x q k else 0)).
        { rewrite <- (Rsum_delta n i (fun q => d i * co)) by auto.
          rewrite <- Rsum_plus. apply Rsum_ext. intros q hq. rewrite yv by lia.
          unfold tri_part. bd; subst; try lia; lra. }
        rewrite esum. unfold co. rewrite h4 by lia.
        field_simplify; [lra|]. apply hd. auto.
      * rewrite <- h5 by lia. apply Rsum_ext. intros q hq. rewrite yv by lia.
        unfold tri_part. bd; subst; try lia; try lra.
  - intros x (h1 & h2 & h3 & h4 & h5). repeat split; auto. intros. apply h5. lia.
Qed.

Lemma solve_lower_col (a b : mat RN) d diag_fn k :
  nr a = nc a -> nr b = nr a -> (k < nc b)%nat ->
  (forall i, (i < nr a)%nat -> diag_fn i = Ret (d i)) -> (forall i, (i < nr a)%nat -> d i <> 0) ->
  wp (for_ (nr a) 0 (solve_row a Lower diag_fn k) b) (fun x =>
    nr x = nr b /\ nc x = nc b /\
    (forall i j, (i < nr b)%nat -> (j < nc b)%nat -> j <> k -> ent x i j = ent b i j) /\
    (forall i, (i < nr a)%nat ->
       Rsum (nr a) (fun q => tri_part Lower d (ent a) i q * ent x q k) = ent b i k)).
Proof.
  intros sq hb hk hdf hd. set (n := nr a).
  eapply post_for' with (I := fun i x => nr x = nr b /\ nc x = nc b /\
    (forall p j, (p < nr b)%nat -> (j < nc b)%nat -> j <> k -> ent x p j = ent b p j) /\
    (forall p, (i <= p < n)%nat -> ent x p k = ent b p k - Rsum n (fun q => if Nat.ltb q i then ent a p q * ent x q k else 0)) /\
    (forall p, (p < i)%nat ->
       Rsum n (fun q => tri_part Lower d (ent a) p q * ent x q k) = ent b p k)).
  - repeat split; auto; try lia.
    intros. rewrite Rsum_0; [lra|]. intros q hq. bd. auto.
  - intros i x hi (h1 & h2 & h3 & h4 & h5). unfold solve_row. simpl is_upper.
    rewrite hdf by lia. step1. step1. steps. dims.
    fold n in hi.
    set (co := ent x i k / d i).
    set (y := put_col _ _ _ _).
    assert (y1 : nr y = nr b) by (unfold y; dims; auto).
    assert (y2 : nc y = nc b) by (unfold y; dims; auto).
    assert (yv : forall p j, (p < nr b)%nat -> (j < nc b)%nat -> ent y p j =
       if Nat.eqb j k then if Nat.eqb p i then co else
           if Nat.ltb i p then ent x p k - co * ent a p i else ent x p k
       else ent x p j).
    { intros p j hp hj. unfold ent, y. rewrite get_put_col by dlia. dims.
      destruct (Nat.leb_spec (i + 1) p).
      - destruct (Nat.eqb_spec j k) as [->|]; simpl.
        + bd. rewrite vget_vmk by lia. rewrite !vget_vmk by lia.
          rewrite get_upd by lia. replace (i + 1 + (p - (i + 1)))%nat with p by lia.
          bd. rn. fold co. unfold co, ent. rn. field. apply hd. lia.
        + rewrite andb_false_r. rewrite get_upd by lia. bd; auto.
      - simpl. rewrite get_upd by lia.
        destruct (Nat.eqb_spec j k) as [->|]; destruct (Nat.eqb_spec p i) as [->|]; simpl; auto.
        bd. auto. }
    clearbody y. repeat split; auto.
    + intros p j hp hj ne. rewrite yv by auto. bd. apply h3; auto.
    + intros p hp. rewrite yv by lia. bd. rewrite h4 by lia.
      assert (esum : Rsum n (fun q => if Nat.ltb q (S i) then ent a p q * ent y q k else 0)
                = ent a p i * co + Rsum n (fun q => if Nat.ltb q i then ent a p q * ent x q k else 0)).
      { rewrite <- (Rsum_delta n i (fun q => ent a p q * co)) by lia.
        rewrite <- Rsum_plus. apply Rsum_ext. intros q hq. rewrite yv by lia.
        bd; subst; try lia; lra. }
      rewrite esum. lra.
    + intros p hp. destruct (Nat.eq_dec p i) as [->|ne].
      * assert (esum : Rsum n (fun q => tri_part Lower d (ent a) i q * ent y q k)
                = d i * co + Rsum n (fun q => if Nat.ltb q i then ent a i q * ent x q k else 0)).
        { rewrite <- (Rsum_delta n i (fun q => d i * co)) by lia.
          rewrite <- Rsum_plus. apply Rsum_ext. intros q hq. rewrite yv by lia.
          unfold tri_part. bd; subst; try lia; lra. }
        rewrite esum. unfold co. rewrite h4 by lia.
        field_simplify; [lra|]. apply hd. lia.
      * rewrite <- h5 by lia. apply Rsum_ext. intros q hq. rewrite yv by lia.
        unfold tri_part. bd; subst; try lia; try lra.
  - intros x (h1 & h2 & h3 & h4 & h5). repeat split; auto.
Qed.

Lemma solve_system_correct (a b : mat RN) u d diag_fn :
  nr a = nc a -> nr b = nr a ->
  (forall i, (i < nr a)%nat -> diag_fn i = Ret (d i)) -> (forall i, (i < nr a)%nat -> d i <> 0) ->
  wp (solve_triangular_system a b u diag_fn) (fun x =>
    nr x = nr b /\ nc x = nc b /\
    mmul (nr a) (tri_part u d (ent a)) (ent x) =[nr a, nc b]= ent b).
Proof.
  intros sq hb hdf hd. unfold solve_triangular_system. step1. step1; [|lia]. intros _.
  bd; simpl.
  eapply post_for' with (I := fun k x => nr x = nr b /\ nc x = nc b /\
    (forall i j, (i < nr b)%nat -> (k <= j < nc b)%nat -> ent x i j = ent b i j) /\
    (forall i j, (i < nr a)%nat -> (j < k)%nat ->
       Rsum (nr a) (fun q => tri_part u d (ent a) i q * ent x q j) = ent b i j)).
  - repeat split; auto; lia.
  - intros k x hk (h1 & h2 & h3 & h4).
    assert (hcol : wp (if is_upper u then for_rev (nr a) (solve_row a u diag_fn k) x
                       else for_ (nr a) 0 (solve_row a u diag_fn k) x) (fun y =>
       nr y = nr x /\ nc y = nc x /\
       (forall i j, (i < nr x)%nat -> (j < nc x)%nat -> j <> k -> ent y i j = ent x i j) /\
       (forall i, (i < nr a)%nat ->
       Rsum (nr a) (fun q => tri_part u d (ent a) i q * ent y q k) = ent x i k))).
    { destruct u; simpl; [apply solve_upper_col|apply solve_lower_col]; auto; lia. }
    eapply post_mono; [exact hcol|]. intros y (g1 & g2 & g3 & g4).
    repeat split; try congruence.
    + intros. rewrite g3 by lia. apply h3; lia.
    + intros i j hi hj. destruct (Nat.eq_dec j k) as [->|].
      * rewrite g4 by auto. apply h3; lia.
      * rewrite <- h4 by lia. apply Rsum_ext. intros. rewrite g3 by lia. auto.
  - intros x (h1 & h2 & h3 & h4). repeat split; auto.
Qed.

(** Triangular matrices with non-zero diagonal are injective *)
Lemma upper_injective n A : upper_tri n n A -> (forall i, (i < n)%nat -> A i i <> 0) -> injective n n A.
Proof.
  intros hu hd x hx.
  assert (h : forall k, (k <= n)%nat -> forall j, (n - k <= j < n)%nat -> x j = 0).
  { induction k; intros hk j hj; [lia|].
    destruct (Nat.eq_dec j (n - S k)) as [->|]; [|apply IHk; lia].
    set (p := (n - S k)%nat) in *. specialize (hx p ltac:(lia)).
    rewrite (Rsum_single n p) in hx; [|lia|].
    - apply Rmult_integral in hx. destruct hx; auto. exfalso. apply (hd p); auto. lia.
    - intros i hi ne. destruct (lt_dec i p).
      + rewrite hu by lia. lra.
      + rewrite IHk by lia. lra. }
  intros j hj. apply (h n); lia.
Qed.
Lemma lower_injective n A : lower_tri n n A -> (forall i, (i < n)%nat -> A i i <> 0) -> injective n n A.
Proof.
  intros hu hd x hx.
  assert (h : forall k, (k <= n)%nat -> forall j, (j < k)%nat -> x j = 0).
  { induction k; intros hk j hj; [lia|].
    destruct (Nat.eq_dec j k) as [->|]; [|apply IHk; lia].
    specialize (hx k ltac:(lia)).
    rewrite (Rsum_single n k) in hx; [|lia|].
    - apply Rmult_integral in hx. destruct hx; auto. exfalso. apply (hd k); auto.
    - intros i hi ne. destruct (lt_dec k i).
      + rewrite hu by lia. lra.
      + rewrite IHk by lia. lra. }
  intros j hj. apply (h n); lia.
Qed.
Lemma injective_mmul r n c A X Y : injective r n A ->
  mmul n A X =[r, c]= mmul n A Y -> X =[n, c]= Y.
Proof.
  intros hA e i j hi hj.
  assert (h : X i j - Y i j = 0); [|lra].
  apply (hA (fun q => X q j - Y q j)); auto.
  intros p hp. rewrite (Rsum_ext n _ (fun q => A p q * X q j - A p q * Y q j)) by (intros; lra).
  rewrite Rsum_minus. pose proof (e p j hp hj) as e'. unfold mmul in e'. lra.
Qed.
Lemma tri_part_injective n u d A : (forall i, (i < n)%nat -> d i <> 0) -> injective n n (tri_part u d A).
Proof.
  intros hd. destruct u; [apply upper_injective|apply lower_injective]; unfold tri_part.
  - intros i j hi hj h. bd. auto.
  - intros i hi. rewrite Nat.eqb_refl. auto.
  - intros i j hi hj h. bd. auto.
  - intros i hi. rewrite Nat.eqb_refl. auto.
Qed.

Lemma solve_triangular_correct (a b : mat RN) u :
  nr a = nc a -> nr b = nr a -> (forall i, (i < nr a)%nat -> ent a i i <> 0) ->
  wp (solve_triangular a b u) (fun x =>
    nr x = nr b /\ nc x = nc b /\
    mmul (nr a) (tri_part u (fun i => ent a i i) (ent a)) (ent x) =[nr a, nc b]= ent b).
Proof.
  intros. unfold solve_triangular. apply solve_system_correct; auto.
  intros. unfold at2. bd. reflexivity.
Qed.

Lemma tri_of_part n u A : tri_of u A =[n, n]= tri_part u (fun i => A i i) A.
Proof.
  intros i j hi hj. unfold tri_of, tri_part. destruct u; bd; subst; auto; lia.
Qed.

Lemma solve_triangular_unique (a b : mat RN) u :
  nr a = nc a -> nr b = nr a -> (forall i, (i < nr a)%nat -> ent a i i <> 0) ->
  exists x, solve_triangular a b u = Ret x /\ nr x = nr b /\ nc x = nc b /\
    mmul (nr a) (tri_of u (ent a)) (ent x) =[nr a, nc b]= ent b /\
    forall y, mmul (nr a) (tri_of u (ent a)) y =[nr a, nc b]= ent b -> y =[nr a, nc b]= ent x.
Proof.
  intros sq hb hd.
  destruct (wp_ret _ _ (solve_triangular_correct a b u sq hb hd)) as (x & e & h1 & h2 & h3).
  exists x. repeat split; auto.
  - rewrite (tri_of_part (nr a)). exact h3.
  - intros y hy. eapply injective_mmul; [apply (tri_part_injective (nr a) u (fun i => ent a i i) (ent a)); auto|].
    rewrite <- (tri_of_part (nr a)) at 1. rewrite hy, h3. reflexivity.
Qed.
