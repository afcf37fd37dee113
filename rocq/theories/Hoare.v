(** * Proof rules for outcomes, loops and arrays (any scalar type) *)
From Coq Require Import List Arith Lia Bool.
From Verif Require Import Scalar Arr.
Import ListNotations.
Open Scope res_scope.

(** [post m Q E F]: m returns a value in Q, or an error in E, or (if F) runs out of fuel.
    Panics and out-of-bounds accesses are excluded. *)
Definition post {A} (m : res A) (Q : A -> Prop) (E : lerr -> Prop) (F : Prop) : Prop :=
  match m with
  | Ret a => Q a
  | Err e => E e
  | OutOfFuel => F
  | _ => False
  end.
Definition noE (e : lerr) : Prop := False.
(** Normal return in Q *)
Notation wp m Q := (post m Q noE False).

Lemma post_ret {A} (a : A) (Q : A -> Prop) E F : Q a -> post (Ret a) Q E F.
Proof. exact (fun h => h). Qed.
Lemma post_bind {A B} (m : res A) (f : A -> res B) Q E F :
  post m (fun a => post (f a) Q E F) E F -> post (bind m f) Q E F.
Proof. destruct m; simpl; auto. Qed.
Lemma post_conseq {A} (m : res A) (Q Q' : A -> Prop) (E E' : lerr -> Prop) (F F' : Prop) :
  post m Q E F -> (forall a, Q a -> Q' a) -> (forall e, E e -> E' e) -> (F -> F') ->
  post m Q' E' F'.
Proof. destruct m; simpl; auto. Qed.
Lemma wp_conseq {A} (m : res A) (Q Q' : A -> Prop) E F :
  wp m Q -> (forall a, Q a -> Q' a) -> post m Q' E F.
Proof. destruct m; simpl; unfold noE; tauto || auto. Qed.
Lemma post_mono {A} (m : res A) (Q Q' : A -> Prop) E F :
  post m Q E F -> (forall a, Q a -> Q' a) -> post m Q' E F.
Proof. destruct m; simpl; auto. Qed.
Lemma post_and {A} (m : res A) (Q Q' : A -> Prop) E E' F F' :
  post m Q E F -> post m Q' E' F' -> post m (fun a => Q a /\ Q' a) (fun e => E e /\ E' e) (F /\ F').
Proof. destruct m; simpl; auto. Qed.
Lemma wp_ret {A} (m : res A) (Q : A -> Prop) : wp m Q -> exists a, m = Ret a /\ Q a.
Proof. destruct m; simpl; unfold noE; try tauto. eauto. Qed.
Lemma wp_of_eq {A} (m : res A) a (Q : A -> Prop) E F : m = Ret a -> Q a -> post m Q E F.
Proof. intros -> h. exact h. Qed.
Lemma post_inv {A} (m : res A) (Q : A -> Prop) E F a : post m Q E F -> m = Ret a -> Q a.
Proof. intros h ->. exact h. Qed.

Lemma bind_ret {A B} (m : res A) (f : A -> res B) b :
  bind m f = Ret b -> exists a, m = Ret a /\ f a = Ret b.
Proof. destruct m; simpl; try discriminate. eauto. Qed.

Lemma post_unwrap {A} (m : res A) Q E F : post m Q noE F -> post (unwrap m) Q E F.
Proof. destruct m; simpl; unfold noE; tauto || auto. Qed.
Lemma post_unwrap_opt {A} (o : option A) (Q : A -> Prop) E F a :
  o = Some a -> Q a -> post (unwrap_opt o) Q E F.
Proof. intros ->. simpl. auto. Qed.
Lemma post_usub a b (Q : nat -> Prop) E F : b <= a -> Q (a - b) -> post (usub a b) Q E F.
Proof. intros h. unfold usub. destruct (Nat.leb_spec b a); [auto|lia]. Qed.

(** ** Loops *)
Lemma post_for {S} (I : nat -> S -> Prop) cnt lo (body : nat -> S -> res S) s E F :
  I lo s ->
  (forall i s, lo <= i < lo + cnt -> I i s -> post (body i s) (I (Datatypes.S i)) E F) ->
  post (for_ cnt lo body s) (I (lo + cnt)) E F.
Proof.
  revert lo s. induction cnt as [|c IH]; intros lo s h hb; simpl.
  - rewrite Nat.add_0_r. exact h.
  - apply post_bind. eapply post_mono; [apply hb; [lia|exact h]|].
    intros s' h'. replace (lo + Datatypes.S c) with (Datatypes.S lo + c) by lia.
    apply IH; [exact h'|]. intros; apply hb; [lia|auto].
Qed.
Lemma post_for' {S} (I : nat -> S -> Prop) cnt lo (body : nat -> S -> res S) s (Q : S -> Prop) E F :
  I lo s ->
  (forall i s, lo <= i < lo + cnt -> I i s -> post (body i s) (I (Datatypes.S i)) E F) ->
  (forall s, I (lo + cnt) s -> Q s) ->
  post (for_ cnt lo body s) Q E F.
Proof. intros h1 h2 h3. eapply post_mono; [eapply post_for; eauto|auto]. Qed.

Lemma post_for_rev {S} (I : nat -> S -> Prop) n (body : nat -> S -> res S) s (Q : S -> Prop) E F :
  I n s ->
  (forall k s, k < n -> I (Datatypes.S k) s -> post (body k s) (I k) E F) ->
  (forall s, I 0 s -> Q s) ->
  post (for_rev n body s) Q E F.
Proof.
  revert s. induction n as [|k IH]; intros s h hb hq; simpl.
  - auto.
  - apply post_bind. eapply post_mono; [apply hb; [lia|exact h]|].
    intros s' h'. apply IH; auto.
Qed.

Lemma post_for_brk {S} (I : nat -> S -> Prop) cnt lo (body : nat -> S -> res (bool * S)) s
      (Q : S -> Prop) E F :
  I lo s ->
  (forall i s, lo <= i < lo + cnt -> I i s ->
     post (body i s) (fun gs => if fst gs : bool then I (Datatypes.S i) (snd gs) else Q (snd gs)) E F) ->
  (forall s, I (lo + cnt) s -> Q s) ->
  post (for_brk cnt lo body s) Q E F.
Proof.
  revert lo s. induction cnt as [|c IH]; intros lo s h hb hq; simpl.
  - apply hq. rewrite Nat.add_0_r. exact h.
  - apply post_bind. eapply post_mono; [apply hb; [lia|exact h]|].
    intros [go s'] h'. simpl in h'. destruct go; [|exact h'].
    apply IH; [exact h'| |].
    + intros; apply hb; [lia|auto].
    + replace (lo + Datatypes.S c) with (Datatypes.S lo + c) in hq by lia. exact hq.
Qed.

Lemma post_for_rev_brk {S} (I : nat -> S -> Prop) n (body : nat -> S -> res (bool * S)) s
      (Q : S -> Prop) E F :
  I n s ->
  (forall k s, k < n -> I (Datatypes.S k) s ->
     post (body k s) (fun gs => if fst gs : bool then I k (snd gs) else Q (snd gs)) E F) ->
  (forall s, I 0 s -> Q s) ->
  post (for_rev_brk n body s) Q E F.
Proof.
  revert s. induction n as [|k IH]; intros s h hb hq; simpl.
  - auto.
  - apply post_bind. eapply post_mono; [apply hb; [lia|exact h]|].
    intros [go s'] h'. simpl in h'. destruct go; [|exact h']. apply IH; auto.
Qed.

(** ** Two runs in lock step: same kind of outcome, related values *)
Definition sim {A B} (R : A -> B -> Prop) (m1 : res A) (m2 : res B) : Prop :=
  match m1, m2 with
  | Ret a, Ret b => R a b
  | Err e, Err e' => e = e'
  | Panicked, Panicked => True
  | OutOfBounds, OutOfBounds => True
  | OutOfFuel, OutOfFuel => True
  | _, _ => False
  end.
Lemma sim_bind {A A' B B'} (R : A -> B -> Prop) (R' : A' -> B' -> Prop) m1 m2 f g :
  sim R m1 m2 -> (forall a b, R a b -> sim R' (f a) (g b)) -> sim R' (bind m1 f) (bind m2 g).
Proof. destruct m1, m2; simpl; auto; tauto. Qed.
Lemma sim_mono {A B} (R R' : A -> B -> Prop) m1 m2 :
  sim R m1 m2 -> (forall a b, R a b -> R' a b) -> sim R' m1 m2.
Proof. destruct m1, m2; simpl; auto. Qed.
Lemma sim_refl {A} (R : A -> A -> Prop) m : (forall a, R a a) -> sim R m m.
Proof. destruct m; simpl; auto. Qed.
Lemma sim_eq {A} (m1 m2 : res A) : m1 = m2 -> sim eq m1 m2.
Proof. intros ->. apply sim_refl. auto. Qed.
Lemma sim_eq_inv {A} (m1 m2 : res A) : sim eq m1 m2 -> m1 = m2.
Proof. destruct m1, m2; simpl; intros; subst; auto; tauto. Qed.
Lemma sim_for {S S'} (R : nat -> S -> S' -> Prop) cnt lo f g s s' :
  R lo s s' ->
  (forall i s s', lo <= i < lo + cnt -> R i s s' -> sim (R (Datatypes.S i)) (f i s) (g i s')) ->
  sim (R (lo + cnt)) (for_ cnt lo f s) (for_ cnt lo g s').
Proof.
  revert lo s s'. induction cnt as [|c IH]; intros lo s s' h hb; simpl.
  - rewrite Nat.add_0_r. exact h.
  - eapply sim_bind; [apply hb; [lia|exact h]|]. intros a b hab.
    replace (lo + Datatypes.S c) with (Datatypes.S lo + c) by lia.
    apply IH; auto. intros. apply hb; [lia|auto].
Qed.
Lemma sim_for_rev {S S'} (R : nat -> S -> S' -> Prop) n f g s s' :
  R n s s' ->
  (forall k s s', k < n -> R (Datatypes.S k) s s' -> sim (R k) (f k s) (g k s')) ->
  sim (R 0) (for_rev n f s) (for_rev n g s').
Proof.
  revert s s'. induction n as [|k IH]; intros s s' h hb; simpl; auto.
  eapply sim_bind; [apply hb; [lia|exact h]|]. intros a b hab. apply IH; auto.
Qed.

(** ** Boolean case analysis on nat comparisons *)
Ltac bd1 :=
  match goal with
  | |- context [Nat.eqb ?a ?b] => destruct (Nat.eqb_spec a b)
  | |- context [Nat.ltb ?a ?b] => destruct (Nat.ltb_spec a b)
  | |- context [Nat.leb ?a ?b] => destruct (Nat.leb_spec a b)
  end.
Ltac bd := repeat (bd1; try (exfalso; lia); cbn [andb orb negb]).
Ltac bdh :=
  repeat match goal with
  | H : context [Nat.eqb ?a ?b] |- _ => destruct (Nat.eqb_spec a b); try (exfalso; lia); cbn [andb orb negb] in H
  | H : context [Nat.ltb ?a ?b] |- _ => destruct (Nat.ltb_spec a b); try (exfalso; lia); cbn [andb orb negb] in H
  | H : context [Nat.leb ?a ?b] |- _ => destruct (Nat.leb_spec a b); try (exfalso; lia); cbn [andb orb negb] in H
  end.

(** ** Arrays *)
Section ArrP.
Context {N : Num}.
Notation vec := (list N).
Notation mtx := (mat N).

Lemma nth_map_seq {A} (f : nat -> A) n i d : nth i (map f (seq 0 n)) d = if i <? n then f i else d.
Proof.
  destruct (Nat.ltb_spec i n).
  - rewrite (nth_indep _ d (f 0)); [|now rewrite map_length, seq_length].
    rewrite map_nth. rewrite seq_nth; auto.
  - apply nth_overflow. rewrite map_length, seq_length. lia.
Qed.

Lemma get_mk_full r c (f : nat -> nat -> N) i j :
  get (mk r c f) i j = if (i <? r) && (j <? c) then f i j else n0 N.
Proof.
  unfold get, mk; simpl. rewrite nth_map_seq. destruct (i <? r); simpl.
  - rewrite nth_map_seq. reflexivity.
  - destruct j; reflexivity.
Qed.
Lemma get_mk r c (f : nat -> nat -> N) i j : i < r -> j < c -> get (mk r c f) i j = f i j.
Proof. intros. rewrite get_mk_full. bd. reflexivity. Qed.
Lemma nr_mk r c (f : nat -> nat -> N) : nr (mk r c f) = r. Proof. reflexivity. Qed.
Lemma nc_mk r c (f : nat -> nat -> N) : nc (mk r c f) = c. Proof. reflexivity. Qed.

Lemma length_vmk n (f : nat -> N) : length (vmk n f) = n.
Proof. unfold vmk. now rewrite map_length, seq_length. Qed.
Lemma vget_vmk_full n (f : nat -> N) i : vget (vmk n f) i = if i <? n then f i else n0 N.
Proof. unfold vget, vmk. apply nth_map_seq. Qed.
Lemma vget_vmk n (f : nat -> N) i : i < n -> vget (vmk n f) i = f i.
Proof. intros. rewrite vget_vmk_full. bd. reflexivity. Qed.
Lemma length_vupd (v : vec) i x : length (vupd v i x) = length v.
Proof. apply length_vmk. Qed.
Lemma vget_vupd (v : vec) i x k :
  k < length v -> vget (vupd v i x) k = if k =? i then x else vget v k.
Proof. intros. unfold vupd. now rewrite vget_vmk. Qed.
Lemma nr_upd (m : mtx) i j x : nr (upd m i j x) = nr m. Proof. reflexivity. Qed.
Lemma nc_upd (m : mtx) i j x : nc (upd m i j x) = nc m. Proof. reflexivity. Qed.
Lemma get_upd (m : mtx) i j x a b : a < nr m -> b < nc m ->
  get (upd m i j x) a b = if (a =? i) && (b =? j) then x else get m a b.
Proof. intros. unfold upd. now rewrite get_mk. Qed.
Lemma nr_put (m : mtx) r c s : nr (put m r c s) = nr m. Proof. reflexivity. Qed.
Lemma nc_put (m : mtx) r c s : nc (put m r c s) = nc m. Proof. reflexivity. Qed.
Lemma get_put (m : mtx) r c s i j : i < nr m -> j < nc m ->
  get (put m r c s) i j =
  if (r <=? i) && (i <? r + nr s) && (c <=? j) && (j <? c + nc s)
  then get s (i - r) (j - c) else get m i j.
Proof. intros. unfold put. now rewrite get_mk. Qed.
Lemma nr_put_col (m : mtx) r c v : nr (put_col m r c v) = nr m. Proof. reflexivity. Qed.
Lemma nc_put_col (m : mtx) r c v : nc (put_col m r c v) = nc m. Proof. reflexivity. Qed.
Lemma get_put_col (m : mtx) r c v i j : i < nr m -> j < nc m ->
  get (put_col m r c v) i j =
  if (r <=? i) && (i <? r + length v) && (j =? c) then vget v (i - r) else get m i j.
Proof. intros. unfold put_col. now rewrite get_mk. Qed.
Lemma nr_transpose (m : mtx) : nr (transpose m) = nc m. Proof. reflexivity. Qed.
Lemma nc_transpose (m : mtx) : nc (transpose m) = nr m. Proof. reflexivity. Qed.
Lemma get_transpose (m : mtx) i j : i < nc m -> j < nr m -> get (transpose m) i j = get m j i.
Proof. intros. unfold transpose. now rewrite get_mk. Qed.
Lemma nr_mmap f (m : mtx) : nr (mmap f m) = nr m. Proof. reflexivity. Qed.
Lemma nc_mmap f (m : mtx) : nc (mmap f m) = nc m. Proof. reflexivity. Qed.
Lemma get_mmap f (m : mtx) i j : i < nr m -> j < nc m -> get (mmap f m) i j = f (get m i j).
Proof. intros. unfold mmap. now rewrite get_mk. Qed.
Lemma length_vmap f (v : vec) : length (vmap f v) = length v.
Proof. apply length_vmk. Qed.
Lemma vget_vmap f (v : vec) i : i < length v -> vget (vmap f v) i = f (vget v i).
Proof. intros. unfold vmap. now rewrite vget_vmk. Qed.
Lemma length_vzeros n : length (vzeros (N:=N) n) = n. Proof. apply length_vmk. Qed.
Lemma vget_vzeros n i : vget (vzeros (N:=N) n) i = n0 N.
Proof. unfold vzeros. rewrite vget_vmk_full. now destruct (i <? n). Qed.
Lemma nr_mscale (m : mtx) s : nr (mscale m s) = nr m. Proof. reflexivity. Qed.
Lemma nc_mscale (m : mtx) s : nc (mscale m s) = nc m. Proof. reflexivity. Qed.
Lemma get_mscale (m : mtx) s i j : i < nr m -> j < nc m ->
  get (mscale m s) i j = nmul N (get m i j) s.
Proof. intros. unfold mscale. now rewrite get_mmap. Qed.

Section Rules.
Context (E : lerr -> Prop) (F : Prop).
Lemma post_at2 (m : mtx) i j (Q : N -> Prop) :
  i < nr m -> j < nc m -> Q (get m i j) -> post (at2 m i j) Q E F.
Proof. intros. unfold at2. bd. auto. Qed.
Lemma post_at1 (v : vec) i (Q : N -> Prop) : i < length v -> Q (vget v i) -> post (at1 v i) Q E F.
Proof. intros. unfold at1. bd. auto. Qed.
Lemma post_atm2 (m : mtx) i j x (Q : mtx -> Prop) :
  i < nr m -> j < nc m -> Q (upd m i j x) -> post (atm2 m i j x) Q E F.
Proof. intros. unfold atm2. bd. auto. Qed.
Lemma post_atm1 (v : vec) i x (Q : vec -> Prop) :
  i < length v -> Q (vupd v i x) -> post (atm1 v i x) Q E F.
Proof. intros. unfold atm1. bd. auto. Qed.
Lemma post_idx1 (v : vec) i (Q : N -> Prop) : i < length v -> Q (vget v i) -> post (idx1 v i) Q E F.
Proof. intros. unfold idx1. bd. auto. Qed.
Lemma post_set1 (v : vec) i x (Q : vec -> Prop) :
  i < length v -> Q (vupd v i x) -> post (set1 v i x) Q E F.
Proof. intros. unfold set1. bd. auto. Qed.
Lemma post_set2 (m : mtx) i j x (Q : mtx -> Prop) :
  i < nr m -> j < nc m -> Q (upd m i j x) -> post (set2 m i j x) Q E F.
Proof. intros. unfold set2. bd. auto. Qed.
Lemma post_slice (m : mtx) r0 r1 c0 c1 (Q : mtx -> Prop) :
  r0 <= r1 -> r1 <= nr m -> c0 <= c1 -> c1 <= nc m ->
  Q (mk (r1 - r0) (c1 - c0) (fun i j => get m (r0 + i) (c0 + j))) ->
  post (slice m r0 r1 c0 c1) Q E F.
Proof. intros. unfold slice. bd. auto. Qed.
Lemma post_col_from (m : mtx) r c (Q : vec -> Prop) :
  r <= nr m -> c < nc m -> Q (vmk (nr m - r) (fun i => get m (r + i) c)) ->
  post (col_from m r c) Q E F.
Proof. intros. unfold col_from. bd. auto. Qed.
Lemma post_col_to (m : mtx) r c (Q : vec -> Prop) :
  r <= nr m -> c < nc m -> Q (vmk r (fun i => get m i c)) -> post (col_to m r c) Q E F.
Proof. intros. unfold col_to. bd. auto. Qed.
Lemma post_vfrom (v : vec) i (Q : vec -> Prop) :
  i <= length v -> Q (vmk (length v - i) (fun k => vget v (i + k))) -> post (vfrom v i) Q E F.
Proof. intros. unfold vfrom. bd. auto. Qed.
Lemma post_column (m : mtx) c (Q : vec -> Prop) :
  c < nc m -> Q (vmk (nr m) (fun i => get m i c)) -> post (column m c) Q E F.
Proof.
  intros. unfold column. apply post_col_from; [lia|auto|].
  rewrite Nat.sub_0_r. exact H0.
Qed.
Lemma post_dot1 (u v : vec) (Q : N -> Prop) :
  length u = length v -> Q (sumn (length u) (fun i => nmul N (vget u i) (vget v i))) ->
  post (dot1 u v) Q E F.
Proof. intros. unfold dot1. bd. auto. Qed.
Lemma post_dot2 (a b : mtx) (Q : mtx -> Prop) :
  nc a = nr b ->
  Q (mk (nr a) (nc b) (fun i j => sumn (nc a) (fun k => nmul N (get a i k) (get b k j)))) ->
  post (dot2 a b) Q E F.
Proof. intros. unfold dot2. bd. auto. Qed.
Lemma post_scaled_add (y : vec) alpha (x : vec) (Q : vec -> Prop) :
  length y = length x ->
  Q (vmk (length y) (fun i => nadd N (vget y i) (nmul N alpha (vget x i)))) ->
  post (scaled_add y alpha x) Q E F.
Proof. intros. unfold scaled_add. bd. auto. Qed.
Lemma post_gemm1 alpha (a b c : mtx) (Q : mtx -> Prop) :
  nc a = nr b -> nr a = nr c -> nc b = nc c ->
  Q (mk (nr c) (nc c) (fun i j =>
         nadd N (get c i j) (nmul N alpha (sumn (nc a) (fun k => nmul N (get a i k) (get b k j)))))) ->
  post (gemm1 alpha a b c) Q E F.
Proof. intros. unfold gemm1. bd. auto. Qed.
Lemma post_gemv0 alpha (a : mtx) (x y : vec) (Q : vec -> Prop) :
  nc a = length x -> nr a = length y ->
  Q (vmk (nr a) (fun i => nmul N alpha (sumn (nc a) (fun k => nmul N (get a i k) (vget x k))))) ->
  post (gemv0 alpha a x y) Q E F.
Proof. intros. unfold gemv0. bd. auto. Qed.
Lemma post_check_square (m : mtx) (Q : nat -> Prop) :
  (nr m = nc m -> Q (nr m)) -> (nr m <> nc m -> E (NotSquare (nr m) (nc m))) ->
  post (check_square m) Q E F.
Proof. intros. unfold check_square. destruct (Nat.eqb_spec (nr m) (nc m)); simpl; auto. Qed.
Lemma post_select_cols (m : mtx) ix (Q : mtx -> Prop) :
  (forall j, In j ix -> j < nc m) ->
  Q (mk (nr m) (length ix) (fun i k => get m i (nth k ix 0))) ->
  post (select_cols m ix) Q E F.
Proof.
  intros. unfold select_cols. replace (forallb (fun j => j <? nc m) ix) with true; auto.
  symmetry. apply forallb_forall. intros. apply Nat.ltb_lt. auto.
Qed.
End Rules.

Lemma sumn_ext n (f g : nat -> N) : (forall i, i < n -> f i = g i) -> sumn n f = sumn n g.
Proof. intros h. induction n; simpl; [auto|]. rewrite IHn, h; auto. Qed.

End ArrP.

Create HintDb arr.
#[export] Hint Rewrite @nr_mk @nc_mk @length_vmk @length_vupd @nr_upd @nc_upd @nr_put @nc_put
  @nr_put_col @nc_put_col @nr_transpose @nc_transpose @nr_mmap @nc_mmap @length_vmap
  @length_vzeros @nr_mscale @nc_mscale : arr.
#[export] Hint Rewrite @get_mk @vget_vmk @get_upd @vget_vupd @get_put @get_put_col @get_transpose
  @get_mmap @vget_vmap @vget_vzeros @get_mscale using (autorewrite with arr; lia) : arrg.

(** Simplify dimensions / entries *)
Ltac dims := autorewrite with arr in *.
Ltac dlia := autorewrite with arr in *; lia.
Ltac ent := autorewrite with arr arrg.

(** One symbolic execution step *)
Ltac step1 :=
  lazymatch goal with
  | |- post (bind _ _) _ _ _ => apply post_bind
  | |- post (Ret _) _ _ _ => apply post_ret
  | |- post (unwrap _) _ _ _ => apply post_unwrap
  | |- post (usub _ _) _ _ _ => apply post_usub
  | |- post (at2 _ _ _) _ _ _ => apply post_at2
  | |- post (at1 _ _) _ _ _ => apply post_at1
  | |- post (atm2 _ _ _ _) _ _ _ => apply post_atm2
  | |- post (atm1 _ _ _) _ _ _ => apply post_atm1
  | |- post (idx1 _ _) _ _ _ => apply post_idx1
  | |- post (set1 _ _ _) _ _ _ => apply post_set1
  | |- post (set2 _ _ _ _) _ _ _ => apply post_set2
  | |- post (slice _ _ _ _ _) _ _ _ => apply post_slice
  | |- post (col_from _ _ _) _ _ _ => apply post_col_from
  | |- post (col_to _ _ _) _ _ _ => apply post_col_to
  | |- post (vfrom _ _) _ _ _ => apply post_vfrom
  | |- post (column _ _) _ _ _ => apply post_column
  | |- post (dot1 _ _) _ _ _ => apply post_dot1
  | |- post (dot2 _ _) _ _ _ => apply post_dot2
  | |- post (scaled_add _ _ _) _ _ _ => apply post_scaled_add
  | |- post (gemm1 _ _ _ _) _ _ _ => apply post_gemm1
  | |- post (gemv0 _ _ _ _) _ _ _ => apply post_gemv0
  | |- post (check_square _) _ _ _ => apply post_check_square
  end.
Ltac steps := repeat (step1; try (dlia)).
