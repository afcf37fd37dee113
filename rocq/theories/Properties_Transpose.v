(** * Property C70: the SVD of the transposed matrix

    [FNh h] is the binary64 instance of the model with the libm function [hypot] replaced by [h]
    (SpecH.v); [FN] is the case of a correctly rounded one. *)
From Coq Require Import Reals List Arith Lia Lra Bool ZArith Permutation.
From Coq.Floats Require Import SpecFloat.
From Verif Require Import Scalar Arr MBase MDirect MDecomp MEigh MSvd Inst Hoare Spec SpecH Ex PTri PHouse PQR PGivens PTrid PBid PEigh PSvd PScale PSvdX.
Import ListNotations.

(** ** The largest magnitude does not depend on the order of the elements *)
Lemma fold_perm {A} (f : A -> A -> A) (D : A -> Prop) (hd : forall a x, D a -> D x -> D (f a x))
  (hc : forall a x y, D a -> D x -> D y -> f (f a x) y = f (f a y) x) (l l' : list A) :
  Permutation l l' -> (forall x, In x l -> D x) -> forall a, D a -> fold_left f l a = fold_left f l' a.
Proof.
  induction 1 as [|x l l' hp IH|x y l|l l' l'' h1 IH1 h2 IH2]; intros hl a ha; cbn [fold_left]; auto.
  - apply IH; [intros; apply hl; right; auto|]. apply hd; auto. apply hl. now left.
  - rewrite hc; auto; apply hl; [now left|right; now left] || idtac. all: apply hl; simpl; auto.
  - rewrite IH1 by auto. apply IH2; auto. intros x hx. apply hl. eapply Permutation_in; [symmetry; exact h1|exact hx].
Qed.
Lemma flat_cons {A B} (g : A -> B) (k : A -> list B) l : Permutation (flat_map (fun j => g j :: k j) l) (map g l ++ flat_map k l).
Proof.
  induction l as [|a l IH]; cbn; auto. apply perm_skip. rewrite IH. rewrite !app_assoc. apply Permutation_app_tail. apply Permutation_app_comm.
Qed.
Lemma flat_swap {A B C} (g : A -> B -> C) l1 l2 : Permutation (flat_map (fun i => map (g i) l2) l1) (flat_map (fun j => map (fun i => g i j) l1) l2).
Proof.
  induction l1 as [|a l1 IH]; cbn [flat_map map].
  - induction l2; cbn; auto.
  - rewrite (flat_cons (g a) (fun j => map (fun i => g i j) l1)). apply Permutation_app_head. exact IH.
Qed.
Lemma flat_ext {A B} (f g : A -> list B) l : (forall x, In x l -> f x = g x) -> flat_map f l = flat_map g l.
Proof. induction l as [|a l IH]; cbn; auto. intros h. rewrite h, IH; auto. Qed.
Lemma elems_mk {N : Num} r c (f : nat -> nat -> N) : elems (mk r c f) = flat_map (fun i => map (f i) (seq 0 c)) (seq 0 r).
Proof.
  unfold elems. rewrite nr_mk, nc_mk. apply flat_ext. intros i hi. apply in_seq in hi. apply map_ext_in. intros j hj. apply in_seq in hj. apply get_mk; lia.
Qed.
Lemma elems_swap {N : Num} r c (f : nat -> nat -> N) : Permutation (elems (mk r c f)) (elems (mk c r (fun i j => f j i))).
Proof. rewrite !elems_mk. apply flat_swap. Qed.

(** a NaN, minus infinity, or no sign bit *)
Definition dom (x : spec_float) : Prop := f_neg x = false \/ x = S754_infinity true.
Lemma fmax_dom a x : dom a -> dom x -> dom (f_max a x).
Proof. unfold f_max. destruct (f_is_nan a), (f_is_nan x), (SFltb a x); auto. Qed.
Lemma fmax_comm a x y : dom a -> dom x -> dom y -> f_max (f_max a x) y = f_max (f_max a y) x.
Proof.
  intros h1 h2 h3.
  destruct a as [[|]|[|]| |[|] m1 e1]; try (exfalso; destruct h1; discriminate);
    destruct x as [[|]|[|]| |[|] m2 e2]; try (exfalso; destruct h2; discriminate);
    destruct y as [[|]|[|]| |[|] m3 e3]; try (exfalso; destruct h3; discriminate); try reflexivity; clear.
  all: unfold f_max, SFltb; cbn [f_is_nan SFcompare].
  all: repeat match goal with |- context [Z.compare ?a ?b] => destruct (Z.compare_spec a b); cbn [f_is_nan SFcompare]; try lia end.
  all: try reflexivity; try lia.
  all: repeat match goal with |- context [Pos.compare_cont Eq ?a ?b] => change (Pos.compare_cont Eq a b) with (Pos.compare a b); destruct (Pos.compare_spec a b); cbn [f_is_nan SFcompare]; try lia end.
  all: repeat match goal with |- context [Z.compare ?a ?b] => destruct (Z.compare_spec a b); cbn [f_is_nan SFcompare]; try lia end.
  all: repeat match goal with |- context [Pos.compare_cont Eq ?a ?b] => change (Pos.compare_cont Eq a b) with (Pos.compare a b); destruct (Pos.compare_spec a b); cbn [f_is_nan SFcompare]; try lia end.
  all: subst; try reflexivity; try lia.
Qed.
Lemma abs_max_tr_F h r c (f : nat -> nat -> FNh h) : abs_max (N:=FNh h) (mk c r (fun i j => f j i)) = abs_max (N:=FNh h) (mk r c f).
Proof.
  unfold abs_max. symmetry. apply (fold_perm f_max dom fmax_dom fmax_comm).
  - apply Permutation_map, elems_swap.
  - intros x hx. apply in_map_iff in hx. destruct hx as (y & <- & _). left. destruct y as [[|]|[|]| |[|]]; reflexivity.
  - right. reflexivity.
Qed.
Lemma abs_max_tr_R r c (f : nat -> nat -> RN) : abs_max (mk c r (fun i j => f j i)) = abs_max (mk r c f).
Proof.
  unfold abs_max. symmetry. apply (fold_perm Rmax (fun _ => True)); auto.
  - intros a x y _ _ _. rewrite <- !Rmax_assoc. f_equal. apply Rmax_comm.
  - apply Permutation_map, elems_swap.
Qed.

(** ** The statement *)
Section Statement.
Context {N : Num}.

(** Column j of u against row j of vt', and column j of u' against row j of vt: equal, or both
    columns multiplied by minus zero (which is what the code does to the column of u when it turns a
    negative singular value into a positive one, src/svd.rs:213-221). *)
Definition swapped (r c n : nat) (u vt u' vt' : option (mat N)) : Prop := exists flip : nat -> bool,
  let z (j : nat) (x : N) := if flip j then nmul N x (nopp N (n0 N)) else x in
  match u, vt' with
  | Some u, Some vt' => nr u = r /\ nc u = n /\ nr vt' = n /\ nc vt' = r /\ forall i j, i < r -> j < n -> get u i j = z j (get vt' j i)
  | None, None => True
  | _, _ => False
  end /\
  match u', vt with
  | Some u', Some vt => nr u' = c /\ nc u' = n /\ nr vt = n /\ nc vt = c /\ forall i j, i < c -> j < n -> get u' i j = z j (get vt j i)
  | None, None => True
  | _, _ => False
  end.
(** Same outcome; when both return, the same singular values in the same order and interchanged vectors. *)
Definition transposed_run (r c n : nat) (m m' : res (option (mat N) * list N * option (mat N))) : Prop :=
  match m, m' with
  | Ret (u, s, vt), Ret (u', s', vt') => s = s' /\ length s = n /\ swapped r c n u vt u' vt'
  | Err e, Err e' => e = e'
  | Panicked, Panicked => True
  | OutOfBounds, OutOfBounds => True
  | OutOfFuel, OutOfFuel => True
  | _, _ => False
  end.

Lemma fix_signs_flip n r (d : list N) (u : option (mat N)) s u' : length d = n -> ush r n u -> svd_fix_signs n d u = Ret (s, u') ->
  length s = n /\ match u, u' with
  | Some u, Some u' => nr u' = r /\ nc u' = n /\ forall i j, i < r -> j < n -> get u' i j = if nis_neg N (vget d j) then nmul N (get u i j) (nopp N (n0 N)) else get u i j
  | None, None => True
  | _, _ => False
  end.
Proof.
  intros hd hu. unfold svd_fix_signs.
  enough (hw : wp (for_ n 0 (fun i (s : list N * option (mat N)) => let '(diag, u) := s in let* val := idx1 diag i in
    if nis_neg N val then
      let* diag := set1 diag i (nopp N val) in
      let* u := (match u with
                 | None => Ret None
                 | Some u => let* c := column u i in Ret (Some (put_col u 0 i (vmap (fun x => nmul N x (nopp N (n0 N))) c)))
                 end) in
      Ret (diag, u)
    else Ret (diag, u)) (d, u)) (fun x => length (fst x) = n /\ match u, snd x with
  | Some u, Some u' => nr u' = r /\ nc u' = n /\ forall i j, i < r -> j < n -> get u' i j = if nis_neg N (vget d j) then nmul N (get u i j) (nopp N (n0 N)) else get u i j
  | None, None => True
  | _, _ => False
  end)).
  { intros e. rewrite e in hw. exact hw. }
  eapply post_for' with (I := fun k (s : list N * option (mat N)) => (length (fst s) = n /\ forall j, k <= j -> j < n -> vget (fst s) j = vget d j) /\
    match u, snd s with
    | Some u, Some u' => nr u' = r /\ nc u' = n /\ forall i j, i < r -> j < n -> get u' i j = if (j <? k) && nis_neg N (vget d j) then nmul N (get u i j) (nopp N (n0 N)) else get u i j
    | None, None => True
    | _, _ => False
    end).
  - cbn [fst snd]. split; auto. destruct u as [u|]; auto. simpl in hu. destruct hu as (h1 & h2). split; auto.
  - intros k [d1 o1] hk. cbn [fst snd]. intros ((h1 & h1') & h2). steps. rewrite h1' by lia. destruct (nis_neg N (vget d k)) eqn:en.
    + destruct o1 as [u1|]; destruct u as [u|]; try tauto.
      * destruct h2 as (h2 & h3 & h4). steps; try lia. cbn [fst snd]. split; [split; [dims; auto|]|].
        { intros j hj hn. rewrite vget_vupd by lia. destruct (Nat.eqb_spec j k); [lia|]. apply h1'; lia. }
        dims. split; auto. split; auto. intros i j hi hj. rewrite get_put_col by lia. dims. rewrite h2, Nat.sub_0_r. change (0 <=? i) with true. destruct (Nat.ltb_spec i (0 + r)); [|lia]. cbn [andb].
        destruct (Nat.eqb_spec j k) as [->|ne].
        -- unfold vmap. rewrite vget_vmk by dlia. rewrite vget_vmk by dlia. destruct (Nat.ltb_spec k (S k)); [|lia]. rewrite en. cbn [andb]. rewrite h4 by lia. destruct (Nat.ltb_spec k k); [lia|]. cbn [andb]. reflexivity.
        -- rewrite h4 by lia. destruct (Nat.ltb_spec j k), (Nat.ltb_spec j (S k)); try lia; reflexivity.
      * steps. cbn [fst snd]. split; auto. split; [dims; auto|]. intros j hj hn. rewrite vget_vupd by lia. destruct (Nat.eqb_spec j k); [lia|]. apply h1'; lia.
    + apply post_ret. cbn [fst snd]. split; [split; auto; intros; apply h1'; lia|]. destruct o1 as [u1|]; destruct u as [u|]; try tauto.
      destruct h2 as (h2 & h3 & h4). split; auto. split; auto. intros i j hi hj. rewrite h4 by auto.
      destruct (Nat.eqb_spec j k) as [->|ne]; [rewrite en, !andb_false_r; reflexivity|]. destruct (Nat.ltb_spec j k), (Nat.ltb_spec j (S k)); try lia; reflexivity.
  - intros [d1 o1]. cbn [fst snd]. intros ((h1 & _) & h2). split; auto. destruct u as [u|], o1 as [u1|]; try tauto.
    destruct h2 as (h2 & h3 & h4). split; auto. split; auto. intros i j hi hj. rewrite h4 by auto. rewrite Nat.add_0_l. destruct (Nat.ltb_spec j n); [reflexivity|lia].
Qed.

Hypothesis opp2 : forall x : N, nopp N (nopp N x) = x.
Hypothesis amax : forall r c (f : nat -> nat -> N), abs_max (mk c r (fun i j => f j i)) = abs_max (mk r c f).

Lemma transpose_mk r c (f : nat -> nat -> N) : transpose (mk r c f) = mk c r (fun i j => f j i).
Proof. unfold transpose. rewrite nr_mk, nc_mk. apply mk_ext. intros i j hi hj. apply get_mk; auto. Qed.

Lemma svd_transposed_tall fuel r c (f : nat -> nat -> N) cu cv eps : c < r -> 1 <= c ->
  transposed_run r c c (svd_eps fuel (mk r c f) cu cv eps) (svd_eps fuel (mk c r (fun i j => f j i)) cv cu eps).
Proof.
  intros hrc hc. pose proof (svd_x opp2 fuel (mk r c f) cu cv eps (canon_mk r c f)) as hx. rewrite nr_mk, nc_mk in hx. specialize (hx hrc hc).
  rewrite transpose_mk in hx. specialize (hx (amax r c f)).
  destruct (svd_eps fuel (mk r c f) cu cv eps) as [[[u s] vt]|e| | |], (svd_eps fuel (mk c r (fun i j => f j i)) cv cu eps) as [[[u' s'] vt']|e'| | |]; simpl in hx |- *; try contradiction; auto.
  destruct hx as (-> & d & w & v & w1 & v1 & e1 & e2 & -> & -> & -> & -> & hu & hv & hd).
  destruct (fix_signs_flip c r d w s' w1 hd hu e1) as (hl & q1). destruct (fix_signs_flip c c d v s' v1 hd hv e2) as (_ & q2).
  split; auto. split; auto. exists (fun j => nis_neg N (vget d j)). cbn zeta. split.
  - destruct w as [w|], w1 as [w1|]; cbn [tr option_map]; auto. destruct q1 as (a1 & a2 & a3). destruct hu as (b1 & b2). rewrite nr_transpose, nc_transpose. do 4 (split; auto).
    intros i j hi hj. rewrite a3 by auto. rewrite get_transpose by lia. reflexivity.
  - destruct v as [v|], v1 as [v1|]; cbn [tr option_map]; auto. destruct q2 as (a1 & a2 & a3). destruct hv as (b1 & b2). rewrite nr_transpose, nc_transpose. do 4 (split; auto).
    intros i j hi hj. rewrite a3 by auto. rewrite get_transpose by lia. reflexivity.
Qed.
Lemma transposed_sym r c n m m' : transposed_run r c n m m' -> transposed_run c r n m' m.
Proof.
  destruct m as [[[u s] vt]|e| | |], m' as [[[u' s'] vt']|e'| | |]; simpl; auto. intros (-> & h1 & p & h2 & h3). split; auto. split; auto. exists p. auto.
Qed.
Lemma svd_transposed fuel r c (f : nat -> nat -> N) cu cv eps : r <> c -> 1 <= r -> 1 <= c ->
  transposed_run r c (Nat.min r c) (svd_eps fuel (mk r c f) cu cv eps) (svd_eps fuel (mk c r (fun i j => f j i)) cv cu eps).
Proof.
  intros hn h1 h2. destruct (Nat.lt_ge_cases c r).
  - rewrite Nat.min_r by lia. apply svd_transposed_tall; lia.
  - rewrite Nat.min_l by lia. apply transposed_sym. apply (svd_transposed_tall fuel c r (fun i j => f j i)); lia.
Qed.
End Statement.

(** C70.  For a matrix with different numbers of rows and columns [svd] gives, for the matrix and for its
    transpose (with the two requests interchanged), the same outcome and bit for bit the same singular
    values in the same order; the right singular vectors for the one are the left singular vectors for
    the other.  The entries may be anything: zeros of either sign, infinities, NaN. *)
Theorem C70_svd_transpose (h : spec_float -> spec_float -> spec_float) (fuel r c : nat) (f : nat -> nat -> FNh h) (cu cv : bool) :
  r <> c -> 1 <= r -> 1 <= c ->
  transposed_run (N:=FNh h) r c (Nat.min r c) (svd (N:=FNh h) fuel (mk r c f) cu cv) (svd (N:=FNh h) fuel (mk c r (fun i j => f j i)) cv cu).
Proof.
  intros h1 h2 h3. apply (svd_transposed (N:=FNh h)); auto.
  - intros [[|]|[|]| |[|]]; reflexivity.
  - intros r' c' g. apply abs_max_tr_F.
Qed.
Print Assumptions C70_svd_transpose.

(** C70 in exact arithmetic *)
Theorem C70_svd_transpose_exact (fuel r c : nat) (f : nat -> nat -> RN) (cu cv : bool) :
  r <> c -> 1 <= r -> 1 <= c ->
  transposed_run (N:=RN) r c (Nat.min r c) (svd (N:=RN) fuel (mk r c f) cu cv) (svd (N:=RN) fuel (mk c r (fun i j => f j i)) cv cu).
Proof.
  intros h1 h2 h3. apply (svd_transposed (N:=RN)); auto.
  - intros x. apply Ropp_involutive.
  - intros r' c' g. apply abs_max_tr_R.
Qed.
Print Assumptions C70_svd_transpose_exact.

(** A 2x3 matrix (with a zero and a negative entry) and its transpose: the two runs return, with the
    same two singular values, and column 0 of u for the one is row 0 of vt for the other. *)
Definition ex_f (i j : nat) : FN := f_of_Z (nth j (nth i [[1; -2; 3]; [0; 5; 7]]%Z []) 0%Z).
Definition feqb (x y : spec_float) : bool :=
  match x, y with
  | S754_zero s, S754_zero s' | S754_infinity s, S754_infinity s' => Bool.eqb s s'
  | S754_nan, S754_nan => true
  | S754_finite s m e, S754_finite s' m' e' => Bool.eqb s s' && Pos.eqb m m' && Z.eqb e e'
  | _, _ => false
  end.
Definition same_vals : bool :=
  match svd (N:=FN) 60 (mk 2 3 ex_f) true true, svd (N:=FN) 60 (mk 3 2 (fun i j => ex_f j i)) true true with
  | Ret (Some u, s, Some vt), Ret (Some u', s', Some vt') =>
      (length s =? 2) && forallb (fun j => feqb (vget s j) (vget s' j) && negb (feqb (vget s j) (n0 FN)) && feqb (get u' 0 j) (get vt j 0) && feqb (get u 0 j) (get vt' j 0)) [0; 1]
  | _, _ => false
  end.
Example C70_example : transposed_run (N:=FN) 2 3 2 (svd (N:=FN) 60 (mk 2 3 ex_f) true true) (svd (N:=FN) 60 (mk 3 2 (fun i j => ex_f j i)) true true) /\ same_vals = true.
Proof.
  split; [|vm_compute; reflexivity]. apply (C70_svd_transpose f_hypot 60 2 3 ex_f true true); lia.
Qed.

(** For square matrices the same claim is false in binary64: the code bidiagonalises both A and its
    transpose to an upper bidiagonal matrix, and the rounded singular values differ. *)
Definition sq (i j : nat) : FN := f_of_Z (nth j (nth i [[1; 2]; [3; 5]]%Z []) 0%Z).
Theorem C70_square_refuted : exists (f : nat -> nat -> FN) (s s' : list FN),
  svd (N:=FN) 60 (mk 2 2 f) false false = Ret (None, s, None) /\ svd (N:=FN) 60 (mk 2 2 (fun i j => f j i)) false false = Ret (None, s', None) /\
  forall x, In x s -> ~ In x s'.
Proof.
  exists sq, [S754_finite false 5771123459501142 (-55); S754_finite false 7028929374317980 (-50)]%Z, [S754_finite false 5771123459501164 (-55); S754_finite false 7028929374317982 (-50)]%Z.
  split; [vm_compute; reflexivity|]. split; [vm_compute; reflexivity|].
  intros x [<-|[<-|[]]] [e|[e|[]]]; discriminate e.
Qed.
Print Assumptions C70_square_refuted.
