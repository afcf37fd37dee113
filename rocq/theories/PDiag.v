(** * Matrices with zeros below the diagonal: the reduction and the iteration have nothing to do *)
From Coq Require Import List Arith Lia Bool ZArith.
From Verif Require Import Scalar Arr MBase MDecomp MEigh Hoare PHouse.
Import ListNotations.
Open Scope res_scope.

(** What is used about zeros; in binary64 there are two of them *)
Record zeros_ok (N : Num) (Z : N -> Prop) : Prop := {
  z_0 : Z (n0 N);
  z_add x y : Z x -> Z y -> Z (nadd N x y);
  z_sub x : Z x -> Z (nsub N x (n0 N));
  z_mul x y : Z x -> Z y -> Z (nmul N x y);
  z_mul1 x : Z x -> Z (nmul N x (n1 N));
  z_two x : Z x -> Z (nmul N x ntwo);
  z_ntwo x : Z x -> Z (nmul N x (nopp N ntwo));
  z_abs x : Z x -> Z (nabs N x);
  z_sqrt x : Z x -> Z (nsqrt N x);
  z_sgn x y : Z x -> Z y -> Z (nmul N (nsignum N x) y);
  z_is x : Z x -> nis_zero N x = true;
  z_lt x a b : Z x -> nlt N (nmul N (nepsilon N) (nadd N (nabs N a) (nabs N b))) (nabs N x) = false;
  z_add0 x : Z x -> nadd N (n0 N) x = n0 N;
  z_add1 x : Z x -> nadd N (n1 N) x = n1 N;
  z_sgn0 : nmul N (n0 N) (nsignum N (n0 N)) = n0 N;
  z_sgn1 : nmul N (n1 N) (nsignum N (n0 N)) = n1 N }.

Section Diag.
Context {N : Num} {Z : N -> Prop} (hz : zeros_ok N Z).
Notation vec := (list N).
Notation mtx := (mat N).

Lemma sumn_zero n (f : nat -> N) : (forall i, i < n -> Z (f i)) -> Z (sumn n f).
Proof. induction n; intros h; cbn; [apply (z_0 _ _ hz)|]. apply (z_add _ _ hz); auto. Qed.

Lemma axis_zero (col : vec) : 0 < length col -> (forall k, k < length col -> Z (vget col k)) ->
  wp (reflection_axis_mut col) (fun '(c, o) => o = None /\ length c = length col /\ forall k, k < length col -> Z (vget c k)).
Proof.
  intros h1 h2. unfold reflection_axis_mut. step1. step1; auto. step1.
  destruct (Nat.ltb_spec 0 (length col)); [|lia]. step1.
  set (nsq := sumn _ _). assert (hs : Z nsq) by (apply sumn_zero; intros; apply (z_mul _ _ hz); auto).
  rewrite (z_is _ _ hz) by (apply (z_two _ _ hz), (z_add _ _ hz); auto; apply (z_mul _ _ hz); [apply (z_abs _ _ hz); auto|apply (z_sqrt _ _ hz); auto]).
  cbn [negb]. step1. split; auto. rewrite length_vupd. split; auto. intros k hk. rewrite vget_vupd by auto.
  destruct (k =? 0) eqn:e; auto. apply (z_add _ _ hz); auto. apply (z_sgn _ _ hz); auto. apply (z_sqrt _ _ hz); auto.
Qed.

Definition low0 (n : nat) (m : mtx) : Prop := forall i j, j < i -> i < n -> Z (get m i j).

Lemma tridiag_zero n (m0 m : mtx) : n = nr m0 -> n = nc m0 -> 1 <= n -> low0 n m0 ->
  wp (sym_tridiagonal m0) (fun d => nr (diag_matrix d) = n /\ nc (diag_matrix d) = n /\ length (off_diagonal d) = n - 1 /\
    (forall k, k < n - 1 -> vget (off_diagonal d) k = n0 N) /\ low0 n (diag_matrix d) /\
    forall i, i < n -> get (diag_matrix d) i i = get m0 i i).
Proof.
  intros e1 e2 h1 hl. unfold sym_tridiagonal. step1. step1; [intros _|lia]. rewrite <- e1. destruct (Nat.ltb_spec n 1); [lia|].
  step1. eapply (post_for' (fun _ '(s, off, p) => nr s = n /\ nc s = n /\ length off = n - 1 /\ length p = n - 1 /\
    (forall k, k < n - 1 -> vget off k = n0 N) /\ low0 n s /\ forall i, i < n -> get s i i = get m0 i i)).
  - rewrite length_vzeros. repeat split; auto. intros. apply vget_vzeros.
  - intros i [[s off] p] hi (a1 & a2 & a3 & a4 & a5 & a6 & a7). unfold tridiag_step.
    step1. step1; try lia. step1.
    eapply post_mono; [apply axis_zero|].
    { dlia. } { intros k hk. dims. rewrite vget_vmk by lia. apply a6; lia. }
    intros [c o] (-> & c1 & c2). dims. step1. step1; [lia|]. step1. dims. repeat split; auto.
    + intros k hk. rewrite vget_vupd by lia. destruct (k =? i); auto.
    + intros r q hq hr. rewrite get_put_col by lia. match goal with |- Z (if ?b then _ else _) => destruct b eqn:eb end; [|auto].
      apply c2. rewrite !andb_true_iff in eb. destruct eb as ((b1 & b2) & b3). apply Nat.leb_le in b1. apply Nat.ltb_lt in b2. rewrite c1 in b2. lia.
    + intros r hr. rewrite get_put_col by lia. match goal with |- (if ?b then _ else _) = _ => destruct b eqn:eb end; [|auto].
      rewrite !andb_true_iff in eb. destruct eb as ((b1 & b2) & b3). apply Nat.leb_le in b1. apply Nat.eqb_eq in b3. lia.
  - intros [[s off] p] (a1 & a2 & a3 & a4 & a5 & a6 & a7). step1. cbn [diag_matrix off_diagonal]. auto 10.
Qed.

Definition is01 (x : N) : Prop := x = n0 N \/ x = n1 N.
Lemma reflect_zero (ax : vec) (m : mtx) : length ax = nr m -> (forall k, k < length ax -> Z (vget ax k)) ->
  (forall i j, i < nr m -> j < nc m -> is01 (get m i j)) ->
  wp (reflect_cols (Refl ax (n0 N)) m) (fun x => nr x = nr m /\ nc x = nc m /\ forall i j, i < nr m -> j < nc m -> get x i j = get m i j).
Proof.
  intros h1 h2 h3. eapply post_mono; [apply reflect_cols_ok; auto|]. intros x (a1 & a2 & a3). repeat split; auto.
  intros i j hi hj. rewrite a3 by auto. cbn [axis bias].
  assert (hd : forall e w : N, is01 e -> Z w -> nadd N e w = e).
  { intros e w [-> | ->] hw; [apply (z_add0 _ _ hz)|apply (z_add1 _ _ hz)]; auto. }
  apply hd; auto. apply (z_mul _ _ hz); [|apply h2; lia]. apply (z_ntwo _ _ hz), (z_sub _ _ hz), sumn_zero. intros k hk.
  destruct (h3 k j) as [-> | ->]; try lia; [apply (z_mul _ _ hz); [apply h2; lia|apply (z_0 _ _ hz)]|apply (z_mul1 _ _ hz), h2; lia].
Qed.

Lemma generate_zero n (d : tridecomp N) : nr (diag_matrix d) = n -> nc (diag_matrix d) = n -> 1 <= n -> length (off_diagonal d) = n - 1 ->
  (forall k, k < n - 1 -> vget (off_diagonal d) k = n0 N) -> low0 n (diag_matrix d) ->
  wp (tri_generate_q d) (fun q => nr q = n /\ nc q = n /\ forall i j, i < n -> j < n -> get q i j = if i =? j then n1 N else n0 N).
Proof.
  intros e1 e2 h1 e3 ho hl. unfold tri_generate_q, assemble_q. rewrite e1, e2, Nat.eqb_refl, Nat.min_id. step1. step1; [lia|].
  eapply (post_for_rev (fun _ q => nr q = n /\ nc q = n /\ forall i j, i < n -> j < n -> get q i j = if i =? j then n1 N else n0 N)).
  - unfold eye. dims. repeat split; auto. intros. now rewrite get_mk.
  - intros i q hi (a1 & a2 & a3). step1. step1; [lia|lia|]. step1. step1; try lia. step1.
    eapply post_mono; [apply reflect_zero|].
    { dlia. } { intros k hk. dims. rewrite vget_vmk by lia. apply hl; lia. }
    { intros r c hr hc. dims. rewrite get_mk by lia. rewrite a3 by lia. destruct (_ =? _); [right|left]; reflexivity. }
    intros x (b1 & b2 & b3). dims. step1. step1; [lia|]. step1. dims. repeat split; auto. intros r c hr hc. rewrite get_put by lia.
    match goal with |- (if ?b then _ else _) = _ => destruct b eqn:eb end; [|auto].
    rewrite !andb_true_iff in eb. destruct eb as (((g1 & g2) & g3) & g4). apply Nat.leb_le in g1, g3. apply Nat.ltb_lt in g2, g4. dims.
    rewrite get_mscale by lia. rewrite b3, get_mk by lia. rewrite a3 by lia.
    replace (i + 1 + (r - (i + 1))) with r by lia. replace (i + (c - i)) with c by lia. rewrite ho by lia.
    destruct (r =? c); [apply (z_sgn1 _ _ hz)|apply (z_sgn0 _ _ hz)].
  - auto.
Qed.

Lemma delim_end_zero (dg off : vec) e : e < length dg -> length off = length dg - 1 -> (forall k, k < length off -> Z (vget off k)) ->
  delim_end dg off (nepsilon N) e = Ret 0.
Proof.
  induction e as [|e IH]; intros h1 h2 h3; [reflexivity|]. cbn [delim_end]. unfold at1.
  destruct (Nat.ltb_spec e (length off)); [|lia]. destruct (Nat.ltb_spec (S e) (length dg)); [|lia]. destruct (Nat.ltb_spec e (length dg)); [|lia].
  cbn [bind]. rewrite (z_lt _ _ hz) by auto. apply IH; auto; lia.
Qed.

(** zeros below the diagonal after the scaling: no iteration, the diagonal scaled down and up again, the identity *)
Lemma symeig_zero n fuel (a : mtx) v : nr a = n -> nc a = n -> 1 <= n -> low0 n (scale_down a (abs_max a)) ->
  wp (symmetric_eig fuel a v (nepsilon N)) (fun '(vals, q) => length vals = n /\
    (forall i, i < n -> vget vals i = nmul N (get (scale_down a (abs_max a)) i i) (abs_max a)) /\
    if v then exists w, q = Some w /\ nr w = n /\ nc w = n /\ forall i j, i < n -> j < n -> get w i j = if i =? j then n1 N else n0 N else q = None).
Proof.
  intros e1 e2 h1 hl. set (s := scale_down a (abs_max a)) in *.
  assert (s1 : nr s = n) by (unfold s, scale_down; destruct (negb _); cbn; auto).
  assert (s2 : nc s = n) by (unfold s, scale_down; destruct (negb _); cbn; auto).
  unfold symmetric_eig. step1. step1; [intros _|lia]. rewrite e1. destruct (Nat.ltb_spec n 1); [lia|]. fold s.
  step1. eapply post_mono; [apply (tridiag_zero n); auto|]. intros d (d1 & d2 & d3 & d4 & d5 & d6). step1.
  eapply (post_mono _ (fun q => if v then exists w, q = Some w /\ nr w = n /\ nc w = n /\ forall i j, i < n -> j < n -> get w i j = if i =? j then n1 N else n0 N else q = None)).
  { destruct v; [|reflexivity]. step1. eapply post_mono; [apply (generate_zero n); auto|]. intros w hw. step1. exists w. tauto. }
  intros q hq. unfold tri_into_diagonals. rewrite d1, d2, Nat.min_id. destruct (n =? 1) eqn:en.
  - step1. dims. repeat split; auto. intros i hi. rewrite vget_vmap by dlia. rewrite vget_vmk by lia. now rewrite d6.
  - apply Nat.eqb_neq in en. unfold delimit_subproblem. rewrite delim_end_zero.
    + cbn [bind Nat.eqb]. destruct fuel; cbn [eig_loop Nat.eqb bind es_diag es_q]; step1; dims; repeat split; auto;
        intros i hi; rewrite vget_vmap by dlia; rewrite vget_vmk by lia; now rewrite d6.
    + dlia.
    + dlia.
    + intros k hk. dims. rewrite vget_vmap by lia. rewrite d4 by lia. apply (z_abs _ _ hz), (z_0 _ _ hz).
Qed.
End Diag.
