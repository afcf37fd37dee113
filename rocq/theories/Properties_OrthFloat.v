(** * Property C63: the eigenvector matrix computed in binary64 is orthogonal up to rounding

    [FNh h] is the binary64 instance of the model with the libm function [hypot] replaced by [h]
    (SpecH.v); [FN] is the case of a correctly rounded one. *)
From Coq Require Import Reals List Arith Lia Lra Bool ZArith QArith Qreals.
From Coq.Floats Require Import SpecFloat.
From Flocq Require Import Core BinarySingleNaN.
From Verif Require Import Scalar Arr MBase MDirect MDecomp MEigh Inst Hoare Spec SpecF SpecH Ex RLin PEighR PRound PTriF PHouseF PQRF PQRG PTrdF PApx PRotF PEigF PEigG PEigS
  Properties_Rounding Properties_QRFloat Properties_TridFloat Properties_EigFloat.
Import ListNotations.
Local Open Scope R_scope.

(** The q generated by the tridiagonalisation (C59), and at most n + 1 rotations per iteration *)
Definition q_eps (n : nat) : R := sqrt (INR n) * eps_qr n n.
Definition orth_eps (n fuel : nat) : R := q_eps n + 640 / 3 * (INR fuel + 1) * (INR n + 1) * uro.
(** finite numbers, within b of an orthogonal matrix *)
Definition orthogonal_near (n : nat) (q : mat FN) (b : R) : Prop :=
  (forall i j, (i < n)%nat -> (j < n)%nat -> ffin (get q i j)) /\
  exists W, orthogonal n W /\ frob n n (msub (frm q) W) <= b.

(** C63.  For every [hypot] that is accurate to one ulp: if eigh returns finite values and no [hypot]
    result is below 2^-1000 (see C62), the returned matrix is within orth_eps n fuel of an orthogonal
    matrix, and the returned values are the eigenvalues of a matrix close to A. *)
Theorem C63_eigh_orthogonal (h : spec_float -> spec_float -> spec_float) (n fuel : nat) (a : mat FN) (vals : list FN) (q : mat FN) :
  hyp_ulp h -> eig_input n fuel a -> eig_clean n a -> q_eps n <= / 2 ->
  eigh (N:=FNh (guarded h)) fuel a = Ret (vals, q) -> vfin vals ->
  eigh (N:=FNh h) fuel a = Ret (vals, q) /\ length vals = n /\ nr q = n /\ nc q = n /\
  orthogonal_near n q (orth_eps n fuel) /\
  spectrum_near n (frm a) (frv vals) (eig_eps n fuel * frob n n (frm a) + INR n * eta).
Proof.
  intros hu (h1 & h2 & h3 & h4 & h5 & h6 & h7) hcl hq hrun hfin.
  assert (er : 650 * (INR n * INR n) * gam (2 * n + 20) = rel_trd n) by (unfold rel_trd; ring).
  assert (eq0 : qgen_err n = q_eps n) by (unfold qgen_err, q_eps; rewrite eps_qr_eq; unfold qr_eps, qr_abs, qr_gam; rewrite <- U_gam; reflexivity).
  destruct (eigh_sim (guarded h) h (guarded_either h) (guarded_eps h) n fuel a vals q h1 h2 h3 hrun) as (hl & hs).
  destruct (symeig_f (guarded h) n fuel true a vals (Some q)) as ((V & hV & hb) & _ & k1 & k2 & hqn); auto.
  - apply guarded_good; auto.
  - lra.
  - lra.
  - intros _. lra.
  - apply eigh_core. exact hrun.
  - intros k hk. apply hfin. apply nth_In. exact (eq_ind_r (fun z => (k < z)%nat) hk hl).
  - split. { apply hs. intros x hx ex. specialize (hfin x hx). rewrite ex in hfin. discriminate hfin. }
    repeat (split; [assumption|]). split.
    + destruct hqn as (hf & W & hW & hbW). split; [intros i j hi hj; apply hf; auto|]. exists W. split; auto.
      unfold vec_err in hbW. rewrite eq0 in hbW. exact hbW.
    + exists V. split; auto. eapply Rle_trans; [exact hb|]. right. unfold eigf_eps, eig_eps. rewrite er. reflexivity.
Qed.
Print Assumptions C63_eigh_orthogonal.

(** Being close to an orthogonal matrix in terms of the columns themselves: Q^T Q is close to the
    identity, so the columns have norms close to 1 and are nearly orthogonal to each other. *)
Theorem C63_columns (n : nat) (q : mat FN) (b : R) : orthogonal_near n q b ->
  frob n n (msub (mmul n (mtr (frm q)) (frm q)) mid) <= 2 * b + b * b /\
  frob n n (msub (mmul n (frm q) (mtr (frm q))) mid) <= 2 * b + b * b.
Proof.
  intros (_ & W & hW & hb). set (E := msub (frm q) W) in *. pose proof (frob_nonneg n n E) as hE.
  assert (gen : forall Q W E, orthogonal n W -> Q =[n, n]= madd W E -> 0 <= frob n n E <= b -> frob n n (msub (mmul n (mtr Q) Q) mid) <= 2 * b + b * b).
  { clear. intros Q W E hW eq0 hE. destruct hE as (hE0 & hE).
    assert (et : mtr Q =[n, n]= madd (mtr W) (mtr E)) by (intros i j hi hj; unfold mtr; rewrite (eq0 j i hj hi); reflexivity).
    assert (ep : mmul n (mtr Q) Q =[n, n]= madd (madd mid (mmul n (mtr W) E)) (madd (mmul n (mtr E) W) (mmul n (mtr E) E))).
    { rewrite et, eq0. rewrite (mmul_add_l n n n). rewrite !(mmul_add_r n n n). destruct hW as (w1 & w2). rewrite w1. reflexivity. }
    rewrite (frob_ext n n _ (madd (mmul n (mtr W) E) (madd (mmul n (mtr E) W) (mmul n (mtr E) E)))).
    2:{ intros i j hi hj. unfold msub. rewrite (ep i j hi hj). unfold madd. ring. }
    eapply Rle_trans; [apply frob_triangle|].
    assert (p1 : frob n n (mmul n (mtr W) E) = frob n n E) by (unfold frob; f_equal; apply frob2_orth_l; rewrite mtr_mtr; apply hW).
    assert (p2 : frob n n (mmul n (mtr E) W) = frob n n E) by (unfold frob at 1; rewrite (frob2_orth_r n n W (mtr E)) by apply hW; apply (PTrdG.frob_tr n E)).
    assert (p3 : frob n n (mmul n (mtr E) E) <= b * b) by (eapply Rle_trans; [apply frob_mmul|]; rewrite PTrdG.frob_tr; apply Rmult_le_compat; auto).
    pose proof (frob_triangle n n (mmul n (mtr E) W) (mmul n (mtr E) E)). lra. }
  split.
  - apply (gen (frm q) W E); auto. intros i j hi hj. unfold E, madd, msub. ring.
  - apply (gen (mtr (frm q)) (mtr W) (mtr E)); [apply orth_tr; auto| |rewrite PTrdG.frob_tr; auto].
    intros i j hi hj. unfold E, madd, msub, mtr. ring.
Qed.
Print Assumptions C63_columns.

(** The same for the instance [FN]; the condition on the size holds for n up to 10000, and for n up to
    100 and 1000 iterations Q^T Q differs from the identity by less than 10^-7. *)
Theorem C63_binary64 (n fuel : nat) (a : mat FN) (vals : list FN) (q : mat FN) :
  eig_input n fuel a -> eig_clean n a -> q_eps n <= / 2 -> eigh (N:=FNh (guarded f_hypot)) fuel a = Ret (vals, q) -> vfin vals ->
  eigh fuel a = Ret (vals, q) /\ orthogonal_near n q (orth_eps n fuel) /\
  frob n n (msub (mmul n (mtr (frm q)) (frm q)) mid) <= 3 * orth_eps n fuel.
Proof.
  intros hin hcl hq hrun hfin. destruct (C63_eigh_orthogonal f_hypot n fuel a vals q f_hypot_ulp hin hcl hq hrun hfin) as (e & _ & _ & _ & ho & _).
  split; [exact e|]. split; auto. destruct (C63_columns n q _ ho) as (hb & _). eapply Rle_trans; [exact hb|].
  destruct hin as (_ & _ & _ & _ & _ & _ & h7).
  assert (h0 : 0 <= orth_eps n fuel).
  { destruct ho as (_ & W & _ & hw). eapply Rle_trans; [apply frob_nonneg|exact hw]. }
  assert (h1 : orth_eps n fuel <= 1) by (unfold orth_eps in *; lra). nra.
Qed.
Print Assumptions C63_binary64.

Theorem C63_constants (n fuel : nat) :
  (INR n <= 10000 -> q_eps n <= / 2) /\ (INR n <= 100 -> INR fuel <= 1000 -> 3 * orth_eps n fuel <= / 10000000).
Proof.
  pose proof (pos_INR n) as h0. pose proof (pos_INR fuel) as h0'. pose proof uro_pos as hu.
  assert (hv : uro * 9007199254740992 = 1) by (unfold uro; change (2 ^ 53)%Z with 9007199254740992%Z; lra).
  assert (hb : bpow radix2 (-506) <= uro * uro).
  { rewrite uro_bpow, <- bpow_plus. apply bpow_le. lia. }
  assert (gen : forall p s, 0 <= p -> INR n <= p -> 0 <= s -> p <= s * s -> 2 * (p * (10 * p + 70)) * uro <= 1 / 2 -> q_eps n <= s * (2 * (p * (10 * p + 70)) * uro + p * (uro * uro))).
  { intros p s hp hnp hs hps hsm. unfold q_eps.
    assert (hk : INR (n * (10 * n + 70)) <= p * (10 * p + 70)).
    { rewrite mult_INR, plus_INR, mult_INR. assert (e2 : INR 10 = 10) by (simpl; lra). assert (e20 : INR 70 = 70) by (simpl; lra). rewrite e2, e20. apply Rmult_le_compat; lra. }
    pose proof (pos_INR (n * (10 * n + 70))) as hk0.
    assert (hku : INR (n * (10 * n + 70)) * uro <= (p * (10 * p + 70)) * uro) by (apply Rmult_le_compat_r; lra).
    destruct (C54_constants n n) as (c1 & c2); [lra|].
    assert (hsq : sqrt (INR n) <= s). { rewrite <- (sqrt_square s) by auto. apply sqrt_le_1_alt. lra. }
    assert (INR n * bpow radix2 (-506) <= p * (uro * uro)) by (apply Rmult_le_compat; auto; apply bpow_ge_0).
    unfold eps_qr. apply Rmult_le_compat; [apply sqrt_pos|lra|auto|]. lra. }
  split.
  - intros h1. specialize (gen 10000 100 ltac:(lra) h1 ltac:(lra) ltac:(lra)).
    eapply Rle_trans; [apply gen; lra|]. assert (uro * uro <= uro) by (pose proof uro_small; nra). lra.
  - intros h1 h2. specialize (gen 100 10 ltac:(lra) h1 ltac:(lra) ltac:(lra) ltac:(lra)).
    assert (hp : (INR fuel + 1) * (INR n + 1) * uro <= (1000 + 1) * (100 + 1) * uro).
    { apply Rmult_le_compat_r; [lra|]. apply Rmult_le_compat; lra. }
    unfold orth_eps. assert (uro * uro <= uro) by (pose proof uro_small; nra). lra.
Qed.
Print Assumptions C63_constants.

(** ** Example: the 4x4 matrix of C59 and C62 *)
Definition eigh_checkb (h : spec_float -> spec_float -> spec_float) (fuel : nat) (a : mat FN) (f : list FN -> mat FN -> bool) : bool :=
  match eigh (N:=FNh h) fuel a with Ret (v, q) => f v q | _ => false end.
Lemma eigh_checkb_ok h fuel a f : eigh_checkb h fuel a f = true -> exists (v : list FN) (q : mat FN), eigh (N:=FNh h) fuel a = Ret (v, q) /\ f v q = true.
Proof. unfold eigh_checkb. destruct (eigh (N:=FNh h) fuel a) as [[v q]| | | |]; try discriminate. intros e. exists v, q. split; [reflexivity|exact e]. Qed.
Definition dotq (n : nat) (q : mat FN) (i j : nat) : Q := fold_right (fun l s => (fq (get q l i) * fq (get q l j) + s)%Q) 0%Q (seq 0 n).
Example C63_example : eig_input 4 100 trd_a /\ eig_clean 4 trd_a /\ q_eps 4 <= / 2 /\ exists vals q,
  eigh (N:=FNh (guarded f_hypot)) 100 trd_a = Ret (vals, q) /\ vfin vals /\
  (* the columns are not exactly orthogonal *)
  ~ (dotq 4 q 0 1 == 0)%Q /\ ~ (dotq 4 q 0 0 == 1)%Q /\
  frob 4 4 (msub (mmul 4 (mtr (frm q)) (frm q)) mid) <= / 10000000.
Proof.
  destruct trd_a_eig as (hi & hc). split; auto. split; auto. 
  assert (hq : q_eps 4 <= / 2) by (apply (proj1 (C63_constants 4 100)); simpl; lra). split; auto.
  destruct (eigh_checkb_ok (guarded f_hypot) 100 trd_a (fun v q => vfinb v && negb (Qeq_bool (dotq 4 q 0 1) 0) && negb (Qeq_bool (dotq 4 q 0 0) 1))) as (v & q & e & hv); [vm_compute; reflexivity|].
  apply andb_prop in hv as (hv & g2). apply andb_prop in hv as (hv & g1). exists v, q. split; auto. apply vfinb_ok in hv. split; auto.
  split; [apply Qeq_bool_neq; apply negb_true_iff; exact g1|]. split; [apply Qeq_bool_neq; apply negb_true_iff; exact g2|].
  eapply Rle_trans; [apply (C63_binary64 4 100 trd_a v q hi hc hq e hv)|]. apply (proj2 (C63_constants 4 100)); rewrite INR_IZR_INZ; apply IZR_le; lia.
Qed.
