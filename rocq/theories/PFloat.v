(** * Facts about the binary64 instance: which operations can produce a NaN *)
From Coq Require Import ZArith Bool Lia List.
From Coq.Floats Require Import SpecFloat.
From Verif Require Import Scalar Arr MBase MDirect MDecomp MEigh Inst Hoare PTrid PGivens PEigh.

Lemma shr_1_nonneg r : (0 <= shr_m r)%Z -> (0 <= shr_m (shr_1 r))%Z.
Proof. destruct r as [[|[p|p|]|p] a b]; simpl; lia. Qed.

Lemma iter_pos_inv {A} (P : A -> Prop) f : (forall x, P x -> P (f x)) -> forall n x, P x -> P (iter_pos f n x).
Proof. intros hf n. induction n; simpl; auto. Qed.

Lemma shr_fexp_nonneg p e m x l : (0 <= m)%Z -> (0 <= shr_m (fst (shr_fexp p e m x l)))%Z.
Proof.
  intros h. unfold shr_fexp, shr.
  assert (h0 : (0 <= shr_m (shr_record_of_loc m l))%Z) by (destruct l as [|[| |]]; simpl; auto).
  destruct (_ - _)%Z; cbn [fst]; auto. apply (iter_pos_inv (fun r => (0 <= shr_m r)%Z)); auto. apply shr_1_nonneg.
Qed.

Lemma round_nearest_even_nonneg m l : (0 <= m)%Z -> (0 <= round_nearest_even m l)%Z.
Proof. intros h. destruct l as [|[| |]]; simpl; try lia. destruct (Z.even m); lia. Qed.

(** Sign s and not a NaN *)
Definition signed (s : bool) (x : spec_float) : Prop :=
  match x with
  | S754_zero s' | S754_infinity s' | S754_finite s' _ _ => s' = s
  | S754_nan => False
  end.
(** Not a NaN, and zero or positive *)
Definition nonneg (x : spec_float) : Prop :=
  match x with
  | S754_zero _ => True
  | S754_infinity s | S754_finite s _ _ => s = false
  | S754_nan => False
  end.
Definition is_num (x : spec_float) : Prop := x <> S754_nan.
Definition is_fin (x : spec_float) : Prop :=
  match x with S754_zero _ | S754_finite _ _ _ => True | _ => False end.

Lemma signed_num s x : signed s x -> is_num x. Proof. destruct x; simpl; intros h; try discriminate; tauto. Qed.
Lemma signed_nonneg x : signed false x -> nonneg x. Proof. destruct x; simpl; auto. Qed.
Lemma nonneg_num x : nonneg x -> is_num x. Proof. destruct x; simpl; intros h; try discriminate; tauto. Qed.

Lemma binary_round_aux_signed p e s m x l : (0 <= m)%Z -> signed s (binary_round_aux p e s m x l).
Proof.
  intros h. unfold binary_round_aux.
  pose proof (shr_fexp_nonneg p e m x l h) as h1. destruct (shr_fexp p e m x l) as [r1 e1]. cbn [fst] in h1.
  pose proof (shr_fexp_nonneg p e _ e1 loc_Exact (round_nearest_even_nonneg _ (loc_of_shr_record r1) h1)) as h2.
  destruct (shr_fexp p e _ e1 loc_Exact) as [r2 e2]. cbn [fst] in h2.
  destruct (shr_m r2); [simpl; auto| |lia]. destruct (Z.leb _ _); simpl; auto.
Qed.

Lemma binary_round_signed p e s m x : signed s (binary_round p e s m x).
Proof.
  unfold binary_round. destruct (shl_align _ _ _). apply binary_round_aux_signed. lia.
Qed.

Lemma binary_normalize_num p e m x s : is_num (binary_normalize p e m x s).
Proof. destruct m; simpl; [discriminate| |]; eapply signed_num; apply binary_round_signed. Qed.

Lemma SFmul_self x : is_num x -> nonneg (SFmul prec emax x x).
Proof.
  destruct x as [s|s| |s m e]; intros h; try (exfalso; apply h; reflexivity); simpl; auto.
  - apply xorb_nilpotent.
  - apply signed_nonneg. rewrite xorb_nilpotent. apply binary_round_aux_signed. lia.
Qed.

Lemma SFadd_nonneg x y : nonneg x -> nonneg y -> nonneg (SFadd prec emax x y).
Proof.
  destruct x as [s|s| |s m e], y as [s'|s'| |s' m' e']; intros h h'; cbn [nonneg] in h, h'; try tauto; subst; auto.
  - simpl. destruct (Bool.eqb s s'); simpl; auto.
  - simpl. auto.
  - simpl. apply signed_nonneg, binary_round_signed.
Qed.

Lemma SFsub_fin x y : is_fin x -> is_fin y -> is_num (SFsub prec emax x y).
Proof.
  destruct x as [s|s| |s m e], y as [s'|s'| |s' m' e']; intros h h'; cbn [is_fin] in h, h'; try tauto;
  unfold SFsub; try discriminate.
  - destruct (Bool.eqb s (negb s')); discriminate.
  - apply binary_normalize_num.
Qed.

Lemma SFmul_half x : is_num x -> is_num (SFmul prec emax x (@nhalf FN)).
Proof.
  change (@nhalf FN) with (SFdiv prec emax (f_of_Z 1) (f_of_Z 2)).
  assert (e : SFdiv prec emax (f_of_Z 1) (f_of_Z 2) = S754_finite false 4503599627370496 (-53)) by (vm_compute; reflexivity).
  rewrite e. destruct x as [s|s| |s m ex]; intros h; try (exfalso; apply h; reflexivity); try discriminate.
  unfold SFmul. eapply signed_num. apply binary_round_aux_signed. lia.
Qed.

(** A passed deflation test means the two diagonal entries are finite and the off-diagonal is a number *)
Lemma above_finite d0 d1 o :
  nlt FN (nmul FN (nepsilon FN) (nadd FN (nabs FN d1) (nabs FN d0))) (nabs FN o) = true ->
  is_fin d0 /\ is_fin d1 /\ is_num o.
Proof.
  change (nlt FN) with SFltb. change (nmul FN) with (SFmul prec emax). change (nadd FN) with (SFadd prec emax).
  change (nabs FN) with SFabs.
  change (nepsilon FN) with (binary_round prec emax false 1 (-52)).
  assert (e : binary_round prec emax false 1 (-52) = S754_finite false 4503599627370496 (-104)) by (vm_compute; reflexivity).
  rewrite e. clear e. intros h.
  assert (hnum : is_num (SFabs o) /\ is_fin (SFadd prec emax (SFabs d1) (SFabs d0))).
  { assert (nn : nonneg (SFadd prec emax (SFabs d1) (SFabs d0)) \/ SFadd prec emax (SFabs d1) (SFabs d0) = S754_nan).
    { destruct d1, d0; simpl; auto. left. apply signed_nonneg, binary_round_signed. }
    destruct (SFadd prec emax (SFabs d1) (SFabs d0)) as [s|s| |s m x];
    destruct o as [so|so| |so mo eo]; simpl in nn; unfold SFltb, SFmul, SFcompare in h; simpl SFabs in *;
      try discriminate h; try (split; [discriminate|exact I]).
    - destruct nn as [->|nn]; discriminate.
    - destruct nn as [->|nn]; discriminate.
    - destruct nn as [->|nn]; discriminate.
    - destruct (binary_round_aux _ _ _ _ _ _); discriminate. }
  destruct hnum as (h1 & h2).
  assert (is_num o) by (destruct o; simpl in *; try discriminate; intros hh; apply h1; reflexivity).
  split; [|split; auto]; destruct d1, d0; simpl in h2; simpl; auto.
Qed.

Lemma eig2_total_float : @eig2_total FN (nepsilon FN).
Proof.
  intros d0 d1 o h. apply above_finite in h. destruct h as (h0 & h1 & ho).
  unfold compute_2x2_eigvals.
  assert (hn : nonneg (nadd FN (nmul FN o o) (nmul FN (nmul FN (nsub FN d0 d1) nhalf) (nmul FN (nsub FN d0 d1) nhalf)))).
  { apply SFadd_nonneg; apply SFmul_self; auto. apply SFmul_half. apply SFsub_fin; auto. }
  set (discr := nadd FN (nmul FN o o) _) in *. clearbody discr.
  assert (hl : nle FN (n0 FN) discr = true).
  { destruct discr as [s|s| |s m e]; simpl in hn; try tauto; subst; reflexivity. }
  rewrite hl. discriminate.
Qed.
