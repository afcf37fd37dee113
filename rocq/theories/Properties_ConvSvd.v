(** * C51: the QR iteration of svd.rs terminates in exact arithmetic.
      C52: in binary64 it does not terminate on a NaN or an infinity *)
From Coq Require Import Reals List Arith ZArith Lia Lra Bool.
From Coq.Floats Require Import SpecFloat.
From Verif Require Import Scalar Arr MBase MDirect MDecomp MEigh MSvd Inst Hoare Spec RLin PTri PHouse PGivens PEigh PEighR PSvd PSvdR PConv PConvS PNan Ex Properties_Svd.
Import ListNotations.
Local Open Scope R_scope.

(** ** One sweep (src/svd.rs:58-156) on an unreduced block start..=e with at least three rows.  The Gram matrix of the block is
    tridiagonal with off-diagonal p j = d j * o j, and p'(e-1)^4 <= (p(e-1) p(e-2))^2 / 2, (p'(e-1)^2 p'(e-2))^2 <= (p(e-1)^2 p(e-2))^2 / 2 *)
Theorem C51_sweep r c n up start e (st st' : svd_state RN) U V : (start + 2 <= e < n)%nat ->
  length (sd st) = n -> length (so st) = (n - 1)%nat -> su st = Some U -> nr U = r -> nc U = n -> sv st = Some V -> nr V = n -> nc V = c ->
  (forall j, (start <= j <= e)%nat -> 0 < vent (sd st) j) -> (forall j, (start <= j < e)%nat -> vent (so st) j <> 0) ->
  ((0 < start)%nat -> vent (so st) (start - 1) = 0) -> vent (so st) e = 0 ->
  svd_big (N:=RN) up start e st = Ret st' ->
  let p := fun j => vent (sd st) j * vent (so st) j in let p' := fun j => vent (sd st') j * vent (so st') j in
  p' (e - 1)%nat ^ 4 <= (p (e - 1)%nat * p (e - 2)%nat) ^ 2 / 2 /\
  (p' (e - 1)%nat ^ 2 * p' (e - 2)%nat) ^ 2 <= (p (e - 1)%nat ^ 2 * p (e - 2)%nat) ^ 2 / 2.
Proof.
  intros. destruct (sweep_svd_conv r c n up start e st st' U V) as (h1 & h2); auto.
  unfold kk, to in h1, h2. fold (p (e - 1)%nat) (p (e - 2)%nat) (p' (e - 1)%nat) (p' (e - 2)%nat) in h1, h2.
  generalize dependent (p (e - 1)%nat). generalize dependent (p (e - 2)%nat). intros b a h1 h2. split.
  - replace (p' (e - 1)%nat ^ 4) with (p' (e - 1)%nat * p' (e - 1)%nat * (p' (e - 1)%nat * p' (e - 1)%nat)) by ring.
    replace ((a * b) ^ 2) with (a * a * (b * b)) by ring. exact h1.
  - replace ((p' (e - 1)%nat ^ 2 * p' (e - 2)%nat) ^ 2) with
      (p' (e - 1)%nat * p' (e - 1)%nat * (p' (e - 1)%nat * p' (e - 1)%nat) * (p' (e - 2)%nat * p' (e - 2)%nat)) by ring.
    replace ((a ^ 2 * b) ^ 2) with (a * a * (a * a) * (b * b)) by ring. exact h2.
Qed.
Print Assumptions C51_sweep.
Definition c51_st : svd_state RN := @SS RN [2; 3; 5] [1; 1] (Some (@eye RN 3)) (Some (@eye RN 3)).
Example C51_sweep_nonvacuous : let st := c51_st in
  (forall j, (0 <= j <= 2)%nat -> 0 < vent (sd st) j) /\ (forall j, (0 <= j < 2)%nat -> vent (so st) j <> 0) /\ vent (so st) 2 = 0 /\
  exists st', svd_big (N:=RN) true 0 2 st = Ret st'.
Proof.
  cbv zeta. split; [|split; [|split]].
  - intros j hj. destruct j as [|[|[|j]]]; [| | |lia]; cbn; lra.
  - intros j hj. destruct j as [|[|j]]; [| |lia]; cbn; lra.
  - reflexivity.
  - destruct (wp_ret _ _ (svd_big_safe (N:=RN) 3 3 3 true 0 2 c51_st
      ltac:(repeat split; dims; reflexivity) ltac:(lia) ltac:(lia))) as (r & hr & _). eauto.
Qed.

(** ** Termination on every nonempty matrix, singular or not, with an explicit bound on the number of iterations *)
Theorem C51_svd_terminates fuel (a : mat RN) fu fv (L : nat) : (1 <= nr a)%nat -> (1 <= nc a)%nat ->
  (nr a * nc a <= 2 ^ L)%nat -> (Nat.min (nr a) (nc a) * (8 * L + 1192) <= fuel)%nat ->
  exists u s vt, svd (N:=RN) fuel a fu fv = Ret (u, s, vt).
Proof. intros h1 h2 h3 h4. destruct (svd_conv fuel a fu fv L h1 h2 h3 h4) as ([[u s] vt] & e). eauto. Qed.
Print Assumptions C51_svd_terminates.

(** Total correctness: svd returns, and what it returns is a singular value decomposition up to the deflation tolerance *)
Theorem C51_total (a : mat RN) : (1 <= nr a)%nat -> (1 <= nc a)%nat ->
  exists bound, forall fuel, (bound <= fuel)%nat -> exists U s Vt, svd (N:=RN) fuel a true true = Ret (Some U, s, Some Vt) /\
    thin_svd (nr a) (nc a) (ent a) (ent U) (vent s) (ent Vt)
      (INR (Nat.min (nr a) (nc a) - 1) * (10 * / IZR (2 ^ 52) * frob (nr a) (nc a) (ent a))).
Proof.
  intros h1 h2. exists (Nat.min (nr a) (nc a) * (8 * (nr a * nc a) + 1192))%nat. intros fuel hf.
  destruct (C51_svd_terminates fuel a true true (nr a * nc a) h1 h2) as (u & s & vt & e); auto.
  { generalize (nr a * nc a)%nat. intros k. induction k as [|k IH]; [lia|]. pose proof (Nat.pow_nonzero 2 k). rewrite Nat.pow_succ_r'. lia. }
  destruct (C24_reproduces fuel a u s vt e) as (U & Vt & -> & -> & _ & _ & _ & _ & _ & h). eauto.
Qed.
Print Assumptions C51_total.

Definition c51_a : mat RN := rmat 3 [[1;2;3];[4;5;6];[7;8;9]]%Z.
Example C51_nonvacuous : (nr c51_a * nc c51_a <= 2 ^ 4)%nat /\ exists u s vt, svd (N:=RN) 3672 c51_a true true = Ret (u, s, vt).
Proof. split; [cbn; lia|]. apply (C51_svd_terminates _ _ _ _ 4); cbn; lia. Qed.
(** The same matrix in binary64: a handful of iterations *)
Example C51_run : (let* (p, vt) := svd 5 (fmat 3 [[1;2;3];[4;5;6];[7;8;9]]%Z) true true in Ret (length (snd p)))%res = Ret 3%nat.
Proof. vm_compute. reflexivity. Qed.

(** ** C52: NaN and infinity *)
Definition is_bad (x : FN) : Prop := match x with S754_nan | S754_infinity _ => True | _ => False end.
(** some entry of the first column (tall or square matrix) or of the first row (wide matrix) is NaN or infinite *)
Definition bad_lead (a : mat FN) : Prop :=
  ((nc a <= nr a)%nat -> exists k, (k < nr a)%nat /\ is_bad (get a k 0)) /\
  ((nr a < nc a)%nat -> exists k, (k < nc a)%nat /\ is_bad (get a 0 k)).

(** However long it runs, the model of svd has not returned: the iteration src/svd.rs:55-208 never ends *)
Theorem C52_hangs (a : mat FN) cu cv fuel : (3 <= Nat.min (nr a) (nc a))%nat -> bad_lead a -> svd (N:=FN) fuel a cu cv = OutOfFuel.
Proof.
  intros h (b1 & b2). unfold svd. apply svd_nan; auto. unfold first_bad.
  assert (hb : forall x, is_bad x -> nonfinite x).
  { intros x hx. unfold nonfinite. destruct x; cbn in hx; try contradiction; [right; eauto|left; auto]. }
  destruct (Nat.leb_spec (nc a) (nr a)) as [l|l]; [destruct (b1 l) as (k & hk & hx)|destruct (b2 l) as (k & hk & hx)]; eauto.
Qed.
Print Assumptions C52_hangs.

Definition fz (z : Z) : FN := nofQ FN z 1.
Definition c52_a : mat FN := Mat 3 3 [[S754_nan; fz 1; fz 0]; [fz 1; fz 2; fz 1]; [fz 0; fz 1; fz 3]].
Definition c52_b : mat FN := Mat 3 4 [[fz 1; fz 1; S754_infinity true; fz 0]; [fz 1; fz 2; fz 1; fz 1]; [fz 0; fz 1; fz 3; fz 5]].
Example C52_nonvacuous : bad_lead c52_a /\ bad_lead c52_b.
Proof.
  split; split; cbn [c52_a c52_b nr nc]; intros; try lia; [exists 0%nat|exists 2%nat]; (split; [lia|exact I]).
Qed.
(** The statement of C51 for binary64 is false *)
Theorem C52_terminates_refuted : exists (a : mat FN), (1 <= nr a)%nat /\ (1 <= nc a)%nat /\
  forall fuel cu cv x, svd (N:=FN) fuel a cu cv <> Ret x.
Proof.
  exists c52_a. split; [cbn; lia|]. split; [cbn; lia|]. intros fuel cu cv x.
  rewrite C52_hangs; [discriminate|cbn; lia|apply C52_nonvacuous].
Qed.
Print Assumptions C52_terminates_refuted.
Example C52_run : svd 200 c52_a true true = OutOfFuel /\ svd 200 c52_b false false = OutOfFuel.
Proof. split; vm_compute; reflexivity. Qed.
(** eigh, by contrast, returns on the same matrix: its deflation test is written the other way round *)
Example C52_eigh_returns : (let* (v, q) := eigh 10 c52_a in Ret (length v))%res = Ret 3%nat.
Proof. vm_compute. reflexivity. Qed.
