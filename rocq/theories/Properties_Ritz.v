(** * Properties C47-C49: LOBPCG as a Rayleigh-Ritz iteration *)
From Coq Require Import Reals List Arith Lia Lra ZArith QArith.
From Verif Require Import Scalar Arr MBase MDirect MDecomp MEigh MSvd MLobpcg Inst Hoare Spec SpecL Ex RLin PTri PChol PSort PEighR PSvdR PLob PLobR PRitz PGen PMono
  Properties_Lobpcg.
Import ListNotations.
Local Open Scope R_scope.
Local Notation mr := (mat RN).

(** ** C47: the iterates of a run are those of the textbook method *)
(** [lob_start], [lob_step], [lob_chain] (SpecL.v, PRitz.v) describe the method; [annot] lists the iterates of the trace with
    the columns still active at each step ([step_cols]: those whose residual norm has exceeded the tolerance ever since) *)
Theorem C47_rayleigh_ritz fuel (x : mr) a m y tol maxiter order A r st :
  linear_op (nr x) A a -> symmetric (nr x) A -> total_op (nr x) m -> (1 <= nc x)%nat ->
  match y with None => True | Some y => nr y = nr x /\ injective (nr x) (nc y) (ent y) end ->
  lobpcg_trace fuel a x m y tol maxiter order = Ret (r, Some st) ->
  exists yc (x' : mr) h0 rest, cons_fac (nr x) y yc /\
    match yc with
    | None => x' = x
    | Some (y, l) => exists U, mmul (nc y) (ent l) U =[nc y, nc x]= mmul (nr x) (mtr (ent y)) (ent x) /\
        ent x' =[nr x, nc x]= msub (ent x) (mmul (nc y) (ent y) U)
    end /\
    l_hist st = h0 :: rest /\
    lob_start fuel (nr x) (nc x) A order (ent x') (vent (fst (fst h0))) (ent (snd (fst h0))) /\
    lob_chain (nr x) (nc x) A (prec_rel (nr x) m yc) (eig_rel fuel (nc x) order) None
      (vent (fst (fst h0)), ent (snd (fst h0))) (annot (nc x) tol [h0] rest).
Proof.
  intros ha hA hm hk hy e.
  assert (hc : cons_in (nr x) 0 mid y) by (destruct y; cbn; auto; tauto).
  pose proof (lobpcg_RR fuel x a m y tol maxiter order A ha hA hm hk hc) as h. rewrite e in h. exact h.
Qed.
Print Assumptions C47_rayleigh_ritz.

(** A run is only ever cut short by the fuel of a dense eigenproblem with at most three times the block size *)
Theorem C47_fuel fuel (x : mr) a m y tol maxiter order A :
  linear_op (nr x) A a -> symmetric (nr x) A -> total_op (nr x) m -> (1 <= nc x)%nat ->
  match y with None => True | Some y => nr y = nr x /\ injective (nr x) (nc y) (ent y) end ->
  lobpcg fuel a x m y tol maxiter order = OutOfFuel ->
  exists g : mr, nr g = nc g /\ (nc x <= nr g <= 3 * nc x)%nat /\ eigh fuel g = OutOfFuel.
Proof.
  intros ha hA hm hk hy e.
  assert (hc : cons_in (nr x) 0 mid y) by (destruct y; cbn; auto; tauto).
  pose proof (lobpcg_RR fuel x a m y tol maxiter order A ha hA hm hk hc) as h. unfold lobpcg in e.
  destruct (lobpcg_trace fuel a x m y tol maxiter order) as [[r o]| | | |]; try discriminate. cbn [post] in h.
  destruct h as (s & hs & hf). destruct (starved_eigh fuel (nc x) order s ltac:(lia) hf) as (g & g1 & g2 & eg).
  exists g. split; [lia|]. split; [lia|auto].
Qed.
Print Assumptions C47_fuel.

(** ** C48: what the dense solvers return *)
Theorem C48_generalized fuel (a b : mr) s va v : nr a = s -> nc a = s -> nr b = s -> nc b = s ->
  symmetric s (ent a) -> symmetric s (ent b) -> generalized_eig fuel a b = Ret (va, v) ->
  length va = s /\ nr v = s /\ nc v = s /\ injective s s (ent v) /\
  exists vb (qb a' qa : mr), pencil_runs fuel s (ent a) (ent b) b vb qb a' va qa /\
    frob s s (msub (mmul s (mtr (ent v)) (mmul s (ent a) (ent v))) (mdiag (vent va))) = pair_err s (ent a') (ent qa) (vent va) /\
    ((forall j, (j < s)%nat -> lit <= vent vb j) ->
     frob s s (msub (mmul s (mtr (ent v)) (mmul s (ent b) (ent v))) mid) <=
     / lit * pair_err s (ent b) (ent qb) (vent vb)).
Proof.
  intros h1 h2 h3 h4 sa sb e. pose proof (generalized_spec fuel a b s h1 h2 h3 h4 sa sb) as h. rewrite e in h. cbn [post] in h.
  destruct h as (v1 & v2 & v3 & vb & qb & at_ & qa & e1 & e2 & e3 & e4 & e5 & e6 & e7 & e8 & e9).
  split; auto. split; auto. split; auto. split.
  - (* V = Qb D Qa is a product of invertible matrices *)
    set (d := fun j => / sqrt (Rmax (vent vb j) lit)).
    assert (hd : forall j, d j <> 0).
    { intros j. unfold d. apply Rinv_neq_0_compat. apply Rgt_not_eq. apply sqrt_lt_R0. pose proof (Rmax_r (vent vb j) lit). pose proof lit_pos. lra. }
    intros z hz. set (Z := fun (i _ : nat) => z i).
    assert (e10 : mmul s (mmul s (scaled qb vb) (ent qa)) Z =[s, 1%nat]= (fun _ _ => 0)).
    { rewrite <- e9. intros i j hi hj. unfold mmul, Z. apply hz. auto. }
    rewrite (mmul_assoc s s s 1) in e10.
    assert (e11 : scaled qb vb =[s, s]= mmul s (ent qb) (mdiag d)).
    { intros i j hi hj. unfold mmul, mdiag. rewrite (Rsum_single s j) by (auto; intros; bd; ring). bd. reflexivity. }
    rewrite e11, (mmul_assoc s s s 1) in e10.
    assert (e12 : mmul s (mdiag d) (mmul s (ent qa) Z) =[s, 1%nat]= (fun _ _ => 0)).
    { destruct e3 as (o1 & _). rewrite <- (mmul_1_l s 1 (mmul s (mdiag d) (mmul s (ent qa) Z))), <- o1, mmul_assoc, e10.
      intros i j hi hj. unfold mmul. apply Rsum_0. intros. ring. }
    assert (e13 : mmul s (ent qa) Z =[s, 1%nat]= (fun _ _ => 0)).
    { intros i j hi hj. specialize (e12 i j hi hj). unfold mmul at 1, mdiag in e12.
      rewrite (Rsum_single s i) in e12 by (auto; intros; bd; ring). rewrite Nat.eqb_refl in e12.
      apply Rmult_integral in e12. destruct e12; auto. exfalso. apply (hd i). auto. }
    intros j hj. destruct e7 as (o1 & _). change (z j) with (Z j 0%nat).
    rewrite <- (mmul_1_l s 1 Z j 0%nat) by (auto; lia).
    rewrite <- (mmul_proper s s 1 _ _ o1 Z Z (meq_refl _ _ _) j 0%nat hj ltac:(lia)).
    rewrite (mmul_assoc s s s 1) by (auto; lia). unfold mmul at 1. apply Rsum_0. intros q hq. rewrite e13 by (auto; lia). ring.
  - exists vb, qb, at_, qa. split; [unfold pencil_runs; do 4 (split; [auto; reflexivity|]); auto|]. split.
    + apply (gen_err_a s (ent a) qb qa at_ vb (ent v)); auto.
    + apply (gen_err_b s (ent b) qb qa vb (ent v)); auto.
Qed.
Print Assumptions C48_generalized.

Lemma mdiag_one k : mdiag (fun _ => 1) =[k, k]= mid.
Proof. intros i j _ _. reflexivity. Qed.
Theorem C48_sorted fuel (a : mr) (b : option mr) size order s l v : nr a = s -> nc a = s ->
  match b with Some b => nr b = s /\ nc b = s /\ symmetric s (ent b) | None => True end ->
  symmetric s (ent a) -> (1 <= size <= s)%nat -> sorted_eig fuel a b size order = Ret (l, v) ->
  length l = size /\ nr v = s /\ nc v = size /\ (forall j, (j < size)%nat -> 0 <= ent v 0%nat j) /\
  exists va va' sg (a' qa : mr), sorted_by order s va va' sg /\
    (forall j, (j < size)%nat -> vent l j = vent va' j) /\
    frob size size (msub (mmul s (mtr (ent v)) (mmul s (ent a) (ent v))) (mdiag (vent l))) <= pair_err s (ent a') (ent qa) (vent va) /\
    match b with
    | None => a' = a /\ eigh fuel a = Ret (va, qa) /\ orthonormal_cols s size (ent v)
    | Some b => exists vb (qb : mr), pencil_runs fuel s (ent a) (ent b) b vb qb a' va qa /\
        ((forall j, (j < s)%nat -> lit <= vent vb j) ->
         frob size size (msub (mmul s (mtr (ent v)) (mmul s (ent b) (ent v))) mid) <=
         / lit * pair_err s (ent b) (ent qb) (vent vb))
    end.
Proof.
  intros h1 h2 hb sa hs e.
  set (G := fun (va : list RN) (q : mr) => exists (a' qa : mr),
    frob s s (msub (mmul s (mtr (ent q)) (mmul s (ent a) (ent q))) (mdiag (vent va))) = pair_err s (ent a') (ent qa) (vent va) /\
    match b with
    | None => a' = a /\ eigh fuel a = Ret (va, qa) /\ orthogonal s (ent q)
    | Some b => exists vb (qb : mr), pencil_runs fuel s (ent a) (ent b) b vb qb a' va qa /\
        ((forall j, (j < s)%nat -> lit <= vent vb j) ->
         frob s s (msub (mmul s (mtr (ent q)) (mmul s (ent b) (ent q))) (mdiag (fun _ => 1))) <=
         / lit * pair_err s (ent b) (ent qb) (vent vb))
    end).
  assert (hg : post (match b with Some b => generalized_eig fuel a b | None => eigh fuel a end)
    (fun '(v, q) => length v = s /\ nr q = s /\ nc q = s /\ G v q) noE True).
  { destruct b as [b|].
    - destruct hb as (b1 & b2 & b3). pose proof (generalized_spec fuel a b s h1 h2 b1 b2 sa b3) as hh.
      destruct (generalized_eig fuel a b) as [[va q]| | | |] eqn:eg; cbn [post] in *; auto.
      destruct hh as (g1 & g2 & g3 & _). split; auto. split; auto. split; auto.
      destruct (C48_generalized fuel a b s va q h1 h2 b1 b2 sa b3 eg) as (_ & _ & _ & _ & vb & qb & a' & qa & e1 & e3 & e4).
      exists a', qa. split; auto. exists vb, qb. split; auto.
    - pose proof (eigh_post fuel a ltac:(lia) ltac:(rewrite h1; auto)) as hh. rewrite h1 in hh.
      destruct (eigh fuel a) as [[va q]| | | |] eqn:eg; cbn [post] in *; auto. destruct hh as (g1 & g2 & g3 & g4 & g5).
      split; auto. split; auto. split; auto. exists a, q. auto. }
  pose proof (sorted_spec fuel a b size order s G h1 ltac:(lia) ltac:(lia) hg) as h. rewrite e in h. cbn [post] in h.
  destruct h as (l1 & v1 & v2 & va & q & va' & sg & sn & hG & q1 & q2 & q3 & hso & hl & hsn & ev & hpos).
  split; auto. split; auto. split; auto. split; auto.
  destruct hG as (a' & qa & e2 & e3). pose proof hso as (_ & hp & hvs & _).
  assert (hl' : forall j, (j < size)%nat -> vent l j = vent va (sg j)) by (intros j hj; rewrite hl by auto; apply hvs; lia).
  exists va, va', sg, a', qa. split; auto. split; auto. split.
  - rewrite <- e2. eapply Rle_trans; [|apply (sel_err s size sg sn (ent q) (ent a) (vent va) (vent l)); auto; lia].
    right. apply frob_ext. rewrite ev. reflexivity.
  - destruct b as [b|].
    + destruct e3 as (vb & qb & e4 & e5). exists vb, qb. split; auto. intros hlit. eapply Rle_trans; [|apply e5; auto].
      eapply Rle_trans; [|apply (sel_err s size sg sn (ent q) (ent b) (fun _ => 1) (fun _ => 1)); auto; lia].
      right. apply frob_ext. rewrite ev. reflexivity.
    + destruct e3 as (e3 & e3' & ho). split; auto. split; auto. unfold orthonormal_cols. rewrite ev. intros i j hi hj.
      assert (e6 : mmul s (mtr (csel sg sn (ent q))) (csel sg sn (ent q)) i j = sn i * sn j * mmul s (mtr (ent q)) (ent q) (sg i) (sg j)).
      { unfold mmul, mtr, csel. rewrite <- Rsum_scal_l. apply Rsum_ext. intros; ring. }
      rewrite e6. destruct ho as (o1 & _). destruct hp as (p1 & p2). rewrite o1 by (apply p1; lia). unfold mid.
      destruct (Nat.eqb_spec i j) as [->|ne].
      * rewrite Nat.eqb_refl. destruct (hsn j) as [->| ->]; ring.
      * destruct (Nat.eqb_spec (sg i) (sg j)) as [e7|]; [exfalso; apply ne; apply p2; auto; lia|ring].
Qed.
Print Assumptions C48_sorted.

(** Every iterate after the first is orthonormal, and its values are its Rayleigh quotients, up to the defects of the two
    calls to eigh that produced it *)
Theorem C48_iterate fuel n k A prec order prev idx lam X lam' X' P' : (1 <= k)%nat -> symmetric n A ->
  lob_step n k A prec (eig_rel fuel k order) prev idx lam X lam' X' P' ->
  exists s S V (b : mr) vb (qb a' : mr) va (qa : mr), (k <= s)%nat /\ S =[n, k]= X /\ X' =[n, k]= mmul s S V /\
    pencil_runs fuel s (mmul n (mtr S) (mmul n A S)) (mmul n (mtr S) S) b vb qb a' va qa /\
    frob k k (msub (mmul n (mtr X') (mmul n A X')) (mdiag lam')) <= pair_err s (ent a') (ent qa) (vent va) /\
    ((forall j, (j < s)%nat -> lit <= vent vb j) ->
     frob k k (msub (mmul n (mtr X') X') mid) <= / lit * pair_err s (ent b) (ent qb) (vent vb)).
Proof.
  intros hk hA h. unfold lob_step in h. cbv zeta in h.
  destruct h as (W & R & P & V & pc & _ & _ & _ & he & hx & _). set (s := (k + length idx + pc)%nat) in *. set (S := basis k (length idx) X R P) in *.
  destruct he as (g & b & v & l & g1 & g2 & b1 & b2 & g3 & b3 & es & -> & ->).
  assert (sg : symmetric s (ent g)). { unfold symmetric. rewrite g3. apply symmetric_conj. auto. }
  assert (sb : symmetric s (ent b)). { unfold symmetric. rewrite b3. rewrite (mtr_mmul s n s), mtr_mtr. reflexivity. }
  destruct (C48_sorted fuel g (Some b) k order s l v g1 g2 (conj b1 (conj b2 sb)) sg ltac:(unfold s; lia) es)
    as (_ & _ & _ & _ & va & va' & sg' & a' & qa & _ & _ & e2 & vb & qb & e3 & e4).
  exists s, S, (ent v), b, vb, qb, a', va, qa. split; [unfold s; lia|]. split.
  { intros i j hi hj. unfold S, basis, mcat. bd; try lia. reflexivity. }
  split; auto. split. { destruct e3 as (u1 & u2 & u3 & u4 & u5 & u6 & u7 & u8). unfold pencil_runs. do 6 (split; [auto|]). split; auto. rewrite u7, g3. reflexivity. }
  split.
  - eapply Rle_trans; [|exact e2]. right. apply frob_ext. rewrite hx, g3. rewrite (mtr_mmul n s k), !mmul_assoc. reflexivity.
  - intros hl. eapply Rle_trans; [|exact (e4 hl)]. right. apply frob_ext. rewrite hx, b3. rewrite (mtr_mmul n s k), !mmul_assoc. reflexivity.
Qed.
Print Assumptions C48_iterate.

(** ** C49: the estimates move monotonically towards the wanted end of the spectrum *)
Lemma thin_of fuel a (x : mr) m y tol maxiter order r st : lobpcg_trace fuel a x m y tol maxiter order = Ret (r, Some st) -> (nc x <= nr x)%nat.
Proof. unfold lobpcg_trace. destruct (Nat.ltb_spec (nr x) (nc x)); [discriminate|auto]. Qed.
Lemma trace_chain fuel (x : mr) a m y tol maxiter order A r st :
  linear_op (nr x) A a -> symmetric (nr x) A -> total_op (nr x) m -> (1 <= nc x)%nat ->
  match y with None => True | Some y => nr y = nr x /\ injective (nr x) (nc y) (ent y) end ->
  lobpcg_trace fuel a x m y tol maxiter order = Ret (r, Some st) ->
  exists prec cur rest, map (fun h => (vent (fst (fst h)), ent (snd (fst h)))) (l_hist st) = cur :: map snd rest /\
    ordered order (nc x) (fst cur) /\ lob_chain (nr x) (nc x) A prec (eig_rel fuel (nc x) order) None cur rest.
Proof.
  intros ha hA hm hk hy e. destruct (C47_rayleigh_ritz fuel x a m y tol maxiter order A r st ha hA hm hk hy e)
    as (yc & x' & h0 & rest & _ & _ & hh & hs & hc).
  eexists _, (vent (fst (fst h0)), ent (snd (fst h0))), (annot (nc x) tol [h0] rest). split; [|split; [|exact hc]].
  - rewrite hh, annot_snd. reflexivity.
  - cbn [fst]. eapply start_ordered; eauto.
Qed.

Theorem C49_monotone fuel (x : mr) a m y tol maxiter order A r st i lam (X : mr) rn lam' (X' : mr) rn' :
  linear_op (nr x) A a -> symmetric (nr x) A -> total_op (nr x) m -> (1 <= nc x)%nat ->
  match y with None => True | Some y => nr y = nr x /\ injective (nr x) (nc y) (ent y) end ->
  lobpcg_trace fuel a x m y tol maxiter order = Ret (r, Some st) ->
  nth_error (l_hist st) i = Some (lam, X, rn) -> nth_error (l_hist st) (S i) = Some (lam', X', rn') ->
  exists s B (b : mr) vb (qb a' : mr) va (qa : mr), (nc x <= s)%nat /\ B =[nr x, nc x]= ent X /\
    pencil_runs fuel s (mmul (nr x) (mtr B) (mmul (nr x) A B)) (mmul (nr x) (mtr B) B) b vb qb a' va qa /\
    let d := pair_err s (ent a') (ent qa) (vent va) in
    let e := / lit * pair_err s (ent b) (ent qb) (vent vb) in
    let d' := frob (nc x) (nc x) (msub (mmul (nr x) (mtr (ent X)) (mmul (nr x) A (ent X))) (mdiag (vent lam))) in
    let e' := frob (nc x) (nc x) (msub (mmul (nr x) (mtr (ent X)) (ent X)) mid) in
    ((forall j, (j < s)%nat -> lit <= vent vb j) -> e < 1 -> e' < 1 ->
     forall j, (j < nc x)%nat ->
       gains order (vent lam j) (vent lam' j) (d + (Rabs (vent lam j) * (e + e') + d' * (1 + e)) / (1 - e'))).
Proof.
  intros ha hA hm hk hy e h1 h2.
  destruct (trace_chain fuel x a m y tol maxiter order A r st ha hA hm hk hy e) as (prec & cur & rest & em & ho & hc).
  apply (map_nth_error (fun h => (vent (fst (fst h)), ent (snd (fst h))))) in h1, h2. rewrite em in h1, h2. cbn [fst snd] in h1, h2.
  set (Rel := fun c c' : (nat -> R) * M => exists s B (b : mr) vb (qb a' : mr) va (qa : mr), (nc x <= s)%nat /\ B =[nr x, nc x]= snd c /\
    pencil_runs fuel s (mmul (nr x) (mtr B) (mmul (nr x) A B)) (mmul (nr x) (mtr B) B) b vb qb a' va qa /\
    let d := pair_err s (ent a') (ent qa) (vent va) in let e := / lit * pair_err s (ent b) (ent qb) (vent vb) in
    let d' := frob (nc x) (nc x) (msub (mmul (nr x) (mtr (snd c)) (mmul (nr x) A (snd c))) (mdiag (fst c))) in
    let e' := frob (nc x) (nc x) (msub (mmul (nr x) (mtr (snd c)) (snd c)) mid) in
    ((forall j, (j < s)%nat -> lit <= vent vb j) -> e < 1 -> e' < 1 ->
     forall j, (j < nc x)%nat -> gains order (fst c j) (fst c' j) (d + (Rabs (fst c j) * (e + e') + d' * (1 + e)) / (1 - e')))).
  destruct (chain_step (nr x) (nc x) A prec (eig_rel fuel (nc x) order) (fun c => ordered order (nc x) (fst c)) Rel) with (rest := rest) (prev := None (A := M)) (cur := cur)
    as (_ & h3); auto.
  - intros prev idx c c' P' hi hs. exact (step_gains fuel (nr x) (nc x) A prec order prev idx (fst c) (snd c) (fst c') (snd c') P' hk hA hi hs).
  - exact (h3 i _ _ h1 h2).
Qed.
Print Assumptions C49_monotone.

(** The estimates never pass the eigenvalues of A *)
Theorem C49_bounded fuel (x : mr) a m y tol maxiter order A r st mu h :
  linear_op (nr x) A a -> symmetric (nr x) A -> total_op (nr x) m -> (1 <= nc x)%nat ->
  match y with None => True | Some y => nr y = nr x /\ injective (nr x) (nc y) (ent y) end ->
  lobpcg_trace fuel a x m y tol maxiter order = Ret (r, Some st) ->
  has_spectrum (nr x) A mu -> ordered order (nr x) mu -> In h (l_hist st) ->
  let lam := vent (fst (fst h)) in let X := ent (snd (fst h)) in
  let d' := frob (nc x) (nc x) (msub (mmul (nr x) (mtr X) (mmul (nr x) A X)) (mdiag lam)) in
  let e' := frob (nc x) (nc x) (msub (mmul (nr x) (mtr X) X) mid) in
  e' < 1 -> forall j, (j < nc x)%nat -> gains order (lam j) (mu j) ((Rabs (lam j) * e' + d') / (1 - e')).
Proof.
  intros ha hA hm hk hy e (W & (hW & hW') & hs) ho hin. cbv zeta. intros he' j hj.
  destruct (trace_chain fuel x a m y tol maxiter order A r st ha hA hm hk hy e) as (prec & cur & rest & em & hoc & hc).
  pose proof (thin_of _ _ _ _ _ _ _ _ _ _ e) as ht.
  apply (in_map (fun h => (vent (fst (fst h)), ent (snd (fst h))))) in hin. rewrite em in hin. 
  destruct (chain_step (nr x) (nc x) A prec (eig_rel fuel (nc x) order) (fun c => ordered order (nc x) (fst c)) (fun _ _ => True)) with (rest := rest) (prev := None (A := M)) (cur := cur)
    as (h3 & _); auto.
  { intros prev idx c c' P' hi hst. split; auto. exact (proj1 (step_gains fuel (nr x) (nc x) A prec order prev idx (fst c) (snd c) (fst c') (snd c') P' hk hA hi hst)). }
  specialize (h3 _ hin). cbn [fst] in h3.
  set (lam := vent (fst (fst h))) in *. set (X := ent (snd (fst h))) in *.
  set (d' := frob (nc x) (nc x) (msub (mmul (nr x) (mtr X) (mmul (nr x) A X)) (mdiag lam))). set (e' := frob (nc x) (nc x) (msub (mmul (nr x) (mtr X) X) mid)) in *.
  replace ((Rabs (lam j) * e' + d') / (1 - e')) with (0 + (Rabs (lam j) * (0 + e') + d' * (1 + 0)) / (1 - e')) by (field; lra).
  apply (ritz_gains order (nr x) (nr x) (nc x) A mid X X W (mtr W) mu lam j 0 0 d' e'); auto; try lra; try lia.
  - rewrite mmul_1_l. reflexivity.
  - right. apply frob_zero. intros p q hp hq. unfold msub.
    assert (e1 : mmul (nr x) (mtr W) (mmul (nr x) (mmul (nr x) (mtr mid) (mmul (nr x) A mid)) W) =[nr x, nr x]= mdiag mu).
    { assert (em' : mtr mid =[nr x, nr x]= mid) by (intros p' q' _ _; unfold mtr, mid; bd; auto; lia).
      rewrite em', mmul_1_l, mmul_1_r, hs, !mmul_assoc, hW, mmul_1_r, <- mmul_assoc, hW, mmul_1_l. reflexivity. }
    rewrite e1 by auto. ring.
  - right. apply frob_zero. intros p q hp hq. unfold msub.
    assert (e1 : mmul (nr x) (mtr W) (mmul (nr x) (mmul (nr x) (mtr mid) mid) W) =[nr x, nr x]= mid).
    { assert (em' : mtr mid =[nr x, nr x]= mid) by (intros p' q' _ _; unfold mtr, mid; bd; auto; lia).
      rewrite em', !mmul_1_l. exact hW. }
    rewrite e1 by auto. ring.
  - apply Rle_refl.
  - apply Rle_refl.
Qed.
Print Assumptions C49_bounded.

(** ** Concrete instances *)
(** An exact run over the reals with two iterates: A = [[0,1],[1,0]], start e1, one iteration *)
Definition swap2 : mr := rmat 2 [[0;1];[1;0]]%Z.
Definition e1 : mr := rmat 1 [[1];[0]]%Z.
Lemma swap2_sym : symmetric 2 (ent swap2).
Proof. intros i j hi hj. unfold mtr. destruct i as [|[|i]], j as [|[|j]]; try lia; reflexivity. Qed.
Lemma two_steps : exists r st h0 h1,
  lobpcg_trace 1 (fun v => dot2 swap2 v) e1 (fun v => Ret v) None (-1) 1 Largest = Ret (r, Some st) /\ l_hist st = [h0; h1].
Proof.
  assert (ha : linear_op 2 (ent swap2) (fun v => dot2 swap2 v)) by (apply dot2_linear; reflexivity).
  assert (hm : total_op 2 (fun v => Ret v)) by (intros v _; eauto).
  assert (hk : (1 <= 1)%nat) by lia.
  assert (h : post (lobpcg_trace 1 (fun v => dot2 swap2 v) e1 (fun v => Ret v) None (-1) 1 Largest)
    (fun '(r, ost) => exists st h0 h1, ost = Some st /\ l_hist st = [h0; h1]) noE False).
  { unfold lobpcg_trace. change (nr e1) with 2%nat. change (nc e1) with 1%nat. cbn [Nat.ltb Nat.leb].
    change (Nat.min (2 * 10) 1) with 1%nat. cbn [bind].
    apply post_catch. eapply post_conseq; [apply orthonormalize_R| | |tauto].
    2:{ intros e (_ & hn). exfalso. apply hn. intros z hz j hj. change (nc e1) with 1%nat in hj. assert (j = 0)%nat by lia. subst j.
        specialize (hz 0%nat ltac:(cbn; lia)). unfold ent, get in hz. cbn in hz. lra. }
    intros [x2 l2] (ho & _). cbn [fst snd] in ho. destruct ho as (o1 & o2 & o3 & o4 & o5 & o6 & o7 & o8).
    change (nr e1) with 2%nat in *. change (nc e1) with 1%nat in *.
    step1. destruct (ha x2 o1) as (ax & eax & ax1 & ax2 & ax3). rewrite eax. cbn [post]. rewrite o2 in *.
    step1. apply dot2t_R; [lia|]. intros xax f1 f2 f3. rewrite o1, o2, ax2 in *.
    apply post_catch. eapply post_conseq; [apply (sorted_post 1 1 Largest hk xax None 1); auto| |contradiction|intros hf; exact (small_fed 1 Largest 1 ltac:(lia) ltac:(lia) hf)].
    intros [lam eb] (l1 & l3 & l4 & es).
    assert (sx : symmetric 1 (ent xax)) by (intros i j hi hj; assert (i = 0)%nat by lia; assert (j = 0)%nat by lia; subst; reflexivity).
    destruct (C48_sorted 1 xax None 1 Largest 1 lam eb f1 f2 I sx ltac:(lia) es) as (_ & _ & _ & _ & va & va' & sg & a' & qa & _ & _ & _ & _ & _ & hob).
    step1. apply dot2_R; [lia|]. intros x3 k1 k2 k3. step1. apply dot2_R; [lia|]. intros ax3' k4 k5 k6.
    rewrite l4 in k2, k3, k5, k6. rewrite o1 in k1, k3. rewrite o2 in k3. rewrite ax1 in k4, k6. rewrite ax2 in k6. cbn [repeat]. set (st0 := LS _ _ _ _ _ _ _ _ _).
    assert (hb0 : blk 2 0 (ent swap2) mid 1 x2 ax) by (repeat split; auto; intros i j hi; lia).
    assert (hi : linv 2 1 0 (ent swap2) mid st0).
    { unfold linv, st0. cbn [l_mask l_hist l_lambda l_x l_ax l_best l_prev l_flag l_calls].
      split; auto. split; [|split; auto]. apply (blk_mul 2 0 (ent swap2) mid 1 1 x2 ax eb); auto; lia. }
    (* the first block is a nonzero multiple of e1 *)
    assert (z10 : ent x2 1%nat 0%nat = 0).
    { pose proof (o8 1%nat 0%nat ltac:(lia) ltac:(lia)) as h1. unfold mmul, mtr, ent, get in h1. cbn in h1.
      pose proof (o7 0%nat ltac:(lia)) as h2. unfold ent, get in h2. unfold ent, get. apply Rmult_eq_reg_r with (2 := Rgt_not_eq _ _ h2). lra. }
    assert (z1 : ent x3 1%nat 0%nat = 0) by (rewrite k3 by lia; unfold mmul; cbn [Rsum]; rewrite z10; ring).
    assert (zx : orthonormal_cols 2 1 (ent x3)).
    { unfold orthonormal_cols in *. rewrite k3, (mtr_mmul 2 1 1), mmul_assoc, <- (mmul_assoc 1 2 1 1 (mtr (ent x2))). rewrite o5, mmul_1_l. exact hob. }
    assert (z0 : ent x3 0%nat 0%nat <> 0).
    { pose proof (zx 0%nat 0%nat ltac:(lia) ltac:(lia)) as h1. unfold mmul, mtr, mid in h1. cbn in h1. rewrite z1 in h1. intros h2. rewrite h2 in h1. lra. }
    step1. eapply post_mono with (Q := fun '(st, e) => e = None /\ (exists h0 h1, l_hist st = [h0; h1]) /\ l_best st <> None).
    2:{ intros [st e] (-> & (h0 & h1 & hh) & hb). destruct (l_best st) as [[[v1 v2] v3]|] eqn:eb'; [|congruence].
        cbn [unwrap_opt bind post]. exists st, h0, h1. auto. }
    cbn [lob_loop]. step1.
    pose proof (measure_R 2 1 0 (ent swap2) mid hk st0 noE False hi) as p1. pose proof (measure_resid 2 1 (ent swap2) hk st0 noE False hi) as p2.
    destruct (lob_measure st0) as [[[[r rn] ld] st']| | | |]; cbn [post] in *; auto.
    destruct p1 as (i1 & i2 & i3 & i4 & i5 & i6 & i7 & i8 & i9 & i10). destruct p2 as (j1 & j2 & j3 & j4 & j5).
    set (mask := map _ _). set (st1 := LS _ _ _ mask _ _ _ _ _).
    assert (em : mask = [true]).
    { assert (eh : l_mask st' = [true]) by (rewrite i9; reflexivity).
      assert (hp : 0 <= vent rn 0%nat).
      { pose proof i1 as (_ & _ & _ & _ & hf). rewrite j5 in hf. unfold st0 in hf. cbn [l_hist app] in hf.
        inversion hf as [|? ? hx _]. cbn [fst snd] in hx. destruct hx as (_ & _ & _ & _ & _ & hx). rewrite hx by lia. apply frob_nonneg. }
      unfold mask. rewrite eh. destruct rn as [|r0 [|r1 rn]]; try discriminate. cbn [combine map]. unfold vent, vget in hp. cbn in hp.
      rewrite andb_true_r. f_equal. change (Rltb (-1) r0 = true). destruct (Rltb_spec (-1) r0); auto. exfalso. lra. }
    rewrite em. cbn [count_true filter length Nat.eqb].
    assert (i11 : linv 2 1 0 (ent swap2) mid st1).
    { pose proof i1 as (g1 & g2 & g3 & g4 & g5). unfold st1, linv. cbn [l_mask l_hist l_lambda l_x l_ax l_best l_prev l_flag l_calls].
      split; auto. split; auto. split; [rewrite em; reflexivity|auto]. }
    assert (er : ent r =[2, 1]= residual 2 1 (ent swap2) (ent (l_x st1)) (vent (l_lambda st1))).
    { unfold st1. cbn [l_x l_lambda]. rewrite i8, j3. exact j1. }
    assert (ef : l_flag st1 = true) by (unfold st1; cbn [l_flag]; rewrite j4; reflexivity).
    step1. pose proof (body_RR 1 2 1 (ent swap2) (fun v => dot2 swap2 v) (fun v => Ret v) None Largest ha swap2_sym hm hk eq_refl r ld rn st1 i11 ef i2 i3 er) as pb.
    assert (em1 : l_mask st1 = [true]) by exact em.
    assert (ep1 : l_prev st1 = None) by (unfold st1; cbn [l_prev]; rewrite i10; reflexivity).
    rewrite em1, ep1 in pb. change (count_true [true]) with 1%nat in pb.
    destruct (lob_body _ _ _ _ _ _ _ _ _ _ _) as [[st2 e]|e| | |]; cbn [post] in *; auto; try contradiction.
    2:{ destruct pb as (s & hs & hf). exact (small_fed 1 Largest s ltac:(lia) ltac:(lia) hf). }
    destruct pb as (q1 & q2 & q3 & q4 & q5). destruct e as [e|].
    { exfalso. destruct q5 as (_ & W & (act & z & _ & _ & w1 & w2 & w3) & hn). apply hn. clear hn.
      injection w2 as <-. change (length (active_idx [true])) with 1%nat in *.
      assert (ex : l_x st1 = x3) by (unfold st1; cbn [l_x]; rewrite i8; reflexivity). rewrite ex in *.
      assert (hw : W 1%nat 0%nat = ent x3 0%nat 0%nat).
      { rewrite w3, w1 by lia. unfold colsel. cbn [active_idx]. unfold residual, msub, mmul. cbn.
        change (ent swap2 1%nat 0%nat) with 1. change (ent swap2 1%nat 1%nat) with 0. rewrite z1. ring. }
      intros v hv j hj. assert (j = 0)%nat by lia. subst j. specialize (hv 1%nat ltac:(lia)). cbn [Rsum] in hv. unfold msub, mmul in hv. cbn [Rsum] in hv.
      rewrite hw, z1 in hv. apply Rmult_eq_reg_l with (ent x3 0%nat 0%nat); auto. lra. }
    cbn [lob_loop]. step1. pose proof (measure_R 2 1 0 (ent swap2) mid hk st2 noE False q1) as p3. pose proof (measure_resid 2 1 (ent swap2) hk st2 noE False q1) as p4.
    destruct (lob_measure st2) as [[[[r2 rn2] ld2] st2']| | | |]; cbn [post] in *; auto.
    destruct p3 as (_ & _ & _ & _ & _ & _ & m7 & _). destruct p4 as (_ & _ & _ & _ & n5). cbn [l_hist l_best].
    split; auto. split; auto. rewrite n5, q3. unfold st1. cbn [l_hist]. rewrite j5. unfold st0. cbn [l_hist app]. eauto. }
  destruct (lobpcg_trace _ _ _ _ _ _ _ _) as [[rr ost]|e| | |]; cbn [post] in h; try contradiction.
  destruct h as (st & h0 & h1 & -> & hh). exists rr, st, h0, h1. auto.
Qed.

(** The hypotheses of C47-C49 on a run with two iterates *)
Example C47_nonvacuous : linear_op 2 (ent swap2) (fun v => dot2 swap2 v) /\ symmetric 2 (ent swap2) /\
  total_op 2 (fun v : mr => Ret v) /\ (1 <= nc e1)%nat /\
  exists r st, lobpcg_trace 1 (fun v => dot2 swap2 v) e1 (fun v => Ret v) None (-1) 1 Largest = Ret (r, Some st) /\ length (l_hist st) = 2%nat.
Proof.
  split; [apply dot2_linear; reflexivity|]. split; [exact swap2_sym|]. split; [intros v _; eauto|]. split; [cbn; lia|].
  destruct two_steps as (r & st & h0 & h1 & e & hh). exists r, st. rewrite hh. auto.
Qed.
Example C49_nonvacuous : exists r st i lam (X : mr) rn lam' (X' : mr) rn',
  lobpcg_trace 1 (fun v => dot2 swap2 v) e1 (fun v => Ret v) None (-1) 1 Largest = Ret (r, Some st) /\
  nth_error (l_hist st) i = Some (lam, X, rn) /\ nth_error (l_hist st) (S i) = Some (lam', X', rn').
Proof.
  destruct two_steps as (r & st & [[l X] rn] & [[l' X'] rn'] & e & hh). exists r, st, 0%nat, l, X, rn, l', X', rn'. rewrite hh. auto.
Qed.
(** The spectrum of the matrix is 1, -1: a rotation by 45 degrees diagonalizes it *)
Example C49_spectrum : has_spectrum 2 (ent swap2) (fun j => match j with O => 1 | _ => -1 end) /\
  ordered Largest 2 (fun j => match j with O => 1 | _ => -1 end).
Proof.
  split.
  - pose (c := / sqrt 2). assert (hc : c * c = / 2).
    { unfold c. rewrite <- Rinv_mult. rewrite sqrt_sqrt by lra. reflexivity. }
    exists (fun i j => match i, j with 1%nat, 1%nat => - c | _, _ => c end). split; [split|];
    intros i j hi hj; destruct i as [|[|i]], j as [|[|j]]; try lia; unfold mmul, mtr, mid, mdiag; cbn; unfold ent, get; cbn; nra.
  - intros i j hij hj. destruct i as [|[|i]], j as [|[|j]]; try lia; cbn; lra.
Qed.
Lemma fed_sorted (a : mr) b size order s : nr a = s -> nc a = s -> match b with Some b => nr b = s /\ nc b = s | None => True end ->
  (1 <= size <= s)%nat -> (s <= 2)%nat -> exists l v, sorted_eig 1 a b size order = Ret (l, v).
Proof.
  intros h1 h2 hb hs h3. pose proof (sorted_post 1 size order ltac:(lia) a b s h1 h2 hb ltac:(lia)) as h.
  destruct (sorted_eig 1 a b size order) as [[l v]| | | |]; cbn [post] in h; try contradiction; eauto.
  exfalso. exact (small_fed size order s hs h3 h).
Qed.
Example C48_nonvacuous : let a := rmat 2 [[2;1];[1;3]]%Z in let b := rmat 2 [[1;0];[0;4]]%Z in
  symmetric 2 (ent a) /\ symmetric 2 (ent b) /\ (exists va v, generalized_eig 1 a b = Ret (va, v)) /\
  exists l v, sorted_eig 1 a (Some b) 1 Smallest = Ret (l, v).
Proof.
  cbv zeta. split; [|split; [|split]].
  1,2: intros i j hi hj; unfold mtr; destruct i as [|[|i]], j as [|[|j]]; try lia; reflexivity.
  - destruct (fed_sorted (rmat 2 [[2;1];[1;3]]%Z) (Some (rmat 2 [[1;0];[0;4]]%Z)) 1 Smallest 2) as (l & v & e); try (repeat split; lia).
    unfold sorted_eig in e. destruct (generalized_eig 1 _ _) as [[va w]| | | |]; try discriminate. eauto.
  - apply (fed_sorted _ _ 1 Smallest 2); try (repeat split; lia).
Qed.
(** In binary64: the pencil ([[2,1],[1,3]], diag(1,4)) has determinant 4 t^2 - 11 t + 5; the values computed are its roots
    0.5759..., 2.1740... to within 1e-4 *)
Example C48_run : match generalized_eig 20 (fmat 2 [[2;1];[1;3]]%Z) (fmat 2 [[1;0];[0;4]]%Z) with
  | Ret (va, _) => forallb (fun t => Qle_bool (Qabs.Qabs (4 * t * t - 11 * t + 5)%Q) (1#10000)) (map fq va) && (length va =? 2)%nat
  | _ => false end = true.
Proof. vm_compute. reflexivity. Qed.
(** The estimates of the run of C33 grow towards 3 *)
Fixpoint increasing (l : list Q) : bool := match l with a :: (b :: _) as t => Qle_bool a b && increasing t | _ => true end.
Example C49_run : match run_321 with
  | Ret (_, Some st) => let v := map (fun h => match fst (fst h) with [l] => fq l | _ => 0%Q end) (l_hist st) in
      (2 <? length v)%nat && increasing v && forallb (fun t => Qle_bool t (3000001#1000000)) v
  | _ => false end = true.
Proof. vm_compute. reflexivity. Qed.
