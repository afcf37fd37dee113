(** * The Rayleigh-Ritz step of LOBPCG in exact arithmetic *)
From Coq Require Import Reals Lra List Arith Lia Bool ZArith.
From Verif Require Import Scalar Arr MBase MDirect MDecomp MEigh MLobpcg Inst Spec SpecL Hoare RLin PTri PChol PEigh PEighR PSort PNorm PLob PLobR.
Import ListNotations.
Local Open Scope R_scope.
Open Scope res_scope.

(** ** Blocks *)
Lemma gram_cat_l n k U U' V i j :
  mmul n (mtr (mcat k U U')) V i j = if (i <? k)%nat then mmul n (mtr U) V i j else mmul n (mtr U') V (i - k)%nat j.
Proof. unfold mmul, mtr, mcat. destruct (i <? k)%nat; reflexivity. Qed.
Lemma gram_cat_r n k U V V' i j :
  mmul n U (mcat k V V') i j = if (j <? k)%nat then mmul n U V i j else mmul n U V' i (j - k)%nat.
Proof. unfold mmul, mtr, mcat. destruct (j <? k)%nat; reflexivity. Qed.
Lemma mmul_cat_split n r k q X R V : mmul (k + q) (mcat k X R) V =[n, r]=
  madd (mmul k X V) (mmul q R (fun i j => V (k + i)%nat j)).
Proof.
  intros i j hi hj. unfold mmul, madd. rewrite Rsum_split. f_equal; apply Rsum_ext; intros l hl; unfold mcat.
  - destruct (Nat.ltb_spec l k); [reflexivity|lia].
  - destruct (Nat.ltb_spec (k + l) k); [lia|]. now replace (k + l - k)%nat with l by lia.
Qed.
Lemma mcat_proper n k q U U' V V' : U =[n, k]= U' -> V =[n, q]= V' -> mcat k U V =[n, k + q]= mcat k U' V'.
Proof. intros h1 h2 i j hi hj. unfold mcat. destruct (Nat.ltb_spec j k); [apply h1|apply h2]; auto; lia. Qed.

Lemma hcat_R (a b : mr) (Q : mr -> Prop) E F : nr a = nr b ->
  (forall c : mr, nr c = nr a -> nc c = (nc a + nc b)%nat -> ent c =[nr a, nc a + nc b]= mcat (nc a) (ent a) (ent b) -> Q c) ->
  post (hcat a b) Q E F.
Proof.
  intros h hq. unfold hcat. destruct (Nat.eqb_spec (nr a) (nr b)); [|lia]. cbn [post]. apply hq; auto.
  intros i j hi hj. unfold ent at 1. rewrite get_mk by auto. reflexivity.
Qed.
Lemma vcat_R (a b : mr) (Q : mr -> Prop) E F : nc a = nc b ->
  (forall c : mr, nr c = (nr a + nr b)%nat -> nc c = nc a ->
     (forall i j, (i < nr a + nr b)%nat -> (j < nc a)%nat -> ent c i j = if (i <? nr a)%nat then ent a i j else ent b (i - nr a)%nat j) -> Q c) ->
  post (vcat a b) Q E F.
Proof.
  intros h hq. unfold vcat. destruct (Nat.eqb_spec (nc a) (nc b)); [|lia]. cbn [post]. apply hq; auto.
  intros i j hi hj. unfold ent at 1. rewrite get_mk by auto. reflexivity.
Qed.
Lemma hcat3_R (a b c : mr) (Q : mr -> Prop) E F : nr a = nr b -> nr b = nr c ->
  (forall d : mr, nr d = nr a -> nc d = (nc a + nc b + nc c)%nat ->
     ent d =[nr a, nc a + nc b + nc c]= mcat (nc a + nc b) (mcat (nc a) (ent a) (ent b)) (ent c) -> Q d) -> post (hcat3 a b c) Q E F.
Proof.
  intros h1 h2 hq. unfold hcat3. step1. apply hcat_R; auto. intros d d1 d2 d3. apply hcat_R; [lia|]. intros e e1 e2 e3.
  apply hq; try lia. rewrite d1, d2 in e3. rewrite e3. apply mcat_proper; [|reflexivity]. exact d3.
Qed.
Lemma vcat3_R (a b c : mr) (Q : mr -> Prop) E F : nc a = nc b -> nc b = nc c ->
  (forall d : mr, nr d = (nr a + nr b + nr c)%nat -> nc d = nc a ->
     (forall i j, (i < nr a + nr b + nr c)%nat -> (j < nc a)%nat -> ent d i j =
        if (i <? nr a + nr b)%nat then (if (i <? nr a)%nat then ent a i j else ent b (i - nr a)%nat j) else ent c (i - (nr a + nr b))%nat j) -> Q d) ->
  post (vcat3 a b c) Q E F.
Proof.
  intros h1 h2 hq. unfold vcat3. step1. apply vcat_R; auto. intros d d1 d2 d3. apply vcat_R; [lia|]. intros e e1 e2 e3.
  apply hq; try lia. intros i j hi hj. rewrite e3 by lia. rewrite d1.
  destruct (Nat.ltb_spec i (nr a + nr b)); [|reflexivity]. apply d3; lia.
Qed.
Lemma symmetrize_R (a : mr) G (Q : mr -> Prop) E F : nr a = nc a -> ent a =[nr a, nr a]= G -> symmetric (nr a) G ->
  (forall d : mr, nr d = nr a -> nc d = nc a -> ent d =[nr a, nr a]= G -> Q d) -> post (symmetrize a) Q E F.
Proof.
  intros h hG hs hq. unfold symmetrize. step1. unfold mzip. dims. bd. cbn [post]. apply hq; [dims; reflexivity|dims; reflexivity|].
  intros i j hi hj. unfold ent. rewrite get_mmap by (dims; lia). rewrite get_mk by (dims; lia). rewrite get_transpose by lia. rn.
  change (@get RN a i j) with (ent a i j). change (@get RN a j i) with (ent a j i). rewrite !hG by lia.
  rewrite (hs i j) by lia. unfold mtr. rewrite ntwo_R. lra.
Qed.

(** Entries of a slice of rows *)
Lemma slice_ent (m : mr) r0 r1 (Q : mr -> Prop) E F : (r0 <= r1)%nat -> (r1 <= nr m)%nat ->
  (forall s : mr, nr s = (r1 - r0)%nat -> nc s = nc m -> ent s =[r1 - r0, nc m]= (fun i j => ent m (r0 + i)%nat j) -> Q s) ->
  post (slice m r0 r1 0 (nc m)) Q E F.
Proof.
  intros h1 h2 hq. apply post_slice; try lia. apply hq; dims; try lia.
  intros i j hi hj. unfold ent. rewrite get_mk by lia. f_equal; lia.
Qed.

(** ** Active columns *)
Lemma mask_from (mask : list bool) : forall s,
  map fst (filter snd (combine (seq s (length mask)) mask)) = filter (fun j => nth (j - s) mask false) (seq s (length mask)).
Proof.
  induction mask as [|b mask IH]; intros s; [reflexivity|]. cbn [length seq combine filter].
  rewrite Nat.sub_diag. cbn [snd nth]. destruct b; cbn [map fst]; [f_equal|]; rewrite IH; apply filter_ext_in;
    intros j hj; apply in_seq in hj; replace (j - s)%nat with (S (j - S s)) by lia; reflexivity.
Qed.
Lemma mask_indices_active mask : mask_indices mask = active_idx mask.
Proof.
  unfold mask_indices, enumerate, active_idx. rewrite mask_from. apply filter_ext. intros j. now rewrite Nat.sub_0_r.
Qed.
Lemma active_count mask : length (active_idx mask) = count_true mask.
Proof. rewrite <- mask_indices_active. apply mask_indices_length. Qed.

(** ** The Gram matrices *)
Section Ritz.
Context (fuel n k : nat) (A : M) (a m : mr -> res mr) (yc : option (mr * mr)) (order : Order).
Context (ha : linear_op n A a) (hA : symmetric n A) (hm : total_op n m) (hk : (1 <= k)%nat) (hc : cons_ok n 0 mid yc).
Notation blk := (blk n 0 A mid).

Lemma gram_swap r s U V AU AV i j : AU =[n, r]= mmul n A U -> AV =[n, s]= mmul n A V -> (i < r)%nat -> (j < s)%nat ->
  mmul n (mtr U) AV i j = mmul n (mtr V) AU j i.
Proof.
  intros h1 h2 hi hj. unfold mmul, mtr.
  rewrite (Rsum_ext n _ (fun l => Rsum n (fun p => U l i * A l p * V p j))).
  2:{ intros l hl. rewrite h2 by auto. unfold mmul. rewrite <- Rsum_scal_l. apply Rsum_ext. intros. ring. }
  rewrite (Rsum_ext n (fun l => V l j * AU l i) (fun l => Rsum n (fun p => U p i * A p l * V l j))).
  2:{ intros l hl. rewrite h1 by auto. unfold mmul. rewrite <- Rsum_scal_l. apply Rsum_ext. intros p hp.
      rewrite (hA l p) by auto. unfold mtr. ring. }
  apply Rsum_swap.
Qed.
Lemma gram_tr U V i j : mmul n (mtr U) V i j = mmul n (mtr V) U j i.
Proof. apply Rsum_ext. intros. unfold mtr. ring. Qed.

Definition gram_ok (q : nat) (x ax r ar xax xar rar xx rr xr : mr) : Prop :=
  (nr xax = k /\ nc xax = k /\ ent xax =[k, k]= mmul n (mtr (ent x)) (ent ax)) /\
  (nr xar = k /\ nc xar = q /\ ent xar =[k, q]= mmul n (mtr (ent x)) (ent ar)) /\
  (nr rar = q /\ nc rar = q /\ ent rar =[q, q]= mmul n (mtr (ent r)) (ent ar)) /\
  (nr xx = k /\ nc xx = k /\ ent xx =[k, k]= mmul n (mtr (ent x)) (ent x)) /\
  (nr rr = q /\ nc rr = q /\ ent rr =[q, q]= mmul n (mtr (ent r)) (ent r)) /\
  (nr xr = k /\ nc xr = q /\ ent xr =[k, q]= mmul n (mtr (ent x)) (ent r)).

Lemma grams_RR (x ax r ar rar ld : mr) q E F : blk k x ax -> blk q r ar ->
  nr rar = q -> nc rar = q -> ent rar =[q, q]= mmul n (mtr (ent r)) (ent ar) ->
  forall xar : mr, nr xar = k -> nc xar = q -> ent xar =[k, q]= mmul n (mtr (ent x)) (ent ar) ->
  post (lob_grams true x ax r rar ld q) (fun '(rar, xax, xx, rr, xr) => gram_ok q x ax r ar xax xar rar xx rr xr) E F.
Proof.
  intros (x1 & x2 & x3 & x4 & x5 & _) (r1 & r2 & r3 & r4 & r5 & _) h1 h2 h3 xar h4 h5 h6. unfold lob_grams.
  assert (sr : symmetric q (mmul n (mtr (ent r)) (ent ar))).
  { intros i j hi hj. unfold mtr at 2. apply (gram_swap q q); auto. }
  assert (sx : symmetric k (mmul n (mtr (ent x)) (ent ax))).
  { intros i j hi hj. unfold mtr at 2. apply (gram_swap k k); auto. }
  step1. apply (symmetrize_R rar (mmul n (mtr (ent r)) (ent ar))); [lia|rewrite h1; auto|rewrite h1; auto|]. rewrite h1. intros rar' a1 a2 a3.
  step1. apply dot2t_R; [lia|]. intros xax b1 b2 b3. rewrite x1, x2, x4 in b3.
  step1. apply (symmetrize_R xax (mmul n (mtr (ent x)) (ent ax))); rewrite ?b1, ?x2; [lia|auto|auto|]. intros xax' c1 c2 c3.
  step1. apply dot2t_R; [lia|]. intros xx d1 d2 d3. step1. apply dot2t_R; [lia|]. intros rr e1 e2 e3.
  step1. apply dot2t_R; [lia|]. intros xr f1 f2 f3. apply post_ret. rewrite x1, x2 in d3. rewrite r1, r2 in e3. rewrite x1, x2, r2 in f3.
  unfold gram_ok. repeat split; auto; lia.
Qed.

(** What the Rayleigh-Ritz procedure of one iteration is applied to, and its outcome *)
Definition ritz (q pc : nat) (X R P : M) (l : list RN) (v : mr) : Prop :=
  let s := (k + q + pc)%nat in let S := basis k q X R P in
  nr v = s /\ nc v = k /\ length l = k /\
  exists g b : mr, nr g = s /\ nc g = s /\ nr b = s /\ nc b = s /\
    ent g =[s, s]= mmul n (mtr S) (mmul n A S) /\ ent b =[s, s]= mmul n (mtr S) S /\
    sorted_eig fuel g (Some b) k order = Ret (l, v).

Lemma tr_ent (b : mr) r c i j : nr b = r -> nc b = c -> (i < c)%nat -> (j < r)%nat -> ent (transpose b) i j = ent b j i.
Proof. intros <- <- hi hj. rewrite ent_transpose by auto. reflexivity. Qed.

(** Running out of fuel: only inside a dense eigenproblem of size s *)
Definition starved (s : nat) : Prop := exists (g : mr) b, nr g = s /\ nc g = s /\
  match b with Some b => nr b = s /\ nc b = s | None => True end /\ sorted_eig fuel g b k order = OutOfFuel.
Lemma sorted_post (g : mr) b s : nr g = s -> nc g = s -> match b with Some b => nr b = s /\ nc b = s | None => True end ->
  (1 <= k <= s)%nat ->
  post (sorted_eig fuel g b k order) (fun '(l, v) => length l = k /\ nr v = s /\ nc v = k /\ sorted_eig fuel g b k order = Ret (l, v)) noE (starved s).
Proof.
  intros h1 h2 h3 h4.
  assert (h : post (sorted_eig fuel g b k order) (fun '(l, v) => length l = k /\ nr v = s /\ nc v = k) noE True).
  { apply sorted_eig_R; try lia; auto; destruct b; auto; lia. }
  destruct (sorted_eig fuel g b k order) as [[l v]| | | |] eqn:e; cbn [post] in *; auto; [tauto|]. exists g, b. auto.
Qed.

Lemma rr_RR (p_ap : option (mr * mr)) (x ax r ar xax xar rar xx rr xr : mr) q :
  blk k x ax -> blk q r ar -> gram_ok q x ax r ar xax xar rar xx rr xr ->
  match p_ap with None => True | Some (p, ap) => blk q p ap end ->
  post (lob_rr fuel true p_ap x r xax xar rar xx rr xr q k order) (fun '(p', res) => p' = p_ap /\
    match res with
    | inl _ => False
    | inr (l, v) => match p_ap with
        | Some (p, _) => ritz q q (ent x) (ent r) (ent p) l v
        | None => forall P, ritz q 0 (ent x) (ent r) P l v
        end
    end) noE (starved (k + q + match p_ap with Some _ => q | None => 0 end)).
Proof.
  intros (x1 & x2 & x3 & x4 & x5 & _) (r1 & r2 & r3 & r4 & r5 & _)
    ((a1 & a2 & a3) & (b1 & b2 & b3) & (c1 & c2 & c3) & (d1 & d2 & d3) & (e1 & e2 & e3) & (f1 & f2 & f3)) hp.
  assert (AS : forall U V AU AV u v, AU =[n, u]= mmul n A U -> AV =[n, v]= mmul n A V ->
    mmul n A (mcat u U V) =[n, u + v]= mcat u AU AV).
  { intros U V AU AV u v h1 h2 i j hi hj. rewrite gram_cat_r. unfold mcat. destruct (Nat.ltb_spec j u).
    - rewrite h1 by auto. reflexivity.
    - rewrite h2 by lia. reflexivity. }
  unfold lob_rr. destruct p_ap as [[p ap]|].
  - destruct hp as (p1 & p2 & p3 & p4 & p5 & _). apply post_catch. unfold lob_rr3.
    step1. apply dot2t_R; [lia|]. intros xap g1 g2 g3. rewrite x1, x2, p4 in *.
    step1. apply dot2t_R; [lia|]. intros rap h1 h2 h3. rewrite r1, r2, p4 in *.
    step1. apply dot2t_R; [lia|]. intros pap i1 i2 i3. rewrite p1, p2, p4 in *.
    step1. apply dot2t_R; [lia|]. intros xp j1 j2 j3. rewrite x1, x2, p2 in *.
    step1. apply dot2t_R; [lia|]. intros rp k1 k2 k3. rewrite r1, r2, p2 in *.
    assert (sp : symmetric q (mmul n (mtr (ent p)) (ent ap))).
    { intros i j hi hj. unfold mtr at 2. apply (gram_swap q q); auto. }
    step1. eapply post_mono with (Q := fun '(pap, pp) => nr pap = q /\ nc pap = q /\ nr pp = q /\ nc pp = q /\
       ent pap =[q, q]= mmul n (mtr (ent p)) (ent ap) /\ ent pp =[q, q]= mmul n (mtr (ent p)) (ent p)).
    { step1. apply (symmetrize_R pap (mmul n (mtr (ent p)) (ent ap))); rewrite ?i1; [lia|auto|auto|]. intros pap' l1 l2 l3.
      step1. apply dot2t_R; [lia|]. intros pp m1 m2 m3. rewrite p1, p2 in m3. apply post_ret. repeat split; auto; lia. }
    intros [pap' pp] (l1 & l2 & l3 & l4 & l5 & l6).
    step1; apply hcat3_R; dims; try lia; intros g0 g01 g02 g03.
    step1; apply hcat3_R; dims; try lia; intros ga ga1 ga2 ga3.
    step1; apply hcat3_R; dims; try lia; intros gb gb1 gb2 gb3.
    step1; apply vcat3_R; dims; try lia; intros g gg1 gg2 gg3.
    step1; apply hcat3_R; dims; try lia; intros h0 h01 h02 h03.
    step1; apply hcat3_R; dims; try lia; intros ha' ha1 ha2 ha3.
    step1; apply hcat3_R; dims; try lia; intros hb hb1 hb2 hb3.
    step1; apply vcat3_R; dims; try lia; intros b bb1 bb2 bb3.
    eapply post_conseq; [apply (sorted_post g (Some b) (k + q + q))| |contradiction|tauto]; dims; try lia.
    intros [l v] (v1 & v2 & v3 & v4). cbn [post]. split; auto. unfold ritz. split; [lia|]. split; [lia|]. split; [lia|].
    exists g, b. split; [lia|]. split; [lia|]. split; [lia|]. split; [lia|]. split; [|split; [|exact v4]].
    + assert (hAS : mmul n A (basis k q (ent x) (ent r) (ent p)) =[n, k + q + q]= mcat (k + q) (mcat k (ent ax) (ent ar)) (ent ap)).
      { unfold basis. apply AS; auto. symmetry. apply AS; auto. }
      rewrite hAS. intros i j hi hj. rewrite gg3 by lia.
      unfold basis. rewrite !gram_cat_l, !gram_cat_r.
      rewrite g01, ga1, a1, b1 in *. rewrite ?nr_transpose, ?nc_transpose, ?a2, ?b2, ?c1, ?c2, ?g1, ?g2, ?h1, ?h2 in *.
      destruct (Nat.ltb_spec i (k + q)) as [t1|t1]; [destruct (Nat.ltb_spec i k) as [t2|t2]|].
      * rewrite g03 by lia. unfold mcat. destruct (Nat.ltb_spec j (k + q)); [destruct (Nat.ltb_spec j k)|].
        -- apply a3; lia. -- apply b3; lia. -- apply g3; lia.
      * rewrite ga3 by lia. unfold mcat. destruct (Nat.ltb_spec j (k + q)); [destruct (Nat.ltb_spec j k)|].
        -- rewrite (tr_ent xar k q) by lia. rewrite b3 by lia. apply (gram_swap k q); auto; lia.
        -- apply c3; lia. -- apply h3; lia.
      * rewrite gb3 by lia. unfold mcat. destruct (Nat.ltb_spec j (k + q)); [destruct (Nat.ltb_spec j k)|].
        -- rewrite (tr_ent xap k q) by lia. rewrite g3 by lia. apply (gram_swap k q); auto; lia.
        -- rewrite (tr_ent rap q q) by lia. rewrite h3 by lia. apply (gram_swap q q); auto; lia.
        -- apply l5; lia.
    + intros i j hi hj. rewrite bb3 by lia. unfold basis. rewrite !gram_cat_l, !gram_cat_r.
      rewrite h01, ha1, d1, f1 in *. rewrite ?nr_transpose, ?nc_transpose, ?d2, ?f2, ?e1, ?e2, ?j1, ?j2, ?k1, ?k2 in *.
      destruct (Nat.ltb_spec i (k + q)) as [t1|t1]; [destruct (Nat.ltb_spec i k) as [t2|t2]|].
      * rewrite h03 by lia. unfold mcat. destruct (Nat.ltb_spec j (k + q)); [destruct (Nat.ltb_spec j k)|].
        -- apply d3; lia. -- apply f3; lia. -- apply j3; lia.
      * rewrite ha3 by lia. unfold mcat. destruct (Nat.ltb_spec j (k + q)); [destruct (Nat.ltb_spec j k)|].
        -- rewrite (tr_ent xr k q) by lia. rewrite f3 by lia. apply gram_tr.
        -- apply e3; lia. -- apply k3; lia.
      * rewrite hb3 by lia. unfold mcat. destruct (Nat.ltb_spec j (k + q)); [destruct (Nat.ltb_spec j k)|].
        -- rewrite (tr_ent xp k q) by lia. rewrite j3 by lia. apply gram_tr.
        -- rewrite (tr_ent rp q q) by lia. rewrite k3 by lia. apply gram_tr.
        -- apply l6; lia.
  - apply post_catch. unfold lob_rr2.
    step1; apply hcat_R; dims; try lia; intros g0 g01 g02 g03.
    step1; apply hcat_R; dims; try lia; intros ga ga1 ga2 ga3.
    step1; apply vcat_R; dims; try lia; intros g gg1 gg2 gg3.
    step1; apply hcat_R; dims; try lia; intros h0 h01 h02 h03.
    step1; apply hcat_R; dims; try lia; intros ha' ha1 ha2 ha3.
    step1; apply vcat_R; dims; try lia; intros b bb1 bb2 bb3.
    eapply post_conseq; [apply (sorted_post g (Some b) (k + q))| |contradiction|rewrite Nat.add_0_r; tauto]; dims; try lia.
    intros [l v] (v1 & v2 & v3 & v4). cbn [post]. split; auto. intros P. unfold ritz. rewrite Nat.add_0_r.
    split; [lia|]. split; [lia|]. split; [lia|].
    assert (hb : forall U, basis k q (ent x) (ent r) P =[U, k + q]= mcat k (ent x) (ent r)).
    { intros U i j hi hj. unfold basis, mcat. destruct (Nat.ltb_spec j (k + q)); [reflexivity|lia]. }
    exists g, b. split; [lia|]. split; [lia|]. split; [lia|]. split; [lia|]. split; [|split; [|exact v4]].
    + rewrite (hb n). assert (hAS : mmul n A (mcat k (ent x) (ent r)) =[n, k + q]= mcat k (ent ax) (ent ar)) by (apply AS; auto).
      rewrite hAS. intros i j hi hj. rewrite gg3 by lia. rewrite !gram_cat_l, !gram_cat_r.
      rewrite g01, a1, b1 in *. rewrite ?nr_transpose, ?nc_transpose, ?a2, ?b2, ?c1, ?c2 in *.
      destruct (Nat.ltb_spec i k) as [t2|t2].
      * rewrite g03 by lia. unfold mcat. destruct (Nat.ltb_spec j k). -- apply a3; lia. -- apply b3; lia.
      * rewrite ga3 by lia. unfold mcat. destruct (Nat.ltb_spec j k).
        -- rewrite (tr_ent xar k q) by lia. rewrite b3 by lia. apply (gram_swap k q); auto; lia.
        -- apply c3; lia.
    + rewrite (hb n). intros i j hi hj. rewrite bb3 by lia. rewrite !gram_cat_l, !gram_cat_r.
      rewrite h01, d1, f1 in *. rewrite ?nr_transpose, ?nc_transpose, ?d2, ?f2, ?e1, ?e2 in *.
      destruct (Nat.ltb_spec i k) as [t2|t2].
      * rewrite h03 by lia. unfold mcat. destruct (Nat.ltb_spec j k). -- apply d3; lia. -- apply f3; lia.
      * rewrite ha3 by lia. unfold mcat. destruct (Nat.ltb_spec j k).
        -- rewrite (tr_ent xr k q) by lia. rewrite f3 by lia. apply gram_tr.
        -- apply e3; lia.
Qed.

(** ** New block and new directions *)
Lemma slice3 (v : mr) q pc X R P : nr v = (k + q + pc)%nat -> nc v = k ->
  mmul (k + q + pc) (basis k q X R P) (ent v) =[n, k]=
  madd (mmul k X (ent v)) (madd (mmul q R (fun i j => ent v (k + i)%nat j)) (mmul pc P (fun i j => ent v (k + q + i)%nat j))).
Proof.
  intros h1 h2. unfold basis. rewrite (mmul_cat_split n k (k + q) pc). intros i j hi hj. unfold madd at 1.
  rewrite (mmul_cat_split n k k q X R (ent v)) by auto. unfold madd. ring.
Qed.

Lemma update_RR (p_ap : option (mr * mr)) (x ax r ar v : mr) q pc P E F :
  blk k x ax -> blk q r ar -> match p_ap with None => pc = 0%nat | Some (p, ap) => blk q p ap /\ pc = q /\ P = ent p end ->
  nc v = k -> nr v = (k + q + pc)%nat ->
  post (lob_update p_ap x ax r ar v q k) (fun '(x', ax', p, ap) => blk k x' ax' /\ blk k p ap /\
    ent x' =[n, k]= mmul (k + q + pc) (basis k q (ent x) (ent r) P) (ent v) /\
    ent p =[n, k]= msub (ent x') (mmul k (ent x) (ent v))) E F.
Proof.
  intros hx hr hp v1 v2. pose proof hx as (x1 & x2 & x3 & x4 & _). pose proof hr as (r1 & r2 & r3 & r4 & _).
  unfold lob_update. step1.
  eapply post_mono with (Q := fun '(p', ap', tau) => blk k p' ap' /\ nr tau = k /\ nc tau = k /\ ent tau =[k, k]= ent v /\
     ent p' =[n, k]= madd (mmul q (ent r) (fun i j => ent v (k + i)%nat j)) (mmul pc P (fun i j => ent v (k + q + i)%nat j))).
  { destruct p_ap as [[p ap]|].
    - destruct hp as (hp & -> & ->). pose proof hp as (p1 & p2 & p3 & p4 & _).
      step1. apply slice_ent; try lia. intros tau t1 t2 t3. step1. apply slice_ent; try lia. intros al a1 a2 a3.
      step1. apply slice_ent; try lia. intros ga g1 g2 g3.
      step1. apply dot2_R; [lia|]. intros ra ra1 ra2 ra3. step1. apply dot2_R; [lia|]. intros pg pg1 pg2 pg3.
      step1. apply mzip_add_R; try lia. intros p' p'1 p'2 p'3.
      step1. apply dot2_R; [lia|]. intros ara ara1 ara2 ara3. step1. apply dot2_R; [lia|]. intros apg apg1 apg2 apg3.
      step1. apply mzip_add_R; try lia. intros ap' ap'1 ap'2 ap'3. apply post_ret.
      assert (ka : nc al = k) by lia. rewrite ka in *. assert (kg : nc ga = k) by lia. rewrite kg in *.
      rewrite v1 in *. replace (k + q - k)%nat with q in a3 by lia. replace (nr v - (k + q))%nat with q in g3 by lia.
      rewrite ?ra1, ?ra2, ?ara1, ?ara2, ?pg1, ?pg2, ?apg1, ?apg2, ?r1, ?r2, ?r3, ?r4, ?p1, ?p2, ?p3, ?p4 in *.
      split; [|split; [lia|split; [lia|split]]].
      + apply (blk_add n 0 A mid k ra ara pg apg); auto.
        * apply (blk_mul n 0 A mid q k r ar al); auto; lia.
        * apply (blk_mul n 0 A mid q k p ap ga); auto; lia.
      + rewrite Nat.sub_0_r in t3. exact t3.
      + rewrite p'3. rewrite ra3, pg3. rewrite a3, g3. reflexivity.
    - subst pc. step1. apply slice_ent; try lia. intros tau t1 t2 t3. step1. apply slice_ent; try lia. intros al a1 a2 a3.
      step1. apply dot2_R; [lia|]. intros ra ra1 ra2 ra3.
      step1. apply dot2_R; [lia|]. intros ara ara1 ara2 ara3. apply post_ret.
      assert (ka : nc al = k) by lia. rewrite ka in *. rewrite v1 in *. replace (nr v - k)%nat with q in a3 by lia.
      rewrite ?r1, ?r2, ?r3, ?r4 in *. split; [|split; [lia|split; [lia|split]]].
      + apply (blk_mul n 0 A mid q k r ar al); auto; lia.
      + rewrite Nat.sub_0_r in t3. exact t3.
      + rewrite ra3, a3. intros i j hi hj. unfold madd. unfold mmul at 3. cbn [Rsum]. ring. }
  intros [[p ap] tau] (hb & t1 & t2 & t3 & t4). pose proof hb as (p1 & p2 & p3 & p4 & _).
  step1. apply dot2_R; [lia|]. intros xt xt1 xt2 xt3. step1. apply mzip_add_R; try lia. intros x' x'1 x'2 x'3.
  step1. apply dot2_R; [lia|]. intros axt axt1 axt2 axt3. step1. apply mzip_add_R; try lia. intros ax' ax'1 ax'2 ax'3.
  apply post_ret. rewrite t2, ?xt1, ?xt2, ?axt1, ?axt2, ?x1, ?x2, ?x3, ?x4, ?t2 in *.
  assert (hx' : ent x' =[n, k]= madd (mmul k (ent x) (ent v)) (ent p)).
  { rewrite x'3, xt3, t3. reflexivity. }
  split; [|split; [auto|split]].
  - apply (blk_add n 0 A mid k xt axt p ap); auto. apply (blk_mul n 0 A mid k k x ax tau); auto; lia.
  - rewrite hx'. rewrite t4. rewrite (slice3 v q pc) by auto. reflexivity.
  - rewrite hx'. intros i j hi hj. unfold msub, madd. ring.
Qed.

(** ** Previous directions *)
Lemma p_ap_RR prev mask E F : match prev with None => True | Some (p, ap) => blk k p ap end -> length mask = k ->
  let q := count_true mask in let idx := active_idx mask in
  post (lob_p_ap prev mask) (fun o => match o with
    | None => match prev with None => True | Some (p0, _) => ~ injective n q (colsel idx (ent p0)) end
    | Some (p, ap) => blk q p ap /\ match prev with None => False | Some (p0, _) =>
        injective n q (colsel idx (ent p0)) /\ gram_schmidt n q (colsel idx (ent p0)) (ent p) end
    end) E F.
Proof.
  intros hp hl q idx. unfold lob_p_ap. destruct prev as [[p ap]|]; [|exact I].
  pose proof hp as (h1 & h2 & h3 & h4 & h5 & h6).
  step1. apply mask_R; [lia|]. intros w w1 w2 w4. fold q in w2, w4. rewrite h1 in w1, w4.
  assert (w3 : perp n 0 q mid (ent w)) by (intros i j hi; lia). rewrite mask_indices_active in w4. fold idx in w4.
  step1. apply mask_R; [lia|]. intros aw a1 a2 a3. fold q in a2, a3. rewrite h3 in a3.
  assert (hw : ent w =[n, q]= colsel idx (ent p)) by (intros i j hi hj; apply w4; auto).
  assert (hb : blk q w aw).
  { repeat split; auto; try lia. intros i j hi hj. rewrite a3 by auto. pose proof (mask_nth_lt mask j hj). rewrite h5 by lia.
    apply Rsum_ext. intros. rewrite w4 by auto. rewrite mask_indices_active. reflexivity. }
  assert (hinj : injective (nr w) (nc w) (ent w) <-> injective n q (colsel idx (ent p))).
  { rewrite w1, w2. split; intros hi z hz; apply hi; intros i hi'; rewrite <- (hz i hi'); apply Rsum_ext; intros j hj; rewrite hw by auto; reflexivity. }
  step1. apply post_ok. eapply post_conseq; [apply orthonormalize_R| | |tauto].
  2:{ intros e (_ & he). cbn [post]. tauto. }
  intros [u l] (ho & hi). cbn [fst snd] in ho. pose proof ho as (o1 & o2 & o3 & o4 & o5 & o6 & o7 & o8). rewrite w1, w2 in *.
  step1. apply post_ok.
  destruct (solve_triangular_unique l (transpose aw) Lower ltac:(lia) ltac:(dims; lia)) as (t & et & t1 & t2 & t3 & _).
  { intros i hi'. specialize (o7 i ltac:(lia)). lra. }
  rewrite et. cbn [post]. split; [|split; [tauto|]].
  - apply (blk_ortho n k 0 A mid hk q w aw u l t); auto; dims; try lia.
    rewrite o3, a1, h3 in t3. rewrite (tri_of_lower q) in t3 by auto. rewrite t3.
    assert (e : ent (transpose aw) =[q, n]= mtr (ent aw)) by (pose proof (ent_transpose aw) as e0; replace (nc aw) with q in e0 by lia; replace (nr aw) with n in e0 by lia; exact e0). exact e.
  - split; [exact o5|]. exists (ent l). split; auto. split; auto. rewrite <- hw. exact o8.
Qed.

(** ** One iteration *)
Definition prec_rel (q : nat) (W0 W : M) : Prop :=
  exists act z : mr, nr act = n /\ nc act = q /\ ent act =[n, q]= W0 /\ m act = Ret z /\
    match yc with
    | None => W =[n, q]= ent z
    | Some (y, l) => exists U, mmul (nc y) (ent l) U =[nc y, q]= mmul n (mtr (ent y)) (ent z) /\
                               W =[n, q]= msub (ent z) (mmul (nc y) (ent y) U)
    end.
Definition eig_rel (s : nat) (G B : M) (lam : nat -> R) (V : M) : Prop :=
  exists (g b v : mr) l, nr g = s /\ nc g = s /\ nr b = s /\ nc b = s /\ ent g =[s, s]= G /\ ent b =[s, s]= B /\
    sorted_eig fuel g (Some b) k order = Ret (l, v) /\ lam = vent l /\ V = ent v.
Definition dirs (st : lstate RN) : option M := option_map (fun p => ent (fst p)) (l_prev st).

Lemma body_RR (r ld : mr) rn (st : lstate RN) : linv n k 0 A mid st -> l_flag st = true -> nr r = n -> nc r = k ->
  ent r =[n, k]= residual n k A (ent (l_x st)) (vent (l_lambda st)) ->
  post (lob_body fuel a m yc k order r ld rn (count_true (l_mask st)) st) (fun '(st', e) =>
    linv n k 0 A mid st' /\ l_flag st' = true /\ l_hist st' = l_hist st /\ l_mask st' = l_mask st /\
    match e with
    | None => exists P', dirs st' = Some P' /\
        lob_step n k A prec_rel eig_rel (dirs st) (active_idx (l_mask st)) (vent (l_lambda st)) (ent (l_x st))
          (vent (l_lambda st')) (ent (l_x st')) P'
    | Some e => e = NotPositiveDefinite /\ let q := length (active_idx (l_mask st)) in
        exists W, prec_rel q (colsel (active_idx (l_mask st)) (residual n k A (ent (l_x st)) (vent (l_lambda st)))) W /\
          ~ injective n q (msub W (mmul k (ent (l_x st)) (mmul n (mtr (ent (l_x st))) W)))
    end) noE (exists s, (k <= s <= k + count_true (l_mask st) + match l_prev st with Some _ => count_true (l_mask st) | None => 0 end)%nat /\ starved s).
Proof.
  intros hi hfl r1 r2 r3. pose proof hi as (h1 & hx & h2 & h3 & h4). pose proof hx as (x1 & x2 & x3 & x4 & x5 & x6).
  rewrite active_count. set (idx := active_idx (l_mask st)). set (q := count_true (l_mask st)). unfold lob_body.
  set (Rs := residual n k A (ent (l_x st)) (vent (l_lambda st))) in *.
  step1. apply mask_R; [lia|]. intros ac ac1 ac2 ac3. fold q in ac2, ac3. rewrite mask_indices_active in ac3. fold idx in ac3. rewrite r1 in ac1, ac3.
  assert (ac4 : ent ac =[n, q]= colsel idx Rs).
  { intros i j hi' hj. rewrite ac3 by auto. unfold colsel. apply r3; auto.
    unfold idx. rewrite <- mask_indices_active. pose proof (mask_nth_lt (l_mask st) j hj). lia. }
  step1. unfold precond. destruct (hm ac ac1) as (z & ez). rewrite ez. cbn [bind post]. set (a0 := mk _ _ _).
  assert (a1 : nr a0 = n) by (unfold a0; dims; auto). assert (a2 : nc a0 = q) by (unfold a0; dims; auto).
  assert (a3 : ent a0 =[n, q]= ent z). { intros i j hi' hj. unfold a0, ent. rewrite get_mk by lia. reflexivity. }
  step1. eapply post_mono with (Q := fun w => nr w = n /\ nc w = q /\ prec_rel q (colsel idx Rs) (ent w)).
  { unfold cons_ok in hc. unfold prec_rel. destruct yc as [[y l]|].
    - destruct hc as (c1 & c2 & c3 & c4 & c5 & c6). apply apply_constraints_R; auto; [lia|].
      intros w U w1 w2 w3 w4. rewrite a1, a2 in *. split; [lia|]. split; [lia|]. exists ac, z. repeat split; auto.
      exists U. split; [rewrite w3, a3; reflexivity|rewrite w4, a3; reflexivity].
    - apply post_ret. split; auto. split; auto. exists ac, z. repeat split; auto. }
  intros w (w1 & w2 & w3).
  step1. apply dot2t_R; [lia|]. intros xtr t1 t2 t3. rewrite x1, x2, w2 in t3.
  step1. apply gemm1_R; try lia. intros w' w'1 w'2 w'3. rewrite w1, w2, x2 in *. rewrite t3 in w'3.
  apply post_catch. eapply post_conseq; [apply orthonormalize_R| | |tauto].
  2:{ intros e (-> & he). cbn [post]. split; auto. split; auto. split; auto. split; auto. split; auto. exists (ent w). split; auto.
      intros hin. apply he. rewrite w'1, w'2. intros y hy. apply hin. intros i hi'. rewrite <- (hy i hi').
      apply Rsum_ext. intros j hj. rewrite w'3 by auto. reflexivity. }
  intros [u l] (ho & _). cbn [fst snd] in ho. pose proof ho as (o1 & o2 & o3 & o4 & o5 & o6 & o7 & o8). rewrite w'1, w'2 in *.
  step1. destruct (ha u o1) as (ar & ear & ar1 & ar2 & ar3). rewrite ear. cbn [post]. rewrite o2 in *.
  assert (hu : blk q u ar) by (repeat split; auto; intros i j hi'; lia).
  rewrite hfl, orb_true_r.
  step1. apply dot2t_R; [lia|]. intros xar f1 f2 f5. step1. apply dot2t_R; [lia|]. intros rar f3 f4 f6.
  rewrite x1, x2, ar2 in f5. rewrite o1, o2, ar2 in f6.
  step1. eapply post_mono; [apply (grams_RR (l_x st) (l_ax st) u ar rar ld q noE _ hx hu) with (xar := xar); auto; lia|].
  intros [[[[rar' xax] xx] rr] xr] hg.
  step1. eapply post_mono; [apply (p_ap_RR (l_prev st) (l_mask st)); auto|]. intros p_ap hp. fold q idx in hp. cbv zeta in hp. fold q idx in hp.
  step1. eapply post_conseq; [apply (rr_RR p_ap (l_x st) (l_ax st) u ar xax xar rar' xx rr xr q hx hu hg)| |contradiction|].
  { destruct p_ap as [[p ap]|]; auto. tauto. }
  2:{ intros hf. exists (k + q + match p_ap with Some _ => q | None => 0 end)%nat. split; auto. fold q.
      destruct p_ap as [[p ap]|], (l_prev st) as [[p0 ap0]|]; lia || tauto. }
  intros [p' [e|[lam v]]] (-> & hv); [tauto|].
  set (pc := match p_ap with Some _ => q | None => 0%nat end). set (P := match p_ap with Some (p, _) => ent p | None => mid end).
  assert (hv' : ritz q pc (ent (l_x st)) (ent u) P lam v) by (unfold pc, P; destruct p_ap as [[p ap]|]; auto).
  destruct hv' as (v1 & v2 & v3 & g & b & g1 & g2 & b1 & b2 & g3 & b3 & es).
  step1. eapply post_mono; [apply (update_RR p_ap (l_x st) (l_ax st) u ar v q pc P); auto|].
  { unfold pc, P. destruct p_ap as [[p ap]|]; auto. tauto. }
  intros [[[x' ax'] pn] apn] (hx' & hp' & e1 & e2). apply post_ret. cbv beta iota.
  unfold linv, dirs. cbn [l_mask l_hist l_lambda l_x l_ax l_best l_prev l_flag l_calls option_map fst].
  split; [auto|]. split; [auto|]. split; [auto|]. split; [auto|]. exists (ent pn). split; [auto|].
  unfold lob_step. cbv zeta. assert (hq : length idx = q) by (unfold idx; apply active_count). rewrite hq.
  exists (ent w), (ent u), P, (ent v), pc. split; [exact w3|]. split.
  { split; [exact o5|]. exists (ent l). split; auto. split; auto. rewrite <- o8. symmetry. exact w'3. }
  split.
  { unfold pc, P. destruct (l_prev st) as [[p0 ap0]|]; cbn [option_map fst].
    - destruct p_ap as [[p ap]|].
      + destruct hp as (_ & hp1 & hp2). split; [auto|]. intros hn. exfalso. auto.
      + split; [intros hin; exfalso; auto|auto].
    - destruct p_ap as [[p ap]|]; [tauto|auto]. }
  split; [|split; [exact e1|exact e2]].
  exists g, b, v, lam. repeat split; auto.
Qed.

(** ** The loop *)
Lemma filter_le (l : list bool) : (count_true l <= length l)%nat.
Proof. unfold count_true. induction l as [|[|] l IH]; cbn; lia. Qed.
Context (tol : R).
Definition step_cols (seen : list (list RN * mr * list RN)) : list nat :=
  filter (fun j => forallb (fun h => Rltb tol (vent (snd h) j)) seen) (seq 0 k).
Lemma active_mask_of seen : active_idx (mask_of (N:=RN) tol k seen) = step_cols seen.
Proof.
  unfold active_idx, step_cols. rewrite length_mask_of. apply filter_ext_in. intros j hj. apply in_seq in hj.
  rewrite nth_mask_of by lia. reflexivity.
Qed.
Fixpoint annot (seen rest : list (list RN * mr * list RN)) : list (list nat * ((nat -> R) * M)) :=
  match rest with
  | [] => []
  | h :: t => (step_cols seen, (vent (fst (fst h)), ent (snd (fst h)))) :: annot (seen ++ [h]) t
  end.
Lemma measure_resid (st : lstate RN) E F : linv n k 0 A mid st ->
  post (lob_measure st) (fun '(r, rn, ld, st') => ent r =[n, k]= residual n k A (ent (l_x st)) (vent (l_lambda st)) /\
    length rn = k /\ l_lambda st' = l_lambda st /\ l_flag st' = l_flag st /\
    l_hist st' = l_hist st ++ [(l_lambda st, l_x st, rn)]) E F.
Proof.
  intros (h1 & (x1 & x2 & x3 & x4 & x5 & x6) & h2 & h3 & h4). unfold lob_measure.
  assert (d1 : nr (from_diag (l_lambda st)) = length (l_lambda st)) by reflexivity.
  assert (d2 : nc (from_diag (l_lambda st)) = length (l_lambda st)) by reflexivity.
  step1. apply dot2_R; [lia|]. intros lx e1 e2 e3. rewrite d2, x1, x2, h1 in *.
  step1. unfold mzip. bd. cbn [post]. set (r := mk _ _ _).
  cbv beta iota. cbn [l_mask l_hist l_lambda l_x l_ax l_best l_prev l_flag l_calls].
  split; [|split; [unfold col_norms; rewrite length_vmk; unfold r; dims; auto|auto]].
  intros i j hi hj. unfold r, ent at 1. rewrite get_mk by lia. rn.
  change (ent (l_ax st) i j - ent lx i j = residual n k A (ent (l_x st)) (vent (l_lambda st)) i j).
  rewrite x5, e3 by auto. unfold residual, msub. f_equal. apply Rsum_ext. intros q hq. rewrite from_diag_R by lia. reflexivity.
Qed.

Lemma loop_RR iter : forall st, linv n k 0 A mid st -> l_flag st = true -> l_mask st = mask_of (N:=RN) tol k (l_hist st) ->
  post (lob_loop fuel a m yc tol k order iter st) (fun '(st', e) =>
    exists rn rest, l_hist st' = l_hist st ++ (l_lambda st, l_x st, rn) :: rest /\
      lob_chain n k A prec_rel eig_rel (dirs st) (vent (l_lambda st), ent (l_x st)) (annot (l_hist st ++ [(l_lambda st, l_x st, rn)]) rest)) noE (exists s, (k <= s <= 3 * k)%nat /\ starved s).
Proof.
  assert (step : forall st E F, linv n k 0 A mid st -> l_mask st = mask_of (N:=RN) tol k (l_hist st) ->
    post (lob_measure st) (fun '(r, rn, ld, st') =>
      (linv n k 0 A mid st' /\ nr r = n /\ nc r = k /\ l_x st' = l_x st /\ l_prev st' = l_prev st) /\
      (ent r =[n, k]= residual n k A (ent (l_x st)) (vent (l_lambda st)) /\ length rn = k /\ l_lambda st' = l_lambda st /\
       l_flag st' = l_flag st /\ l_hist st' = l_hist st ++ [(l_lambda st, l_x st, rn)]) /\
      map (fun '(x, act) => nlt RN tol x && act) (combine rn (l_mask st')) = mask_of (N:=RN) tol k (l_hist st')) E F).
  { intros st E F hi hmask.
    pose proof (measure_R n k 0 A mid hk st E F hi) as p1. pose proof (measure_resid st E F hi) as p2.
    destruct (lob_measure st) as [[[[r rn] ld] st']| | | |]; cbn [post] in *; auto.
    destruct p1 as (i1 & i2 & i3 & i4 & i5 & i6 & i7 & i8 & i9 & i10). destruct p2 as (j1 & j2 & j3 & j4 & j5).
    split; [auto|]. split; [auto|]. rewrite i9, j5, hmask. apply mask_step. auto. }
  induction iter as [|iter IH]; intros st hi hfl hmask; cbn [lob_loop].
  - step1. eapply post_mono; [apply step; auto|]. intros [[[r rn] ld] st'] (_ & (_ & _ & _ & _ & hh) & _).
    apply post_ret. cbv beta iota. exists rn, []. cbn [l_hist annot lob_chain]. auto.
  - step1. eapply post_mono; [apply step; auto|].
    intros [[[r rn] ld] st'] ((hi' & r1 & r2 & ex & ep) & (r3 & rl & el & ef & hh) & hmk).
    set (mask := map _ _) in *. set (st1 := LS _ _ _ mask _ _ _ _ _).
    assert (h1 : linv n k 0 A mid st1).
    { pose proof hi' as (g1 & g2 & g3 & g4 & g5). unfold st1, linv. cbn [l_mask l_hist l_lambda l_x l_ax l_best l_prev l_flag l_calls].
      split; auto. split; auto. split; [|auto]. rewrite hmk. apply length_mask_of. }
    destruct (count_true mask =? 0)%nat.
    { apply post_ret. exists rn, []. cbn [l_hist annot lob_chain]. auto. }
    step1. change (count_true mask) with (count_true (l_mask st1)). eapply post_conseq; [apply (body_RR r ld rn st1); auto| |contradiction|].
    4:{ intros (s & hs & hf). exists s. split; auto. assert (hc1 : (count_true (l_mask st1) <= k)%nat).
        { destruct h1 as (_ & _ & hm1 & _). rewrite <- hm1. apply filter_le. }
        destruct (l_prev st1); lia. }
    { unfold st1. cbn [l_flag]. congruence. }
    { unfold st1. cbn [l_x l_lambda]. rewrite ex, el. exact r3. }
    intros [st2 [e|]] (g1 & g2 & g3 & g4 & g5).
    + apply post_ret. exists rn, []. rewrite g3. unfold st1. cbn [l_hist annot lob_chain]. auto.
    + destruct g5 as (P' & gd & gs). eapply post_mono; [apply (IH st2)|]; auto.
      { rewrite g4, g3. unfold st1. cbn [l_mask l_hist]. exact hmk. }
      intros [st3 e3] (rn2 & rest & e4 & e5). exists rn, ((l_lambda st2, l_x st2, rn2) :: rest).
      rewrite g3 in e4, e5. unfold st1 in e4, e5. cbn [l_hist] in e4, e5. rewrite hh in e4, e5.
      split; [rewrite e4, <- app_assoc; reflexivity|]. cbn [annot lob_chain]. exists P'.
      cbn [fst snd]. split; [|rewrite <- gd; exact e5].
      assert (ea : active_idx (l_mask st1) = step_cols (l_hist st ++ [(l_lambda st, l_x st, rn)])).
      { unfold st1. cbn [l_mask]. rewrite hmk, hh. apply active_mask_of. }
      rewrite ea in gs. unfold st1, dirs in gs. cbn [l_prev l_lambda l_x] in gs. rewrite ep, el, ex in gs. exact gs.
Qed.
End Ritz.

(** ** The whole run *)
(** The start: the constrained start block is orthonormalized and the Ritz problem in its span is solved *)
Definition lob_start (fuel n k : nat) (A : M) (order : Order) (W : M) (lam : nat -> R) (X : M) : Prop :=
  exists (Q : M) (g v : mr) l, gram_schmidt n k W Q /\ nr g = k /\ nc g = k /\ ent g =[k, k]= mmul n (mtr Q) (mmul n A Q) /\
    sorted_eig fuel g None k order = Ret (l, v) /\ lam = vent l /\ X =[n, k]= mmul k Q (ent v).
(** The Cholesky factor of the Gram matrix of the constraints *)
Definition cons_fac (n : nat) (y : option mr) (yc : option (mr * mr)) : Prop :=
  match y with
  | None => yc = None
  | Some y => exists l, yc = Some (y, l) /\ nr l = nc y /\ nc l = nc y /\ lower_tri (nc y) (nc y) (ent l) /\
      (forall i, (i < nc y)%nat -> 0 < ent l i i) /\ mmul (nc y) (ent l) (mtr (ent l)) =[nc y, nc y]= mmul n (mtr (ent y)) (ent y)
  end.
Lemma setup_RR (x : mr) y : cons_in (nr x) 0 mid y ->
  wp (match y with
      | None => Ret (x, None)
      | Some y =>
          let* yy := dot2 (transpose y) y in
          let* cyy := unwrap (cholesky yy) in
          let* x := apply_constraints x cyy y in
          Ret (x, Some (y, cyy))
      end)
     (fun '(x', yc) => nr x' = nr x /\ nc x' = nc x /\ cons_ok (nr x) 0 mid yc /\ cons_fac (nr x) y yc /\
        match yc with
        | None => x' = x
        | Some (y, l) => exists U, mmul (nc y) (ent l) U =[nc y, nc x]= mmul (nr x) (mtr (ent y)) (ent x) /\
            ent x' =[nr x, nc x]= msub (ent x) (mmul (nc y) (ent y) U)
        end).
Proof.
  intros h. destruct y as [y|]; cbn [cons_in] in h.
  - destruct h as (hy & hinj & hcase). step1. apply dot2t_R; auto. intros g g1 g2 g3. rewrite hy in g3.
    assert (sq : nr g = nc g) by lia.
    pose proof (gram_sym _ _ _ _ g3) as hsym. pose proof (gram_injective _ _ _ _ g3) as hpi. rewrite <- g1 in hsym.
    destruct (cholesky_iff g sq hsym) as (hiff & _). rewrite g1 in hiff.
    destruct ((proj2 hiff) ((proj2 hpi) hinj)) as (l & el). rewrite el. cbn [unwrap bind].
    destruct (cholesky_factor g l hsym el) as (_ & l1 & l2 & l3 & l4 & l5). rewrite g1 in *.
    step1. apply apply_constraints_R; auto. intros x' U x1 x2 x3 x4. apply post_ret.
    split; auto. split; auto. split; [|split].
    + cbn [cons_ok]. repeat split; auto. intros q V V' U' _ _ i j hi; lia.
    + exists l. repeat split; auto. rewrite l5. exact g3.
    + eauto.
  - cbn [post]. repeat split; auto.
Qed.
Lemma lobpcg_RR fuel (x : mr) a m y tol maxiter order A :
  linear_op (nr x) A a -> symmetric (nr x) A -> total_op (nr x) m -> (1 <= nc x)%nat -> cons_in (nr x) 0 mid y ->
  post (lobpcg_trace fuel a x m y tol maxiter order) (fun '(r, ost) =>
    match ost with
    | None => True
    | Some st => exists yc (x' : mr) h0 rest, cons_fac (nr x) y yc /\
        match yc with
        | None => x' = x
        | Some (y, l) => exists U, mmul (nc y) (ent l) U =[nc y, nc x]= mmul (nr x) (mtr (ent y)) (ent x) /\
            ent x' =[nr x, nc x]= msub (ent x) (mmul (nc y) (ent y) U)
        end /\
        l_hist st = h0 :: rest /\
        lob_start fuel (nr x) (nc x) A order (ent x') (vent (fst (fst h0))) (ent (snd (fst h0))) /\
        lob_chain (nr x) (nc x) A (prec_rel (nr x) m yc) (eig_rel fuel (nc x) order) None
          (vent (fst (fst h0)), ent (snd (fst h0))) (annot (nc x) tol [h0] rest)
    end) noE (exists s, (nc x <= s <= 3 * nc x)%nat /\ starved fuel (nc x) order s).
Proof.
  intros ha hA hm hk hy. unfold lobpcg_trace. destruct (Nat.ltb_spec (nr x) (nc x)); [cbn [post]; auto|].
  step1. eapply wp_conseq; [apply (setup_RR x y hy)|]. intros [x1 yc] (x1r & x1c & hc & hf & hu).
  apply post_catch. eapply post_conseq; [apply orthonormalize_R| | |tauto].
  2:{ intros e _. cbn [post]. auto. }
  intros [x2 l2] (ho & _). cbn [fst snd] in ho. destruct ho as (o1 & o2 & o3 & o4 & o5 & o6 & o7 & o8). rewrite x1r, x1c in *.
  step1. destruct (ha x2 o1) as (ax & eax & ax1 & ax2 & ax3). rewrite eax. cbn [post]. rewrite o2 in *.
  step1. apply dot2t_R; [lia|]. intros xax f1 f2 f3. rewrite o1, o2, ax2 in *.
  apply post_catch. eapply post_conseq; [apply (sorted_post fuel (nc x) order hk xax None (nc x)); auto; lia| |contradiction|intros hfu; exists (nc x); split; [lia|exact hfu]].
  intros [lam eb] (e1 & e2 & e3 & es).
  step1. apply dot2_R; [lia|]. intros x3 k1 k2 k3. step1. apply dot2_R; [lia|]. intros ax3' k4 k5 k6.
  rewrite e3, o1, o2, ax1, ax2 in *.
  set (st0 := LS _ _ _ _ _ _ _ _ _).
  assert (hi : linv (nr x) (nc x) 0 A mid st0).
  { unfold linv, st0. cbn [l_mask l_hist l_lambda l_x l_ax l_best l_prev l_flag l_calls].
    split; auto. split; [|split; [apply repeat_length|auto]].
    apply (blk_mul (nr x) 0 A mid (nc x) (nc x) x2 ax eb); auto; try lia. repeat split; auto. intros i j hi; lia. }
  assert (hmask : l_mask st0 = mask_of (N:=RN) tol (nc x) (l_hist st0)).
  { unfold st0. cbn [l_mask l_hist]. unfold mask_of. cbn [forallb].
    clear. generalize 0%nat. induction (nc x) as [|c IH]; intros s; cbn; [reflexivity|]. f_equal. apply IH. }
  pose proof (loop_R fuel (nr x) (nc x) 0 A mid a m yc tol order ha hm hk hc (Nat.min (nr x * 10) maxiter) st0 hi) as q1.
  pose proof (loop_RR fuel (nr x) (nc x) A a m yc order ha hA hm hk hc tol (Nat.min (nr x * 10) maxiter) st0 hi eq_refl hmask) as q2.
  destruct (lob_loop fuel a m yc tol (nc x) order (Nat.min (nr x * 10) maxiter) st0) as [[st e]| | | |]; cbn [post bind] in *; auto.
  destruct q1 as (_ & hb). destruct q2 as (rn & rest & hh & hch).
  destruct (l_best st) as [[[v1 v2] v3]|] eqn:eb'; [|congruence]. cbn [unwrap_opt bind].
  unfold st0 in hh, hch. cbn [l_hist l_lambda l_x app] in hh, hch. unfold dirs in hch. cbn [l_prev option_map] in hch.
  assert (goal : exists yc (x' : mr) h0 rest, cons_fac (nr x) y yc /\
        match yc with
        | None => x' = x
        | Some (y, l) => exists U, mmul (nc y) (ent l) U =[nc y, nc x]= mmul (nr x) (mtr (ent y)) (ent x) /\
            ent x' =[nr x, nc x]= msub (ent x) (mmul (nc y) (ent y) U)
        end /\
        l_hist st = h0 :: rest /\
        lob_start fuel (nr x) (nc x) A order (ent x') (vent (fst (fst h0))) (ent (snd (fst h0))) /\
        lob_chain (nr x) (nc x) A (prec_rel (nr x) m yc) (eig_rel fuel (nc x) order) None
          (vent (fst (fst h0)), ent (snd (fst h0))) (annot (nc x) tol [h0] rest)).
  { exists yc, x1, (lam, x3, rn), rest. split; [exact hf|]. split; [exact hu|]. split; [exact hh|]. cbn [fst snd]. split; [|exact hch].
    exists (ent x2), xax, eb, lam. split; [split; [exact o5|eauto]|]. split; [auto|]. split; [auto|]. split; [rewrite f3, ax3; reflexivity|]. auto. }
  destruct e; cbn [post]; exact goal.
Qed.
