(** * Properties C28, C29: sorting of eigen- and singular value decompositions *)
From Coq Require Import Reals List Arith Lia Lra ZArith QArith Permutation Sorted.
From Coq.Floats Require Import SpecFloat.
From Verif Require Import Scalar Arr MBase MDirect MDecomp MEigh MSvd Inst Hoare Spec Ex RLin PSort.
Import ListNotations.
Local Open Scope nat_scope.

(** binary64 and the reals are ordered in the sense required below; the values not comparable are the NaNs *)
Theorem C28_binary64_ordered : num_order FN (fun x => x = S754_nan).
Proof. exact num_order_F. Qed.
Print Assumptions C28_binary64_ordered.
Theorem C28_real_ordered : num_order RN (fun _ => False).
Proof. exact num_order_R. Qed.
Print Assumptions C28_real_ordered.

(** C28.  [sort_vals] is sort_eig on eigenvalues only; both variants return the same values. *)
Theorem C28_sorts (N : Num) nan (h : num_order N nan) order (v : list N) (m : mat N) :
  length v <= nc m -> (length v <= 1 \/ forall a, In a v -> ~ nan a) ->
  exists v' m' sg, sort_eig v m order = Ret (v', m') /\ sort_vals v order = Ret v' /\ sorted_by order (length v) v v' sg /\
    nr m' = nr m /\ nc m' = nc m /\
    forall i k, i < nr m -> k < length v -> get m' i k = get m i (sg k).
Proof. exact (sort_eig_ok nan h order v m). Qed.
Print Assumptions C28_sorts.

Theorem C28_panics_iff_nan (N : Num) nan (h : num_order N nan) order (v : list N) (m : mat N) :
  length v <= nc m -> 2 <= length v ->
  ((exists a, In a v /\ nan a) <-> sort_eig v m order = Panicked) /\
  ((exists a, In a v /\ nan a) <-> sort_vals v order = Panicked).
Proof.
  intros hc hl. destruct (any_nan nan h v) as [hn|hn].
  - destruct (sort_eig_bad nan h order v m hl hn). tauto.
  - destruct (sort_eig_ok nan h order v m hc (or_intror hn)) as (v' & m' & sg & e1 & e2 & _). rewrite e1, e2.
    split; (split; [intros (a & h1 & h2); exfalso; exact (hn a h1 h2)|discriminate]).
Qed.
Print Assumptions C28_panics_iff_nan.

(** The specification determines the result, so it does not matter which stable sorting algorithm
    [slice::sort_by] uses. *)
Theorem C28_unique (N : Num) nan (h : num_order N nan) order (v v1 v2 : list N) s1 s2 :
  (forall a, In a v -> ~ nan a) -> sorted_by order (length v) v v1 s1 -> sorted_by order (length v) v v2 s2 ->
  v1 = v2 /\ forall k, k < length v -> s1 k = s2 k.
Proof. exact (sorted_by_unique nan h order v v1 v2 s1 s2). Qed.
Print Assumptions C28_unique.

Example C28_nonvacuous : let v := map f_of_Z [3; 1; 2; 1]%Z in
  length v <= nc (fmat 4 [[1;2;3;4];[5;6;7;8]]%Z) /\ 2 <= length v /\ forall a, In a v -> ~ a = S754_nan.
Proof. split; [|split]; [simpl; lia|simpl; lia|]. intros a ha. repeat destruct ha as [<-|ha]; try discriminate. destruct ha. Qed.
Example C28_run :
  (let* (v, m) := sort_eig (N:=FN) (map f_of_Z [3; 1; 2; 1]%Z) (fmat 4 [[1;2;3;4];[5;6;7;8]]%Z) Smallest in Ret (map fq v, map (map fq) (rows m)))%res =
    Ret (map fq (map f_of_Z [1;1;2;3]%Z), map (map fq) (map (map f_of_Z) [[2;4;3;1];[6;8;7;5]]%Z)) /\
  (let* v := sort_vals (N:=FN) (map f_of_Z [3; 1; 2; 1]%Z) Largest in Ret (map fq v))%res = Ret (map fq (map f_of_Z [3;2;1;1]%Z)) /\
  sort_vals (N:=FN) [f_of_Z 1; fnan] Largest = Panicked /\ sort_vals (N:=FN) [fnan] Largest = Ret [fnan].
Proof. split; [|split; [|split]]; vm_compute; reflexivity. Qed.

(** C29 *)
Definition same_cols {N : Num} n (sg : nat -> nat) (u u' : option (mat N)) : Prop :=
  match u, u' with
  | Some u, Some u' => nr u' = nr u /\ nc u' = nc u /\ forall i k, i < nr u -> k < n -> get u' i k = get u i (sg k)
  | None, None => True
  | _, _ => False
  end.
Definition same_rows {N : Num} n (sg : nat -> nat) (v v' : option (mat N)) : Prop :=
  match v, v' with
  | Some v, Some v' => nr v' = nr v /\ nc v' = nc v /\ forall k j, k < n -> j < nc v -> get v' k j = get v (sg k) j
  | None, None => True
  | _, _ => False
  end.
Theorem C29_sorts (N : Num) nan (h : num_order N nan) order (s : list N) (u vt : option (mat N)) :
  (match u with Some u => length s <= nc u | None => True end) ->
  (match vt with Some v => length s <= nr v | None => True end) ->
  (length s <= 1 \/ forall a, In a s -> ~ nan a) ->
  exists u' s' vt' sg, sort_svd (u, s, vt) order = Ret (u', s', vt') /\ sorted_by order (length s) s s' sg /\
    same_cols (length s) sg u u' /\ same_rows (length s) sg vt vt'.
Proof.
  intros h1 h2 h3. destruct (sort_svd_ok nan h order s u vt h1 h2 h3) as (u' & s' & vt' & sg & e & _ & k). exists u', s', vt', sg. auto.
Qed.
Print Assumptions C29_sorts.

Theorem C29_panics_iff_nan (N : Num) nan (h : num_order N nan) order (s : list N) (u vt : option (mat N)) :
  (match u with Some u => length s <= nc u | None => True end) ->
  (match vt with Some v => length s <= nr v | None => True end) -> 2 <= length s ->
  ((exists a, In a s /\ nan a) <-> sort_svd (u, s, vt) order = Panicked).
Proof.
  intros h1 h2 h3. destruct (any_nan nan h s) as [hn|hn].
  - pose proof (sort_svd_bad nan h order s u vt h3 hn). tauto.
  - destruct (C29_sorts N nan h order s u vt h1 h2 (or_intror hn)) as (u' & s' & vt' & sg & e & _). rewrite e.
    split; [intros (a & k1 & k2); exfalso; exact (hn a k1 k2)|discriminate].
Qed.
Print Assumptions C29_panics_iff_nan.

(** Exact arithmetic: the product is unchanged *)
Theorem C29_product order (s : list RN) (u vt : mat RN) : length s <= nc u -> length s <= nr vt ->
  exists u' s' vt', sort_svd (Some u, s, Some vt) order = Ret (Some u', s', Some vt') /\
    mmul (length s) (ent u') (mmul (length s) (mdiag (vent s')) (ent vt')) =[nr u, nc vt]=
    mmul (length s) (ent u) (mmul (length s) (mdiag (vent s)) (ent vt)).
Proof.
  intros h1 h2. destruct (C29_sorts RN _ num_order_R order s (Some u) (Some vt) h1 h2 (or_intror (fun _ _ f => f))) as (u' & s' & vt' & sg & e & hs & hu & hv).
  destruct u' as [u'|]; [|destruct hu]. destruct vt' as [vt'|]; [|destruct hv].
  destruct hu as (_ & _ & hu), hv as (_ & _ & hv), hs as (_ & hp & hg & _).
  exists u', s', vt'. split; auto. intros i j hi hj.
  assert (d : forall (S : nat -> R) (B : M) k, k < length s -> mmul (length s) (mdiag S) B k j = (S k * B k j)%R).
  { intros S B k hk. unfold mmul, mdiag. rewrite (Rsum_single _ k _ hk); auto; [rewrite Nat.eqb_refl; auto|].
    intros l hl hn. destruct (Nat.eqb_spec k l); [congruence|]. lra. }
  unfold mmul at 1 3. rewrite <- (Rsum_perm (length s) sg (fun k => (ent u i k * mmul (length s) (mdiag (vent s)) (ent vt) k j)%R)) by auto.
  apply Rsum_ext. intros k hk. rewrite !d by (auto; apply hp; auto). unfold ent, vent. rewrite hu, hv, hg by auto. reflexivity.
Qed.
Print Assumptions C29_product.

Example C29_nonvacuous : let s := map IZR [1; 3]%Z in
  length s <= nc (rmat 2 [[1;2];[3;4];[5;6]]%Z) /\ length s <= nr (rmat 3 [[1;2;3];[4;5;6]]%Z).
Proof. simpl. lia. Qed.
Example C29_run :
  (let* (x, vt) := sort_svd (N:=FN) (Some (fmat 2 [[1;2];[3;4];[5;6]]%Z), map f_of_Z [1; 3]%Z, Some (fmat 3 [[1;2;3];[4;5;6]]%Z)) Largest in
   Ret (option_map (fun u => map (map fq) (rows u)) (fst x), map fq (snd x), option_map (fun u => map (map fq) (rows u)) vt))%res =
  Ret (Some (map (map fq) (map (map f_of_Z) [[2;1];[4;3];[6;5]]%Z)), map fq (map f_of_Z [3;1]%Z), Some (map (map fq) (map (map f_of_Z) [[4;5;6];[1;2;3]]%Z))) /\
  (let* (x, vt) := sort_svd (N:=FN) (None, map f_of_Z [3; 1]%Z, None) Smallest in Ret (fst x, map fq (snd x), vt))%res = Ret (None, map fq (map f_of_Z [1; 3]%Z), None).
Proof. split; vm_compute; reflexivity. Qed.
