(** Theorems C27-C29. *)
From Coq Require Import List Arith ZArith Bool Sorted Permutation Lia.
From Verif Require Import PidModel LinModel LinSpec LinProofs LinProofs2 LinProofs3.
Import ListNotations.
Open Scope nat_scope.

(** C27.  For every exact arithmetic [chk] (unbounded or any machine width) and every totally ordered basis. *)
Theorem C27_add : forall B chk cmp (v w u : list (Z * B)), exact chk -> total_order cmp -> canonical_vec cmp v -> canonical_vec cmp w ->
  vadd chk cmp v w = Some u -> canonical_vec cmp u /\ forall b, coeff cmp u b = (coeff cmp v b + coeff cmp w b)%Z.
Proof. intros B chk cmp v w u Hc Ht [Hv _] [Hw _]. apply vadd_spec; assumption. Qed.
Print Assumptions C27_add.

Theorem C27_neg : forall B chk cmp (v u : list (Z * B)), exact chk -> total_order cmp -> canonical_vec cmp v -> vneg chk v = Some u ->
  canonical_vec cmp u /\ forall b, coeff cmp u b = (- coeff cmp v b)%Z.
Proof.
  intros B chk cmp v u Hc Ht Hv H. split; [apply (scale_canonical cmp chk Hc (-1) v u); auto; lia|].
  intros b. destruct (scale_spec cmp chk Hc _ _ _ H) as (_ & H2 & _). rewrite H2. lia.
Qed.
Print Assumptions C27_neg.

Theorem C27_sub : forall B chk cmp (v w u : list (Z * B)), exact chk -> total_order cmp -> canonical_vec cmp v -> canonical_vec cmp w ->
  vsub chk cmp v w = Some u -> canonical_vec cmp u /\ forall b, coeff cmp u b = (coeff cmp v b - coeff cmp w b)%Z.
Proof.
  intros B chk cmp v w u Hc Ht Hv Hw. unfold vsub. destruct (vneg chk w) as [w'|] eqn:E; cbn [obind]; [|discriminate]. intros H.
  destruct (C27_neg B chk cmp w w' Hc Ht Hw E) as [H1 H2]. destruct (C27_add B chk cmp v w' u Hc Ht Hv H1 H) as [H3 H4].
  split; [exact H3|]. intros b. rewrite H4, H2. lia.
Qed.
Print Assumptions C27_sub.

Theorem C27_scale : forall B chk cmp (v u : list (Z * B)) c, exact chk -> total_order cmp -> canonical_vec cmp v -> vmul chk v c = Some u ->
  canonical_vec cmp u /\ forall b, coeff cmp u b = (c * coeff cmp v b)%Z.
Proof.
  intros B chk cmp v u c Hc Ht Hv. unfold vmul. destruct (c =? 0)%Z eqn:E.
  - intros [= <-]. split; [split; constructor|]. intros b. cbn. lia.
  - intros H. split; [apply (scale_canonical cmp chk Hc c v u); auto; lia|].
    intros b. destruct (scale_spec cmp chk Hc _ _ _ H) as (_ & H2 & _). apply H2.
Qed.
Print Assumptions C27_scale.

(** Without overflow none of these operations panics. *)
Theorem C27_no_panic : forall B cmp (v w : list (Z * B)) vs c, total_order cmp ->
  (exists u, vsum ideal cmp vs = Some u) /\ (exists u, vadd ideal cmp v w = Some u) /\ (exists u, vsub ideal cmp v w = Some u) /\
  (exists u, vneg ideal v = Some u) /\ (exists u, vmul ideal v c = Some u).
Proof.
  intros B cmp v w vs c Ht. split; [now apply vsum_ideal|]. split; [now apply vsum_ideal|].
  split; [|split; [apply scale_ideal|]].
  - unfold vsub. destruct (scale_ideal (-1) w) as [w' E]. unfold vneg. rewrite E. cbn [obind]. now apply (vsum_ideal cmp Ht [v; w']).
  - unfold vmul. destruct (c =? 0)%Z; [eauto|apply scale_ideal].
Qed.
Print Assumptions C27_no_panic.

(** Indexing reads the coefficient and panics exactly when it is zero. *)
Theorem C27_index : forall B cmp (v : list (Z * B)) b, total_order cmp -> canonical_vec cmp v ->
  vindex cmp v b = (if (coeff cmp v b =? 0)%Z then None else Some (coeff cmp v b)).
Proof. intros. now apply vindex_spec. Qed.
Print Assumptions C27_index.

(** Equality of stored vectors is equality of all coefficients. *)
Theorem C27_equality : forall B cmp (v w : list (Z * B)), total_order cmp -> canonical_vec cmp v -> canonical_vec cmp w ->
  (v = w <-> forall b, coeff cmp v b = coeff cmp w b).
Proof. intros B cmp v w Ht Hv Hw. split; [intros ->; reflexivity|]. now apply canonical_ext. Qed.
Print Assumptions C27_equality.

(** Everything that can be built from distinct basis elements with the public operations is canonical. *)
Inductive built_vec {B} (chk : Z -> option Z) (cmp : B -> B -> comparison) : list (Z * B) -> Prop :=
| bv_zero : built_vec chk cmp vzero
| bv_from b : built_vec chk cmp (vfrom b)
| bv_from_vec bs : NoDup bs -> built_vec chk cmp (vfrom_vec cmp bs)
| bv_remove v i x u : built_vec chk cmp v -> vremove v i = Some (x, u) -> built_vec chk cmp u
| bv_add v w u : built_vec chk cmp v -> built_vec chk cmp w -> vadd chk cmp v w = Some u -> built_vec chk cmp u
| bv_sub v w u : built_vec chk cmp v -> built_vec chk cmp w -> vsub chk cmp v w = Some u -> built_vec chk cmp u
| bv_neg v u : built_vec chk cmp v -> vneg chk v = Some u -> built_vec chk cmp u
| bv_mul v c u : built_vec chk cmp v -> vmul chk v c = Some u -> built_vec chk cmp u
| bv_add_b v b u : built_vec chk cmp v -> vadd_basis chk cmp v b = Some u -> built_vec chk cmp u
| bv_sub_b v b u : built_vec chk cmp v -> vsub_basis chk cmp v b = Some u -> built_vec chk cmp u
| bv_badd a b u : b_add chk cmp a b = Some u -> built_vec chk cmp u
| bv_badd_v a v u : built_vec chk cmp v -> b_add_vec chk cmp a v = Some u -> built_vec chk cmp u
| bv_bsub a b u : b_sub chk cmp a b = Some u -> built_vec chk cmp u
| bv_bsub_v a v u : built_vec chk cmp v -> b_sub_vec chk cmp a v = Some u -> built_vec chk cmp u
| bv_bscale c b u : b_scale chk c b = Some u -> built_vec chk cmp u
| bv_bneg b u : b_neg chk b = Some u -> built_vec chk cmp u.
Theorem C27_built_canonical : forall B chk cmp (v : list (Z * B)), exact chk -> total_order cmp -> built_vec chk cmp v -> canonical_vec cmp v.
Proof.
  intros B chk cmp v Hc Ht H.
  induction H.
  - split; constructor.
  - apply vfrom_canonical.
  - now apply vfrom_vec_canonical.
  - eapply vremove_canonical; eassumption.
  - apply (C27_add B chk cmp v w u); auto.
  - apply (C27_sub B chk cmp v w u); auto.
  - apply (C27_neg B chk cmp v u); auto.
  - apply (C27_scale B chk cmp v u c); auto.
  - apply (C27_add B chk cmp v (vfrom b) u); auto. apply vfrom_canonical.
  - apply (C27_sub B chk cmp v (vfrom b) u); auto. apply vfrom_canonical.
  - apply (C27_add B chk cmp (vfrom a) (vfrom b) u); auto; apply vfrom_canonical.
  - apply (C27_add B chk cmp (vfrom a) v u); auto. apply vfrom_canonical.
  - apply (C27_sub B chk cmp (vfrom a) (vfrom b) u); auto; apply vfrom_canonical.
  - apply (C27_sub B chk cmp (vfrom a) v u); auto. apply vfrom_canonical.
  - apply (C27_scale B chk cmp (vfrom b) u c); auto. apply vfrom_canonical.
  - apply (C27_neg B chk cmp (vfrom b) u); auto. apply vfrom_canonical.
Qed.
Print Assumptions C27_built_canonical.

(** Coefficients of the constructors. *)
Theorem C27_from : forall B cmp (bs : list B) b x, total_order cmp ->
  coeff cmp (vfrom b) x = (match cmp b x with Eq => 1 | _ => 0 end)%Z /\
  coeff cmp (vfrom_vec cmp bs) x = Z.of_nat (length (filter (fun y => match cmp y x with Eq => true | _ => false end) bs)).
Proof. intros B cmp bs b x Ht. split; [apply vfrom_coeff|apply (vfrom_vec_coeff cmp bs x)]. Qed.
Print Assumptions C27_from.

(** Sums of any number of vectors: stored coefficients always add up to the right totals, and the result is canonical when the
    summands have at most one term each or pairwise disjoint supports. *)
Theorem C27_sum_partial : forall B chk cmp vs (u : list (Z * B)), exact chk -> total_order cmp -> Forall (canonical_vec cmp) vs ->
  vsum chk cmp vs = Some u ->
  (forall b, coeff cmp u b = fold_right (fun v s => coeff cmp v b + s)%Z 0%Z vs) /\ Forall (fun x => fst x <> 0%Z) u /\
  (Forall (fun v => length v <= 1) vs \/ NoDup (map snd (concat vs)) -> canonical_vec cmp u).
Proof.
  intros B chk cmp vs u Hc Ht HF H. split; [|split].
  - intros b. rewrite (vsum_total chk cmp Hc Ht _ _ b H). clear. induction vs as [|v vs IH]; cbn; [reflexivity|].
    rewrite coeff_app, IH. reflexivity.
  - eapply sum_loop_nonzero. exact H.
  - intros [Hl|Hn]; [eapply vsum_single; eassumption|]. eapply vsum_disjoint; try eassumption.
    eapply Forall_impl; [|exact HF]. intros v [Hs _]. exact Hs.
Qed.
Print Assumptions C27_sum_partial.

(** But the sum of three canonical vectors can store the same basis element twice, so indexing reports a wrong coefficient. *)
Theorem C27_sum_refuted : exists (vs : list (list (Z * Z))) u, Forall (canonical_vec Z.compare) vs /\ vsum ideal Z.compare vs = Some u /\
  coeff Z.compare u 1%Z = 2%Z /\ vindex Z.compare u 1%Z = Some 1%Z /\ ~ canonical_vec Z.compare u.
Proof.
  exists [vfrom 2%Z; vfrom_vec Z.compare [0; 1]%Z; vfrom_vec Z.compare [0; 1]%Z]. eexists.
  split; [|split; [vm_compute; reflexivity|split; [reflexivity|split; [reflexivity|]]]].
  - repeat constructor; cbn; lia.
  - intros [H _]. inversion H as [|? ? H1 _]; subst. inversion H1 as [|? ? _ H2]; subst. inversion H2; subst. cbn in *. discriminate.
Qed.
Print Assumptions C27_sum_refuted.
(** And building a vector from a list with a repeated element does not merge the repetition. *)
Theorem C27_from_refuted : exists bs : list Z, coeff Z.compare (vfrom_vec Z.compare bs) 5%Z = 2%Z /\ vindex Z.compare (vfrom_vec Z.compare bs) 5%Z = Some 1%Z.
Proof. exists [5; 5]%Z. split; reflexivity. Qed.
Print Assumptions C27_from_refuted.

(** Vector-space laws, as equalities of stored vectors. *)
Theorem C27_laws : forall B cmp (u v w : list (Z * B)), total_order cmp -> canonical_vec cmp u -> canonical_vec cmp v -> canonical_vec cmp w ->
  vadd ideal cmp v w = vadd ideal cmp w v /\
  (do x <- vadd ideal cmp u v; vadd ideal cmp x w) = (do x <- vadd ideal cmp v w; vadd ideal cmp u x) /\
  vadd ideal cmp v vzero = Some v /\ vsub ideal cmp v v = Some vzero /\
  (forall c, (do x <- vadd ideal cmp v w; vmul ideal x c) = (do x <- vmul ideal v c; do y <- vmul ideal w c; vadd ideal cmp x y)).
Proof.
  intros B cmp u v w Ht Hu Hv Hw.
  assert (He := exact_ideal).
  assert (A : forall x y, canonical_vec cmp x -> canonical_vec cmp y -> exists z, vadd ideal cmp x y = Some z /\ canonical_vec cmp z /\
             forall b, coeff cmp z b = (coeff cmp x b + coeff cmp y b)%Z).
  { intros x y Hx Hy. destruct (vsum_ideal cmp Ht [x; y]) as [z Hz]. exists z. split; [exact Hz|].
    apply (C27_add B ideal cmp x y z); auto. }
  assert (M : forall x c, canonical_vec cmp x -> exists z, vmul ideal x c = Some z /\ canonical_vec cmp z /\
             forall b, coeff cmp z b = (c * coeff cmp x b)%Z).
  { intros x c Hx. destruct (C27_no_panic B cmp x x [] c Ht) as (_ & _ & _ & _ & z & Hz). exists z. split; [exact Hz|].
    apply (C27_scale B ideal cmp x z c); auto. }
  split; [|split; [|split; [|split]]].
  - destruct (A v w Hv Hw) as (z & -> & Z1 & Z2). destruct (A w v Hw Hv) as (z' & -> & Z1' & Z2'). f_equal.
    apply (canonical_ext cmp); auto. intros b. rewrite Z2, Z2'. lia.
  - destruct (A u v Hu Hv) as (z & -> & Z1 & Z2). destruct (A v w Hv Hw) as (z' & -> & Z1' & Z2'). cbn [obind].
    destruct (A z w Z1 Hw) as (a & -> & A1 & A2). destruct (A u z' Hu Z1') as (a' & -> & A1' & A2'). f_equal.
    apply (canonical_ext cmp); auto. intros b. rewrite A2, A2', Z2, Z2'. lia.
  - destruct (A v vzero Hv) as (z & -> & Z1 & Z2); [split; constructor|]. f_equal. apply (canonical_ext cmp); auto.
    intros b. rewrite Z2. cbn. lia.
  - destruct (C27_no_panic B cmp v v [] 0%Z Ht) as (_ & _ & (z & Hz) & _). rewrite Hz. f_equal.
    destruct (C27_sub B ideal cmp v v z He Ht Hv Hv Hz) as [Z1 Z2].
    apply (canonical_ext cmp); auto; [split; constructor|]. intros b. rewrite Z2. cbn. lia.
  - intros c. destruct (A v w Hv Hw) as (z & -> & Z1 & Z2). destruct (M v c Hv) as (x & -> & X1 & X2). destruct (M w c Hw) as (y & -> & Y1 & Y2).
    cbn [obind]. destruct (M z c Z1) as (p & -> & P1 & P2). destruct (A x y X1 Y1) as (q & -> & Q1 & Q2). f_equal.
    apply (canonical_ext cmp); auto. intros b. rewrite P2, Q2, X2, Y2, Z2. lia.
Qed.
Print Assumptions C27_laws.

Example C27_nontrivial : exists v w, canonical_vec Z.compare v /\ canonical_vec Z.compare w /\
  vadd (width 64) Z.compare v w = Some [(3, 0); (4, 7); (1, 9)]%Z /\ vsub (width 64) Z.compare v w = Some [(-1, 0); (4, 5); (4, 7); (-1, 9)]%Z.
Proof. exists [(1, 0); (2, 5); (4, 7)]%Z, [(2, 0); (-2, 5); (1, 9)]%Z. split; [|split; [|split; reflexivity]]; repeat constructor; cbn; lia. Qed.

(** C28 *)
Theorem C28_merge_permutation : forall T f (i j : list T), exists r, merge_collect f i j = Some r /\ Permutation (i ++ j) r.
Proof. intros. eexists. split; [apply merge_collect_eq|apply merge_spec_perm]. Qed.
Print Assumptions C28_merge_permutation.
(** Sorted output when one side is short. *)
Theorem C28_merge_sorted_partial : forall T f (i j : list T), total_order f -> sorted_by f i -> sorted_by f j -> i = [] \/ length j <= 1 ->
  exists r, merge_collect f i j = Some r /\ sorted_by f r.
Proof.
  intros T f i j Ht Hi Hj H. eexists. split; [apply merge_collect_eq|]. apply merge_spec_sorted; auto.
  - now apply cmp_le_trans.
  - now apply cmp_opp.
Qed.
Print Assumptions C28_merge_sorted_partial.
Theorem C28_merge_sorted_refuted : exists (i j r : list Z), sorted_by Z.compare i /\ sorted_by Z.compare j /\
  merge_collect Z.compare i j = Some r /\ ~ sorted_by Z.compare r.
Proof.
  exists [5]%Z, [1; 2]%Z, [1; 5; 2]%Z. split; [repeat constructor|]. split; [repeat constructor; discriminate|]. split; [reflexivity|].
  intros H. inversion H as [|? ? H1 _]; subst. inversion H1 as [|? ? _ H2]; subst. inversion H2 as [|? ? H3 _]; subst. now apply H3.
Qed.
Print Assumptions C28_merge_sorted_refuted.
Example C28_nontrivial : merge_collect Z.compare [1; 3; 9]%Z [4]%Z = Some [1; 3; 4; 9]%Z. Proof. reflexivity. Qed.

(** C29 *)
(** On data in invariant-factor form (units allowed, they are dropped) the test decides isomorphism of the described groups. *)
Theorem C29_isomorphism_test_partial : forall r ds s es,
  invariant_factors (filter (fun d => negb (fst d =? 1)%Z) ds) -> invariant_factors (filter (fun d => negb (fst d =? 1)%Z) es) ->
  (is_isomorphic_to (module_new r ds) (module_new s es) = true <-> group_iso (group_of r ds) (group_of s es)).
Proof. exact module_iso_spec. Qed.
Print Assumptions C29_isomorphism_test_partial.
(** A positive answer is right for arbitrary data. *)
Theorem C29_isomorphism_sound : forall r ds s es,
  is_isomorphic_to (module_new r ds) (module_new s es) = true -> group_iso (group_of r ds) (group_of s es).
Proof. exact module_iso_sound. Qed.
Print Assumptions C29_isomorphism_sound.
Theorem C29_is_zero : forall r ds, Forall (fun d => fst d = 1%Z \/ (1 < fst d)%Z /\ 0 < snd d) ds ->
  (module_is_zero (module_new r ds) = true <->
   forall x y, gelt (group_of r ds) x -> gelt (group_of r ds) y -> geq (group_of r ds) x y).
Proof. exact module_zero_spec. Qed.
Print Assumptions C29_is_zero.
(** On arbitrary divisor lists (which the constructor accepts) a negative answer can be wrong. *)
Theorem C29_isomorphism_refuted : exists r ds s es, group_iso (group_of r ds) (group_of s es) /\
  is_isomorphic_to (module_new r ds) (module_new s es) = false.
Proof.
  exists 0, [(2%Z, 1); (3%Z, 1)], 0, [(3%Z, 1); (2%Z, 1)]. split; [|reflexivity].
  change (group_iso [2; 3]%Z [3; 2]%Z).
  assert (G : forall a b, ghom [a; b] [b; a] (@rev Z)).
  { intros a b. split; [|split].
    - unfold gelt. intros x. rewrite rev_length. auto.
    - intros [|x0 [|x1 [|? ?]]] [|y0 [|y1 [|? ?]]] (H1 & H2 & H); try discriminate.
      split; [reflexivity|]. split; [reflexivity|]. intros [|[|i]] Hi; cbn.
      + apply (H 1). cbn; lia.
      + apply (H 0). cbn; lia.
      + cbn in Hi; lia.
    - unfold gelt. intros [|x0 [|x1 [|? ?]]] [|y0 [|y1 [|? ?]]] H1 H2; try discriminate. apply geq_refl. reflexivity. }
  exists (@rev Z), (@rev Z). split; [apply G|]. split; [apply G|]. split; intros x Hx; rewrite rev_involutive; now apply geq_refl.
Qed.
Print Assumptions C29_isomorphism_refuted.
Example C29_nontrivial : invariant_factors [(2%Z, 2); (8%Z, 1); (24%Z, 2)] /\
  is_isomorphic_to (module_new 2 [(1%Z, 3); (2%Z, 2); (8%Z, 1)]) (module_new 2 [(2%Z, 2); (8%Z, 1)]) = true.
Proof.
  split; [|reflexivity]. split; [repeat constructor; cbn; lia|].
  assert (H1 : (2 | 8)%Z) by (exists 4%Z; lia). assert (H2 : (2 | 24)%Z) by (exists 12%Z; lia). assert (H3 : (8 | 24)%Z) by (exists 3%Z; lia).
  repeat constructor; cbn; auto; lia.
Qed.
