(** The loop of [lll_lattice_reduce]. *)
From Coq Require Import List Arith Bool Lia ZifyBool Reals Lra ZArith.
From Verif Require Import PidModel MatModel MatSpec MatProofs MatProofs2 SnfModel RankModel LuModel LuSpec LuProofs LuProofs2 NumModel NumSpec NumProofs GsProofs LllProofs.
Import ListNotations.
Open Scope R_scope.

(** Rounding. *)
Lemma rround_int x : exists z, rround x = IZR z.
Proof. unfold rround. destruct (rleb 0 x); [now eexists|]. exists (- Int_part (- x + / 2))%Z. now rewrite opp_IZR. Qed.
Lemma rround_close x : Rabs (x - rround x) <= / 2.
Proof.
  unfold rround. destruct (rleb_spec 0 x); apply Rabs_le.
  - pose proof (base_Int_part (x + / 2)). lra.
  - pose proof (base_Int_part (- x + / 2)). lra.
Qed.

(** Lattices. *)
Lemma lattice_ext n m A x y : (forall r, (r < n)%nat -> x r = y r) -> lattice n m A x -> lattice n m A y.
Proof. intros E (s & H). exists s. intros r Hr. now rewrite <- E, H. Qed.
Lemma lattice_zero n c A : lattice n c A (fun _ => 0).
Proof. exists (fun _ => 0%Z). intros r Hr. symmetry. apply rsum_zero. intros. ring. Qed.
Lemma lattice_add n c A x y : lattice n c A x -> lattice n c A y -> lattice n c A (fun r => x r + y r).
Proof. intros (s & H) (t & K). exists (fun l => s l + t l)%Z. intros r Hr. rewrite H, K, <- rsum_add by exact Hr. apply rsum_ext. intros. rewrite plus_IZR. ring. Qed.
Lemma lattice_scale n c A k x : lattice n c A x -> lattice n c A (fun r => IZR k * x r).
Proof. intros (s & H). exists (fun l => k * s l)%Z. intros r Hr. rewrite H, <- rsum_mul_l by exact Hr. apply rsum_ext. intros. rewrite mult_IZR. ring. Qed.
Lemma lattice_col n c A l : (l < c)%nat -> lattice n c A (column A l).
Proof.
  intros Hl. exists (fun i => if (i =? l)%nat then 1%Z else 0%Z). intros r Hr. rewrite (rsum_single c l); [rewrite Nat.eqb_refl; unfold column; ring|exact Hl|]. intros i Hi N. destruct (Nat.eqb_spec i l); [lia|ring].
Qed.
Lemma lattice_sum n c A m (f : nat -> nat -> R) : (forall l, (l < m)%nat -> lattice n c A (f l)) -> lattice n c A (fun r => sum m (fun l => f l r)).
Proof.
  induction m as [|m IH]; intros H; [apply (lattice_ext n c A (fun _ => 0)); [reflexivity|apply lattice_zero]|].
  apply (lattice_ext n c A (fun r => sum m (fun l => f l r) + f m r)); [intros; now rewrite rsum_S|]. apply lattice_add; [apply IH; intros; apply H; lia|apply H; lia].
Qed.
Lemma lattice_trans n c A m B x : (forall l, (l < m)%nat -> lattice n c A (column B l)) -> lattice n m B x -> lattice n c A x.
Proof.
  intros H (s & E). apply (lattice_ext n c A (fun r => sum m (fun l => IZR (s l) * B r l))); [intros r Hr; rewrite E by exact Hr; apply rsum_ext; intros; ring|].
  apply (lattice_sum n c A m (fun l r => IZR (s l) * B r l)). intros l Hl. apply (lattice_scale n c A (s l) (column B l)). now apply H.
Qed.
Definition same_lattice (n m : nat) (A B : nat -> nat -> R) : Prop := (forall l, (l < m)%nat -> lattice n m A (column B l)) /\ (forall l, (l < m)%nat -> lattice n m B (column A l)).
Lemma same_lattice_refl n m A : same_lattice n m A A. Proof. split; intros; now apply lattice_col. Qed.
Lemma same_lattice_trans n m A B C : same_lattice n m A B -> same_lattice n m B C -> same_lattice n m A C.
Proof. intros (H1 & H2) (K1 & K2). split; intros l Hl; [apply (lattice_trans n m A m B); auto|apply (lattice_trans n m C m B); auto]. Qed.
Lemma addcol_lattice n m A i j z : (j < i < m)%nat -> same_lattice n m A (addcol A i j (IZR z)).
Proof.
  intros H. split; intros l Hl.
  - destruct (Nat.eq_dec l i) as [->|N].
    + apply (lattice_ext n m A (fun r => column A i r + IZR (- z) * column A j r)); [intros; unfold column, addcol; rewrite Nat.eqb_refl, opp_IZR; ring|]. apply lattice_add; [|apply lattice_scale]; apply lattice_col; lia.
    + apply (lattice_ext n m A (column A l)); [intros; unfold column, addcol; now replace (l =? i)%nat with false by lia|now apply lattice_col].
  - set (B := addcol A i j (IZR z)). destruct (Nat.eq_dec l i) as [->|N].
    + apply (lattice_ext n m B (fun r => column B i r + IZR z * column B j r)); [intros; unfold column, B, addcol; rewrite Nat.eqb_refl; replace (j =? i)%nat with false by lia; ring|]. apply lattice_add; [|apply lattice_scale]; apply lattice_col; lia.
    + apply (lattice_ext n m B (column B l)); [intros; unfold column, B, addcol; now replace (l =? i)%nat with false by lia|now apply lattice_col].
Qed.
Lemma swapcol_lattice n m A p : (p + 1 < m)%nat -> same_lattice n m A (swapcol A p).
Proof.
  intros H. assert (forall l, (l < m)%nat -> (swp p l < m)%nat) as K by (intros l Hl; unfold swp; destruct (Nat.eqb_spec l p), (Nat.eqb_spec l (p + 1)); lia). split; intros l Hl.
  - change (column (swapcol A p) l) with (column A (swp p l)). apply lattice_col, K, Hl.
  - replace (column A l) with (column (swapcol A p) (swp p l)) by (unfold column, swapcol; now rewrite swp_swp). apply lattice_col, K, Hl.
Qed.

(** The state: the basis [B], its Gram-Schmidt vectors, and a matrix that has their coefficients below the diagonal. *)
Definition coeffs (n m : nat) (B c : nat -> nat -> R) : Prop := forall i j, (j < i < m)%nat -> c i j = gmu n B i j.
Definition lst (n m : nat) (B c : nat -> nat -> R) : lll_st := LllSt (mk n m B) (mk n m (fun r k => gvec n B k r)) (mk m m c).
Lemma gs_coeff_mk n m B c : pos_upto n m B ->
  gs_coeff (mk m m c) (mk n m B) (mk n m (fun r k => gvec n B k r)) = Some (mk m m (fun i j => if (j <? i)%nat then gmu n B i j else c i j)).
Proof.
  intros P. unfold gs_coeff. cbn [nc mk]. unfold rng at 2. rewrite Nat.sub_0_r.
  rewrite (foldM_seq0 _ (fun k => mk m m (fun i j => if ((j <? i) && (i <? k))%nat then gmu n B i j else c i j))).
  - f_equal. apply mk_ext. intros i j Hi Hj. replace (i <? m)%nat with true by lia. now rewrite andb_true_r.
  - apply mk_ext. intros i j _ _. replace (i <? 0)%nat with false by lia. now rewrite andb_false_r.
  - intros k Hk. unfold rng. rewrite Nat.sub_0_r.
    rewrite (foldM_seq0 _ (fun q => mk m m (fun i j => if ((j <? i) && (i <? k) || (i =? k) && (j <? q))%nat then gmu n B i j else c i j))).
    + f_equal. apply mk_ext. intros i j Hi Hj. replace ((j <? i) && (i <? k) || (i =? k) && (j <? k))%nat with ((j <? i) && (i <? k + 1))%nat by lia. reflexivity.
    + apply mk_ext. intros i j _ _. replace ((j <? i) && (i <? k) || (i =? k) && (j <? 0))%nat with ((j <? i) && (i <? k))%nat by lia. reflexivity.
    + intros q Hq. fold (mk n m B). fold (mk n m (fun r k => gvec n B k r)). rewrite !mcol_mk by lia. cbn [obind]. rewrite !cdot_mk. cbn [obind].
      change (column (fun i _ : nat => B i k) 0) with (column B k). change (column (fun i _ : nat => gvec n B q i) 0) with (gvec n B q).
      rewrite (fdiv_some field_ok_R) by (apply (P q); lia). cbn [obind]. rewrite mset_mk by lia. f_equal. apply mk_ext. intros i j Hi Hj.
      destruct ((i =? k) && (j =? q))%nat eqn:E.
      * replace ((j <? i) && (i <? k) || (i =? k) && (j <? q + 1))%nat with true by lia. replace i with k by lia. replace j with q by lia. reflexivity.
      * replace ((j <? i) && (i <? k) || (i =? k) && (j <? q + 1))%nat with ((j <? i) && (i <? k) || (i =? k) && (j <? q))%nat by lia. reflexivity.
Qed.
Lemma refresh_mk n m B c : (0 < m)%nat -> pos_upto n m B -> exists c', lll_refresh (mk n m B) (mk m m c) = Some (lst n m B c') /\ coeffs n m B c'.
Proof.
  intros Hm P. unfold lll_refresh. rewrite gsw_some by (try assumption; intros; apply P; lia). cbn [obind]. rewrite gs_coeff_mk by exact P. cbn [obind].
  exists (fun i j => if (j <? i)%nat then gmu n B i j else c i j). split; [reflexivity|]. intros i j H. now replace (j <? i)%nat with true by lia.
Qed.
Lemma reduce_step_mk n m B c i j : (j < i < m)%nat -> pos_upto n m B -> coeffs n m B c ->
  exists z c', lll_reduce_step i (lst n m B c) j = Some (lst n m (addcol B i j (IZR z)) c') /\ coeffs n m (addcol B i j (IZR z)) c' /\ Rabs (gmu n B i j - IZR z) <= / 2.
Proof.
  intros H P C. unfold lll_reduce_step. cbn [l_c l_b lst]. rewrite mget_in by lia. cbn [obind]. rewrite C by exact H. destruct (rleb_spec (Rabs (gmu n B i j)) (/ 2)) as [L|L].
  - exists 0%Z, c. assert (mk n m (addcol B i j 0) = mk n m B) as E by (apply mk_ext; intros r k Hr Hk; unfold addcol; destruct (Nat.eqb_spec k i); subst; ring).
    assert (mk n m (fun r k => gvec n (addcol B i j 0) k r) = mk n m (fun r k => gvec n B k r)) as E2 by (apply mk_ext; intros r k Hr Hk; symmetry; now apply (addcol_gvec n m B i j 0 H P)).
    split; [unfold lst; now rewrite E, E2|]. split; [|now rewrite Rminus_0_r]. intros a b Hab. rewrite (addcol_gmu n m) by assumption. destruct (Nat.eqb_spec a i) as [->|]; rewrite C by exact Hab; ring.
  - destruct (rround_int (gmu n B i j)) as (z & Ez). rewrite Ez. rewrite !mcol_mk by lia. cbn [obind]. rewrite mscale_mk. cbn [obind]. unfold msub. rewrite mzip_mk. cbn [obind]. rewrite wcol_mk by lia. cbn [obind].
    rewrite (mk_ext n m _ (addcol B i j (IZR z))) by (intros r k Hr Hk; unfold addcol; cbn; destruct (k =? i)%nat; ring).
    destruct (refresh_mk n m (addcol B i j (IZR z)) c ltac:(lia) (addcol_pos n m B i j (IZR z) H P)) as (c' & E & K). exists z, c'. split; [exact E|]. split; [exact K|]. rewrite <- Ez. apply rround_close.
Qed.
(** A basis with the same Gram-Schmidt vectors that generates the same lattice, and differs in column [i] only. *)
Definition reduced_from (n m i : nat) (A B : nat -> nat -> R) : Prop :=
  pos_upto n m B /\ same_lattice n m A B /\ (forall c, (c < m)%nat -> gsq n B c = gsq n A c) /\ (forall c l, (l < c < m)%nat -> c <> i -> gmu n B c l = gmu n A c l).
Lemma reduce_loop n m i A c q : (i < m)%nat -> (q <= i)%nat -> pos_upto n m A -> coeffs n m A c -> (forall l, (q <= l < i)%nat -> Rabs (gmu n A i l) <= / 2) ->
  exists B c', foldM (lll_reduce_step i) (rev (seq 0 q)) (lst n m A c) = Some (lst n m B c') /\ coeffs n m B c' /\ reduced_from n m i A B /\ (forall l, (l < i)%nat -> Rabs (gmu n B i l) <= / 2).
Proof.
  intros Hi. revert A c. induction q as [|q IH]; intros A c Hq P C S.
  - exists A, c. split; [reflexivity|]. split; [exact C|]. split; [split; [exact P|split; [apply same_lattice_refl|split; auto]]|]. intros l Hl. apply S. lia.
  - rewrite seq_S, rev_app_distr. cbn [rev app foldM Nat.add]. destruct (reduce_step_mk n m A c i q ltac:(lia) P C) as (z & c' & E & C' & L). rewrite E. cbn [obind].
    assert (q < i < m)%nat as Hqi by lia. pose proof (addcol_pos n m A i q (IZR z) Hqi P) as P'.
    destruct (IH (addcol A i q (IZR z)) c' ltac:(lia) P' C') as (B & c'' & E2 & C2 & (R1 & R2 & R3 & R4) & S2).
    + intros l Hl. rewrite (addcol_gmu n m) by (assumption || lia). rewrite Nat.eqb_refl. destruct (Nat.eq_dec l q) as [->|N].
      * rewrite gmu_self by (try (apply P; lia); intros k Hk; apply P; lia). now rewrite Rmult_1_r.
      * rewrite (gmu_above n A q l) by (try lia; intros k Hk; apply P; lia). rewrite Rmult_0_r, Rminus_0_r. apply S. lia.
    + exists B, c''. split; [exact E2|]. split; [exact C2|]. split; [|exact S2]. split; [exact R1|]. split; [apply (same_lattice_trans n m A (addcol A i q (IZR z))); [now apply addcol_lattice|exact R2]|]. split.
      * intros k Hk. rewrite R3 by exact Hk. symmetry. apply gsq_ext. now apply (addcol_gvec n m A i q (IZR z) Hqi P).
      * intros k l Hl N. rewrite R4 by assumption. rewrite (addcol_gmu n m) by assumption. now destruct (Nat.eqb_spec k i).
Qed.

(** The invariant at index [i]. *)
Definition lovasz (n : nat) (delta : R) (B : nat -> nat -> R) (i : nat) : Prop := gsq n B (i - 1) * (delta - gmu n B i (i - 1) * gmu n B i (i - 1)) < gsq n B i.
Definition lll_inv (n m : nat) (delta : R) (B : nat -> nat -> R) (i : nat) : Prop :=
  pos_upto n m B /\ (forall k l, (l < k < i)%nat -> Rabs (gmu n B k l) <= / 2) /\ (forall k, (0 < k < i)%nat -> lovasz n delta B k).
(** What an iteration does: the index grows, or a swap makes the product of the first [i] squares smaller. *)
Fixpoint dprod (n : nat) (B : nat -> nat -> R) (k : nat) : R := match k with 0%nat => 1 | S k => dprod n B k * gsq n B k end.
Lemma dprod_ext n A B k : (forall c, (c < k)%nat -> gsq n A c = gsq n B c) -> dprod n A k = dprod n B k.
Proof. induction k as [|k IH]; intros H; [reflexivity|]. cbn [dprod]. rewrite IH, H by (intros; try apply H; lia). reflexivity. Qed.
Lemma dprod_pos n B k : pos_upto n k B -> 0 < dprod n B k.
Proof.
  induction k as [|k IH]; intros P; cbn [dprod]; [lra|]. apply Rmult_lt_0_compat; [apply IH; intros l Hl; apply P; lia|]. pose proof (gsq_nonneg n B k). pose proof (P k ltac:(lia)). lra.
Qed.
Lemma swap_dprod n m A p k : (p + 1 < m)%nat -> (k <= m)%nat -> pos_upto n m A -> k <> (p + 1)%nat -> dprod n (swapcol A p) k = dprod n A k.
Proof.
  intros H Hk P N. destruct (Nat.lt_ge_cases k (p + 1)) as [L|L]; [apply dprod_ext; intros c Hc; apply gsq_ext, swapcol_low; lia|].
  assert (forall d, (p + 2 + d <= m)%nat -> dprod n (swapcol A p) (p + 2 + d) = dprod n A (p + 2 + d)) as K.
  { induction d as [|d IH]; intros Hd.
    - rewrite Nat.add_0_r. replace (p + 2)%nat with (S (S p)) by lia. cbn [dprod]. rewrite (dprod_ext n (swapcol A p) A p) by (intros c Hc; apply gsq_ext, swapcol_low; lia).
      pose proof (swapcol_sq_p1 n m A p H P) as E. rewrite Nat.add_1_r in E. rewrite !Rmult_assoc. f_equal. rewrite <- E. ring.
    - rewrite Nat.add_succ_r. cbn [dprod]. rewrite IH by lia. f_equal. symmetry. apply gsq_ext. apply (swapcol_high n m); (assumption || lia). }
  specialize (K (k - (p + 2))%nat). replace (p + 2 + (k - (p + 2)))%nat with k in K by lia. apply K. exact Hk.
Qed.
Lemma swap_dprod_less n m A p delta : (p + 1 < m)%nat -> pos_upto n m A -> gsq n A (p + 1) <= gsq n A p * (delta - gmu n A (p + 1) p * gmu n A (p + 1) p) -> dprod n (swapcol A p) (p + 1) <= delta * dprod n A (p + 1).
Proof.
  intros H P L. rewrite Nat.add_1_r. cbn [dprod]. rewrite (dprod_ext n (swapcol A p) A p) by (intros c Hc; apply gsq_ext, swapcol_low; lia). rewrite (swapcol_sq_p n m) by assumption.
  assert (0 < dprod n A p) as D by (apply dprod_pos; intros l Hl; apply P; lia). replace (delta * (dprod n A p * gsq n A p)) with (dprod n A p * (delta * gsq n A p)) by ring. apply Rmult_le_compat_l; lra.
Qed.
Lemma body_mk n m delta A c i : (0 < i < m)%nat -> lll_inv n m delta A i -> coeffs n m A c ->
  exists B c' i', lll_body delta (lst n m A c) i = Some (lst n m B c', i') /\ (0 < i')%nat /\ coeffs n m B c' /\ same_lattice n m A B /\ lll_inv n m delta B i' /\
    (i' = (i + 1)%nat /\ (forall k, (k < m)%nat -> gsq n B k = gsq n A k) \/
     (i' <= i)%nat /\ dprod n B i <= delta * dprod n A i /\ forall k, (k <= m)%nat -> k <> i -> dprod n B k = dprod n A k).
Proof.
  intros Hi (P & S & L) C. destruct (reduce_loop n m i A c i ltac:(lia) ltac:(lia) P C ltac:(intros; lia)) as (B & c1 & E & C1 & (R1 & R2 & R3 & R4) & S1).
  unfold lll_body. unfold rng. rewrite Nat.sub_0_r, E. cbn [obind l_g l_b l_c lst]. rewrite !mcol_mk by lia. cbn [obind]. rewrite !cdot_mk. cbn [obind]. rewrite mget_in by lia. cbn [obind]. rewrite C1 by lia.
  change (inner n (column (fun i0 _ : nat => gvec n B i i0) 0) (column (fun i0 _ : nat => gvec n B i i0) 0)) with (gsq n B i).
  change (inner n (column (fun i0 _ : nat => gvec n B (i - 1) i0) 0) (column (fun i0 _ : nat => gvec n B (i - 1) i0) 0)) with (gsq n B (i - 1)).
  assert (forall k l, (l < k < i + 1)%nat -> Rabs (gmu n B k l) <= / 2) as S2.
  { intros k l Hl. destruct (Nat.eq_dec k i) as [->|N]; [apply S1; lia|]. rewrite R4 by lia. apply S. lia. }
  assert (forall k, (0 < k < i)%nat -> lovasz n delta B k) as L2 by (intros k Hk; unfold lovasz; rewrite !R3, R4 by lia; now apply L).
  destruct (rltb_spec (gsq n B (i - 1) * (delta - gmu n B i (i - 1) * gmu n B i (i - 1))) (gsq n B i)) as [V|V].
  - exists B, c1, (i + 1)%nat. split; [reflexivity|]. split; [lia|]. split; [exact C1|]. split; [exact R2|]. split; [split; [exact R1|split; [exact S2|]]|].
    + intros k Hk. destruct (Nat.eq_dec k i) as [->|N]; [exact V|apply L2; lia].
    + left. split; [reflexivity|exact R3].
  - rewrite swap_cols_mk by lia. cbn [obind]. set (p := (i - 1)%nat) in *. assert (i = p + 1)%nat as Ei by lia.
    rewrite (mk_ext n m _ (swapcol B p)) by (intros r k Hr Hk; unfold swapcol, swp; rewrite Ei; reflexivity).
    assert (p + 1 < m)%nat as Hp by lia. pose proof (swapcol_pos n m B p Hp R1) as P2.
    destruct (refresh_mk n m (swapcol B p) c1 ltac:(lia) P2) as (c2 & E2 & C2). rewrite E2. cbn [obind]. exists (swapcol B p), c2, (Nat.max p 1). split; [reflexivity|]. split; [lia|]. split; [exact C2|].
    split; [apply (same_lattice_trans n m A B); [exact R2|now apply swapcol_lattice]|]. split.
    + split; [exact P2|]. assert (forall k l, (l < k < Nat.max p 1)%nat -> gmu n (swapcol B p) k l = gmu n B k l) as G.
      { intros k l Hl. apply gmu_ext; [lia|]. intros a b Ha Hb. unfold swapcol, swp. replace (b =? p)%nat with false by lia. now replace (b =? p + 1)%nat with false by lia. }
      split; [intros k l Hl; rewrite G by exact Hl; apply S2; lia|]. intros k Hk. unfold lovasz. rewrite G by lia. rewrite !(gsq_ext n (swapcol B p) B) by (apply swapcol_low; lia). apply L2. lia.
    + right. split; [lia|]. split.
      * rewrite Ei. rewrite <- (dprod_ext n B A (p + 1)) by (intros; apply R3; lia). apply (swap_dprod_less n m); [exact Hp|exact R1|]. rewrite <- Ei. lra.
      * intros k Hk N. rewrite (swap_dprod n m) by (assumption || lia). apply dprod_ext. intros; apply R3; lia.
Qed.
Lemma loop_inv n m delta fuel : forall A c i, (0 < i)%nat -> lll_inv n m delta A i -> coeffs n m A c ->
  lll_loop fuel delta (lst n m A c) i = Some None \/ exists B, lll_loop fuel delta (lst n m A c) i = Some (Some (mk n m B)) /\ same_lattice n m A B /\ lll_inv n m delta B m.
Proof.
  induction fuel as [|fuel IH]; intros A c i Hi I C; cbn [lll_loop l_b lst nc mk]; destruct (Nat.ltb_spec i m) as [L|L].
  - now left.
  - right. exists A. split; [reflexivity|]. split; [apply same_lattice_refl|]. destruct I as (I1 & I2 & I3). split; [exact I1|]. split; [intros; apply I2; lia|intros; apply I3; lia].
  - fold (mk n m A). destruct (body_mk n m delta A c i ltac:(lia) I C) as (B & c' & i' & E & Hi' & C' & SL & I' & _). fold (lst n m A c). rewrite E. cbn [obind fst snd].
    destruct (IH B c' i' Hi' I' C') as [K|(D & K & SD & ID)]; [now left|right]. exists D. split; [exact K|]. split; [now apply (same_lattice_trans n m A B)|exact ID].
  - right. exists A. split; [reflexivity|]. split; [apply same_lattice_refl|]. destruct I as (I1 & I2 & I3). split; [exact I1|]. split; [intros; apply I2; lia|intros; apply I3; lia].
Qed.
