(** C83: lattice reduction, over the real numbers.  [None] is a panic or a result that is not finite; [Some None], still running after [fuel] iterations. *)
From Coq Require Import List Arith Bool Lia ZifyBool Reals Lra ZArith.
From Verif Require Import PidModel MatModel MatSpec MatProofs MatProofs2 SnfModel RankModel LuModel LuSpec LuProofs LuProofs2 NumModel NumSpec NumProofs GsProofs GsProps LllProofs LllProofs2 LllProofs3.
Import ListNotations.
Open Scope R_scope.

Lemma lattice_same n m A B x : same n m A B -> lattice n m A x -> lattice n m B x.
Proof. intros H (z & E). exists z. intros i Hi. rewrite E by exact Hi. apply rsum_ext. intros j Hj. now rewrite H. Qed.
Lemma gs_factors_same n m A B G U : same n m A B -> gs_factors n m A G U -> gs_factors n m B G U.
Proof. intros H (O & T & D & E). repeat split; auto. intros i j Hi Hj. rewrite <- H by assumption. now apply E. Qed.
Lemma lll_run n m A delta fuel M : (0 < m <= n)%nat -> / 4 < delta < 1 -> pos_upto n m A -> lll_lattice_reduce fuel (mk n m A) delta = Some (Some M) ->
  exists B, M = mk n m B /\ same_lattice n m A B /\ lll_inv n m delta B m.
Proof.
  intros Hm Hd P E. destruct (lll_start n m A delta Hm Hd P) as (c & E1 & C & I). rewrite E1 in E. destruct (loop_inv n m delta fuel A c 1 ltac:(lia) I C) as [K|(B & K & SL & IB)]; rewrite K in E; [discriminate|].
  injection E as <-. now exists B.
Qed.
(** C83.  For linearly independent columns and [1/4 < delta < 1] it never panics; and what it returns generates the same lattice as the input and
    is reduced. *)
Theorem C83_lll : forall M n m delta, wf M -> nr M = n -> nc M = m -> (0 < m <= n)%nat -> / 4 < delta < 1 -> independent n m (ent M) ->
  forall fuel, lll_lattice_reduce fuel M delta <> None /\
  forall B, lll_lattice_reduce fuel M delta = Some (Some B) ->
    wf B /\ nr B = n /\ nc B = m /\ independent n m (ent B) /\ (forall x, lattice n m (ent B) x <-> lattice n m (ent M) x) /\ lll_reduced n m delta (ent B).
Proof.
  intros M n m delta W RM CM Hm Hd I fuel. pose proof (wf_eq_mk M W) as EM. rewrite RM, CM in EM. set (A := ent M) in *. clearbody A. subst M. pose proof (proj1 (indep_pos n m A) I) as P.
  split.
  - destruct (lll_start n m A delta Hm Hd P) as (c & E & C & J). rewrite E. destruct (loop_inv n m delta fuel A c 1 ltac:(lia) J C) as [->|(B & -> & _)]; discriminate.
  - intros B0 E. destruct (lll_run n m A delta fuel B0 Hm Hd P E) as (B & -> & (S1 & S2) & IB).
    split; [apply wf_mk|]. split; [reflexivity|]. split; [reflexivity|]. split; [|split].
    + apply (independent_ext n m B); [apply same_sym, ent_same|]. apply (proj2 (indep_pos n m B)). apply IB.
    + intros x. split; intros L.
      * apply (lattice_trans n m A m B); [exact S1|]. revert L. apply lattice_same, ent_same.
      * apply (lattice_same n m B); [apply same_sym, ent_same|]. apply (lattice_trans n m B m A); [exact S2|exact L].
    + intros G U F. apply (inv_reduced n m delta B IB). revert F. apply gs_factors_same, ent_same.
Qed.
(** The factors that [lll_reduced] speaks of exist. *)
Theorem C83_factors : forall n m B, independent n m B -> exists G U, gs_factors n m B G U.
Proof.
  intros n m B I. pose proof (proj1 (indep_pos n m B) I) as P. exists (fun r k => gvec n B k r), (gU n B). split; [|split; [|split]].
  - intros i j Hi Hj N. apply (g_orth2 n B m); (assumption || (intros; apply P; lia)).
  - intros l c Hl. unfold gU. replace (l <? c)%nat with false by lia. now replace (l =? c)%nat with false by lia.
  - intros j Hj. unfold gU. rewrite Nat.eqb_refl. now replace (j <? j)%nat with false by lia.
  - intros i j Hi Hj. now apply a_prod.
Qed.
(** It ends when the entries are integer multiples of one number, as those of every matrix of finite [f64] are. *)
Theorem C83_terminates : forall M n m delta c, wf M -> nr M = n -> nc M = m -> (0 < m <= n)%nat -> / 4 < delta < 1 -> independent n m (ent M) ->
  c <> 0 -> (forall i j, (i < n)%nat -> (j < m)%nat -> exists z, ent M i j = c * IZR z) ->
  exists fuel B, lll_lattice_reduce fuel M delta = Some (Some B).
Proof.
  intros M n m delta cc W RM CM Hm Hd I Hc G. pose proof (wf_eq_mk M W) as EM. rewrite RM, CM in EM. set (A := ent M) in *. clearbody A. subst M. pose proof (proj1 (indep_pos n m A) I) as P.
  assert (grid n m cc A) as GA by (intros i j Hi Hj; destruct (G i j Hi Hj) as (z & E); now exists z).
  pose proof (low_pos cc m Hc) as L0. pose proof (pot_pos n A m P) as P0.
  destruct (pow_lt_1_zero delta ltac:(rewrite Rabs_right; lra) (low cc m / pot n A m) ltac:(apply Rdiv_lt_0_compat; assumption)) as (N & HN). specialize (HN N (le_n N)).
  rewrite Rabs_right in HN by (apply Rle_ge, pow_le; lra).
  destruct (lll_start n m A delta Hm Hd P) as (c & E2 & C & J).
  destruct (loop_ends n m delta cc ltac:(lra) Hc N A c 1) as (fuel & B & E); [|lia|exact GA|exact J|exact C|].
  - apply (Rmult_lt_compat_l (pot n A m)) in HN; [|exact P0]. replace (pot n A m * (low cc m / pot n A m)) with (low cc m) in HN by (field; lra). exact HN.
  - exists fuel, B. rewrite E2. exact E.
Qed.
(** The first vector of the result is short: no vector of the lattice but zero is shorter by more than the factor [(delta - 1/4) ^ (m - 1)] of the squares. *)
Theorem C83_short_vector : forall M n m delta fuel B, wf M -> nr M = n -> nc M = m -> (0 < m <= n)%nat -> / 4 < delta < 1 -> independent n m (ent M) ->
  lll_lattice_reduce fuel M delta = Some (Some B) ->
  forall x, lattice n m (ent M) x -> (exists i, (i < n)%nat /\ x i <> 0) -> (delta - / 4) ^ (m - 1) * inner n (column (ent B) 0) (column (ent B) 0) <= inner n x x.
Proof.
  intros M n m delta fuel B0 W RM CM Hm Hd I E x L NZ. pose proof (wf_eq_mk M W) as EM. rewrite RM, CM in EM. set (A := ent M) in *. clearbody A. subst M. pose proof (proj1 (indep_pos n m A) I) as P.
  destruct (lll_run n m A delta fuel B0 Hm Hd P E) as (B & -> & (S1 & S2) & IB). apply (lattice_trans n m B m A x S2) in L.
  destruct (lattice_long n m B x (proj1 IB) L NZ) as (k & Hk & G). pose proof (first_short n m delta B Hd IB k Hk) as F.
  replace (inner n (column (ent (mk n m B)) 0) (column (ent (mk n m B)) 0)) with (gsq n B 0).
  - apply Rle_trans with (2 := G). apply Rle_trans with (2 := F). apply Rmult_le_compat_r; [apply gsq_nonneg|]. replace (m - 1)%nat with (k + (m - 1 - k))%nat by lia. rewrite pow_add.
    rewrite <- (Rmult_1_r ((delta - / 4) ^ k)) at 2. apply Rmult_le_compat_l; [apply pow_le; lra|]. rewrite <- (pow1 (m - 1 - k)). apply pow_incr. lra.
  - unfold gsq. apply inner_ext; intros r Hr; unfold column; rewrite ent_mk by lia; rewrite gvec_eq; cbn; ring.
Qed.
Theorem C83_panics : forall fuel M delta, (nr M < nc M)%nat \/ ~ (/ 4 < delta < 1) -> lll_lattice_reduce fuel M delta = None.
Proof.
  intros fuel M delta H. unfold lll_lattice_reduce. destruct ((nc M <=? nr M)%nat && rltb (/ 4) delta && rltb delta 1) eqn:E; [|reflexivity]. exfalso.
  apply andb_prop in E. destruct E as (E & E3). apply andb_prop in E. destruct E as (E1 & E2). destruct (rltb_spec (/ 4) delta); [|discriminate]. destruct (rltb_spec delta 1); [|discriminate]. destruct H as [H|H]; [lia|apply H; lra].
Qed.
Theorem C83_dependent : forall fuel M n m delta, wf M -> nr M = n -> nc M = m -> (0 < n)%nat -> (0 < m)%nat -> ~ independent n (m - 1) (ent M) -> lll_lattice_reduce fuel M delta = None.
Proof.
  intros fuel M n m delta W RM CM Hn Hm D. unfold lll_lattice_reduce. destruct ((nc M <=? nr M)%nat && rltb (/ 4) delta && rltb delta 1); [|reflexivity].
  destruct (gram_schmidt_without_normalize M) as [G|] eqn:E; [|reflexivity]. exfalso. apply D. apply (C77_gram_schmidt_without_normalize M n m W RM CM Hn Hm). now exists G.
Qed.
(** Non-vacuity: the basis (1, 0), (7, 1) of the integer lattice is reduced to some basis, whose first vector has length at most [sqrt 2]. *)
Example C83_example : exists fuel B, lll_lattice_reduce fuel (mk 2 2 (fun i j => if (i =? 0)%nat then (if (j =? 0)%nat then 1 else 7) else (if (j =? 0)%nat then 0 else 1))) (3 / 4) = Some (Some B) /\
  inner 2 (column (ent B) 0) (column (ent B) 0) <= 2.
Proof.
  set (f := fun i j : nat => if (i =? 0)%nat then (if (j =? 0)%nat then 1 else 7) else (if (j =? 0)%nat then 0 else 1)).
  assert (independent 2 2 (ent (mk 2 2 f))) as I.
  { apply (independent_ext 2 2 f); [apply same_sym, ent_same|]. intros x H j Hj. pose proof (H 0%nat ltac:(lia)) as H0. pose proof (H 1%nat ltac:(lia)) as H1. cbn in H0, H1. destruct j as [|[|j]]; [lra|lra|lia]. }
  destruct (C83_terminates (mk 2 2 f) 2 2 (3 / 4) 1 (wf_mk _ _ _) eq_refl eq_refl ltac:(lia) ltac:(lra) I ltac:(lra)) as (fuel & B & E).
  { intros i j Hi Hj. rewrite ent_mk by assumption. unfold f. destruct (i =? 0)%nat, (j =? 0)%nat; [exists 1%Z|exists 7%Z|exists 0%Z|exists 1%Z]; cbn; ring. }
  exists fuel, B. split; [exact E|].
  assert (lattice 2 2 (ent (mk 2 2 f)) (fun i => if (i =? 0)%nat then 1 else 0)) as L.
  { exists (fun j => if (j =? 0)%nat then 1%Z else 0%Z). intros i Hi. cbn [sum]. rewrite !ent_mk by lia. unfold f. destruct (i =? 0)%nat; cbn; ring. }
  pose proof (C83_short_vector (mk 2 2 f) 2 2 (3 / 4) fuel B (wf_mk _ _ _) eq_refl eq_refl ltac:(lia) ltac:(lra) I E _ L ltac:(exists 0%nat; split; [lia|cbn; lra])) as S. cbn [Nat.sub pow] in S.
  set (X := inner 2 (column (ent B) 0) (column (ent B) 0)) in *. clearbody X. unfold inner in S. cbn in S. lra.
Qed.
Print Assumptions C83_lll. Print Assumptions C83_terminates. Print Assumptions C83_short_vector.
Print Assumptions C83_factors.
Print Assumptions C83_panics.
Print Assumptions C83_dependent.
