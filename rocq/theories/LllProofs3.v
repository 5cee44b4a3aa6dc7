(** Lattice reduction: termination for commensurable bases, and what a reduced basis is good for. *)
From Coq Require Import List Arith Bool Lia ZifyBool Reals Lra ZArith.
From Verif Require Import PidModel MatModel MatSpec MatProofs MatProofs2 SnfModel RankModel LuModel LuSpec LuProofs LuProofs2 NumModel NumSpec NumProofs GsProofs LllProofs LllProofs2.
Import ListNotations.
Open Scope R_scope.

(** The leading minors of the Gram matrix are the products of the squared lengths. *)
Definition gram (n : nat) (A : nat -> nat -> R) : nat -> nat -> R := fun i j => inner n (column A i) (column A j).
Lemma gpart_S n A c k r : gpart n A c (S k) r = gpart n A c k r - gmu n A c k * gvec n A k r.
Proof. unfold gpart. rewrite rsum_S. ring. Qed.
Lemma gpart_self n A k r : gpart n A k k r = gvec n A k r. Proof. unfold gpart. now rewrite <- gvec_eq. Qed.
Lemma gpart_g n A m i k : pos_upto n m A -> (k < m)%nat -> inner n (gpart n A i k) (gvec n A k) = gmu n A i k * gsq n A k.
Proof.
  intros P Hk. rewrite gpart_inner.
  - unfold gmu. fold (gsq n A k). field. now apply P.
  - intros l Hl. rewrite inner_sym. apply g_orth; [intros; apply P; lia|exact Hl].
Qed.
Lemma inner_minus2 n u v w a b : inner n (fun r => u r - a * w r) (fun r => v r - b * w r) = inner n u v - b * inner n u w - a * inner n v w + a * b * inner n w w.
Proof.
  rewrite inner_sub_l, inner_scale_l. rewrite (inner_sym n u (fun r => _)), (inner_sym n w (fun r => _)). rewrite !inner_sub_l, !inner_scale_l. rewrite (inner_sym n w u), (inner_sym n v u). ring.
Qed.
Lemma schur_gram n A m k i j : pos_upto n m A -> (k <= m)%nat -> schur (gram n A) k i j = inner n (gpart n A i k) (gpart n A j k).
Proof.
  intros P. revert i j. induction k as [|k IH]; intros i j Hk; cbn [schur].
  - unfold gram. apply inner_ext; intros r Hr; unfold gpart, column; cbn; ring.
  - rewrite !IH by lia. rewrite (inner_ext n (gpart n A i (S k)) (fun r => gpart n A i k r - gmu n A i k * gvec n A k r) (gpart n A j (S k)) (fun r => gpart n A j k r - gmu n A j k * gvec n A k r)) by (intros; apply gpart_S).
    rewrite inner_minus2.
    rewrite (inner_ext n (gpart n A i k) (gpart n A i k) (gpart n A k k) (gvec n A k)) by (reflexivity || (intros; apply gpart_self)).
    rewrite (inner_ext n (gpart n A k k) (gvec n A k) (gpart n A j k) (gpart n A j k)) by (reflexivity || (intros; apply gpart_self)).
    rewrite (inner_ext n (gpart n A k k) (gvec n A k) (gpart n A k k) (gvec n A k)) by (intros; apply gpart_self).
    rewrite (inner_sym n (gvec n A k) (gpart n A j k)). rewrite !(gpart_g n A m) by (assumption || lia).
    fold (gsq n A k). cbn. field. apply P. lia.
Qed.
Lemma piv_gram n A m k : pos_upto n m A -> (k < m)%nat -> piv (gram n A) k = gsq n A k.
Proof. intros P Hk. unfold piv. rewrite (schur_gram n A m) by (assumption || lia). unfold gsq. apply inner_ext; intros; apply gpart_self. Qed.
Lemma det_gram n A m k : pos_upto n m A -> (k <= m)%nat -> determinant k (gram n A) = dprod n A k.
Proof.
  intros P. induction k as [|k IH]; intros Hk; [reflexivity|]. rewrite (det_step field_ok_R).
  - rewrite IH, (piv_gram n A m) by (assumption || lia). reflexivity.
  - intros l Hl. rewrite (piv_gram n A m) by (assumption || lia). apply P. lia.
Qed.
(** Entries that are integer multiples of [c]. *)
Definition multiple (c x : R) : Prop := exists z, x = c * IZR z.
Lemma multiple_zero c : multiple c 0. Proof. exists 0%Z. ring. Qed.
Lemma multiple_add c x y : multiple c x -> multiple c y -> multiple c (x + y).
Proof. intros (a & ->) (b & ->). exists (a + b)%Z. rewrite plus_IZR. ring. Qed.
Lemma multiple_opp c x : multiple c x -> multiple c (- x).
Proof. intros (a & ->). exists (- a)%Z. rewrite opp_IZR. ring. Qed.
Lemma multiple_mul c d x y : multiple c x -> multiple d y -> multiple (c * d) (x * y).
Proof. intros (a & ->) (b & ->). exists (a * b)%Z. rewrite mult_IZR. ring. Qed.
Lemma multiple_sum c n (f : nat -> R) : (forall k, (k < n)%nat -> multiple c (f k)) -> multiple c (sum n f).
Proof. induction n as [|n IH]; intros H; [apply multiple_zero|]. rewrite rsum_S. apply multiple_add; [apply IH; intros; apply H; lia|apply H; lia]. Qed.
Lemma multiple_det c k : forall G : nat -> nat -> R, (forall i j, (i < k)%nat -> (j < k)%nat -> multiple c (G i j)) -> multiple (c ^ k) (determinant k G).
Proof.
  induction k as [|k IH]; intros G H; [exists 1%Z; cbn; ring|]. cbn [determinant]. apply multiple_sum. intros i Hi.
  assert (multiple (c ^ S k) (tmul (G i 0%nat) (determinant k (minor G i)))) as M.
  { cbn [pow]. apply multiple_mul; [apply H; lia|]. apply IH. intros a b Ha Hb. unfold minor. destruct (Nat.ltb_spec a i); apply H; lia. }
  unfold signed. destruct (Nat.even i); [exact M|now apply multiple_opp].
Qed.
Definition grid (n m : nat) (c : R) (A : nat -> nat -> R) : Prop := forall i j, (i < n)%nat -> (j < m)%nat -> multiple c (A i j).
Lemma grid_dprod n m c A k : c <> 0 -> grid n m c A -> pos_upto n m A -> (k <= m)%nat -> (c * c) ^ k <= dprod n A k.
Proof.
  intros Hc G P Hk. destruct (multiple_det (c * c) k (gram n A)) as (z & E).
  - intros i j Hi Hj. unfold gram, inner. apply multiple_sum. intros r Hr. apply multiple_mul; apply G; (assumption || lia).
  - rewrite (det_gram n A m) in E by assumption. assert (0 < dprod n A k) as D by (apply dprod_pos; intros l Hl; apply P; lia).
    assert (0 < (c * c) ^ k) as C by (apply pow_lt; nra). rewrite E in *. assert (0 < IZR z) as Z by (apply (Rmult_lt_reg_l _ _ _ C); lra). apply lt_IZR in Z.
    assert (1 <= IZR z) as Z1 by (apply (IZR_le 1); lia). rewrite <- (Rmult_1_r ((c * c) ^ k)) at 1. apply Rmult_le_compat_l; lra.
Qed.
Lemma grid_lattice n m c A B : grid n m c A -> same_lattice n m A B -> grid n m c B.
Proof.
  intros G (H & _) i j Hi Hj. destruct (H j Hj) as (z & E). specialize (E i Hi). unfold column in E. rewrite E. apply multiple_sum. intros l Hl. destruct (G i l Hi Hl) as (a & ->). exists (a * z l)%Z. rewrite mult_IZR. ring.
Qed.
(** The potential. *)
Fixpoint pot (n : nat) (A : nat -> nat -> R) (k : nat) : R := match k with 0%nat => 1 | S k => pot n A k * dprod n A k end.
Fixpoint low (c : R) (k : nat) : R := match k with 0%nat => 1 | S k => low c k * (c * c) ^ k end.
Lemma low_pos c k : c <> 0 -> 0 < low c k.
Proof. intros Hc. induction k as [|k IH]; cbn [low]; [lra|]. apply Rmult_lt_0_compat; [exact IH|apply pow_lt; nra]. Qed.
Lemma pot_low n m c A k : c <> 0 -> grid n m c A -> pos_upto n m A -> (k <= m)%nat -> low c k <= pot n A k.
Proof.
  intros Hc G P. induction k as [|k IH]; intros Hk; cbn [low pot]; [lra|]. apply Rmult_le_compat; [left; now apply low_pos|left; apply pow_lt; nra|apply IH; lia|apply (grid_dprod n m); (assumption || lia)].
Qed.
Lemma pot_ext n A B k : (forall l, (l < k)%nat -> dprod n A l = dprod n B l) -> pot n A k = pot n B k.
Proof. induction k as [|k IH]; intros H; [reflexivity|]. cbn [pot]. rewrite IH, H by (intros; try apply H; lia). reflexivity. Qed.
Lemma pot_pos n A k : pos_upto n k A -> 0 < pot n A k.
Proof. induction k as [|k IH]; intros P; cbn [pot]; [lra|]. apply Rmult_lt_0_compat; [apply IH|apply dprod_pos]; intros l Hl; apply P; lia. Qed.
Lemma pot_less n A B delta i k : (i < k)%nat -> pos_upto n k A -> dprod n B i <= delta * dprod n A i -> (forall l, (l < k)%nat -> l <> i -> dprod n B l = dprod n A l) -> pot n B k <= delta * pot n A k.
Proof.
  intros Hi P L E. induction k as [|k IH]; [lia|]. cbn [pot]. destruct (Nat.eq_dec i k) as [->|N].
  - rewrite (pot_ext n B A k) by (intros; apply E; lia). assert (0 < pot n A k) by (apply pot_pos; intros l Hl; apply P; lia). replace (delta * (pot n A k * dprod n A k)) with (pot n A k * (delta * dprod n A k)) by ring. apply Rmult_le_compat_l; lra.
  - rewrite (E k) by lia. rewrite <- Rmult_assoc. apply Rmult_le_compat_r; [left; apply dprod_pos; intros l Hl; apply P; lia|]. apply IH; [lia|intros l Hl; apply P; lia|intros; apply E; lia].
Qed.
Lemma loop_ends n m delta cc : 0 < delta < 1 -> cc <> 0 -> forall N A c i, pot n A m * delta ^ N < low cc m -> (0 < i)%nat -> grid n m cc A -> lll_inv n m delta A i -> coeffs n m A c ->
  exists fuel B, lll_loop fuel delta (lst n m A c) i = Some (Some B).
Proof.
  intros Hd Hc. induction N as [|N IH]; intros A c i HN Hi G I C.
  - exfalso. destruct I as (P & _). pose proof (pot_low n m cc A m Hc G P (Nat.le_refl m)). cbn [pow] in HN. lra.
  - assert (exists d, d = m - i)%nat as (d & Ed) by (eexists; reflexivity). revert A c i HN Hi G I C Ed. induction d as [|d IHd]; intros A c i HN Hi G I C Ed.
    + exists 0%nat. cbn [lll_loop l_b lst nc mk]. destruct (Nat.ltb_spec i m); [lia|]. now eexists.
    + destruct (body_mk n m delta A c i ltac:(lia) I C) as (B & c' & i' & E & Hi' & C' & SL & I' & K). pose proof (grid_lattice n m cc A B G SL) as GB.
      assert (exists fuel D, lll_loop fuel delta (lst n m B c') i' = Some (Some D)) as (fuel & D & F).
      { destruct K as [(-> & K)|(Hle & K1 & K2)].
        - apply IHd; [|lia|exact GB|exact I'|exact C'|lia]. rewrite (pot_ext n B A m); [exact HN|]. intros l Hl. apply dprod_ext. intros; apply K; lia.
        - apply IH; [|exact Hi'|exact GB|exact I'|exact C']. destruct I as (P & _). assert (pot n B m <= delta * pot n A m) as L by (apply (pot_less n A B delta i m); [lia|exact P|exact K1|intros; apply K2; lia]).
          apply Rle_lt_trans with (2 := HN). cbn [pow]. rewrite <- Rmult_assoc, (Rmult_comm (pot n A m) delta). apply Rmult_le_compat_r; [apply pow_le; lra|exact L]. }
      exists (S fuel), D. cbn [lll_loop l_b lst nc mk]. destruct (Nat.ltb_spec i m); [|lia]. fold (mk n m A). fold (lst n m A c). rewrite E. cbn [obind fst snd]. exact F.
Qed.

(** The start. *)
Lemma lll_start n m A delta : (0 < m <= n)%nat -> / 4 < delta < 1 -> pos_upto n m A ->
  exists c, (forall fuel, lll_lattice_reduce fuel (mk n m A) delta = lll_loop fuel delta (lst n m A c) 1) /\ coeffs n m A c /\ lll_inv n m delta A 1.
Proof.
  intros Hm Hd P. exists (fun i j => if (j <? i)%nat then gmu n A i j else 0). split; [|split; [intros i j H0; now replace (j <? i)%nat with true by lia|split; [exact P|split; intros; lia]]].
  intros fuel. unfold lll_lattice_reduce. cbn [nr nc mk]. fold (mk n m A). destruct (Nat.leb_spec m n); [|lia]. destruct (rltb_spec (/ 4) delta); [|lra]. destruct (rltb_spec delta 1); [|lra]. cbn [andb].
  rewrite gsw_some by (try lia; intros; apply P; lia). cbn [obind]. rewrite mzero_mk by lia. cbn [obind]. rewrite gs_coeff_mk by exact P. cbn [obind].
  reflexivity.
Qed.
(** The Gram-Schmidt factors are unique. *)
Lemma factors_unique n m B G U : pos_upto n m B -> gs_factors n m B G U ->
  forall k, (k < m)%nat -> (forall r, (r < n)%nat -> G r k = gvec n B k r) /\ forall l, (l < k)%nat -> U l k = gmu n B k l.
Proof.
  intros P (O & T & D & E) k. induction k as [k IH] using (well_founded_induction Wf_nat.lt_wf). intros Hk.
  assert (forall r, (r < n)%nat -> B r k = sum k (fun l => G r l * U l k) + G r k) as F.
  { intros r Hr. rewrite E by assumption. unfold prod_entry. rewrite (rsum_split m (S k)) by lia. rewrite (rsum_zero (m - S k)); [|intros l Hl; rewrite (T (S k + l)%nat k) by lia; cbn; ring].
    rewrite rsum_S, D by exact Hk. cbn. ring. }
  assert (forall l, (l < k)%nat -> U l k = gmu n B k l) as HU.
  { intros l Hl. unfold gmu. fold (gsq n B l). assert (inner n (column B k) (gvec n B l) = U l k * gsq n B l) as ->; [|field; apply P; lia].
    rewrite (inner_ext n (column B k) (fun r => sum k (fun l => U l k * G r l) + G r k) (gvec n B l) (column G l)).
    - rewrite inner_add_l. rewrite (inner_sum_l n k (fun l r => U l k * G r l)). rewrite (rsum_single k l); [|exact Hl|].
      + rewrite (inner_scale_l n (U l k) (fun r => G r l)). pose proof (O k l Hk ltac:(lia) ltac:(lia)) as O1. unfold column in *. rewrite O1, Rplus_0_r. f_equal. apply inner_ext; intros r Hr; apply IH; lia.
      + intros j Hj N. rewrite (inner_scale_l n (U j k) (fun r => G r j)). pose proof (O j l ltac:(lia) ltac:(lia) N) as O1. unfold column in *. rewrite O1. ring.
    - intros r Hr. unfold column. rewrite F by exact Hr. f_equal. apply rsum_ext. intros. ring.
    - intros r Hr. unfold column. symmetry. apply IH; lia. }
  split; [|exact HU]. intros r Hr. rewrite gvec_eq. rewrite F by exact Hr. rewrite (rsum_ext k (fun l => gvec n B l r * gmu n B k l) (fun l => G r l * U l k)); [ring|]. intros l Hl. rewrite HU by exact Hl. f_equal. symmetry. apply IH; lia.
Qed.
Lemma inv_reduced n m delta B : lll_inv n m delta B m -> lll_reduced n m delta B.
Proof.
  intros (P & S & L) G U F. assert (forall k, (k < m)%nat -> inner n (column G k) (column G k) = gsq n B k) as Q by (intros k Hk; apply inner_ext; intros r Hr; now apply (factors_unique n m B G U P F k Hk)).
  split.
  - intros i j Hij. rewrite (proj2 (factors_unique n m B G U P F i ltac:(lia)) j) by lia. apply S. lia.
  - intros i Hi. rewrite !Q by lia. rewrite (proj2 (factors_unique n m B G U P F (i + 1)%nat ltac:(lia)) i) by lia. pose proof (L (i + 1)%nat ltac:(lia)) as V. unfold lovasz in V. replace (i + 1 - 1)%nat with i in V by lia. lra.
Qed.
(** Every vector of the lattice that is not zero is at least as long as one of the Gram-Schmidt vectors. *)
Lemma cauchy n u v : inner n u v * inner n u v <= inner n u u * inner n v v.
Proof.
  destruct (Req_EM_T (inner n v v) 0) as [Z|Z].
  - rewrite Z, (inner_ext n u u v (fun _ => 0)); [|reflexivity|intros; now apply (inner_zero n v Z)]. unfold inner at 1 2. rewrite (rsum_zero n (fun i => u i * 0)) by (intros; ring). lra.
  - assert (0 < inner n v v) as P by (pose proof (inner_nonneg n v); lra). set (t := inner n u v / inner n v v). pose proof (inner_nonneg n (fun i => u i - t * v i)) as H.
    rewrite inner_sub_l, inner_scale_l in H. rewrite (inner_sym n u (fun i => _)), (inner_sym n v (fun i => _)) in H. rewrite !inner_sub_l, !inner_scale_l in H. rewrite (inner_sym n v u) in H.
    replace (inner n u u - t * inner n u v - t * (inner n u v - t * inner n v v)) with (inner n u u - inner n u v * inner n u v / inner n v v) in H by (unfold t; field; lra).
    assert (inner n u v * inner n u v / inner n v v <= inner n u u) as K by lra. apply (Rmult_le_compat_r (inner n v v)) in K; [|lra]. unfold Rdiv in K. rewrite Rmult_assoc, Rinv_l, Rmult_1_r in K by lra. exact K.
Qed.
Lemma lattice_long n m B x : pos_upto n m B -> lattice n m B x -> (exists i, (i < n)%nat /\ x i <> 0) -> exists k, (k < m)%nat /\ gsq n B k <= inner n x x.
Proof.
  intros P (z & E) (i0 & H0 & N0).
  assert (exists k, (k < m)%nat /\ z k <> 0%Z /\ forall l, (k < l < m)%nat -> z l = 0%Z) as (k & Hk & Nk & Zk).
  { assert (forall q, (forall l, (q <= l < m)%nat -> z l = 0%Z) -> (q <= m)%nat -> (forall l, (l < m)%nat -> z l = 0%Z) \/ exists k, (k < m)%nat /\ z k <> 0%Z /\ forall l, (k < l < m)%nat -> z l = 0%Z) as K.
    - induction q as [|q IH]; intros Z Hq; [left; intros; apply Z; lia|]. destruct (Z.eq_dec (z q) 0) as [Zq|Nq]; [|right; exists q; repeat split; [lia|exact Nq|intros; apply Z; lia]].
      apply IH; [|lia]. intros l Hl. destruct (Nat.eq_dec l q) as [->|]; [exact Zq|apply Z; lia].
    - destruct (K m ltac:(intros; lia) (Nat.le_refl m)) as [Z|Z]; [|exact Z]. exfalso. apply N0. rewrite E by exact H0. apply rsum_zero. intros l Hl. rewrite (Z l Hl). ring. }
  exists k. split; [exact Hk|]. assert (inner n x (gvec n B k) = IZR (z k) * gsq n B k) as I.
  { rewrite (inner_ext n x (fun r => sum m (fun l => IZR (z l) * B r l)) (gvec n B k) (gvec n B k)) by (auto; intros r Hr; rewrite E by exact Hr; apply rsum_ext; intros; ring).
    rewrite (inner_sum_l n m (fun l r => IZR (z l) * B r l)). rewrite (rsum_single m k); [|exact Hk|].
    - rewrite (inner_scale_l n (IZR (z k)) (fun r => B r k)). f_equal. change (fun r => B r k) with (column B k). transitivity (gmu n B k k * gsq n B k); [unfold gmu; fold (gsq n B k); field; now apply P|].
      rewrite gmu_self by (try (now apply P); intros l Hl; apply P; lia). ring.
    - intros l Hl N. rewrite (inner_scale_l n (IZR (z l)) (fun r => B r l)). destruct (Nat.lt_ge_cases l k) as [L|L].
      + change (fun r => B r l) with (column B l). rewrite inner_sym, gvec_orth_col by (assumption || (intros q Hq; apply P; lia)). ring.
      + rewrite (Zk l) by lia. ring. }
  pose proof (cauchy n x (gvec n B k)) as K. rewrite I in K. fold (gsq n B k) in K. pose proof (gsq_nonneg n B k). pose proof (P k Hk). assert (0 < gsq n B k) as G by lra.
  assert (1 <= IZR (z k) * IZR (z k)) as Z1. { rewrite <- mult_IZR. apply (IZR_le 1). nia. }
  apply (Rmult_le_reg_r (gsq n B k) _ _ G). apply Rle_trans with (2 := K). replace (IZR (z k) * gsq n B k * (IZR (z k) * gsq n B k)) with (IZR (z k) * IZR (z k) * (gsq n B k * gsq n B k)) by ring.
  rewrite <- (Rmult_1_l (gsq n B k * gsq n B k)) at 1. apply Rmult_le_compat_r; [nra|exact Z1].
Qed.
Lemma first_short n m delta B : / 4 < delta < 1 -> lll_inv n m delta B m -> forall k, (k < m)%nat -> (delta - / 4) ^ k * gsq n B 0 <= gsq n B k.
Proof.
  intros Hd (P & SR & L). induction k as [|k IH]; intros Hk; [cbn; lra|]. specialize (IH ltac:(lia)). pose proof (L (S k) ltac:(lia)) as V. unfold lovasz in V. replace (S k - 1)%nat with k in V by lia.
  pose proof (SR (S k) k ltac:(lia)) as M. set (u := gmu n B (S k) k) in *. assert (u * u <= / 4) as U. { apply Rabs_le_inv in M || (unfold Rabs in M; destruct (Rcase_abs u)); nra. }
  pose proof (gsq_nonneg n B k). cbn [pow]. rewrite Rmult_assoc. apply Rle_trans with ((delta - / 4) * gsq n B k); [apply Rmult_le_compat_l; lra|]. nra.
Qed.
