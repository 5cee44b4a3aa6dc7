(** C76, C77: the two Gram-Schmidt procedures, over the real numbers.  [None] is a panic or a result that is not finite. *)
From Coq Require Import List Arith Bool Lia ZifyBool Reals Lra.
From Verif Require Import PidModel MatModel MatSpec MatProofs MatProofs2 SnfModel RankModel LuModel LuSpec NumModel NumSpec NumProofs GsProofs.
Import ListNotations.
Open Scope R_scope.

Lemma independent_ext n m A B : same n m A B -> independent n m A -> independent n m B.
Proof. intros H I x Hx. apply I. intros i Hi. rewrite <- (Hx i Hi). apply rsum_ext. intros j Hj. now rewrite H. Qed.
Lemma ent_same n m (f : nat -> nat -> R) : same n m (ent (mk n m f)) f.
Proof. intros i j Hi Hj. now apply ent_mk. Qed.
Lemma same_sym n m A B : same n m A B -> same n m B A.
Proof. intros H i j Hi Hj. symmetry. now apply H. Qed.

(** C76.  [gram_schmidt] gives finite numbers exactly when the columns are linearly independent; then the columns of the result are an
    orthonormal system, and the matrix is the result times an upper triangular matrix with positive diagonal (the QR factorisation). *)
Theorem C76_gram_schmidt : forall M n m, wf M -> nr M = n -> nc M = m -> (0 < n)%nat -> (0 < m)%nat ->
  ((exists Q, gram_schmidt M = Some Q) <-> independent n m (ent M)) /\
  forall Q, gram_schmidt M = Some Q ->
    wf Q /\ nr Q = n /\ nc Q = m /\ orthogonal_columns n m (ent Q) /\ unit_columns n m (ent Q) /\
    exists U, upper_triangular m U /\ (forall j, (j < m)%nat -> 0 < U j j) /\ forall i j, (i < n)%nat -> (j < m)%nat -> ent M i j = prod_entry m (ent Q) U i j.
Proof.
  intros M n m W RM CM Hn Hm. rewrite (wf_eq_mk M W), RM, CM. set (A := ent M). clearbody A.
  assert (independent n m (ent (mk n m A)) <-> forall c, (c < m)%nat -> gsq n A c <> 0) as EQ.
  { rewrite <- indep_pos. split; apply independent_ext; [apply ent_same|apply same_sym, ent_same]. }
  split.
  - rewrite EQ. split; [|intros P; eexists; now apply gs_some]. intros (Q & H). destruct (gsq_dec n A m) as [P|(c & Hc & Z & P)]; [exact P|].
    rewrite (gs_none n m A c) in H by assumption. discriminate.
  - intros Q H. destruct (gsq_dec n A m) as [P|(c & Hc & Z & P)]; [|rewrite (gs_none n m A c) in H by assumption; discriminate].
    rewrite gs_some in H by assumption. injection H as <-. set (q := fun r c => gvec n A c r / norm2 n (gvec n A c)).
    assert (forall j, (j < m)%nat -> norm2 n (gvec n A j) <> 0) as N by (intros j Hj; apply gsq_norm, P, Hj).
    assert (forall i j, (i < m)%nat -> (j < m)%nat -> inner n (column (ent (mk n m q)) i) (column (ent (mk n m q)) j) = inner n (gvec n A i) (gvec n A j) / (norm2 n (gvec n A i) * norm2 n (gvec n A j))) as I.
    { intros i j Hi Hj. rewrite (inner_ext n _ (fun r => / norm2 n (gvec n A i) * gvec n A i r) _ (fun r => gvec n A j r / norm2 n (gvec n A j))).
      - rewrite inner_scale_l, unit_inner by (now apply P). field. split; now apply N.
      - intros r Hr. unfold column. rewrite ent_mk by assumption. unfold q, Rdiv. ring.
      - intros r Hr. unfold column. now rewrite ent_mk by assumption. }
    split; [apply wf_mk|]. split; [reflexivity|]. split; [reflexivity|]. split; [|split].
    + intros i j Hi Hj D. rewrite I by assumption. rewrite (g_orth2 n A m) by (assumption || (intros; apply P; lia)). unfold Rdiv. ring.
    + intros j Hj. rewrite I by exact Hj. rewrite norm2_sq. field. now apply P.
    + exists (fun l c => norm2 n (gvec n A l) * gU n A l c). split; [|split].
      * intros l c Hl. unfold gU. replace (l <? c)%nat with false by lia. replace (l =? c)%nat with false by lia. ring.
      * intros j Hj. unfold gU. rewrite Nat.eqb_refl. replace (j <? j)%nat with false by lia. rewrite Rmult_1_r. pose proof (norm2_nonneg n (gvec n A j)). specialize (N j Hj). lra.
      * intros i j Hi Hj. rewrite ent_mk by assumption. rewrite (a_prod n A m i j Hj). unfold prod_entry. apply rsum_ext. intros l Hl. rewrite ent_mk by assumption. unfold q. cbn. field. now apply N.
Qed.
Theorem C76_panics : forall M, nc M = 0%nat -> gram_schmidt M = None.
Proof.
  intros M H. unfold gram_schmidt, normalize_col, mcol, msub_view. rewrite H. replace ((0 <=? nr M) && (nr M <=? nr M) && (0 <=? 0 + 1) && (0 + 1 <=? 0))%nat with false by lia. reflexivity.
Qed.
(** Such a factorisation is unique: [gram_schmidt] has no other choice. *)
Theorem C76_unique : forall n m A Q U Q' U',
  orthogonal_columns n m Q -> unit_columns n m Q -> upper_triangular m U -> (forall j, (j < m)%nat -> 0 < U j j) -> (forall i j, (i < n)%nat -> (j < m)%nat -> A i j = prod_entry m Q U i j) ->
  orthogonal_columns n m Q' -> unit_columns n m Q' -> upper_triangular m U' -> (forall j, (j < m)%nat -> 0 < U' j j) -> (forall i j, (i < n)%nat -> (j < m)%nat -> A i j = prod_entry m Q' U' i j) ->
  same n m Q Q'.
Proof.
  assert (forall n m A Q U, upper_triangular m U -> (forall i j, (i < n)%nat -> (j < m)%nat -> A i j = prod_entry m Q U i j) -> orthogonal_columns n m Q -> unit_columns n m Q ->
    forall j, (j < m)%nat -> (forall l, (l < j)%nat -> U l j = inner n (column A j) (column Q l)) /\ forall r, (r < n)%nat -> Q r j * U j j = A r j - sum j (fun l => Q r l * U l j)) as K.
  { intros n m A Q U T H O N j Hj. assert (forall r, (r < n)%nat -> A r j = sum j (fun l => Q r l * U l j) + Q r j * U j j) as E.
    - intros r Hr. rewrite H by assumption. unfold prod_entry. rewrite (rsum_split m (S j)) by lia. rewrite (rsum_zero (m - S j)); [|intros l Hl; rewrite (T (S j + l)%nat j) by lia; cbn; ring].
      rewrite rsum_S. cbn. ring.
    - split; [|intros r Hr; rewrite E by exact Hr; ring]. intros l Hl.
      rewrite (inner_ext n (column A j) (fun r => sum j (fun l => U l j * Q r l) + U j j * Q r j) (column Q l) (column Q l)).
      + rewrite (inner_add_l n (fun r => sum j (fun l0 => U l0 j * Q r l0)) (fun r => U j j * Q r j)). rewrite (inner_scale_l n (U j j) (fun r => Q r j)). rewrite (inner_sum_l n j (fun l0 r => U l0 j * Q r l0)).
        rewrite (rsum_single j l) by (try exact Hl; intros i Hi D; rewrite (inner_scale_l n (U i j) (fun r => Q r i)); specialize (O i l ltac:(lia) ltac:(lia) D); unfold column in *; rewrite O; ring).
        rewrite (inner_scale_l n (U l j) (fun r => Q r l)). pose proof (O j l Hj ltac:(lia) ltac:(lia)) as O1. specialize (N l ltac:(lia)). unfold column in *. rewrite O1, N. ring.
      + intros r Hr. unfold column. rewrite E by exact Hr. rewrite (rsum_ext j (fun l0 => Q r l0 * U l0 j) (fun l0 => U l0 j * Q r l0)) by (intros; ring). ring.
      + reflexivity. }
  intros n m A Q U Q' U' O N T P H O' N' T' P' H'. intros r j Hr Hj. revert r Hr. induction j as [j IH] using (well_founded_induction Wf_nat.lt_wf).
  destruct (K n m A Q U T H O N j Hj) as (K1 & K2). destruct (K n m A Q' U' T' H' O' N' j Hj) as (K1' & K2').
  assert (forall r, (r < n)%nat -> Q r j * U j j = Q' r j * U' j j) as E.
  { intros r Hr. rewrite K2, K2' by exact Hr. f_equal. apply rsum_ext. intros l Hl. rewrite IH by lia. f_equal. rewrite K1, K1' by exact Hl.
    apply inner_ext; [reflexivity|]. intros i Hi. unfold column. apply IH; lia. }
  assert (U j j * U j j = U' j j * U' j j) as S.
  { transitivity (inner n (fun r => Q r j * U j j) (fun r => Q r j * U j j)).
    - rewrite (inner_ext n _ (fun r => U j j * Q r j) _ (fun r => U j j * Q r j)) by (intros; ring). rewrite (inner_scale_l n (U j j) (fun r => Q r j)), inner_sym, (inner_scale_l n (U j j) (fun r => Q r j)).
      specialize (N j Hj). unfold column in N. rewrite N. ring.
    - rewrite (inner_ext n _ (fun r => U' j j * Q' r j) _ (fun r => U' j j * Q' r j)) by (intros; rewrite E by assumption; ring). rewrite (inner_scale_l n (U' j j) (fun r => Q' r j)), inner_sym, (inner_scale_l n (U' j j) (fun r => Q' r j)).
      specialize (N' j Hj). unfold column in N'. rewrite N'. ring. }
  assert (U j j = U' j j) as D by (specialize (P j Hj); specialize (P' j Hj); nra).
  intros r Hr. specialize (E r Hr). rewrite <- D in E. specialize (P j Hj). apply Rmult_eq_reg_r in E; [exact E|lra].
Qed.

(** C77.  [gram_schmidt_without_normalize] gives finite numbers exactly when the columns but the last are linearly independent; then the columns
    of the result are pairwise orthogonal, and the matrix is the result times an upper triangular matrix with ones on the diagonal. *)
Theorem C77_gram_schmidt_without_normalize : forall M n m, wf M -> nr M = n -> nc M = m -> (0 < n)%nat -> (0 < m)%nat ->
  ((exists G, gram_schmidt_without_normalize M = Some G) <-> independent n (m - 1) (ent M)) /\
  forall G, gram_schmidt_without_normalize M = Some G ->
    wf G /\ nr G = n /\ nc G = m /\ orthogonal_columns n m (ent G) /\
    exists U, upper_triangular m U /\ (forall j, (j < m)%nat -> U j j = 1) /\ forall i j, (i < n)%nat -> (j < m)%nat -> ent M i j = prod_entry m (ent G) U i j.
Proof.
  intros M n m W RM CM Hn Hm. rewrite (wf_eq_mk M W), RM, CM. set (A := ent M). clearbody A.
  assert (independent n (m - 1) (ent (mk n m A)) <-> forall c, (c < m - 1)%nat -> gsq n A c <> 0) as EQ.
  { rewrite <- indep_pos. split; apply independent_ext; [|apply same_sym]; intros i j Hi Hj; apply ent_mk; lia. }
  split.
  - rewrite EQ. split; [|intros P; eexists; apply gsw_some; [exact Hm|intros; apply P; lia]]. intros (Q & H). destruct (gsq_dec n A (m - 1)) as [P|(c & Hc & Z & P)]; [exact P|].
    rewrite (gsw_none n m A c) in H by (assumption || lia). discriminate.
  - intros Q H. destruct (gsq_dec n A (m - 1)) as [P|(c & Hc & Z & P)]; [|rewrite (gsw_none n m A c) in H by (assumption || lia); discriminate].
    rewrite gsw_some in H by (try assumption; intros; apply P; lia). injection H as <-.
    split; [apply wf_mk|]. split; [reflexivity|]. split; [reflexivity|]. split.
    + intros i j Hi Hj D. rewrite (inner_ext n _ (gvec n A i) _ (gvec n A j)); [apply (g_orth2 n A m); (assumption || (intros; apply P; lia))| |]; intros r Hr; unfold column; now rewrite ent_mk by assumption.
    + exists (gU n A). split; [|split].
      * intros l c Hl. unfold gU. replace (l <? c)%nat with false by lia. now replace (l =? c)%nat with false by lia.
      * intros j Hj. unfold gU. rewrite Nat.eqb_refl. now replace (j <? j)%nat with false by lia.
      * intros i j Hi Hj. rewrite ent_mk by assumption. rewrite (a_prod n A m i j Hj). unfold prod_entry. apply rsum_ext. intros l Hl. now rewrite ent_mk by assumption.
Qed.

(** Non-vacuity: the columns (1,1), (0,1) are independent, and (3,4), (6,8) are not. *)
Example ex_gs : exists Q, gram_schmidt (mk 2 2 (fun i j => if (j <=? i)%nat then 1 else 0)) = Some Q.
Proof.
  apply (C76_gram_schmidt _ 2 2 (wf_mk _ _ _) eq_refl eq_refl); [lia|lia|]. apply (independent_ext 2 2 (fun i j => if (j <=? i)%nat then 1 else 0)); [apply same_sym, ent_same|].
  intros x H j Hj. pose proof (H 0%nat ltac:(lia)) as H0. pose proof (H 1%nat ltac:(lia)) as H1. cbn in H0, H1. destruct j as [|[|j]]; [lra|lra|lia].
Qed.
Example ex_gs_dependent : gram_schmidt (mk 2 2 (fun i j => (3 + INR i) * (1 + INR j))) = None.
Proof.
  destruct (gram_schmidt (mk 2 2 (fun i j => (3 + INR i) * (1 + INR j)))) as [Q|] eqn:E; [|reflexivity]. exfalso.
  destruct (C76_gram_schmidt _ 2 2 (wf_mk 2 2 (fun i j => (3 + INR i) * (1 + INR j))) eq_refl eq_refl ltac:(lia) ltac:(lia)) as (H & _). destruct H as (H & _). specialize (H (ex_intro _ _ E)).
  apply (independent_ext _ _ _ _ (ent_same 2 2 (fun i j => (3 + INR i) * (1 + INR j)))) in H.
  pose proof (H (fun j => if (j =? 0)%nat then -2 else 1) ltac:(intros i Hi; cbn; lra) 1%nat (le_n 2)) as Z. cbn in Z. lra.
Qed.
Print Assumptions C76_gram_schmidt. Print Assumptions C76_unique. Print Assumptions C77_gram_schmidt_without_normalize.
Print Assumptions C76_panics.
