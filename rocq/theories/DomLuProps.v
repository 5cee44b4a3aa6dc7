(** Property C152: elimination without pivoting never meets a zero pivot on diagonally dominant and on positive definite matrices (exact arithmetic). *)
From Coq Require Import ZArith Reals Lra Lia List Arith Bool.
From Verif Require Import PidModel MatModel MatSpec MatProofs MatProofs2 NumModel NumProofs RankModel LuModel LuSpec LuProofs LuProofs2 LuProofs3 LuProps.
Import ListNotations.
Open Scope R_scope.

(** Each diagonal entry is larger, in absolute value, than the others of its row together; of its column. *)
Definition dominant (n : nat) (A : nat -> nat -> R) : Prop := forall i, (i < n)%nat -> sum n (fun j => if (j =? i)%nat then 0 else Rabs (A i j)) < Rabs (A i i).
Definition dominant_columns (n : nat) (A : nat -> nat -> R) : Prop := forall j, (j < n)%nat -> sum n (fun i => if (i =? j)%nat then 0 else Rabs (A i j)) < Rabs (A j j).
(** The quadratic form is positive; the matrix need not be symmetric. *)
Definition definite (n : nat) (A : nat -> nat -> R) : Prop := forall x : nat -> R, (exists i, (i < n)%nat /\ x i <> 0) -> 0 < sum n (fun i => sum n (fun j => x i * (A i j * x j))).

Lemma off_sum n i f : (i < n)%nat -> sum n (fun j => if (j =? i)%nat then 0 else f j) = sum n f - f i.
Proof.
  intros Hi. assert (E : sum n f = sum n (fun j => if (j =? i)%nat then 0 else f j) + sum n (fun j => if (j =? i)%nat then f j else 0)) by (rewrite <- rsum_add; apply rsum_ext; intros k _; destruct (k =? i)%nat; lra).
  rewrite (rsum_single n i (fun j => if (j =? i)%nat then f j else 0)) in E; [rewrite Nat.eqb_refl in E; lra|exact Hi|]. intros k _ N. now replace (k =? i)%nat with false by (symmetry; now apply Nat.eqb_neq).
Qed.
Definition step (A : nat -> nat -> R) : nat -> nat -> R := fun i j => schur A 1 (S i) (S j).
Lemma step_eq A i j : step A i j = A (S i) (S j) - A (S i) 0%nat / A 0%nat 0%nat * A 0%nat (S j). Proof. reflexivity. Qed.
Lemma piv_step A k : piv A (S k) = piv (step A) k. Proof. unfold piv, step. now rewrite schur_shift. Qed.
Lemma dom_first n A : dominant (S n) A -> A 0%nat 0%nat <> 0 /\ (forall i, (i < n)%nat -> Rabs (A (S i) 0%nat / A 0%nat 0%nat * A 0%nat (S i)) < Rabs (A (S i) (S i))) /\ dominant n (step A).
Proof.
  intros D. assert (P0 : 0 < Rabs (A 0%nat 0%nat)).
  { eapply Rle_lt_trans; [|apply (D 0%nat); lia]. apply rsum_nonneg. intros k _. destruct (k =? 0)%nat; [lra|apply Rabs_pos]. }
  assert (N0 : A 0%nat 0%nat <> 0) by (intros Z; rewrite Z, Rabs_R0 in P0; lra). split; [exact N0|].
  pose proof (D 0%nat ltac:(lia)) as D0. rewrite off_sum in D0 by lia. rewrite rsum_first in D0. set (R0 := sum n (fun k => Rabs (A 0%nat (S k)))) in *.
  assert (K : forall i, (i < n)%nat -> sum n (fun j => if (j =? i)%nat then 0 else Rabs (step A i j)) < Rabs (A (S i) (S i)) - Rabs (A (S i) 0%nat / A 0%nat 0%nat * A 0%nat (S i))).
  { intros i Hi. pose proof (D (S i) ltac:(lia)) as Di. rewrite off_sum in Di by lia. rewrite rsum_first in Di. set (l := A (S i) 0%nat / A 0%nat 0%nat).
    assert (EL : Rabs (A (S i) 0%nat) = Rabs l * Rabs (A 0%nat 0%nat)) by (rewrite <- Rabs_mult; f_equal; unfold l; now field). rewrite EL in Di.
    assert (B : sum n (fun j => if (j =? i)%nat then 0 else Rabs (step A i j)) <= sum n (fun j => if (j =? i)%nat then 0 else Rabs (A (S i) (S j)) + Rabs l * Rabs (A 0%nat (S j)))).
    { apply rsum_le. intros j Hj. destruct (j =? i)%nat; [lra|]. rewrite step_eq. fold l. rewrite <- Rabs_mult. unfold Rminus. eapply Rle_trans; [apply Rabs_triang|]. rewrite Rabs_Ropp. lra. }
    rewrite (off_sum n i (fun j => Rabs (A (S i) (S j)) + Rabs l * Rabs (A 0%nat (S j)))) in B by exact Hi. rewrite rsum_add, rsum_mul_l in B. fold R0 in B. rewrite Rabs_mult.
    assert (Rabs l * R0 <= Rabs l * Rabs (A 0%nat 0%nat)) by (apply Rmult_le_compat_l; [apply Rabs_pos|lra]). lra. }
  split.
  - intros i Hi. specialize (K i Hi). assert (0 <= sum n (fun j => if (j =? i)%nat then 0 else Rabs (step A i j))) by (apply rsum_nonneg; intros k _; destruct (k =? i)%nat; [lra|apply Rabs_pos]). lra.
  - intros i Hi. eapply Rlt_le_trans; [apply K, Hi|]. rewrite step_eq. set (p := A (S i) 0%nat / A 0%nat 0%nat * A 0%nat (S i)). pose proof (Rabs_triang_inv (A (S i) (S i)) p). lra.
Qed.
Lemma dom_piv k : forall n A, (k < n)%nat -> dominant n A -> piv A k <> 0 /\ ((forall i, (i < n)%nat -> 0 < A i i) -> 0 < piv A k).
Proof.
  induction k as [|k IH]; intros n A Hk D; destruct n as [|n]; try lia; destruct (dom_first n A D) as (N0 & P & D').
  - split; [exact N0|]. intros H. apply H. lia.
  - rewrite piv_step. destruct (IH n (step A) ltac:(lia) D') as (Q & Q'). split; [exact Q|]. intros H. apply Q'. intros i Hi. rewrite step_eq. specialize (P i Hi). pose proof (H (S i) ltac:(lia)) as Hp. rewrite (Rabs_pos_eq (A (S i) (S i))) in P by lra.
    pose proof (Rle_abs (A (S i) 0%nat / A 0%nat 0%nat * A 0%nat (S i))). lra.
Qed.
Lemma schur_T A k : forall i j, schur (fun i j => A j i) k i j = schur A k j i.
Proof. induction k as [|k IH]; intros i j; [reflexivity|]. cbn [schur]. rewrite !IH. cbn [tsub tmul tdiv ops_R fops_R]. unfold Rdiv. ring. Qed.
Lemma piv_T A k : piv (fun i j => A j i) k = piv A k. Proof. apply schur_T. Qed.

Lemma definite_first n A : definite (S n) A -> 0 < A 0%nat 0%nat /\ definite n (step A).
Proof.
  intros D. assert (P0 : 0 < A 0%nat 0%nat).
  { specialize (D (fun i => if (i =? 0)%nat then 1 else 0)). rewrite (rsum_single (S n) 0) in D; [|lia|intros i _ N; apply rsum_zero; intros j _; replace (i =? 0)%nat with false by (symmetry; now apply Nat.eqb_neq); ring].
    rewrite (rsum_single (S n) 0) in D; [|lia|intros j _ N; replace (j =? 0)%nat with false by (symmetry; now apply Nat.eqb_neq); ring]. cbn [Nat.eqb] in D.
    assert (0 < 1 * (A 0%nat 0%nat * 1)) by (apply D; exists 0%nat; split; [lia|cbn; lra]). lra. }
  split; [exact P0|]. intros y (i0 & Hi0 & Y0). set (s := sum n (fun j => A 0%nat (S j) * y j)). set (x := fun i => match i with O => - s / A 0%nat 0%nat | S i => y i end).
  assert (L : 0 < sum (S n) (fun i => sum (S n) (fun j => x i * (A i j * x j)))) by (apply D; exists (S i0); split; [lia|exact Y0]).
  eapply Rlt_le_trans; [exact L|]. right. rewrite rsum_first.
  assert (Z : sum (S n) (fun j => x 0%nat * (A 0%nat j * x j)) = 0).
  { rewrite rsum_mul_l, rsum_first. change (sum n (fun k => A 0%nat (S k) * x (S k))) with s. cbn [x]. field. lra. }
  rewrite Z, Rplus_0_l. apply rsum_ext. intros i Hi. rewrite !rsum_mul_l. cbn [x]. f_equal. rewrite rsum_first. change (x 0%nat) with (- s / A 0%nat 0%nat).
  transitivity (sum n (fun j => A (S i) (S j) * y j) - A (S i) 0%nat / A 0%nat 0%nat * s); [change (sum n (fun k => A (S i) (S k) * x (S k))) with (sum n (fun j => A (S i) (S j) * y j)); field; lra|].
  unfold s. rewrite <- rsum_mul_l, <- rsum_sub. apply rsum_ext. intros j _. rewrite step_eq. ring.
Qed.
Lemma definite_piv k : forall n A, (k < n)%nat -> definite n A -> 0 < piv A k.
Proof.
  induction k as [|k IH]; intros n A Hk D; destruct n as [|n]; try lia; destruct (definite_first n A D) as (P & D'); [exact P|]. rewrite piv_step. apply (IH n); [lia|exact D'].
Qed.

(** The consequences of non-zero pivots. *)
Lemma pivots_ok (A : mat R) n : wf A -> nr A = n -> nc A = n -> (0 < n)%nat -> (forall k, (k < n)%nat -> piv (ent A) k <> 0) ->
  (exists F, lu A = Some F) /\ det A = Some (determinant n (ent A)) /\ determinant n (ent A) <> 0 /\
  ((forall k, (k < n)%nat -> 0 < piv (ent A) k) -> 0 < determinant n (ent A)) /\
  forall B, wf B -> nr B = n -> (0 < nc B)%nat -> exists X, solve A B = Some X /\ wf X /\ nr X = n /\ nc X = nc B /\
    forall i, (i < n)%nat -> sum n (fun l => ent A i l * ent X l 0) = ent B i 0.
Proof.
  intros W R C Hn P. assert (DT : forall k, (0 < k <= n)%nat -> determinant k (ent A) <> 0).
  { intros k Hk. apply (proj2 (piv_minor field_ok_R (S n) (ent A))); [intros l Hl; apply P; lia|lia]. }
  assert (LU : exists F, lu A = Some F) by (apply (proj1 (C73_lu field_ok_R A n W R C Hn)); intros k Hk; apply DT; lia).
  split; [exact LU|]. destruct (C74_det_partial field_ok_R A n W R C Hn) as (H1 & H2). split.
  - destruct H1 as [H1|H1]; [exact H1|]. destruct (proj2 H2) as (d & Hd); [intros k Hk; apply DT; lia|congruence].
  - split; [apply DT; lia|]. split.
    + intros PP. destruct n as [|n]; [lia|]. rewrite (det_piv field_ok_R) by (intros k Hk; apply P; lia). clear -PP.
      assert (G : forall m, (m <= S n)%nat -> 0 < product m (piv (ent A))); [|apply G; lia]. induction m as [|m IH]; intros Hm; cbn [product]; [cbn; lra|]. apply Rmult_lt_0_compat; [apply IH; lia|apply PP; lia].
    + intros B WB RB CB. destruct (C75_solve field_ok_R A B n W WB R C RB Hn CB) as (I & S75). destruct (proj2 I) as (X & EX); [intros k Hk; apply DT; lia|]. exists X. split; [exact EX|].
      destruct (S75 X EX) as (WX & RX & CX & U & _). split; [exact WX|]. split; [exact RX|]. split; [exact CX|]. apply (proj2 (U (fun l => ent X l 0))). reflexivity.
Qed.
(** C152.  [lu], [det] and [solve] return, with the right answer, on every strictly diagonally dominant matrix, by rows or by columns; the
    determinant is positive if the diagonal is. *)
Theorem C152_dominant : forall (A : mat R) n, wf A -> nr A = n -> nc A = n -> (0 < n)%nat -> dominant n (ent A) \/ dominant_columns n (ent A) ->
  (exists F, lu A = Some F) /\ det A = Some (determinant n (ent A)) /\ determinant n (ent A) <> 0 /\
  ((forall i, (i < n)%nat -> 0 < ent A i i) -> 0 < determinant n (ent A)) /\
  forall B, wf B -> nr B = n -> (0 < nc B)%nat -> exists X, solve A B = Some X /\ wf X /\ nr X = n /\ nc X = nc B /\
    forall i, (i < n)%nat -> sum n (fun l => ent A i l * ent X l 0) = ent B i 0.
Proof.
  intros A n W R C Hn D. assert (Q : forall k, (k < n)%nat -> piv (ent A) k <> 0 /\ ((forall i, (i < n)%nat -> 0 < ent A i i) -> 0 < piv (ent A) k)).
  { intros k Hk. destruct D as [D|D]; [exact (dom_piv k n (ent A) Hk D)|]. rewrite <- piv_T. exact (dom_piv k n (fun i j => ent A j i) Hk D). }
  destruct (pivots_ok A n W R C Hn) as (P1 & P2 & P3 & P4 & P5); [intros k Hk; apply (Q k Hk)|].
  split; [exact P1|]. split; [exact P2|]. split; [exact P3|]. split; [|exact P5]. intros H. apply P4. intros k Hk. now apply (Q k Hk).
Qed.
Print Assumptions C152_dominant.
(** So they do on every matrix with a positive definite quadratic form, symmetric or not; the determinant is positive. *)
Theorem C152_definite : forall (A : mat R) n, wf A -> nr A = n -> nc A = n -> (0 < n)%nat -> definite n (ent A) ->
  (exists F, lu A = Some F /\ forall k, (k < n)%nat -> 0 < ent F k k) /\ det A = Some (determinant n (ent A)) /\ 0 < determinant n (ent A) /\
  forall B, wf B -> nr B = n -> (0 < nc B)%nat -> exists X, solve A B = Some X /\ wf X /\ nr X = n /\ nc X = nc B /\
    forall i, (i < n)%nat -> sum n (fun l => ent A i l * ent X l 0) = ent B i 0.
Proof.
  intros A n W R C Hn D. assert (Q : forall k, (k < n)%nat -> 0 < piv (ent A) k) by (intros k Hk; exact (definite_piv k n (ent A) Hk D)).
  destruct (pivots_ok A n W R C Hn) as ((F & EF) & P2 & P3 & P4 & P5); [intros k Hk; specialize (Q k Hk); lra|].
  split; [|split; [exact P2|split; [apply P4, Q|exact P5]]]. exists F. split; [exact EF|]. intros k Hk.
  destruct (C73_lu field_ok_R A n W R C Hn) as (_ & S73). destruct (S73 F EF) as (_ & _ & _ & _ & E). specialize (E k Hk). cbn [tmul ops_R] in E.
  assert (DP : forall m, (m <= n)%nat -> 0 < determinant m (ent A)).
  { intros m Hm. destruct m as [|m]; [cbn; lra|]. rewrite (det_piv field_ok_R) by (intros l Hl; specialize (Q l ltac:(lia)); cbn; lra).
    assert (G : forall q, (q <= S m)%nat -> 0 < product q (piv (ent A))); [|apply G; lia]. induction q as [|q IH]; intros Hq; cbn [product]; [cbn; lra|]. apply Rmult_lt_0_compat; [apply IH; lia|apply Q; lia]. }
  pose proof (DP k ltac:(lia)) as A1. pose proof (DP (k + 1)%nat ltac:(lia)) as A2. rewrite E in A2. apply (Rmult_lt_reg_l (determinant k (ent A))); [exact A1|]. rewrite Rmult_0_r. exact A2.
Qed.
Print Assumptions C152_definite.
(** Strictness is needed: in this matrix each diagonal entry equals the rest of its row, and [solve] divides by zero. *)
Theorem C152_weak_refuted : exists A B : mat R, wf A /\ nr A = 2%nat /\ nc A = 2%nat /\ wf B /\ nr B = 2%nat /\ nc B = 1%nat /\
  (forall i, (i < 2)%nat -> sum 2 (fun j => if (j =? i)%nat then 0 else Rabs (ent A i j)) <= Rabs (ent A i i)) /\ solve A B = None.
Proof.
  exists (mk 2 2 (fun _ _ => 1)), (mk 2 1 (fun _ _ => 1)). split; [apply wf_mk|]. split; [reflexivity|]. split; [reflexivity|]. split; [apply wf_mk|]. split; [reflexivity|]. split; [reflexivity|]. split.
  - intros i Hi. assert (U : forall i j, (i < 2)%nat -> (j < 2)%nat -> ent (mk 2 2 (fun _ _ : nat => 1)) i j = 1) by (intros; now rewrite ent_mk). rewrite off_sum by exact Hi. rewrite (rsum_ext 2 _ (fun _ => 1)) by (intros k Hk; rewrite U by assumption; apply Rabs_R1). rewrite U by assumption. rewrite Rabs_R1. cbn. lra.
  - destruct (solve (mk 2 2 (fun _ _ => 1)) (mk 2 1 (fun _ _ => 1))) as [X|] eqn:E; [|reflexivity]. exfalso.
    destruct (C75_solve field_ok_R (mk 2 2 (fun _ _ => 1)) (mk 2 1 (fun _ _ => 1)) 2 (wf_mk _ _ _) (wf_mk _ _ _) eq_refl eq_refl eq_refl ltac:(lia) ltac:(cbn; lia)) as (I & _).
    apply (proj1 I (ex_intro _ _ E) 2%nat); [lia|]. rewrite (det_ext 2 _ (fun _ _ => 1)) by (intros; now apply ent_mk). cbn. unfold signed. unfold minor. cbn. ring.
Qed.
Print Assumptions C152_weak_refuted.
(** The hypotheses of C152 are met, at every order, by the matrix with [n + 1] on the diagonal and 1 elsewhere. *)
Example C152_nontrivial : forall n, dominant n (fun i j => if (i =? j)%nat then INR n + 1 else 1) /\ definite n (fun i j => if (i =? j)%nat then INR n + 1 else 1).
Proof.
  intros n. split.
  - intros i Hi. rewrite Nat.eqb_refl. rewrite (rsum_ext n _ (fun j => if (j =? i)%nat then 0 else 1)) by (intros k _; destruct (Nat.eqb_spec k i); [reflexivity|]; replace (i =? k)%nat with false by (symmetry; apply Nat.eqb_neq; congruence); apply Rabs_R1).
    rewrite (off_sum n i (fun _ => 1)) by exact Hi. assert (S1 : sum n (fun _ => 1) = INR n) by (clear; induction n as [|n IH]; [reflexivity|]; rewrite S_INR; cbn [sum]; rewrite IH; reflexivity). rewrite S1. pose proof (pos_INR n). rewrite Rabs_pos_eq by lra. lra.
  - intros x (i0 & Hi0 & X0). pose proof (pos_INR n). rewrite (rsum_ext n _ (fun i => x i * sum n x + INR n * (x i * x i))).
    + rewrite rsum_add, rsum_mul_l. rewrite (rsum_ext n (fun i => x i * sum n x) (fun i => sum n x * x i)) by (intros; ring). rewrite rsum_mul_l.
      assert (0 < sum n (fun i => x i * x i)).
      { rewrite (rsum_split n i0) by lia. replace (n - i0)%nat with (S (n - i0 - 1)) by lia. rewrite rsum_first, Nat.add_0_r. assert (0 < x i0 * x i0) by (destruct (Rtotal_order (x i0) 0) as [|[|]]; [nra|contradiction|nra]).
        assert (0 <= sum i0 (fun i => x i * x i)) by (apply rsum_nonneg; intros; apply Rle_0_sqr). assert (0 <= sum (n - i0 - 1) (fun k => x (i0 + S k)%nat * x (i0 + S k)%nat)) by (apply rsum_nonneg; intros; apply Rle_0_sqr). lra. }
      assert (0 < INR n) by (apply lt_0_INR; lia). pose proof (Rle_0_sqr (sum n x)) as Q. unfold Rsqr in Q. nra.
    + intros i Hi. rewrite (rsum_ext n _ (fun j => x i * x j + (if (j =? i)%nat then INR n * (x i * x i) else 0))).
      * rewrite rsum_add, rsum_mul_l. f_equal. rewrite (rsum_single n i); [now rewrite Nat.eqb_refl|exact Hi|]. intros k _ N. now replace (k =? i)%nat with false by (symmetry; now apply Nat.eqb_neq).
      * intros j _. rewrite (Nat.eqb_sym j i). destruct (Nat.eqb_spec i j) as [->|]; ring.
Qed.
