(** Property C155: elimination of symmetric matrices: the factorisation L D L^T, and Sylvester's test for positive definite matrices. *)
From Coq Require Import ZArith Reals Lra Lia List Arith Bool Ring_theory Ring.
From Verif Require Import PidModel MatModel MatSpec MatProofs MatProofs2 NumModel NumProofs RankModel LuModel LuSpec LuProofs LuProofs2 LuProofs3 LuProps DomLuProps BandLuProps.
Import ListNotations.

Section SymT.
  Local Open Scope nat_scope.
  Context {T : Type} {OT : Ops T} {FT : FOps T}.
  Hypothesis FO : field_ok (T := T).
  Let RL : ring_theory t0 t1 tadd tmul tsub topp (@eq T) := proj1 FO.
  Add Ring TSy : RL.
  Lemma tmul_assoc a b c : tmul a (tmul b c) = tmul (tmul a b) c :> T. Proof. ring. Qed.
  Lemma sub_swap a b b' x y z : tmul (tdiv y x) x = y -> tmul (tdiv z x) x = z -> b = tmul (tdiv y x) z -> b' = tmul (tdiv z x) y -> tsub a b = tsub a b' :> T.
  Proof. intros Y Z -> ->. f_equal. rewrite <- Z at 1. rewrite <- Y at 2. ring. Qed.
  Lemma schur_sym A n : (forall i j, i < n -> j < n -> A i j = A j i) -> forall k, (forall l, l < k -> piv A l <> t0) -> k <= n -> forall i j, i < n -> j < n -> schur A k i j = schur A k j i.
  Proof.
    intros H. induction k as [|k IH]; intros P K i j Hi Hj; [now apply H|]. assert (IH' := IH ltac:(intros; apply P; lia) ltac:(lia)). cbn [schur]. rewrite (IH' i j), (IH' k j), (IH' i k) by lia.
    change (schur A k k k) with (piv A k). assert (N : piv A k <> t0) by (apply P; lia). eapply sub_swap; [apply (div_mul FO), N|apply (div_mul FO), N|reflexivity|]. rewrite (IH' j k) by lia. reflexivity.
  Qed.
  (** C155.  On a symmetric matrix the factors [lu] stores are each other's transposes up to the diagonal D: the matrix is L D L^T. *)
  Theorem C155_ldlt : forall (M F : mat T) n, wf M -> nr M = n -> nc M = n -> 0 < n -> (forall i j, i < n -> j < n -> ent M i j = ent M j i) -> lu M = Some F ->
    (forall i j, j < i -> i < n -> ent F j i = tmul (ent F j j) (ent F i j)) /\
    let L i j := if i =? j then t1 else if j <? i then ent F i j else t0 in
    forall i j, i < n -> j < n -> ent M i j = sum n (fun k => tmul (tmul (L i k) (ent F k k)) (L j k)).
  Proof.
    intros M F n W R C Hn H E. destruct (lu_entries FO M n F W R C Hn E) as (P & EF).
    assert (K : forall i j, j < i -> i < n -> ent F j i = tmul (ent F j j) (ent F i j)).
    { intros i j Hj Hi. rewrite !EF by lia. replace (j <=? i) with true by (symmetry; apply Nat.leb_le; lia). rewrite Nat.leb_refl. replace (i <=? j) with false by (symmetry; apply Nat.leb_gt; lia).
      rewrite (schur_sym (ent M) n H j ltac:(intros; apply P; lia) ltac:(lia) j i) by lia. change (schur (ent M) j j j) with (piv (ent M) j). rewrite (Rmul_comm RL). symmetry. apply (div_mul FO), P. lia. }
    split; [exact K|]. intros L i j Hi Hj. destruct (C73_lu FO M n W R C Hn) as (_ & S73). destruct (S73 F E) as (_ & _ & _ & PR & _). rewrite <- (PR i j Hi Hj). unfold prod_entry. apply sum_ext. intros k Hk.
    rewrite <- tmul_assoc. f_equal. unfold upper_part, L. destruct (Nat.leb_spec k j) as [KJ|KJ].
    - destruct (Nat.eqb_spec j k) as [->|N]; [symmetry; rewrite (Rmul_comm RL); apply (Rmul_1_l RL)|]. replace (k <? j) with true by (symmetry; apply Nat.ltb_lt; lia). apply K; lia.
    - replace (j =? k) with false by (symmetry; apply Nat.eqb_neq; lia). replace (k <? j) with false by (symmetry; apply Nat.ltb_ge; lia). ring.
  Qed.
End SymT.
Print Assumptions C155_ldlt.

Open Scope R_scope.
Lemma quad_step n A x : A 0%nat 0%nat <> 0 -> (forall i, (i < n)%nat -> A (S i) 0%nat = A 0%nat (S i)) ->
  sum (S n) (fun i => sum (S n) (fun j => x i * (A i j * x j))) =
  A 0%nat 0%nat * (x 0%nat + sum n (fun j => A 0%nat (S j) * x (S j)) / A 0%nat 0%nat) * (x 0%nat + sum n (fun j => A 0%nat (S j) * x (S j)) / A 0%nat 0%nat) +
  sum n (fun i => sum n (fun j => x (S i) * (step A i j * x (S j)))).
Proof.
  intros N H. set (s := sum n (fun j => A 0%nat (S j) * x (S j))). rewrite rsum_first, rsum_mul_l, rsum_first. fold s.
  rewrite (rsum_ext n (fun i => sum (S n) (fun j => x (S i) * (A (S i) j * x j))) (fun i => (A 0%nat (S i) * x (S i)) * x 0%nat + x (S i) * sum n (fun j => A (S i) (S j) * x (S j)))) by (intros i Hi; rewrite rsum_mul_l, rsum_first, H by exact Hi; ring).
  rewrite rsum_add, rsum_mul_r. fold s.
  rewrite (rsum_ext n (fun i => sum n (fun j => x (S i) * (step A i j * x (S j)))) (fun i => x (S i) * sum n (fun j => A (S i) (S j) * x (S j)) - (A 0%nat (S i) * x (S i)) * (s / A 0%nat 0%nat))).
  - rewrite rsum_sub, rsum_mul_r. fold s. field. exact N.
  - intros i Hi. rewrite rsum_mul_l. rewrite <- (H i Hi). transitivity (x (S i) * (sum n (fun j => A (S i) (S j) * x (S j)) - A (S i) 0%nat / A 0%nat 0%nat * s)); [|field; exact N]. f_equal.
    unfold s. rewrite <- rsum_mul_l, <- rsum_sub. apply rsum_ext. intros j _. rewrite step_eq. ring.
Qed.
Lemma classic_tail n (x : nat -> R) : (exists i, (i < n)%nat /\ x i <> 0) \/ forall i, (i < n)%nat -> x i = 0.
Proof.
  induction n as [|n IH]; [right; intros; lia|]. destruct IH as [(i & Hi & N)|IH]; [left; exists i; split; [lia|exact N]|]. destruct (Req_dec (x n) 0) as [E|E]; [|left; exists n; split; [lia|exact E]].
  right. intros i Hi. destruct (Nat.eq_dec i n) as [->|]; [exact E|apply IH; lia].
Qed.
Lemma positive_piv n : forall A, (forall i j, (i < n)%nat -> (j < n)%nat -> A i j = A j i) -> (forall k, (k < n)%nat -> 0 < piv A k) -> definite n A.
Proof.
  induction n as [|n IH]; intros A H P x (i0 & Hi0 & X0); [lia|]. assert (P0 : 0 < A 0%nat 0%nat) by (apply (P 0%nat); lia).
  rewrite quad_step by (first [lra|intros; apply H; lia]). set (u := x 0%nat + _). set (Q := sum n _).
  assert (D : definite n (step A)).
  { apply IH; [|intros k Hk; rewrite <- piv_step; apply P; lia]. intros i j Hi Hj. rewrite !step_eq. rewrite (H (S i) (S j)), (H (S i) 0%nat), (H 0%nat (S j)) by lia. field. lra. }
  assert (U : 0 <= A 0%nat 0%nat * u * u) by (rewrite Rmult_assoc; apply Rmult_le_pos; [lra|apply Rle_0_sqr]).
  assert (DX : (exists i, (i < n)%nat /\ x (S i) <> 0) -> 0 < Q) by (intros E; exact (D (fun i => x (S i)) E)).
  destruct (classic_tail n (fun i => x (S i))) as [E|E]; [specialize (DX E); lra|].
  assert (EQ : Q = 0) by (unfold Q; apply rsum_zero; intros i Hi; apply rsum_zero; intros j _; rewrite (E i Hi); ring).
  assert (EU : u = x 0%nat) by (unfold u; rewrite (rsum_zero n) by (intros j Hj; rewrite (E j Hj); ring); field; lra).
  assert (N0 : x 0%nat <> 0) by (destruct i0 as [|i0]; [exact X0|rewrite (E i0) in X0 by lia; lra]). rewrite EQ, EU. assert (0 < x 0%nat * x 0%nat) by (destruct (Rtotal_order (x 0%nat) 0) as [|[|]]; [nra|contradiction|nra]). assert (0 < A 0%nat 0%nat * (x 0%nat * x 0%nat)) by (apply Rmult_lt_0_compat; lra). lra.
Qed.
(** Sylvester's test: a symmetric matrix is positive definite exactly when [lu] returns with a positive diagonal, and exactly when the leading
    minors are positive. *)
Theorem C155_sylvester : forall (A : mat R) n, wf A -> nr A = n -> nc A = n -> (0 < n)%nat -> (forall i j, (i < n)%nat -> (j < n)%nat -> ent A i j = ent A j i) ->
  ((forall x : nat -> R, (exists i, (i < n)%nat /\ x i <> 0) -> 0 < sum n (fun i => sum n (fun j => x i * (ent A i j * x j)))) <->
     exists F, lu A = Some F /\ forall k, (k < n)%nat -> 0 < ent F k k) /\
  ((exists F, lu A = Some F /\ forall k, (k < n)%nat -> 0 < ent F k k) <-> forall k, (0 < k <= n)%nat -> 0 < determinant k (ent A)).
Proof.
  intros A n W R C Hn H. split; split.
  - intros D. exact (proj1 (C152_definite A n W R C Hn D)).
  - intros (F & E & P). apply (positive_piv n (ent A) H). intros k Hk. destruct (lu_entries field_ok_R A n F W R C Hn E) as (_ & EF). specialize (P k Hk). rewrite EF, Nat.leb_refl in P by exact Hk. exact P.
  - intros (F & E & P). destruct (C73_lu field_ok_R A n W R C Hn) as (_ & S73). destruct (S73 F E) as (_ & _ & _ & _ & DS).
    assert (G : forall k, (k <= n)%nat -> 0 < determinant k (ent A)); [|intros k Hk; apply G; lia]. induction k as [|k IH]; intros Hk; [cbn; lra|]. rewrite <- Nat.add_1_r. rewrite DS by lia. apply Rmult_lt_0_compat; [apply IH; lia|apply P; lia].
  - intros P. destruct (C73_lu field_ok_R A n W R C Hn) as (I73 & S73). destruct (proj2 I73) as (F & E); [intros k Hk; specialize (P k ltac:(lia)); cbn; lra|]. exists F. split; [exact E|]. destruct (S73 F E) as (_ & _ & _ & _ & DS).
    intros k Hk. specialize (DS k Hk). cbn [tmul ops_R] in DS. assert (0 < determinant k (ent A)) by (destruct k as [|k]; [cbn; lra|apply P; lia]). pose proof (P (k + 1)%nat ltac:(lia)) as A2. rewrite DS in A2.
    apply (Rmult_lt_reg_l (determinant k (ent A))); [assumption|]. rewrite Rmult_0_r. exact A2.
Qed.
Print Assumptions C155_sylvester.
(** Symmetry is needed: here the diagonal of the factors is positive but the form is not. *)
Theorem C155_not_symmetric_refuted : exists (A F : mat R), wf A /\ nr A = 2%nat /\ nc A = 2%nat /\ lu A = Some F /\ (forall k, (k < 2)%nat -> 0 < ent F k k) /\
  exists x : nat -> R, sum 2 (fun i => sum 2 (fun j => x i * (ent A i j * x j))) < 0.
Proof.
  set (a := fun i j : nat => if (i =? j)%nat then 1 else if (i <? j)%nat then 4 else 0). set (A := mk 2 2 a).
  assert (Z : forall i j, (j < i < 2)%nat -> ent A i j = t0) by (intros i j Hij; unfold A; rewrite ent_mk by lia; unfold a; replace (i =? j)%nat with false by (symmetry; apply Nat.eqb_neq; lia); now replace (i <? j)%nat with false by (symmetry; apply Nat.ltb_ge; lia)).
  assert (DG : forall k, (k < 2)%nat -> ent A k k = 1) by (intros k Hk; unfold A; rewrite ent_mk by lia; unfold a; now rewrite Nat.eqb_refl).
  destruct (C154_triangular field_ok_R A 2 (wf_mk _ _ _) eq_refl eq_refl ltac:(lia) (or_introl Z)) as (T1 & _ & _ & T4). destruct (proj2 T1) as (F & E); [intros k Hk; rewrite DG by lia; cbn; lra|].
  exists A, F. split; [apply wf_mk|]. split; [reflexivity|]. split; [reflexivity|]. split; [exact E|]. split.
  - intros k Hk. rewrite (T4 F E k k Hk Hk), Nat.ltb_irrefl, DG by exact Hk. lra.
  - exists (fun i => if (i =? 0)%nat then 1 else -1). cbn. lra.
Qed.
Print Assumptions C155_not_symmetric_refuted.
(** The hypotheses are met, on both sides of the test. *)
Example C155_nontrivial : exists A B : mat R, wf A /\ wf B /\ nr A = 2%nat /\ nc A = 2%nat /\ nr B = 2%nat /\ nc B = 2%nat /\ (forall i j, (i < 2)%nat -> (j < 2)%nat -> ent A i j = ent A j i /\ ent B i j = ent B j i) /\
  (forall k, (0 < k <= 2)%nat -> 0 < determinant k (ent A)) /\ ~ (forall k, (0 < k <= 2)%nat -> 0 < determinant k (ent B)).
Proof.
  exists (mk 2 2 (fun i j => if (i =? j)%nat then 2 else 1)), (mk 2 2 (fun i j => if (i =? j)%nat then 1 else 2)). split; [apply wf_mk|]. split; [apply wf_mk|]. do 4 (split; [reflexivity|]). split; [|split].
  - intros i j Hi Hj. rewrite !ent_mk by assumption. now rewrite (Nat.eqb_sym i j).
  - intros k Hk. destruct k as [|[|[|k]]]; [lia| | |lia]; cbn; unfold signed, minor; cbn; lra.
  - intros H. specialize (H 2%nat ltac:(lia)). cbn in H. unfold signed, minor in H. cbn in H. lra.
Qed.
