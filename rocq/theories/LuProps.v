(** C73-C75: LU factorisation, determinant, linear systems over a field, in exact arithmetic.  [None] is a panic or a result that is not finite. *)
From Coq Require Import List Arith ZArith Bool Lia ZifyBool Ring_theory QArith.Qcanon.
From Verif Require Import PidModel MatModel MatSpec MatProofs MatProofs2 SnfModel RankModel LuModel LuSpec LuProofs LuProofs2 LuProofs3.
Import ListNotations.
Open Scope nat_scope.

Section LuT.
  Context {T : Type} {OT : Ops T} {FT : FOps T}.
  Hypothesis FO : field_ok (T := T).

  (** C73.  [lu] of a square matrix gives finite numbers exactly when the leading minors of order below [n] are not zero, and then the two
      triangular factors stored in the result multiply to the matrix; each diagonal entry is the ratio of two consecutive leading minors. *)
  Theorem C73_lu : forall M n, wf M -> nr M = n -> nc M = n -> 0 < n ->
    ((exists F, lu M = Some F) <-> forall k, 0 < k < n -> determinant k (ent M) <> t0) /\
    forall F, lu M = Some F ->
      wf F /\ nr F = n /\ nc F = n /\
      (forall i j, i < n -> j < n -> prod_entry n (lower_part (ent F)) (upper_part (ent F)) i j = ent M i j) /\
      forall k, k < n -> determinant (k + 1) (ent M) = tmul (determinant k (ent M)) (ent F k k).
  Proof.
    intros M n W R C Hn. rewrite (wf_eq_mk M W), R, C. set (A := ent M). clearbody A.
    assert (forall k, 0 < k < n -> forall i j, i < k -> j < k -> ent (mk n n A) i j = A i j) as E by (intros; apply ent_mk; lia).
    assert ((forall k, 0 < k < n -> determinant k (ent (mk n n A)) <> t0) <-> forall k, k + 1 < n -> piv A k <> t0) as EQ.
    { rewrite <- (piv_minor FO). split; intros H k Hk; specialize (H k Hk); rewrite (det_ext k (ent (mk n n A)) A) in *; auto; apply E; lia. }
    split.
    - rewrite EQ. split; [|intros H; eexists; now apply (lu_some FO)]. intros (F & H).
      destruct (piv_dec FO (n - 1) A) as [P|(k & Hk & P & Q)]; [intros; apply P; lia|]. rewrite (lu_none FO n A k) in H; [discriminate|lia|exact P|exact Q].
    - intros F H. destruct (piv_dec FO (n - 1) A) as [P|(k & Hk & P & Q)]; [|rewrite (lu_none FO n A k) in H; [discriminate|lia|exact P|exact Q]].
      rewrite (lu_some FO) in H by (exact Hn || (intros; apply P; lia)). injection H as <-. split; [apply wf_mk|]. split; [reflexivity|]. split; [reflexivity|]. split.
      + intros i j Hi Hj. rewrite ent_mk by assumption. rewrite <- (lu_prod FO n A i j) by (assumption || (intros; apply P; lia)).
        apply prod_ext; intros l Hl; [unfold lower_part|unfold upper_part]; rewrite ent_mk by assumption; reflexivity.
      + intros k Hk. rewrite Nat.add_1_r. rewrite !(det_ext _ (ent (mk n n A)) A) by (intros; apply ent_mk; lia).
        rewrite (det_step FO) by (intros; apply P; lia). f_equal. rewrite ent_mk by assumption. unfold lu_entry, piv. replace (k <=? k) with true by lia.
        destruct ((n - 1 <=? k) && (n - 1 <=? k)) eqn:EE; [now replace k with (n - 1) by lia|reflexivity].
  Qed.
  (** Otherwise [lu] panics. *)
  Theorem C73_panics : forall M, nr M <> nc M \/ nr M = 0 -> lu M = None.
  Proof.
    intros M H. unfold lu. destruct (Nat.eqb_spec (nr M) (nc M)); [|reflexivity]. destruct (Nat.eqb_spec (nr M) 0); [reflexivity|lia].
  Qed.

  (** C74.  [det] is the determinant whenever it is finite, which it is exactly when the leading minors of order below [n] are not zero;
      it is 0 for a matrix that is not square. *)
  Theorem C74_det_partial : forall M n, wf M -> nr M = n -> nc M = n -> 0 < n ->
    (det M = Some (determinant n (ent M)) \/ det M = None) /\
    ((exists d, det M = Some d) <-> forall k, 0 < k < n -> determinant k (ent M) <> t0).
  Proof.
    intros M n W R C Hn. destruct (C73_lu M n W R C Hn) as (I & P). unfold det. rewrite R, C, Nat.eqb_refl.
    destruct (lu M) as [F|] eqn:E; cbn [obind].
    - destruct (P F eq_refl) as (WF & RF & CF & _ & D). rewrite RF. rewrite (wf_eq_mk F WF), RF, CF.
      rewrite (omapM_some _ (fun i => ent F i i)); [|intros i Hi; apply in_seq in Hi; now rewrite mget_in by lia]. cbn [obind]. rewrite fold_product.
      assert (forall k, k <= n -> determinant k (ent M) = product k (fun i => ent F i i)) as K.
      { induction k as [|k IH]; intros Hk; [reflexivity|]. rewrite <- Nat.add_1_r at 1. rewrite D by lia. now rewrite IH by lia. }
      rewrite (K n) by lia. split; [now left|]. split; [intros _; apply I; eexists; reflexivity|intros _; eexists; reflexivity].
    - split; [now right|]. split; [intros (d & H); discriminate|]. intros H. apply I in H. destruct H; discriminate.
  Qed.
  Theorem C74_not_square : forall M, nr M <> nc M -> det M = Some t0.
  Proof. intros M H. unfold det. destruct (Nat.eqb_spec (nr M) (nc M)); [contradiction|reflexivity]. Qed.
  (** What [det] would have to do. *)
  Definition C74_claim : Prop := forall M n, wf M -> nr M = n -> nc M = n -> 0 < n -> det M = Some (determinant n (ent M)).
  Theorem C74_refuted : ~ C74_claim.
  Proof.
    intros H. destruct (proj2 (C74_det_partial (mk 2 2 (fun i j => if i =? j then t0 else t1)) 2 (wf_mk _ _ _) eq_refl eq_refl ltac:(lia))) as (K & _).
    apply (K (ex_intro _ _ (H _ 2 (wf_mk _ _ _) eq_refl eq_refl ltac:(lia))) 1); [lia|]. pose proof (proj1 FO) as RL. unfold ring_laws in RL.
    cbn. unfold signed. cbn. rewrite (Radd_0_l RL). now rewrite (Rmul_comm RL), (Rmul_1_l RL).
  Qed.

  (** C75.  [solve] gives finite numbers exactly when all leading minors are not zero, and then the first column of the result is the one
      solution of the system; the other columns of the right-hand side come back unchanged. *)
  Theorem C75_solve : forall A B n, wf A -> wf B -> nr A = n -> nc A = n -> nr B = n -> 0 < n -> 0 < nc B ->
    ((exists X, solve A B = Some X) <-> forall k, 0 < k <= n -> determinant k (ent A) <> t0) /\
    forall X, solve A B = Some X ->
      wf X /\ nr X = n /\ nc X = nc B /\
      (forall z, (forall i, i < n -> sum n (fun l => tmul (ent A i l) (z l)) = ent B i 0) <-> forall i, i < n -> z i = ent X i 0) /\
      forall i j, i < n -> 0 < j < nc B -> ent X i j = ent B i j.
  Proof.
    intros A B n WA WB RA CA RB Hn Hm. rewrite (wf_eq_mk A WA), RA, CA. rewrite (wf_eq_mk B WB), RB. set (m := nc B) in *. set (a := ent A). set (b := ent B). clearbody m a b.
    assert ((forall k, 0 < k <= n -> determinant k (ent (mk n n a)) <> t0) <-> forall k, k < n -> piv a k <> t0) as EQ.
    { pose proof (piv_minor FO (S n) a) as Q. split.
      - intros H k Hk. apply Q; [|lia]. intros l Hl. rewrite <- (det_ext l (ent (mk n n a)) a) by (intros; apply ent_mk; lia). apply H. lia.
      - intros H k Hk. rewrite (det_ext k (ent (mk n n a)) a) by (intros; apply ent_mk; lia). apply Q; [|lia]. intros l Hl. apply H. lia. }
    destruct (piv_dec FO n a) as [P|(k & Hk & P & Q)].
    - destruct (solve_ok FO n m a b Hn Hm P) as (x & E & S & O). split; [rewrite EQ; split; [intros _; exact P|intros _; eexists; exact E]|].
      intros X EX. rewrite E in EX. injection EX as <-. split; [apply wf_mk|]. split; [reflexivity|]. split; [reflexivity|]. split.
      + intros z. specialize (S z). transitivity (forall i, i < n -> sum n (fun l => tmul (a i l) (z l)) = b i 0).
        * split; intros H i Hi; specialize (H i Hi); rewrite ent_mk in * by lia; rewrite <- H; apply (sum_ext (O := OT)); intros l Hl; now rewrite ent_mk by assumption.
        * rewrite S. split; intros H i Hi; specialize (H i Hi); rewrite ent_mk in * by lia; assumption.
      + intros i j Hi Hj. rewrite nc_mk in Hj. rewrite !ent_mk by lia. apply O. lia.
    - rewrite (solve_none FO n m a b k Hn Hm Hk P Q). split; [|discriminate]. split; [intros (X & H); discriminate|]. intros H. apply EQ in P; [contradiction|exact H|exact Hk].
  Qed.
  Theorem C75_panics : forall A B, nr A <> nc A \/ nc A <> nr B -> solve A B = None.
  Proof. intros A B H. unfold solve. destruct (Nat.eqb_spec (nr A) (nc A)), (Nat.eqb_spec (nc A) (nr B)); try reflexivity. lia. Qed.
End LuT.

(** Non-vacuity over the rationals. *)
#[local] Instance ops_Qc : Ops Qc := {| t0 := 0%Qc; t1 := 1%Qc; tadd := Qcplus; tmul := Qcmult; tsub := Qcminus; topp := Qcopp |}.
#[local] Instance fops_Qc : FOps Qc := {| tdiv := Qcdiv; teqb := fun x y => if Qc_eq_dec x y then true else false |}.
Lemma field_ok_Qc : field_ok (T := Qc).
Proof.
  split; [exact Qcrt|]. split; [|split].
  - intros a x Hx. cbn [tmul tdiv t1 ops_Qc fops_Qc]. unfold Qcdiv. rewrite <- Qcmult_assoc, Qcmult_inv_l by exact Hx. apply Qcmult_1_r.
  - discriminate.
  - intros x y. cbn. destruct (Qc_eq_dec x y); intuition congruence.
Qed.
Definition qz (z : BinNums.Z) : Qc := Q2Qc (QArith_base.inject_Z z).
Arguments qz z%Z.
Definition exA : mat Qc := Mat 3 3 [[qz 2; qz 1; qz 1]; [qz 4; qz (-6); qz 0]; [qz (-2); qz 7; qz 2]].
(** The rationals themselves, without the proof that they are in lowest terms. *)
Definition vals (M : option (mat Qc)) := option_map (fun M => map (map this) (rws M)) M.
Example ex_lu : vals (lu exA) = Some (map (map this) [[qz 2; qz 1; qz 1]; [qz 2; qz (-8); qz (-2)]; [qz (-1); qz (-1); qz 1]]). Proof. vm_compute. reflexivity. Qed.
Example ex_det : option_map this (det exA) = Some (this (qz (-16))). Proof. vm_compute. reflexivity. Qed.
Example ex_solve : vals (solve exA (Mat 3 2 [[qz 5; qz 7]; [qz (-2); qz 7]; [qz 9; qz 7]])) = Some (map (map this) [[qz 1; qz 7]; [qz 1; qz 7]; [qz 2; qz 7]]).
Proof. vm_compute. reflexivity. Qed.
(** A regular matrix on which [det] and [solve] give no finite number. *)
Example ex_no_pivot : det (Mat 2 2 [[qz 0; qz 1]; [qz 1; qz 0]]) = None /\ this (determinant 2 (ent (Mat 2 2 [[qz 0; qz 1]; [qz 1; qz 0]]))) = this (qz (-1)) /\
  solve (Mat 2 2 [[qz 0; qz 1]; [qz 1; qz 0]]) (Mat 2 1 [[qz 1]; [qz 1]]) = None.
Proof. split; [vm_compute; reflexivity|]. split; vm_compute; reflexivity. Qed.
Print Assumptions C73_lu. Print Assumptions C74_det_partial. Print Assumptions C74_refuted. Print Assumptions C75_solve. Print Assumptions field_ok_Qc.
