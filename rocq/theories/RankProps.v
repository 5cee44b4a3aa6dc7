(** Theorem C38: [rank_as_linear_map] is not the rank, only a lower bound of it. *)
From Coq Require Import List Arith Bool Lia ZifyBool Qcanon Ring_theory Field_theory.
From Verif Require Import PidModel MatModel MatSpec MatProofs MatProofs2 SnfModel RankModel RankSpec RankProofs.
Import ListNotations.
Open Scope nat_scope.

Section Props.
  Context {T : Type} {OT : Ops T} {FT : FOps T}.
  (** The coefficient laws: a field with a decidable equality. *)
  Definition field_laws : Prop :=
    ring_laws (T := T) /\ (forall x : T, x <> t0 -> tmul (tdiv t1 x) x = t1) /\ t1 <> t0 :> T /\ (forall x y : T, teqb x y = true <-> x = y).
  Hypothesis FL : field_laws.

  (** It never panics and never exceeds the rank; if it reports full rank, that is the rank. *)
  Theorem C38_lower_bound_partial : forall A : mat T, wf A ->
    exists r, rank_as_linear_map A = Some r /\ rank_at_least (nr A) (nc A) (ent A) r /\
      (forall k, is_rank (nr A) (nc A) (ent A) k -> r <= k) /\
      (r = Nat.min (nr A) (nc A) -> is_rank (nr A) (nc A) (ent A) r).
  Proof.
    intros A HA. destruct FL as (RL & H1 & H2 & H3). destruct (rank_ok RL H1 H2 H3 (nr A) (nc A) (ent A)) as (r & E & Hr & HR).
    rewrite <- (wf_eq_mk A HA) in E. exists r. split; [exact E|]. split; [exact HR|]. split.
    - intros k [_ Hk]. now apply Hk.
    - intros ->. split; [exact HR|]. intros s Hs. exact (rank_le_F RL H1 H2 H3 _ _ _ _ Hs).
  Qed.
  (** A rank, in the sense of the specification, is unique and at most both dimensions. *)
  Theorem C38_rank_unique : forall n m (f : nat -> nat -> T) r s, is_rank n m f r -> is_rank n m f s -> r = s /\ r <= n /\ r <= m.
  Proof.
    intros n m f r s [R1 R2] [S1 S2]. destruct FL as (RL & H1 & H2 & H3). pose proof (rank_le_F RL H1 H2 H3 _ _ _ _ R1).
    specialize (R2 _ S1). specialize (S2 _ R1). lia.
  Qed.
  (** Refutation, over every field: the 2x2 exchange matrix has rank 2, the function says 0. *)
  Definition exchange : mat T := Mat 2 2 [[t0; t1]; [t1; t0]].
  Theorem C38_refuted : rank_as_linear_map exchange = Some 0 /\ is_rank 2 2 (ent exchange) 2.
  Proof.
    destruct FL as (RL & H1 & H2 & H3). assert (E0 : teqb t0 t0 = true) by now apply H3. split.
    - assert (S : forall sk k, k < 2 -> rank_step (exchange, sk) k = Some (exchange, sk + 1)).
      { intros sk k Hk. assert (N : nzM exchange k k = Some false) by (destruct k as [|[|k]]; [| |lia]; unfold nzM; cbn -[teqb t0 t1]; now rewrite E0).
        unfold rank_step. cbn [fst snd]. unfold rank_fix_col. rewrite N. cbn [obind].
        replace (rng (k + 2) (nc exchange)) with (@nil nat) by (destruct k as [|[|k]]; [reflexivity|reflexivity|lia]). cbn [findM obind].
        unfold rank_fix_row. rewrite N. cbn [obind].
        replace (rng (k + 2) (nr exchange)) with (@nil nat) by (destruct k as [|[|k]]; [reflexivity|reflexivity|lia]). reflexivity. }
      unfold rank_as_linear_map. change (rng 0 (Nat.min (nr exchange) (nc exchange))) with [0; 1]. cbn [foldM].
      rewrite S by lia. cbn [obind]. rewrite S by lia. reflexivity.
    - split.
      + exists id_entry. intros c Hc i Hi. destruct RL as [A1 A2 A3 M1 M2 M3 D S1 S2].
        assert (Z : forall x : T, tmul t0 x = t0).
        { intros x. rewrite <- (A1 (tmul t0 x)). rewrite <- (S2 (tmul t0 x)) at 1. rewrite (A2 (tmul t0 x) (topp _)), <- A3, <- D.
          rewrite A1, A2. apply S2. }
        pose proof (Hc 0 ltac:(lia)) as C0. pose proof (Hc 1 ltac:(lia)) as C1. unfold prod_entry, id_entry, ent, exchange in C0, C1. cbn -[t0 t1 tadd tmul] in C0, C1.
        assert (ZR : forall x : T, tmul x t0 = t0) by (intros; rewrite M2; apply Z).
        assert (AR : forall x : T, tadd x t0 = x) by (intros; rewrite A2; apply A1).
        assert (MR : forall x : T, tmul x t1 = x) by (intros; rewrite M2; apply M1).
        repeat (rewrite Z in C0 || rewrite ZR in C0 || rewrite M1 in C0 || rewrite MR in C0 || rewrite A1 in C0 || rewrite AR in C0).
        repeat (rewrite Z in C1 || rewrite ZR in C1 || rewrite M1 in C1 || rewrite MR in C1 || rewrite A1 in C1 || rewrite AR in C1).
        destruct i as [|[|i]]; [assumption|assumption|lia].
      + intros s Hs. apply (rank_le_F RL H1 H2 H3) in Hs. exact Hs.
  Qed.
End Props.

(** Non-vacuity: the rationals form such a field. *)
#[local] Instance ops_Qc : Ops Qc := {| t0 := 0%Qc; t1 := 1%Qc; tadd := Qcplus; tmul := Qcmult; tsub := Qcminus; topp := Qcopp |}.
#[local] Instance fops_Qc : FOps Qc := {| tdiv := Qcdiv; teqb := fun x y => if Qc_eq_dec x y then true else false |}.
Lemma field_Qc : field_laws (T := Qc).
Proof.
  split; [exact Qcrt|]. split; [|split].
  - intros x Hx. cbn [tmul tdiv t1 ops_Qc fops_Qc]. unfold Qcdiv. rewrite Qcmult_1_l. now apply Qcmult_inv_l.
  - discriminate.
  - intros x y. cbn. destruct (Qc_eq_dec x y); intuition congruence.
Qed.
Definition q (z : nat) : Qc := Q2Qc (QArith_base.inject_Z (BinInt.Z.of_nat z)).
Example ex_rank_full : rank_as_linear_map (Mat 2 3 [[q 1; q 2; q 3]; [q 4; q 5; q 6]]) = Some 2. Proof. reflexivity. Qed.
Example ex_rank_true : is_rank 2 3 (ent (Mat 2 3 [[q 1; q 2; q 3]; [q 4; q 5; q 6]])) 2.
Proof.
  destruct (C38_lower_bound_partial field_Qc (Mat 2 3 [[q 1; q 2; q 3]; [q 4; q 5; q 6]])) as (r & E & _ & _ & H).
  - split; [reflexivity|]. repeat constructor.
  - rewrite ex_rank_full in E. injection E as <-. now apply H.
Qed.
Example ex_rank_deficient : rank_as_linear_map (Mat 2 2 [[q 1; q 2]; [q 2; q 4]]) = Some 1. Proof. reflexivity. Qed.
Print Assumptions C38_lower_bound_partial.
Print Assumptions C38_refuted.
Print Assumptions ex_rank_true.
