(** Lemmas for FvecProps2: Smith data of a matrix whose image is the set of vectors of sum zero. *)
From Coq Require Import List Arith ZArith Bool Lia ZifyBool ZifyNat.
From Verif Require Import PidModel MatModel MatSpec MatProofs MatProofs2 SnfModel SnfProofs SnfProofs2 SnfProofs3 HomProofs.
Import ListNotations.
Open Scope nat_scope.

Definition unit_v (k i : nat) : Z := if i =? k then 1%Z else 0%Z.
Lemma sum_unit_v k : forall p, k < p -> sum p (unit_v k) = 1%Z.
  Proof. induction p as [|p IH]; intros H; [lia|]. cbn [sum]. cbn [tadd ops_Z]. unfold unit_v at 2. destruct (Nat.eqb_spec p k) as [->|N]; [|rewrite IH by lia; lia]. replace (sum k (unit_v k)) with 0%Z; [lia|]. symmetry. apply (sum_zero RZ). intros j Hj. unfold unit_v. replace (j =? k) with false by lia. reflexivity. Qed.
Section ZeroSum.
  Variables (n m : nat) (f S Ri R C Cg : nat -> nat -> Z) (rk : nat).
  Hypothesis HS : smith n m f S Ri R C Cg rk.
  Hypothesis Hn : 0 < n.
  Hypothesis HI : forall x : nat -> Z, (exists y, forall i, i < n -> x i = ap m f y i) <-> sum n x = 0%Z.
  Let pre (k : nat) : nat -> Z := ap n Ri (unit_v k).
  Lemma pre_ok k i : i < n -> ap n R (pre k) i = unit_v k i.
  Proof. intros Hi. apply ap_inv; [apply HS|exact Hi]. Qed.
  Lemma sum_lin a b (u v : nat -> Z) : sum n (fun i => a * u i + b * v i)%Z = (a * sum n u + b * sum n v)%Z.
  Proof. clear. induction n as [|k IH]; cbn [sum]; [cbn [t0 ops_Z]; lia|]. rewrite IH. cbn [tadd ops_Z]. lia. Qed.
  Lemma ap_lin a b (u v : nat -> Z) i : ap n R (fun j => a * u j + b * v j)%Z i = (a * ap n R u i + b * ap n R v i)%Z.
  Proof. clear. unfold ap. induction n as [|k IH]; cbn [sum]; [cbn [t0 ops_Z]; lia|]. rewrite IH. cbn [tadd tmul ops_Z]. lia. Qed.
  Lemma zs_iff x : sum n x = 0%Z <-> (forall i, i < rk -> (S i i | ap n R x i)%Z) /\ (forall i, rk <= i < n -> ap n R x i = 0%Z).
  Proof. rewrite <- HI. apply (image_ok n m f S Ri R C Cg rk HS). Qed.
  Lemma zs_units i : i < rk -> S i i = 1%Z \/ S i i = (-1)%Z.
  Proof.
    intros Hi. pose proof HS as (_ & _ & _ & D1 & D2 & D3 & D4).
    assert (E1 : sum n (fun j => S i i * pre i j + 0 * pre i j)%Z = 0%Z).
    { apply zs_iff. split; intros j Hj; rewrite ap_lin, pre_ok by lia; unfold unit_v; destruct (Nat.eqb_spec j i) as [->|N]; try lia; [exists 1%Z; lia|exists 0%Z; lia]. }
    rewrite sum_lin in E1. assert (E2 : sum n (pre i) = 0%Z) by (specialize (D3 i Hi); nia).
    apply zs_iff in E2. destruct E2 as [E2 _]. specialize (E2 i Hi). rewrite pre_ok in E2 by lia. unfold unit_v in E2. rewrite Nat.eqb_refl in E2. apply Z.divide_1_r in E2. exact E2.
  Qed.
  Lemma zs_rank : rk = n - 1.
  Proof.
    pose proof HS as (_ & _ & _ & D1 & D2 & D3 & D4). destruct (Nat.eq_dec rk n) as [En|Nn].
    - exfalso. assert (E : sum n (unit_v 0) = 0%Z).
      { apply zs_iff. split; [|lia]. intros i Hi. destruct (zs_units i Hi) as [-> | ->]; [apply Z.divide_1_l|apply Z.divide_opp_l, Z.divide_1_l]. }
      rewrite sum_unit_v in E by exact Hn. discriminate E.
    - destruct (Nat.eq_dec rk (n - 1)) as [|N]; [assumption|]. exfalso. set (i := rk). set (j := rk + 1).
      assert (E : sum n (fun k => sum n (pre j) * pre i k + (- sum n (pre i)) * pre j k)%Z = 0%Z) by (rewrite sum_lin; lia).
      apply zs_iff in E. destruct E as [_ E]. pose proof (E j ltac:(unfold j; lia)) as Ej. rewrite ap_lin, !pre_ok in Ej by (unfold i, j; lia). unfold unit_v in Ej. replace (j =? i) with false in Ej by (unfold i, j; lia). rewrite Nat.eqb_refl in Ej.
      assert (E0 : sum n (pre i) = 0%Z) by lia. apply zs_iff in E0. destruct E0 as [_ E0]. specialize (E0 i ltac:(unfold i; lia)). rewrite pre_ok in E0 by (unfold i; lia). unfold unit_v in E0. rewrite Nat.eqb_refl in E0. discriminate E0.
  Qed.
End ZeroSum.
