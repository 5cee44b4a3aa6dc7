(** Vocabulary for the symmetric eigenvalue code. *)
From Coq Require Import List Arith Bool Reals.
From Verif Require Import PidModel MatModel MatSpec RankModel NumModel NumSpec.
Open Scope R_scope.

(** The diagonal and its two neighbours, zero elsewhere. *)
Definition tridiagonal (A : nat -> nat -> R) (i j : nat) : R := if ((i <=? j + 1) && (j <=? i + 1))%nat then A i j else 0.
(** [1 + Q]: the block matrix with the one entry 1 before [Q]. *)
Definition bordered (Q : nat -> nat -> R) (i j : nat) : R := match i, j with S i, S j => Q i j | 0%nat, 0%nat => 1 | _, _ => 0 end.
(** Below the subdiagonal, every column but the last two has an entry that is not zero. *)
Definition full_tails (n : nat) (A : nat -> nat -> R) : Prop := forall j, (j + 2 < n)%nat -> exists a, (j + 2 <= a < n)%nat /\ A a j <> 0.
