(** Specification of one implicit single-shift step on a symmetric tridiagonal matrix. *)
From Coq Require Import List Arith Bool Reals.
From Verif Require Import PidModel MatModel MatSpec RankModel NumModel NumSpec FrancisSpec.
Open Scope R_scope.

(** The rotation [[c, s], [-s, c]] of the coordinates [i] and [i + 1]. *)
Definition plane (i : nat) (c s : R) (a b : nat) : R :=
  if (a =? i)%nat && (b =? i)%nat then c else if (a =? i)%nat && (b =? i + 1)%nat then s else if (a =? i + 1)%nat && (b =? i)%nat then - s else if (a =? i + 1)%nat && (b =? i + 1)%nat then c else id_entry a b.
(** The product of the rotations listed in the first [k] rows of [op]. *)
Fixpoint rotations (n : nat) (op : nat -> nat -> R) (k : nat) : nat -> nat -> R :=
  match k with 0%nat => id_entry | S k => prod_entry n (rotations n op k) (plane k (op k 0%nat) (op k 1%nat)) end.
(** The eigenvalue of the trailing 2 x 2 block that is closest to the last diagonal entry. *)
Definition corner_shift (n : nat) (A : nat -> nat -> R) (m : R) : Prop :=
  eigenvalue 2 (block_at (n - 2) A) m /\ forall m', eigenvalue 2 (block_at (n - 2) A) m' -> Rabs (m - A (n - 1)%nat (n - 1)%nat) <= Rabs (m' - A (n - 1)%nat (n - 1)%nat).
(** Entries more than one place from the diagonal are below [eps]. *)
Definition nearly_tridiagonal (n : nat) (eps : R) (A : nat -> nat -> R) : Prop := forall i j, (i < n)%nat -> (j < n)%nat -> (i + 1 < j \/ j + 1 < i)%nat -> Rabs (A i j) < eps.
