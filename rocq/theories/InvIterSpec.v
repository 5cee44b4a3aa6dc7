(** Specification of the eigenvector functions. *)
From Coq Require Import List Arith Bool Reals.
From Verif Require Import PidModel MatModel MatSpec RankModel LuSpec NumModel NumSpec.
Open Scope R_scope.

(** [A - lambda]. *)
Definition minus (A : nat -> nat -> R) (lambda : R) (i j : nat) : R := A i j - lambda * id_entry i j.
(** No leading minor of [A - lambda] is zero. *)
Definition regular (n : nat) (A : nat -> nat -> R) (lambda : R) : Prop := forall k, (0 < k <= n)%nat -> determinant k (minus A lambda) <> 0.
(** The unit vector that two steps of the inverse iteration give from a constant vector: [(A - lambda)^2 x] is constant and positive. *)
Definition twice_solved (n : nat) (A : nat -> nat -> R) (lambda : R) (x : nat -> R) : Prop :=
  norm2 n x = 1 /\ exists rho, 0 < rho /\ forall i, (i < n)%nat -> apply_mat n (minus A lambda) (apply_mat n (minus A lambda) x) i = rho.
