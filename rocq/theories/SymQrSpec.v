(** Specification of the symmetric QR algorithm. *)
From Coq Require Import List Arith Bool Reals.
From Verif Require Import PidModel MatModel MatSpec RankModel NumModel NumSpec FrancisSpec TriSpec WilkSpec.
Open Scope R_scope.

Definition symmetric_mat (n : nat) (A : nat -> nat -> R) : Prop := forall i j, (i < n)%nat -> (j < n)%nat -> A i j = A j i.
(** The Frobenius norm. *)
Definition frob (n : nat) (F : nat -> nat -> R) : R := sqrt (sum n (fun i => sum n (fun j => F i j * F i j))).
(** [B] is orthogonally similar to [A + F] for a symmetric [F] of norm at most [eps]. *)
Definition perturbed (n : nat) (A : nat -> nat -> R) (eps : R) (B : nat -> nat -> R) : Prop :=
  exists P F, orthogonal n P /\ symmetric_mat n F /\ frob n F <= eps /\ congruent n (fun i j => A i j + F i j) P B.
(** The pairs of entries beside the diagonal that are below [eps] are set to zero. *)
Definition dropped (eps : R) (A : nat -> nat -> R) (i j : nat) : R :=
  if (i =? j + 1)%nat then if Rlt_dec (Rabs (A i j)) eps then 0 else A i j else if (j =? i + 1)%nat then if Rlt_dec (Rabs (A j i)) eps then 0 else A i j else A i j.
(** [B] comes from the tridiagonal [A] by a step with the corner shift [m]: [B = P^t A P], [P] a product of rotations whose first column is proportional to that of [A - m]; [B] is tridiagonal if no
    rotation is by the angle zero. *)
Definition single_shift (n : nat) (A B : nat -> nat -> R) : Prop :=
  exists cs m rho, (forall i, (i + 1 < n)%nat -> cs i 0%nat * cs i 0%nat + cs i 1%nat * cs i 1%nat = 1) /\ congruent n A (rotations n cs (n - 1)) B /\ corner_shift n A m /\
    (forall i, (i < n)%nat -> A i 0%nat - m * id_entry i 0%nat = rho * rotations n cs (n - 1) i 0%nat) /\ ((forall i, (i + 1 < n)%nat -> cs i 1%nat <> 0) -> same n n B (tridiagonal B)).
(** One iteration: the window of [dropped eps A] gets a step if it is tridiagonal, the rest stays. *)
Definition sq_iteration (n : nat) (eps : R) (A C : nat -> nat -> R) : Prop :=
  exists p e, active n eps (dropped eps A) p e /\ (forall i j, (i < n)%nat -> (j < n)%nat -> ~ ((p <= i < e)%nat /\ (p <= j < e)%nat) -> C i j = dropped eps A i j) /\
    (same (e - p) (e - p) (block_at p (dropped eps A)) (tridiagonal (block_at p (dropped eps A))) -> single_shift (e - p) (block_at p (dropped eps A)) (block_at p C)).
(** The iterations from [A] to the result [B]; [k] counts them. *)
Inductive sq_run (n : nat) (eps : R) : nat -> (nat -> nat -> R) -> (nat -> nat -> R) -> Prop :=
| sq_end A B : same n n B (dropped eps A) -> small_blocks n eps (dropped eps A) -> sq_run n eps 0 A B
| sq_next k A C B : sq_iteration n eps A C -> sq_run n eps k C B -> sq_run n eps (S k) A B.
