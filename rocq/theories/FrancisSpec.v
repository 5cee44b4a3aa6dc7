(** Specification of one implicit double-shift step and of its iteration. *)
From Coq Require Import List Arith Bool Reals.
From Verif Require Import PidModel MatModel MatSpec RankModel NumModel NumSpec.
Open Scope R_scope.

(** The first column of [A^2 - s A + t I], [s] and [t] the trace and the determinant of the trailing 2 x 2 block: [(A - a)(A - b) e_0] for the eigenvalues [a], [b] of that block. *)
Definition shift_column (n : nat) (A : nat -> nat -> R) (i : nat) : R :=
  let s := A (n - 2)%nat (n - 2)%nat + A (n - 1)%nat (n - 1)%nat in
  let t := A (n - 2)%nat (n - 2)%nat * A (n - 1)%nat (n - 1)%nat - A (n - 2)%nat (n - 1)%nat * A (n - 1)%nat (n - 2)%nat in
  prod_entry n A A i 0%nat - s * A i 0%nat + t * id_entry i 0%nat.
(** [B] comes from [A] by a double-shift step: [B = P^t A P] with [P] orthogonal, and the first column of [P] is the shift column divided by its length. *)
Definition double_shift (n : nat) (A B : nat -> nat -> R) : Prop :=
  exists P, orthogonal n P /\ congruent n A P B /\ forall i, (i < n)%nat -> norm2 n (shift_column n A) * P i 0%nat = shift_column n A i.
(** No zero on the first subdiagonal. *)
Definition unreduced (n : nat) (A : nat -> nat -> R) : Prop := forall i, (i + 1 < n)%nat -> A (i + 1)%nat i <> 0.
(** No two neighbouring entries of the first subdiagonal exceed [eps]: the diagonal blocks have order at most two. *)
Definition small_blocks (n : nat) (eps : R) (A : nat -> nat -> R) : Prop :=
  forall i, (i + 2 < n)%nat -> Rabs (A (i + 1)%nat i) <= eps \/ Rabs (A (i + 2)%nat (i + 1)%nat) <= eps.
(** The subdiagonal entries that are negligible beside their diagonal neighbours are set to zero. *)
Definition chopped (eps : R) (A : nat -> nat -> R) (i j : nat) : R :=
  if (i =? j + 1)%nat then if Rlt_dec (Rabs (A i j)) (eps * (Rabs (A j j) + Rabs (A i i))) then 0 else A i j else A i j.
(** The diagonal block that starts at the index [p]. *)
Definition block_at (p : nat) (A : nat -> nat -> R) : nat -> nat -> R := fun i j => A (p + i)%nat (p + j)%nat.
(** [[p, e)] is the window the next step works on: of order at least three, no subdiagonal entry inside below [eps], the two before its end above [eps]; the entry that couples it to
    the rows above is below [eps], and behind it all blocks are small. *)
Definition active (n : nat) (eps : R) (A : nat -> nat -> R) (p e : nat) : Prop :=
  (p + 3 <= e <= n)%nat /\ (forall i, (p <= i)%nat -> (i + 1 < e)%nat -> eps <= Rabs (A (i + 1)%nat i)) /\ eps < Rabs (A (e - 1)%nat (e - 2)%nat) /\ eps < Rabs (A (e - 2)%nat (e - 3)%nat) /\
  ((0 < p)%nat -> Rabs (A p (p - 1)%nat) < eps) /\ (forall i, (e - 2 <= i)%nat -> (i + 2 < n)%nat -> Rabs (A (i + 1)%nat i) <= eps \/ Rabs (A (i + 2)%nat (i + 1)%nat) <= eps).
(** One iteration: [C] is [chopped eps A] but for the window, which gets a double-shift step - unless the last but one subdiagonal entry of the window comes out negative. *)
Definition qr_iteration (n : nat) (eps : R) (A C : nat -> nat -> R) : Prop :=
  exists p e, active n eps (chopped eps A) p e /\ (forall i j, (i < n)%nat -> (j < n)%nat -> ~ ((p <= i < e)%nat /\ (p <= j < e)%nat) -> C i j = chopped eps A i j) /\
    hessenberg (e - p) (block_at p C) /\ (forall j, (j + 3 < e - p)%nat -> 0 < block_at p C (j + 1)%nat j) /\
    (0 <= C (e - 2)%nat (e - 3)%nat -> double_shift (e - p) (block_at p (chopped eps A)) (block_at p C)).
(** The iterations from [A] to the result [B]. *)
Inductive qr_run (n : nat) (eps : R) : (nat -> nat -> R) -> (nat -> nat -> R) -> Prop :=
| run_end A B : same n n B (chopped eps A) -> small_blocks n eps (chopped eps A) -> qr_run n eps A B
| run_step A C B : qr_iteration n eps A C -> qr_run n eps C B -> qr_run n eps A B.
