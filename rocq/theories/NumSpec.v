(** Vectors of real numbers: a vector of length [n] is a function of the index, a matrix [A] has the entry [A i j] in row [i], column [j]. *)
From Coq Require Import List Arith Bool Reals.
From Verif Require Import PidModel MatModel MatSpec RankModel NumModel.
Open Scope R_scope.

Definition inner (n : nat) (u v : nat -> R) : R := sum n (fun i => u i * v i).
Definition norm2 (n : nat) (u : nat -> R) : R := sqrt (inner n u u).
Definition column (A : nat -> nat -> R) (j : nat) : nat -> R := fun i => A i j.
(** The first [m] columns, of length [n], are linearly independent. *)
Definition independent (n m : nat) (A : nat -> nat -> R) : Prop :=
  forall x : nat -> R, (forall i, (i < n)%nat -> sum m (fun j => A i j * x j) = 0) -> forall j, (j < m)%nat -> x j = 0.
(** The first [m] columns are pairwise orthogonal; ... of length one. *)
Definition orthogonal_columns (n m : nat) (Q : nat -> nat -> R) : Prop :=
  forall i j, (i < m)%nat -> (j < m)%nat -> i <> j -> inner n (column Q i) (column Q j) = 0.
Definition unit_columns (n m : nat) (Q : nat -> nat -> R) : Prop := forall j, (j < m)%nat -> inner n (column Q j) (column Q j) = 1.
Definition upper_triangular (m : nat) (U : nat -> nat -> R) : Prop := forall i j, (j < i < m)%nat -> U i j = 0.
Definition transposed (A : nat -> nat -> R) : nat -> nat -> R := fun i j => A j i.
(** An orthogonal matrix of order [n]. *)
Definition orthogonal (n : nat) (P : nat -> nat -> R) : Prop :=
  forall i j, (i < n)%nat -> (j < n)%nat -> prod_entry n (transposed P) P i j = id_entry i j /\ prod_entry n P (transposed P) i j = id_entry i j.
Definition same (n m : nat) (A B : nat -> nat -> R) : Prop := forall i j, (i < n)%nat -> (j < m)%nat -> A i j = B i j.
(** The reflection [I - b v v^t]. *)
Definition reflector (v : nat -> R) (b : R) (i j : nat) : R := id_entry i j - b * (v i * v j).
(** The value of a matrix at a vector. *)
Definition apply_mat (n : nat) (A : nat -> nat -> R) (x : nat -> R) (i : nat) : R := sum n (fun j => A i j * x j).
(** [lambda] is an eigenvalue of the leading [n x n] block. *)
Definition eigenvalue (n : nat) (A : nat -> nat -> R) (lambda : R) : Prop :=
  exists x, (exists i, (i < n)%nat /\ x i <> 0) /\ forall i, (i < n)%nat -> apply_mat n A x i = lambda * x i.
(** [x] is the largest of the numbers [f 0 .. f (n-1)], which are not negative, and 0 when there is none. *)
Definition largest (n : nat) (f : nat -> R) (x : R) : Prop :=
  (forall i, (i < n)%nat -> f i <= x) /\ (n = 0%nat /\ x = 0 \/ exists i, (i < n)%nat /\ x = f i).
(** [B = P^t A P]: with [P] orthogonal, [B] is orthogonally similar to [A]. *)
Definition congruent (n : nat) (A P B : nat -> nat -> R) : Prop := same n n B (prod_entry n (transposed P) (prod_entry n A P)).
Definition orth_similar (n : nat) (A B : nat -> nat -> R) : Prop := exists P, orthogonal n P /\ congruent n A P B.
(** Zero below the first subdiagonal. *)
Definition hessenberg (n : nat) (A : nat -> nat -> R) : Prop := forall i j, (j + 1 < i < n)%nat -> A i j = 0.
Definition trace (n : nat) (A : nat -> nat -> R) : R := sum n (fun i => A i i).
(** [x] is a combination of the first [m] columns with integer coefficients. *)
Definition lattice (n m : nat) (A : nat -> nat -> R) (x : nat -> R) : Prop := exists z : nat -> Z, forall i, (i < n)%nat -> x i = sum m (fun j => A i j * IZR (z j)).
(** The Gram-Schmidt factors of [B]: [B = G U], the columns of [G] pairwise orthogonal, [U] upper triangular with ones on the diagonal. *)
Definition gs_factors (n m : nat) (B G U : nat -> nat -> R) : Prop :=
  orthogonal_columns n m G /\ upper_triangular m U /\ (forall j, (j < m)%nat -> U j j = 1) /\ same n m B (prod_entry m G U).
(** A reduced basis in the sense of Lenstra, Lenstra and Lovasz. *)
Definition lll_reduced (n m : nat) (delta : R) (B : nat -> nat -> R) : Prop :=
  forall G U, gs_factors n m B G U ->
    (forall i j, (j < i < m)%nat -> Rabs (U j i) <= / 2) /\
    (forall i, (i + 1 < m)%nat -> (delta - U i (i + 1)%nat * U i (i + 1)%nat) * inner n (column G i) (column G i) <= inner n (column G (i + 1)) (column G (i + 1))).
