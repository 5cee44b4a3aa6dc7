(** Model of the random matrices of alg/src/lin_alg/matrix_impl.rs:690-714, 1149-1187.  The random numbers are arguments: a function gives the numbers drawn.
    Conventions of NumModel: real numbers, [None] is a panic (or a number that is not finite). *)
From Coq Require Import List Arith Bool Reals.
From Verif Require Import PidModel MatModel SnfModel RankModel LuModel NumModel.
Import ListNotations.
Open Scope nat_scope.

(** matrix_impl.rs:693-702 [Matrix::random(n, 1)] and :1152, its division by its length *)
Definition random_direction (n : nat) (d : nat -> R) : option (mat R) :=
  do r <- mbuild n 1 (fun k _ => Some (d k)); do f <- two_norm r; mdivs r f.
(** matrix_impl.rs:1151-1155; [draw i k] is the [k]-th number drawn for column [i], in [0, 1) *)
Definition ro_fill (draw : nat -> nat -> R) (n : nat) (M : mat R) (i : nat) : option (mat R) :=
  do r <- random_direction (n - i) (draw i); mwrite M i n i (i + 1) r.
(** :1156-1161 *)
Definition ro_step (n : nat) (M : mat R) (i : nat) : option (mat R) :=
  do x <- msub_view M i n i (i + 1); do vb <- householder_vec x;
  do B <- msub_view M i n (i + 1) n; do w <- mscale (fst vb) (snd vb); do vt <- mtranspose (fst vb); do z <- mmul vt B; do wz <- mmul w z; do u <- msub B wz;
  mwrite M i n (i + 1) n u.
(** matrix_impl.rs:1149-1163 [random_orthogonal] *)
Definition random_orthogonal (draw : nat -> nat -> R) (n : nat) : option (mat R) :=
  do M <- mzero n n; do M <- foldM (ro_fill draw n) (rng 0 n) M;
  do n1 <- usub n 1; foldM (ro_step n) (rev (rng 0 n1)) M.
(** matrix_impl.rs:1165-1172 [random_unit_vec]; [d k] in [-1, 1) *)
Definition random_unit_vec (d : nat -> R) (n : nat) : option (mat R) := random_direction n d.

(** matrix_impl.rs:594-603: memory that is not initialised; a cell is [None] until something is written to it. *)
Definition uninit (T : Type) (n m : nat) : mat (option T) := Mat n m (repeat (repeat None m) n).
(** [out[(i, j)]] as a value: reading a cell that is not initialised is not allowed *)
Definition read {T} (M : mat (option T)) (i j : nat) : option T := do c <- mget M i j; c.
(** matrix_impl.rs:704-713 [random_symmetric]; [draw i j] is the number drawn for the cell [(i, j)] *)
Definition random_symmetric {T} (draw : nat -> nat -> T) (n m : nat) : option (mat (option T)) :=
  foldM (fun M i => foldM (fun M j => do M <- mset M i j (Some (draw i j)); do x <- read M i j; mset M j i (Some x)) (rng i m) M) (rng 0 n) (uninit T n m).
(** matrix_impl.rs:1174-1187 [random_sparse_symmetric]; [a i j] is the second number drawn for the cell *)
Definition random_sparse_symmetric (draw : nat -> nat -> R) (a : nat -> nat -> nat) (n m : nat) : option (mat (option R)) :=
  do M <- random_symmetric draw n m;
  foldM (fun M i => foldM (fun M j => if negb (a i j mod 4 =? 0) then do M <- mset M i j (Some 0%R); mset M j i (Some 0%R) else Some M) (rng i m) M) (rng 0 n) M.
