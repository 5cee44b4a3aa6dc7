(** Model of the eigenvector functions of alg/src/lin_alg/matrix_impl.rs:1366-1402, 1433-1541.  Conventions of NumModel: real numbers, [None] is a panic (or a number that is not
    finite), [Some None] a [while] loop that has not ended after the given number of iterations. *)
From Coq Require Import List Arith Bool Reals.
From Verif Require Import PidModel MatModel SnfModel RankModel LuModel NumModel FrancisModel TriModel WilkModel.
Import ListNotations.
Open Scope nat_scope.

(** matrix_impl.rs:1372-1379: every entry is [1 / sqrt n]; for [n = 0] there is no entry *)
Definition start_vectors (n k : nat) : option (mat R) := mbuild n k (fun _ _ => Some (1 / sqrt (INR n))%R).
(** :1388-1391 *)
Definition shift_diagonal (n : nat) (M : mat R) (lambda : R) : option (mat R) :=
  foldM (fun M j => do x <- mget M j j; mset M j j (x - lambda)%R) (rng 0 n) M.
(** :1393-1395 and :1396-1398 *)
Definition inverse_step (m E : mat R) (i : nat) : option (mat R) :=
  do c <- mcol E i; do u <- solve m c; do f <- two_norm u; do u <- mdivs u f; wcol E i u.
(** :1385-1399, the body of [for i]; [k] is the column of the vector *)
Definition inverse_iteration (n : nat) (A v E : mat R) (i k : nat) : option (mat R) :=
  do lambda <- mget v i 0; do m <- shift_diagonal n A lambda; do E <- inverse_step m E k; inverse_step m E k.
(** matrix_impl.rs:1366-1402 [spectrum_with_invariant_space] *)
Definition spectrum_with_invariant_space (fuel : nat) (A : mat R) : option (option (mat R * mat R)) :=
  if nr A =? nc A then
    let n := nr A in
    do E <- start_vectors n n; do s <- spectrum fuel A;
    match s with
    | None => Some None
    | Some v => do E <- foldM (fun E i => inverse_iteration n A v E i i) (rng 0 n) E; Some (Some (v, E))
    end
  else None.
(** matrix_impl.rs:1433-1469 [spectrum_with_invariant_space_symmetric] *)
Definition spectrum_with_invariant_space_symmetric (fuel : nat) (A : mat R) : option (option (mat R * mat R)) :=
  if nr A =? nc A then
    let n := nr A in
    do E <- start_vectors n n; do s <- spectrum_symmetric fuel A;
    match s with
    | None => Some None
    | Some v => do E <- foldM (fun E i => inverse_iteration n A v E i i) (rng 0 n) E; Some (Some (v, E))
    end
  else None.
(** matrix_impl.rs:1471-1507 [spectrum_with_n_smallest_eigenvecs_symmetric] *)
Definition spectrum_with_n_smallest (fuel : nat) (A : mat R) (k : nat) : option (option (mat R * mat R)) :=
  if nr A =? nc A then
    let size := nr A in
    do E <- start_vectors size k; do s <- spectrum_symmetric fuel A;
    match s with
    | None => Some None
    | Some v => do E <- foldM (fun E i => inverse_iteration size A v E i i) (rng 0 k) E; Some (Some (v, E))
    end
  else None.
(** matrix_impl.rs:1509-1541 [spectrum_with_n_th_eigenvec_symmetric] *)
Definition spectrum_with_n_th (fuel : nat) (A : mat R) (k : nat) : option (option (R * mat R)) :=
  if nr A =? nc A then
    let size := nr A in
    do E <- start_vectors size 1; do s <- spectrum_symmetric fuel A;
    match s with
    | None => Some None
    | Some v => do lambda <- mget v k 0; do E <- inverse_iteration size A v E k 0; Some (Some (lambda, E))
    end
  else None.
