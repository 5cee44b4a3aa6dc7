(** Model of the symmetric eigenvalue code of alg/src/lin_alg/matrix_impl.rs:1850-1994, 1404-1430 and of [random_orthogonal], 1149-1163.  Conventions of NumModel: real
    numbers, [None] is a panic (or a number that is not finite), [Some None] a [while] loop that has not ended after the given number of iterations. *)
From Coq Require Import List Arith Bool Reals.
From Verif Require Import PidModel MatModel SnfModel RankModel LuModel NumModel FrancisModel.
Import ListNotations.
Open Scope nat_scope.

(** matrix_impl.rs:1867-1870: one entry above the diagonal and its mirror image. *)
Definition tri_off (o j : nat) (v w : mat R) (M : mat R) (k : nat) : option (mat R) :=
  do vj <- mget v j 0; do wk <- mget w k 0; do vk <- mget v k 0; do wj <- mget w j 0;
  do x <- mget M (j + o) (k + o); do M <- mset M (j + o) (k + o) (x - (vj * wk + vk * wj))%R;
  do y <- mget M (j + o) (k + o); mset M (k + o) (j + o) y.
(** :1865-1871, the body of [for j] *)
Definition tri_row (o d : nat) (v w : mat R) (M : mat R) (j : nat) : option (mat R) :=
  do vj <- mget v j 0; do wj <- mget w j 0; do x <- mget M (j + o) (j + o); do M <- mset M (j + o) (j + o) (x - 2 * vj * wj)%R;
  foldM (tri_off o j v w) (rng (j + 1) d) M.
(** matrix_impl.rs:1853-1876, the body of [for i] *)
Definition tri_step (with_op : bool) (n : nat) (M : mat R) (i : nat) : option (mat R) :=
  do x <- msub_view M (i + 1) (nr M) i (i + 1); do vb <- householder_vec x;
  let v := fst vb in let b := snd vb in
  do B <- msub_view M (i + 1) (nr M) (i + 1) (nc M); do Bv <- mmul B v; do p <- mscale Bv b;
  do vb' <- mscale v b; do vb2 <- mdivs vb' 2%R; do vp <- cdot v p; do u <- mscale vb2 vp; do w <- msub p u;
  do nm <- two_norm x; do M <- mset M (i + 1) i nm; do y <- mget M (i + 1) i; do M <- mset M i (i + 1) y;
  do M <- foldM (tri_row (i + 1) (n - (i + 1)) v w) (rng 0 (n - (i + 1))) M;
  if with_op then do t <- msub_view v 1 (nr v) 0 1; mwrite M (i + 2) (nr M) i (i + 1) t else Some M.
(** matrix_impl.rs:1850-1878 [householder_tridiagonalization] *)
Definition householder_tridiagonalization (M : mat R) (with_op : bool) : option (mat R) :=
  do n2 <- usub (nr M) 2; foldM (tri_step with_op (nr M)) (rng 0 n2) M.

(** matrix_impl.rs:1880-1907 [extract_householder_vecs]; the number of calls is bounded by the order. *)
Fixpoint extract_vecs (fuel : nat) (M : mat R) : option (mat R) :=
  if nr M =? nc M then
    match fuel with
    | 0 => None
    | S fuel =>
      if nr M =? 1 then
        do x <- mget M 0 0; do s <- fdiv 2%R (x * x + 1)%R;
        Some (Mat 2 2 [[1 - s; - s * x]; [- s * x; 1 - s * x * x]])%R
      else
        do m <- midentity (nr M + 1); do v <- mcol M 0; do vv <- cdot v v; do s <- fdiv 2%R (vv + 1)%R;
        do W <- msub_view M 1 (nr M) 1 (nc M); do q <- extract_vecs fuel W;
        do m <- mset m 0 0 (1 - s)%R;
        do qv <- mmul q v; do a <- mscale qv (- s)%R; do m <- mwrite m 1 (nr m) 0 1 a;
        do vt <- mtranspose v; do c <- mscale vt (- s)%R; do m <- mwrite m 0 1 1 (nc m) c;
        do vts <- mscale vt s; do z <- mmul qv vts; do u <- msub q z; mwrite m 1 (nr m) 1 (nc m) u
    end
  else None.
Definition extract_householder_vecs (M : mat R) : option (mat R) := extract_vecs (S (nr M)) M.
