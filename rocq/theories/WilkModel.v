(** Model of the symmetric QR algorithm of alg/src/lin_alg/matrix_impl.rs:1909-1994, 1404-1430.  Conventions of NumModel: real numbers, [None] is a panic (or a number that is not
    finite), [Some None] a [while] loop that has not ended after the given number of iterations. *)
From Coq Require Import List Arith Bool Reals.
From Verif Require Import PidModel MatModel SnfModel RankModel LuModel NumModel FrancisModel TriModel.
Import ListNotations.
Open Scope nat_scope.

(** matrix_impl.rs:1911-1913: the shift *)
Definition wilkinson_shift (n : nat) (M : mat R) : option R :=
  do n2 <- usub n 2; do a <- mget M n2 n2; do e <- mget M (n - 1) (n - 1);
  let d := ((a - e) / 2)%R in let sign := if rleb 0 d then 1%R else (-1)%R in
  do b <- mget M (n - 1) n2; do q <- fdiv (b * b)%R (d + sign * sqrt (d * d + b * b))%R; Some (e - q)%R.
(** :1920-1929, two neighbouring rows and columns, from [start] to [fin], are rotated by [[c, s], [-s, c]] *)
Definition rotate (n i : nat) (c s : R) (M : mat R) : option (mat R) :=
  let g := Mat 2 2 [[c; s]; [- s; c]]%R in
  let start := if i =? 0 then 0 else i - 1 in let fin := Nat.min n (start + 4) in
  do W <- msub_view M i (i + 2) start fin; do gt <- mtranspose g; do u <- mmul gt W; do M <- mwrite M i (i + 2) start fin u;
  do W <- msub_view M start fin i (i + 2); do u <- mmul W g; mwrite M start fin i (i + 2) u.
Record wk_state := WkSt { wk_m : mat R; wk_x : R; wk_z : R; wk_op : mat R }.
(** :1918-1941, the body of [for i] *)
Definition wk_step (with_op : bool) (n : nat) (st : wk_state) (i : nat) : option wk_state :=
  do cs <- givens_rotation (wk_x st) (wk_z st);
  do M <- rotate n i (fst cs) (snd cs) (wk_m st);
  do xz <- (if i <? n - 2 then do x <- mget M (i + 1) i; do z <- mget M (i + 2) i; Some (x, z) else Some (wk_x st, wk_z st));
  do op <- (if with_op then do o <- mset (wk_op st) i 0 (fst cs); mset o i 1 (snd cs) else Some (wk_op st));
  Some (WkSt M (fst xz) (snd xz) op).
(** matrix_impl.rs:1909-1943 [implicit_symmetric_qr_with_wilkinson_shift]: the matrix it leaves and the one it returns. *)
Definition wilkinson_step (M : mat R) (with_op : bool) : option (mat R * mat R) :=
  let n := nr M in
  do m <- wilkinson_shift n M; do a <- mget M 0 0; do z <- mget M 1 0; do op <- mzero (n - 1) 2;
  do st <- foldM (wk_step with_op n) (rng 0 (n - 1)) (WkSt M (a - m)%R z op); Some (wk_m st, wk_op st).

(** matrix_impl.rs:1958-1963: the far entries are set to zero *)
Definition sq_clear (n : nat) (M : mat R) : option (mat R) :=
  foldM (fun M i => foldM (fun M j => do M <- mset M i j 0%R; mset M j i 0%R) (rng (i + 2) n) M) (rng 0 (n - 2)) M.
Definition sq_tol : R := (/ 10000000000)%R.
(** :1967-1972 *)
Definition sq_chop (n : nat) (M : mat R) : option (mat R) :=
  foldM (fun M i => do x <- mget M (i + 1) i; if rltb (Rabs x) sq_tol then do M <- mset M (i + 1) i 0%R; mset M i (i + 1) 0%R else Some M) (rng 0 (n - 1)) M.
(** :1974-1976 *)
Definition sq_q (n : nat) (M : mat R) : option nat :=
  do o <- findM (fun i => do x <- mget M (n - i - 1) (n - i - 2); if rltb sq_tol (Rabs x) then do y <- mget M (n - i - 2) (n - i - 3); Some (rltb sq_tol (Rabs y)) else Some false) (rng 0 (n - 2));
  Some (match o with Some q => q | None => n end).
(** :1978-1981 *)
Definition sq_p (n q : nat) (M : mat R) : option nat :=
  do o <- findM (fun i => do x <- mget M i (i - 1); Some (rltb (Rabs x) sq_tol)) (rev (rng 1 (n - q))); Some (match o with Some p => p | None => 0 end).
(** :1986-1991: the rotations applied to [op] - at the rows 0, 1, ..., whatever the window *)
Definition sq_apply (givens op : mat R) : option (mat R) :=
  foldM (fun op i => do c <- mget givens i 0; do s <- mget givens i 1; do W <- msub_view op i (i + 2) 0 (nc op); do u <- mmul (Mat 2 2 [[c; - s]; [s; c]]%R) W; mwrite op i (i + 2) 0 (nc op) u) (rng 0 (nr givens)) op.
(** :1966-1993, one iteration; the new [q] is returned *)
Definition sq_body (with_op : bool) (n : nat) (M op : mat R) : option (mat R * mat R * nat) :=
  do M <- sq_chop n M; do q <- sq_q n M; do p <- sq_p n q M;
  if q <? n then
    if 2 <? n - q - p then
      do W <- msub_view M p (n - q) p (n - q); do r <- wilkinson_step W with_op; do M <- mwrite M p (n - q) p (n - q) (fst r);
      if with_op then do op <- sq_apply (snd r) op; Some (M, op, q) else Some (M, op, q)
    else None
  else Some (M, op, q).
Fixpoint sq_loop (fuel : nat) (with_op : bool) (n : nat) (M op : mat R) : option (option (mat R * mat R)) :=
  match fuel with
  | 0 => Some None
  | S f => do r <- sq_body with_op n M op; let '(M, op, q) := r in if q <? n then sq_loop f with_op n M op else Some (Some (M, op))
  end.
(** matrix_impl.rs:1945-1994 [symmetric_qr]; [while q<n] is entered when [n] is positive, and [n < 2] has panicked before. *)
Definition symmetric_qr (fuel : nat) (M : mat R) (with_op : bool) : option (option (mat R * mat R)) :=
  let n := nr M in
  do op <- midentity n; do M <- householder_tridiagonalization M with_op;
  do op <- (if with_op then do op <- midentity n; do B <- msub_view M 2 n 0 (n - 2); do Q <- extract_householder_vecs B; mwrite op 1 n 1 n Q else Some op);
  do M <- sq_clear n M; sq_loop fuel with_op n M op.

(** matrix_impl.rs:1411-1421 *)
Fixpoint sym_blocks (fuel : nat) (M : mat R) (i : nat) : option (list R) :=
  if i <? nr M then
    match fuel with
    | 0 => None
    | S f =>
      do single <- (if i =? nr M - 1 then Some true else do x <- mget M (i + 1) i; Some (rltb (Rabs x) (/ 100000000000000)));
      if (single : bool) then do x <- mget M i i; do l <- sym_blocks f M (i + 1); Some (x :: l)
      else do W <- msub_view M i (i + 2) i (i + 2); do o <- real_spectrum_of_two_by_two W;
           match o with Some (x, y) => do l <- sym_blocks f M (i + 2); Some (x :: y :: l) | None => None end
    end
  else Some [].
(** matrix_impl.rs:1404-1430 [spectrum_symmetric] *)
Definition spectrum_symmetric (fuel : nat) (M : mat R) : option (option (mat R)) :=
  if nr M =? nc M then
    do r <- symmetric_qr fuel M false;
    match r with
    | None => Some None
    | Some (H, _) => do l <- sym_blocks (nr M) H 0; do v <- mbuild (nr M) 1 (fun i _ => nth_error (rsort l) i); Some (Some v)
    end
  else None.
