(** Model of the eigenvalue iterations of alg/src/lin_alg/matrix_impl.rs:1338-1365, 1730-1848.  Conventions of NumModel: real numbers, [None] is a panic (or a number
    that is not finite), [Some None] a [while] loop that has not ended after the given number of iterations. *)
From Coq Require Import List Arith Bool Reals.
From Verif Require Import PidModel MatModel SnfModel RankModel LuModel NumModel.
Import ListNotations.
Open Scope nat_scope.

(** [matrix!{f64; [[x,y,z]]}.transpose()] *)
Definition col_vec (l : list R) : mat R := Mat (List.length l) 1 (map (fun x => [x]) l).
(** matrix_impl.rs:1750-1754 and 1772-1774 *)
Definition fr_left (M : mat R) (r0 r1 c0 c1 : nat) (v : mat R) (b : R) : option (mat R) :=
  do B <- msub_view M r0 r1 c0 c1; do vt <- mtranspose v; do w <- mmul vt B; do wb <- mscale w b; do u <- mmul v wb; do d <- msub B u;
  mwrite M r0 r1 c0 c1 d.
(** :1757-1761 and 1776-1778 *)
Definition fr_right (M : mat R) (r0 r1 c0 c1 : nat) (v : mat R) (b : R) : option (mat R) :=
  do B <- msub_view M r0 r1 c0 c1; do w <- mmul B v; do vt <- mtranspose v; do vb <- mscale vt b; do u <- mmul w vb; do d <- msub B u;
  mwrite M r0 r1 c0 c1 d.
Record fr_st := FrSt { f_m : mat R; f_x : R; f_y : R; f_z : R }.
(** matrix_impl.rs:1746-1767, the body of [for k] *)
Definition fr_step (n : nat) (s : fr_st) (k : nat) : option fr_st :=
  do vb <- householder_vec (col_vec [f_x s; f_y s; f_z s]);
  do M <- fr_left (f_m s) k (k + 3) (if 0 <? k then k - 1 else 0) n (fst vb) (snd vb);
  do M <- fr_right M 0 (if k <? n - 3 then k + 4 else n) k (k + 3) (fst vb) (snd vb);
  do x <- mget M (k + 1) k; do y <- mget M (k + 2) k; do z <- (if k <? n - 3 then mget M (k + 3) k else Some (f_z s));
  Some (FrSt M x y z).
(** :1740-1744: the first column of [(A - s1)(A - s2)], with the eigenvalues of the trailing 2 x 2 block as shifts. *)
Definition fr_first (n : nat) (M : mat R) : option (R * R * R) :=
  do n2 <- usub n 2; do n1 <- usub n 1;
  do a <- mget M n2 n2; do d <- mget M n1 n1; do b <- mget M n2 n1; do c <- mget M n1 n2;
  let s := (a + d)%R in let t := (a * d - b * c)%R in
  do m00 <- mget M 0 0; do m01 <- mget M 0 1; do m10 <- mget M 1 0; do m11 <- mget M 1 1; do m21 <- mget M 2 1;
  Some (m00 * m00 + m01 * m10 - s * m00 + t, m10 * (m00 + m11 - s), m10 * m21)%R.
(** matrix_impl.rs:1730-1782 [raw_francis_step]: the matrix written back, and the matrix returned. *)
Definition raw_francis_step (M : mat R) (return_op : bool) : option (mat R * mat R) :=
  if nr M =? nc M then
    let n := nr M in
    do op <- midentity (if return_op then n else 1);
    do xyz <- fr_first n M;
    do n2 <- usub n 2;
    do s <- foldM (fr_step n) (rng 0 n2) (FrSt M (fst (fst xyz)) (snd (fst xyz)) (snd xyz));
    do vb <- householder_vec (col_vec [f_x s; f_y s]);
    do n3 <- usub n 3;
    do M <- fr_left (f_m s) n2 n n3 n (fst vb) (snd vb);
    do M <- fr_right M 0 n n2 n (fst vb) (snd vb);
    Some (M, op)
  else None.

Definition tolerance : R := (/ 1000000000000000)%R.
(** matrix_impl.rs:1813-1817 *)
Definition qr_chop_step (M : mat R) (i : nat) : option (mat R) :=
  do x <- mget M i (i - 1); do a <- mget M (i - 1) (i - 1); do d <- mget M i i;
  if rltb (Rabs x) (tolerance * (Rabs a + Rabs d)) then mset M i (i - 1) 0%R else Some M.
Definition qr_chop (M : mat R) : option (mat R) := foldM qr_chop_step (rng 1 (nr M)) M.
(** :1819-1821 *)
Definition qr_q (n : nat) (M : mat R) : option nat :=
  do n2 <- usub n 2;
  do q <- findM (fun i => do x <- mget M (n - i - 1) (n - i - 2); if rltb tolerance (Rabs x) then do y <- mget M (n - i - 2) (n - i - 3); Some (rltb tolerance (Rabs y)) else Some false) (rng 0 n2);
  Some (match q with Some q => q | None => n end).
(** :1823-1826 *)
Definition qr_p (n q : nat) (M : mat R) : option nat :=
  do e <- usub n q;
  do p <- findM (fun i => do x <- mget M i (i - 1); Some (rltb (Rabs x) tolerance)) (rev (rng 1 e));
  Some (match p with Some p => p | None => 0 end).
(** :1812-1836, the body of [while]; the matrix, the product of the operations, and [q] *)
Definition qr_body (returns_op : bool) (M op : mat R) : option (mat R * mat R * nat) :=
  let n := nr M in
  do M <- qr_chop M; do q <- qr_q n M; do p <- qr_p n q M;
  if q <? n then
    if 2 <? n - q - p then
      do W <- msub_view M p (n - q) p (n - q); do ro <- raw_francis_step W returns_op; do M <- mwrite M p (n - q) p (n - q) (fst ro);
      if returns_op then do op <- mmul op (snd ro); Some (M, op, q) else Some (M, op, q)
    else None
  else Some (M, op, q).
Fixpoint qr_loop (fuel : nat) (returns_op : bool) (M op : mat R) : option (option (mat R * mat R)) :=
  match fuel with
  | 0 => Some None
  | S f => do r <- qr_body returns_op M op; if snd r =? nr M then Some (Some (fst r)) else qr_loop f returns_op (fst (fst r)) (snd (fst r))
  end.
(** matrix_impl.rs:1792-1840 [raw_qr] *)
Definition raw_qr (fuel : nat) (M : mat R) (returns_op : bool) : option (option (mat R * mat R)) :=
  if nr M =? nc M then
    if nr M <? 2 then do op <- midentity 1; Some (Some (M, op))
    else do M <- hessenberg_form M; do op <- midentity (if returns_op then nr M else 1); qr_loop fuel returns_op M op
  else None.

(** [sort_by(|x, y| x.partial_cmp(y).unwrap())] *)
Fixpoint rinsert (x : R) (l : list R) : list R := match l with [] => [x] | y :: t => if rleb x y then x :: l else y :: rinsert x t end.
Fixpoint rsort (l : list R) : list R := match l with [] => [] | x :: t => rinsert x (rsort t) end.
(** matrix_impl.rs:1346-1355, the values in the order they are found; [out[i]] is only ever written once. *)
Fixpoint blocks (fuel : nat) (M : mat R) (i : nat) : option (list R) :=
  if i <? nr M then
    match fuel with
    | 0 => None
    | S f =>
      do single <- (if i =? nr M - 1 then Some true else do x <- mget M (i + 1) i; Some (rltb (Rabs x) (/ 100000000000)));
      if (single : bool) then do x <- mget M i i; do l <- blocks f M (i + 1); Some (x :: l)
      else do W <- msub_view M i (i + 2) i (i + 2); do o <- real_spectrum_of_two_by_two W;
           match o with Some (x, y) => do l <- blocks f M (i + 2); Some (x :: y :: l) | None => None end
    end
  else Some [].
(** matrix_impl.rs:1338-1365 [spectrum] *)
Definition spectrum (fuel : nat) (M : mat R) : option (option (mat R)) :=
  if nr M =? nc M then
    do r <- raw_qr fuel M false;
    match r with
    | None => Some None
    | Some (H, _) => do l <- blocks (nr M) H 0; do v <- mbuild (nr M) 1 (fun i _ => nth_error (rsort l) i); Some (Some v)
    end
  else None.
