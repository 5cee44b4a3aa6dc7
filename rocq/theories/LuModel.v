(** Model of the part of the numerical linear algebra of alg/src/lin_alg/matrix_impl.rs that needs only field operations: [lu], [det], [solve].
    Simplifications: [f64] is an arbitrary field with exact arithmetic and a decidable equality; a division by zero, where [f64] leaves the
    finite numbers (infinity or NaN), is [None], like a panic. *)
From Coq Require Import List Arith Bool.
From Verif Require Import PidModel MatModel SnfModel RankModel.
Import ListNotations.
Open Scope nat_scope.

Section Lu.
  Context {T : Type} {OT : Ops T} {FT : FOps T}.
  (** [a / b] *)
  Definition fdiv (a b : T) : option T := if teqb b t0 then None else Some (tdiv a b).
  (** alg/src/lin_alg/matrix_impl.rs:513-524 [Div<T> for &SubMatrix<T>]. *)
  Definition mdivs (A : mat T) (c : T) : option (mat T) :=
    mbuild (nr A) (nc A) (fun i j => do a <- mget A i j; fdiv a c).

  (** matrix_impl.rs:1699-1702: one step of the elimination. *)
  Definition lu_step (n : nat) (M : mat T) (i : nat) : option (mat T) :=
    do col <- msub_view M (i + 1) n i (i + 1); do p <- mget M i i; do u <- mdivs col p;
    do M <- mwrite M (i + 1) n i (i + 1) u;
    do B <- msub_view M (i + 1) n (i + 1) n;
    do c <- msub_view M (i + 1) n i (i + 1); do r <- msub_view M i (i + 1) (i + 1) n;
    do cr <- mmul c r; do u <- msub B cr;
    mwrite M (i + 1) n (i + 1) n u.
  (** matrix_impl.rs:1694-1704 [lu]; [n - 1] underflows for an empty matrix. *)
  Definition lu (M : mat T) : option (mat T) :=
    if nr M =? nc M then
      let n := nr M in if n =? 0 then None else foldM (lu_step n) (rng 0 (n - 1)) M
    else None.
  (** matrix_impl.rs:1137-1147, 1644-1647 [det]. *)
  Definition det (M : mat T) : option T :=
    if nr M =? nc M then
      do L <- lu M; do d <- omapM (fun i => mget L i i) (seq 0 (nr L)); Some (fold_left tmul d t1)
    else Some t0.
  (** matrix_impl.rs:1324-1326: forward substitution. *)
  Definition forward_step (L b : mat T) (i : nat) : option (mat T) :=
    do x <- mget b i 0; do r <- msub_view L i (i + 1) 0 i; do c <- msub_view b 0 i 0 1; do d <- mdot r c;
    mset b i 0 (tsub x d).
  (** matrix_impl.rs:1330-1333: backward substitution. *)
  Definition backward_step (n : nat) (L b : mat T) (i : nat) : option (mat T) :=
    do x <- mget b i 0; do r <- msub_view L i (i + 1) (i + 1) n; do c <- msub_view b (i + 1) n 0 1; do d <- mdot r c;
    do b <- mset b i 0 (tsub x d);
    do y <- mget b i 0; do p <- mget L i i; do z <- fdiv y p; mset b i 0 z.
  (** matrix_impl.rs:1306-1336 [solve]. *)
  Definition solve (A b : mat T) : option (mat T) :=
    if (nr A =? nc A) && (nc A =? nr b) then
      let n := nr A in
      do L <- lu A;
      do b <- foldM (forward_step L) (rng 1 n) b;
      do x <- mget b (n - 1) 0; do p <- mget L (n - 1) (n - 1); do z <- fdiv x p; do b <- mset b (n - 1) 0 z;
      foldM (backward_step n L) (rev (rng 0 (n - 1))) b
    else None.
End Lu.
