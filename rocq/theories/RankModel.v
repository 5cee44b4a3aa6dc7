(** Model of [Matrix::rank_as_linear_map] (alg/src/lin_alg/matrix_impl.rs:1076-1115), for coefficients in a field with exact arithmetic. *)
From Coq Require Import List Arith Bool.
From Verif Require Import PidModel MatModel SnfModel.
Import ListNotations.
Open Scope nat_scope.

(** The operations of the trait [Field] (alg/src/commutative.rs) used besides the ring ones: [/] and [==]. *)
Class FOps (T : Type) := { tdiv : T -> T -> T; teqb : T -> T -> bool }.

Section Rank.
  Context {T : Type} {OT : Ops T} {FT : FOps T}.
  (** [clone[(i,j)] != T::zero()] *)
  Definition nzM (M : mat T) (i j : nat) : option bool := do x <- mget M i j; Some (negb (teqb x t0)).

  (** alg/src/lin_alg/matrix_impl.rs:1083-1089 *)
  Definition rank_fix_col (M : mat T) (k : nat) : option (mat T) :=
    do nz <- nzM M k k;
    if nz then Some M else
    do r <- findM (fun i => nzM M k i) (rng (k + 2) (nc M));
    match r with Some j => col_operation M k j t1 | None => Some M end.
  (** :1090-1099; the boolean says whether the step goes on ([false]: [skipped += 1; continue]). *)
  Definition rank_fix_row (M : mat T) (k : nat) : option (mat T * bool) :=
    do nz <- nzM M k k;
    if nz then Some (M, true) else
    do r <- findM (fun j => nzM M j k) (rng (k + 2) (nr M));
    match r with Some i => do M' <- row_operation M k i t1; Some (M', true) | None => Some (M, false) end.
  (** :1101-1110 *)
  Definition rank_elim (M : mat T) (k : nat) : option (mat T) :=
    do p <- mget M k k;
    do M <- row_operation M k k (tsub (tdiv t1 p) t1);
    foldM (fun M l =>
      do a <- mget M l k;
      if teqb a t0 then Some M else row_operation M l k (tmul (tsub t0 t1) a)) (rng (k + 1) (nr M)) M.
  Definition rank_step (st : mat T * nat) (k : nat) : option (mat T * nat) :=
    do M <- rank_fix_col (fst st) k;
    do Mb <- rank_fix_row M k;
    if snd Mb then do M' <- rank_elim (fst Mb) k; Some (M', snd st) else Some (fst Mb, snd st + 1).
  (** alg/src/lin_alg/matrix_impl.rs:1078-1114 [rank_as_linear_map] *)
  Definition rank_as_linear_map (A : mat T) : option nat :=
    let shorter := Nat.min (nr A) (nc A) in
    do st <- foldM rank_step (rng 0 shorter) (A, 0);
    if snd st <=? shorter then Some (shorter - snd st) else None.
End Rank.
