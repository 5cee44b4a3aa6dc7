(** Model of the matrix operations of alg/src/lin_alg/matrix_impl.rs over any coefficient type.
    A [mat] holds the entries a view shows; that views show the right entries of the underlying memory, and that writes through
    them hit exactly one entry, is the subject of ViewModel/ViewProps.  Panics are [None].
    Simplifications: arithmetic on coefficients is exact (no overflow); [Matrix::new] (uninitialised memory) is not modelled by
    itself, every caller overwrites all entries in a double loop, which is [mbuild]. *)
From Coq Require Import List Arith ZArith Bool.
From Verif Require Import PidModel.
Import ListNotations.
Open Scope nat_scope.

(** The coefficient operations used (trait [PID], alg/src/commutative.rs:103-117). *)
Class Ops (T : Type) := { t0 : T; t1 : T; tadd : T -> T -> T; tmul : T -> T -> T; tsub : T -> T -> T; topp : T -> T }.
(** Integers, with exact arithmetic (alg/src/commutative.rs:127-187, [impl PID for i64] and friends). *)
Global Instance ops_Z : Ops Z := {| t0 := 0%Z; t1 := 1%Z; tadd := Z.add; tmul := Z.mul; tsub := Z.sub; topp := Z.opp |}.

Record mat (T : Type) := Mat { nr : nat; nc : nat; rws : list (list T) }.
Arguments Mat {T}. Arguments nr {T}. Arguments nc {T}. Arguments rws {T}.

Fixpoint omapM {A B} (f : A -> option B) (l : list A) : option (list B) :=
  match l with [] => Some [] | x :: t => do y <- f x; do r <- omapM f t; Some (y :: r) end.
Fixpoint foldM {A S} (f : S -> A -> option S) (l : list A) (s : S) : option S :=
  match l with [] => Some s | x :: t => do s' <- f s x; foldM f t s' end.
Fixpoint lset {A} (l : list A) (i : nat) (x : A) : list A :=
  match l, i with [], _ => [] | _ :: t, O => x :: t | y :: t, S k => y :: lset t k x end.

Section Mat.
  Context {T : Type} {O : Ops T}.

  (** alg/src/lin_alg/matrix_impl.rs:308-323 [self[(i, j)]]. *)
  Definition mget (M : mat T) (i j : nat) : option T :=
    if (i <? nr M) && (j <? nc M) then (do r <- nth_error (rws M) i; nth_error r j) else None.
  (** alg/src/lin_alg/matrix_impl.rs:325-330 [self[(i, j)] = x]. *)
  Definition mset (M : mat T) (i j : nat) (x : T) : option (mat T) :=
    if (i <? nr M) && (j <? nc M) then
      do r <- nth_error (rws M) i; Some (Mat (nr M) (nc M) (lset (rws M) i (lset r j x)))
    else None.

  (** [Matrix::new(n, m)] followed by [for i in 0..n { for j in 0..m { out[(i,j)] = f(i,j) } }]. *)
  Definition mbuild (n m : nat) (f : nat -> nat -> option T) : option (mat T) :=
    do r <- omapM (fun i => omapM (f i) (seq 0 m)) (seq 0 n); Some (Mat n m r).

  (** alg/src/lin_alg/matrix_impl.rs:256-275 [&self[(r0..r1, c0..c1)]] (contents of the view). *)
  Definition msub_view (M : mat T) (r0 r1 c0 c1 : nat) : option (mat T) :=
    if (r0 <=? r1) && (r1 <=? nr M) && (c0 <=? c1) && (c1 <=? nc M)
    then mbuild (r1 - r0) (c1 - c0) (fun i j => mget M (r0 + i) (c0 + j)) else None.
  Definition mrow (M : mat T) (i : nat) : option (mat T) := msub_view M i (i + 1) 0 (nc M).
  Definition mcol (M : mat T) (j : nat) : option (mat T) := msub_view M 0 (nr M) j (j + 1).

  (** alg/src/lin_alg/matrix_impl.rs:117-124, 674-680 [transpose]. *)
  Definition mtranspose (M : mat T) : option (mat T) := mbuild (nc M) (nr M) (fun i j => mget M j i).

  (** alg/src/lin_alg/matrix_impl.rs:140-149, 757-761 [as_matrix], [clone]. *)
  Definition as_matrix (M : mat T) : option (mat T) := mbuild (nr M) (nc M) (mget M).

  (** alg/src/lin_alg/matrix_impl.rs:126-138 [dot]. *)
  Definition mdot (A B : mat T) : option T :=
    if (nr A =? 1) && (nc B =? 1) then
      if nc A =? nr B then
        do l <- omapM (fun i => do a <- mget A 0 i; do b <- mget B i 0; Some (tmul a b)) (seq 0 (nc A));
        Some (fold_left tadd l t0)
      else None
    else None.

  (** alg/src/lin_alg/matrix_impl.rs:332-350 [Add], [Sub] (the assigning and owning forms, :352-385, :439-469, compute the same). *)
  Definition mzip (op : T -> T -> T) (A B : mat T) : option (mat T) :=
    if (nr A =? nr B) && (nc A =? nc B) then
      mbuild (nr A) (nc A) (fun i j => do a <- mget A i j; do b <- mget B i j; Some (op a b))
    else None.
  Definition madd := mzip tadd.
  Definition msub := mzip tsub.

  (** alg/src/lin_alg/matrix_impl.rs:388-399 [Mul]. *)
  Definition mmul (A B : mat T) : option (mat T) :=
    mbuild (nr A) (nc B) (fun i j => do r <- mrow A i; do c <- mcol B j; mdot r c).

  (** alg/src/lin_alg/matrix_impl.rs:487-498 [Mul<T>]. *)
  Definition mscale (A : mat T) (c : T) : option (mat T) :=
    mbuild (nr A) (nc A) (fun i j => do a <- mget A i j; Some (tmul a c)).

  (** alg/src/lin_alg/matrix_impl.rs:800-809 [zero]. *)
  Definition mzero (n m : nat) : option (mat T) :=
    if (0 <? n) && (0 <? m) then mbuild n m (fun _ _ => Some t0) else None.
  (** alg/src/lin_alg/matrix_impl.rs:811-816 [identity]. *)
  Definition midentity (n : nat) : option (mat T) :=
    if 0 <? n then do Z <- mzero n n; foldM (fun M i => mset M i i t1) (seq 0 n) Z else None.

  (** alg/src/lin_alg/matrix_impl.rs:151-157 [swap_rows]. *)
  Definition swap_rows (M : mat T) (r1 r2 : nat) : option (mat T) :=
    foldM (fun M j => do tmp <- mget M r1 j; do x <- mget M r2 j; do M1 <- mset M r1 j x; mset M1 r2 j tmp) (seq 0 (nc M)) M.
  (** alg/src/lin_alg/matrix_impl.rs:159-165 [swap_cols]. *)
  Definition swap_cols (M : mat T) (c1 c2 : nat) : option (mat T) :=
    foldM (fun M i => do tmp <- mget M i c1; do x <- mget M i c2; do M1 <- mset M i c1 x; mset M1 i c2 tmp) (seq 0 (nr M)) M.

  (** alg/src/lin_alg/matrix_impl.rs:167-170 [row_operation]: row r1 += scalar * row r2. *)
  Definition row_operation (M : mat T) (r1 r2 : nat) (s : T) : option (mat T) :=
    do r <- mrow M r2; do v <- mscale r s;
    foldM (fun M i => do a <- mget M r1 i; do b <- mget v 0 i; mset M r1 i (tadd a b)) (seq 0 (nc M)) M.
  (** alg/src/lin_alg/matrix_impl.rs:172-175 [col_operation]: column c1 += scalar * column c2. *)
  Definition col_operation (M : mat T) (c1 c2 : nat) (s : T) : option (mat T) :=
    do c <- mcol M c2; do v <- mscale c s;
    foldM (fun M j => do a <- mget M j c1; do b <- mget v j 0; mset M j c1 (tadd a b)) (seq 0 (nr M)) M.

  (** alg/src/lin_alg/matrix_impl.rs:177-188 [self[(r0..r1, c0..c1)].write(&m)]. *)
  Definition mwrite (M : mat T) (r0 r1 c0 c1 : nat) (N : mat T) : option (mat T) :=
    if (r0 <=? r1) && (r1 <=? nr M) && (c0 <=? c1) && (c1 <=? nc M) && (r1 - r0 =? nr N) && (c1 - c0 =? nc N) then
      foldM (fun M i => foldM (fun M j => do x <- mget N i j; mset M (r0 + i) (c0 + j) x) (seq 0 (nc N)) M) (seq 0 (nr N)) M
    else None.

  (** alg/src/lin_alg/matrix_impl.rs:655-672 [from_array]; note that the check is [all], not [any]. *)
  Definition from_array (v : list (list T)) : option (mat T) :=
    match v with
    | [] => None
    | [] :: _ => None
    | row0 :: _ =>
        let n := length v in let m := length row0 in
        if forallb (fun r => negb (length r =? m)) v then None
        else mbuild n m (fun i j => do r <- nth_error v i; nth_error r j)
    end.

  (** alg/src/lin_alg/matrix_impl.rs:558-572 [PartialEq for SubMatrix]. *)
  Definition meqb (teqb : T -> T -> bool) (A B : mat T) : bool :=
    (nr A =? nr B) && (nc A =? nc B) &&
    forallb (fun i => forallb (fun j => match mget A i j, mget B i j with Some a, Some b => teqb a b | _, _ => false end)
                        (seq 0 (nc A))) (seq 0 (nr A)).

  (** alg/src/lin_alg/matrix_impl.rs:626-635 [is_diagonal]. *)
  Definition is_diagonal (teqb : T -> T -> bool) (M : mat T) : bool :=
    forallb (fun i => forallb (fun j => match mget M i j with Some a => teqb a t0 || (i =? j) | None => false end)
                        (seq 0 (nc M))) (seq 0 (nr M)).

  (** alg/src/lin_alg/matrix_impl.rs:529-537 [MulAssign<T>]: in place. *)
  Definition mscale_assign (M : mat T) (c : T) : option (mat T) :=
    foldM (fun M i => foldM (fun M j => do a <- mget M i j; mset M i j (tmul a c)) (seq 0 (nc M)) M) (seq 0 (nr M)) M.
End Mat.
