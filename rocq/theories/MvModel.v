(** Model of analysis/src/lib.rs:436-510 ([MultiVarFn], its builder, [jacobian], [eval]) and 660-697 ([eval] of a matrix and of a sparse
    matrix of functions).  Simplifications: those of AnaModel (real numbers; a point is the list of its entries; an undefined value is
    [None]); the closure given to the builder's [set] is represented by what it leaves in each component; [binary_search_by] is modelled
    by its documented result on a vector strictly sorted by index (anything else is [None], so the theorems also show it is sorted). *)
From Coq Require Import List Arith ZArith Bool Reals.
From Verif Require Import PidModel MatModel NumModel SparseModel AnaModel.
Import ListNotations.
Open Scope nat_scope.

(** analysis/src/lib.rs:436-440 [MultiVarFn]. *)
Record mv := Mv { mv_fns : list afn; mv_dim : nat }.
(** analysis/src/lib.rs:449-453 [new] and 500-507 [MultiVarFnBuilder::set]: the components start as [Zero]; the closure is given the
    index, the component and the coordinates. *)
Definition mv_new (dims : nat * nat) (setter : nat -> afn -> list afn -> afn) : mv :=
  Mv (map (fun i => setter i AZero (map AProj (seq 0 (snd dims)))) (seq 0 (fst dims))) (snd dims).
(** analysis/src/lib.rs:442-447 [Index]. *)
Definition mv_index (F : mv) (i : nat) : option afn := nth_error (mv_fns F) i.
(** analysis/src/lib.rs:484-494 [eval]. *)
Definition mv_eval (F : mv) (x : list R) : option (mat R) :=
  do Z <- mzero (length (mv_fns F)) 1;
  foldM (fun M i => do f <- nth_error (mv_fns F) i; do v <- eval x f; mset M i 0 v) (seq 0 (length (mv_fns F))) Z.

(** The order of pairs of indices. *)
Definition idx_ltb (a b : nat * nat) : bool := (fst a <? fst b) || ((fst a =? fst b) && (snd a <? snd b)).
Fixpoint idx_sorted (l : list (nat * nat)) : bool := match l with a :: ((b :: _) as t) => idx_ltb a b && idx_sorted t | _ => true end.
Section Table.
  Context {T : Type}.
  (** analysis/src/lib.rs:472-476 and 688-694: the closure that looks an index up. *)
  Definition table_get (l : list ((nat * nat) * T)) (i j : nat) : option T :=
    match find (fun e => (fst (fst e) =? i) && (snd (fst e) =? j)) l with Some e => Some (snd e) | None => None end.
  Definition sparse_of_table (n m : nat) (l : list ((nat * nat) * T)) : option (sparse T) :=
    if idx_sorted (map fst l) then sparse_from n m (table_get l) else None.
End Table.
(** analysis/src/lib.rs:460-468: the entries of one row. *)
Definition mv_row (dim i : nat) (f : afn) : option (list ((nat * nat) * afn)) :=
  do row <- a_jacobian f dim;
  Some (map (fun p => ((i, fst p), snd p)) (filter (fun p => negb (a_eqb (snd p) AZero)) (combine (seq 0 dim) row))).
(** analysis/src/lib.rs:455-481 [jacobian]. *)
Definition mv_jacobian (F : mv) : option (sparse afn) :=
  do rows <- omapM (fun p => mv_row (mv_dim F) (fst p) (snd p)) (combine (seq 0 (length (mv_fns F))) (mv_fns F));
  sparse_of_table (length (mv_fns F)) (mv_dim F) (concat rows).
(** analysis/src/lib.rs:663-675 [eval] of [Matrix<AtomicSmoothFn>]. *)
Definition dense_eval (A : mat afn) (x : list R) : option (mat R) :=
  do Z <- mzero (nr A) (nc A);
  foldM (fun M i => foldM (fun M j => do f <- mget A i j; do v <- eval x f; mset M i j v) (seq 0 (nc A)) M) (seq 0 (nr A)) Z.
(** analysis/src/lib.rs:677-697 [eval] of [SparseMatrix<AtomicSmoothFn>]. *)
Definition sparse_eval (s : sparse afn) (x : list R) : option (sparse R) :=
  do rows <- omapM (fun i => do l <- row_iter s i; omapM (fun p => do v <- eval x (snd p); Some ((i, fst p), v)) l)
               (seq 0 (fst (s_size s)));
  sparse_of_table (fst (s_size s)) (snd (s_size s)) (concat rows).
