(** The rank of a matrix, defined as the dimension of its row space. *)
From Coq Require Import List Arith.
From Verif Require Import PidModel MatModel MatSpec.
Open Scope nat_scope.
Section Spec.
  Context {T : Type} {OT : Ops T}.
  (** The [r] vectors [v 0 .. v (r-1)] of length [m] are linearly independent. *)
  Definition independent (r m : nat) (v : nat -> nat -> T) : Prop :=
    forall c : nat -> T, (forall j, j < m -> sum r (fun i => tmul (c i) (v i j)) = t0) -> forall i, i < r -> c i = t0.
  (** The row space of the [n x m] matrix [f] contains [r] independent vectors, each a combination (row of [C]) of the rows of [f]. *)
  Definition rank_at_least (n m : nat) (f : nat -> nat -> T) (r : nat) : Prop :=
    exists C : nat -> nat -> T, independent r m (prod_entry n C f).
  Definition is_rank (n m : nat) (f : nat -> nat -> T) (r : nat) : Prop :=
    rank_at_least n m f r /\ forall s, rank_at_least n m f s -> s <= r.
End Spec.
