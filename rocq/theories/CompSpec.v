(** Specification: the number of connected components of the complex generated by a list of simplices. *)
From Coq Require Import List Arith.
From Verif Require Import SimpSpec.
(** [c] components: the vertices can be numbered with the numbers below [c], all of them used, so that two vertices have the same number exactly
    when a chain of simplices joins them. *)
Definition n_components {T} (eqb : T -> T -> bool) (hist : list (list T)) (c : nat) : Prop :=
  exists part : T -> nat,
    (forall x y, In x (skeleton eqb hist) -> In y (skeleton eqb hist) -> (part x = part y <-> joined hist x y)) /\
    (forall x, In x (skeleton eqb hist) -> part x < c) /\
    (forall k, k < c -> exists x, In x (skeleton eqb hist) /\ part x = k).
