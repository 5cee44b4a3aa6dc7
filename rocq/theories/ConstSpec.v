(** Specification: fixed-size vectors and matrices as functions on indices. *)
From Coq Require Import List Arith.
Import ListNotations.

Section S.
  Context {T : Type}.
  (** [a] is an array of [n] entries given by [f]. *)
  Definition is_vec (n : nat) (f : nat -> T) (a : list T) : Prop :=
    length a = n /\ forall i, i < n -> nth_error a i = Some (f i).
  (** [a] is an [n] by [m] array whose entry in row [i], column [j] is [f i j]. *)
  Definition is_mat (n m : nat) (f : nat -> nat -> T) (a : list (list T)) : Prop :=
    length a = n /\ forall i, i < n -> exists r, nth_error a i = Some r /\ is_vec m (f i) r.
End S.
