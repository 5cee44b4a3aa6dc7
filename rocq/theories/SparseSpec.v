(** Specification vocabulary for sparse matrices. *)
From Coq Require Import List Arith.
From Verif Require Import PidModel MatModel.
Import ListNotations.
Open Scope nat_scope.
Section Spec.
  Context {T : Type} {OT : Ops T}.
  (** The present entries of row [i] / column [j], in increasing order of the other index. *)
  Definition row_list (f : nat -> nat -> option T) (m i : nat) : list (nat * T) :=
    flat_map (fun j => match f i j with Some v => [(j, v)] | None => [] end) (seq 0 m).
  Definition col_list (f : nat -> nat -> option T) (n j : nat) : list (nat * T) :=
    flat_map (fun i => match f i j with Some v => [(i, v)] | None => [] end) (seq 0 n).
  (** The matrix an entry function stands for. *)
  Definition dense (f : nat -> nat -> option T) (i j : nat) : T := match f i j with Some v => v | None => t0 end.
End Spec.
