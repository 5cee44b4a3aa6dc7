(** Specification vocabulary for matrices. *)
From Coq Require Import List Arith Bool Ring_theory.
From Verif Require Import PidModel MatModel.
Import ListNotations.
Open Scope nat_scope.

Section Spec.
  Context {T : Type} {O : Ops T}.
  (** The coefficient laws (a commutative ring). *)
  Definition ring_laws : Prop := ring_theory t0 t1 tadd tmul tsub topp (@eq T).

  Fixpoint sum (n : nat) (f : nat -> T) : T := match n with 0 => t0 | S k => tadd (sum k f) (f k) end.

  (** [M] is the [n x m] matrix whose (i,j) entry is [f i j]. *)
  Definition is_mat (n m : nat) (f : nat -> nat -> T) (M : mat T) : Prop :=
    nr M = n /\ nc M = m /\ length (rws M) = n /\ Forall (fun r => length r = m) (rws M) /\
    forall i j, i < n -> j < m -> nth_error (nth i (rws M) []) j = Some (f i j).
  (** A well-formed matrix. *)
  Definition wf (M : mat T) : Prop := length (rws M) = nr M /\ Forall (fun r => length r = nc M) (rws M).
  (** Its entries (the default is never used inside the bounds). *)
  Definition ent (M : mat T) (i j : nat) : T := nth j (nth i (rws M) []) t0.

  (** The mathematical operations on entry functions. *)
  Definition prod_entry (k : nat) (f g : nat -> nat -> T) (i j : nat) : T := sum k (fun l => tmul (f i l) (g l j)).
  Definition id_entry (i j : nat) : T := if i =? j then t1 else t0.
End Spec.
