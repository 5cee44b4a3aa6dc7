(** Determinants. *)
From Coq Require Import List Arith Bool.
From Verif Require Import PidModel MatModel MatSpec RankModel.
Open Scope nat_scope.
Section Spec.
  Context {T : Type} {OT : Ops T} {FT : FOps T}.
  (** A field: a commutative ring in which one can divide by everything but zero, and a correct equality test. *)
  Definition field_ok : Prop :=
    ring_laws (T := T) /\ (forall a x : T, x <> t0 -> tmul (tdiv a x) x = a) /\ t1 <> t0 :> T /\ (forall x y : T, teqb x y = true <-> x = y).
  (** The matrix without row [i] and without its first column. *)
  Definition minor (A : nat -> nat -> T) (i : nat) : nat -> nat -> T := fun r c => A (if r <? i then r else S r) (S c).
  Definition signed (i : nat) (x : T) : T := if Nat.even i then x else topp x.
  (** The determinant of the leading [n x n] block of [A], expanded along the first column. *)
  Fixpoint determinant (n : nat) (A : nat -> nat -> T) : T :=
    match n with 0 => t1 | S k => sum (S k) (fun i => signed i (tmul (A i 0) (determinant k (minor A i)))) end.
  (** The factors stored in one matrix: below the diagonal of [f], with ones on the diagonal; on and above it. *)
  Definition lower_part (f : nat -> nat -> T) (i j : nat) : T := if i =? j then t1 else if j <? i then f i j else t0.
  Definition upper_part (f : nat -> nat -> T) (i j : nat) : T := if i <=? j then f i j else t0.
End Spec.
