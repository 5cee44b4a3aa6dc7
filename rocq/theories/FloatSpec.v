(** Vocabulary for rounding errors of [f64]. *)
From Coq Require Import ZArith Reals List Arith.
From Flocq Require Import Core.Raux IEEE754.BinarySingleNaN.
From Verif Require Import PidModel MatModel MatSpec NumModel FloatModel.
(** The real number a finite [f64] stands for. *)
Definition val (x : binary64) : R := B2R x.
Definition finite (x : binary64) : Prop := is_finite x = true.
(** All entries are finite. *)
Definition finite_mat (M : mat binary64) : Prop := forall i j, i < nr M -> j < nc M -> finite (ent M i j).
(** The entries as real numbers. *)
Definition rent (M : mat binary64) (i j : nat) : R := val (ent M i j).
(** Unit roundoff 2^-53; the smallest positive number is 2^-1074, so that an underflow costs at most half of it. *)
Definition uro : R := (/ 2 ^ 53)%R.
Definition tiny : R := (/ 2 ^ 1075)%R.
(** The relative error of [k] successive roundings, and what [k] underflows amount to after them. *)
Definition gam (k : nat) : R := ((1 + uro) ^ k - 1)%R.
Definition und (k : nat) : R := (INR k * tiny * (1 + uro) ^ k)%R.
(** The least positive normal number, 2^-1022. *)
Definition least_normal : R := (/ 2 ^ 1022)%R.
