(** [impl Into<f64> for Rational] of alg/src/commutative/rational_impl.rs, at IEEE 754 binary64. *)
From Coq Require Import ZArith.
From Flocq Require Import IEEE754.BinarySingleNaN.
From Verif Require Import PidModel RationalModel FloatModel.
Open Scope Z_scope.
(** [n as f64] for an integer: rounded to nearest, ties to even. *)
Definition f_of_int (n : Z) : binary64 := binary_normalize 53 1024 prec_gt_0_53 prec_lt_emax_53 mode_NE n 0 false.
(** rational_impl.rs:91-97 [into] *)
Definition r_into_f64 (r : rational) : binary64 :=
  let out := f_div (f_of_int (num r)) (f_of_int (den r)) in if sign r then out else f_mul out (f_of_int (-1)).
