(** [f64] as IEEE 754 binary64 (Flocq), for the generic model of dense matrices ([MatModel]) and of [lu], [det], [solve] ([LuModel]): here the
    arithmetic of alg/src/lin_alg/matrix_impl.rs at the type [f64] is taken with its rounding errors, its overflows, infinities and not-a-number,
    not as exact arithmetic.  Rust's [+], [-], [*], [/] on [f64] round to nearest, ties to even; no operation is fused or reassociated.
    Simplifications: all not-a-number values are one value (no payload or sign, which no code of the library looks at); the empty sum is [+0.0] (newer versions of Rust start from [-0.0]: the result
    can differ in the sign of a zero only). *)
From Coq Require Import ZArith List Arith Bool.
From Flocq Require Import IEEE754.BinarySingleNaN.
From Verif Require Import PidModel MatModel SnfModel RankModel LuModel.
Definition binary64 := binary_float 53 1024.
Global Instance prec_gt_0_53 : FLX.Prec_gt_0 53.
Proof. reflexivity. Defined.
Global Instance prec_lt_emax_53 : Prec_lt_emax 53 1024.
Proof. reflexivity. Defined.
(** alg/src/commutative.rs:84-103 [zero], [one] of [f64]; the operators of [f64]. *)
Definition f_add (x y : binary64) : binary64 := Bplus mode_NE x y.
Definition f_sub (x y : binary64) : binary64 := Bminus mode_NE x y.
Definition f_mul (x y : binary64) : binary64 := Bmult mode_NE x y.
Definition f_div (x y : binary64) : binary64 := Bdiv mode_NE x y.
Definition f_zero : binary64 := B754_zero false.
Definition f_one : binary64 := binary_normalize 53 1024 prec_gt_0_53 prec_lt_emax_53 mode_NE 1 0 false.
Global Instance ops_f64 : Ops binary64 :=
  {| t0 := f_zero; t1 := f_one; tadd := f_add; tmul := f_mul; tsub := f_sub; topp := fun x => Bopp x |}.
(** [lu], [det] and [solve] use [teqb] only for the panic of a division by zero ([LuModel.fdiv]).  [f64] has no such panic: [x / 0.0] is an infinity or
    not-a-number and the program goes on.  So the test is constantly false here; [tdiv] is total. *)
Global Instance fops_f64 : FOps binary64 := {| tdiv := f_div; teqb := fun _ _ => false |}.
