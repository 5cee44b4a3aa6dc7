(** [geom/src/lib.rs] at IEEE 754 binary64: the arithmetic parameter of [GeomModel] is instantiated with the numbers the program uses. *)
From Coq Require Import ZArith List Arith Bool.
From Flocq Require Import IEEE754.BinarySingleNaN.
From Verif Require Import GeomModel FloatModel.
(** [n as f64] and the literals [1_f64], [2.0], [3_f64]: the nearest number. *)
Definition f_of_Z (z : Z) : binary64 := binary_normalize 53 1024 prec_gt_0_53 prec_lt_emax_53 mode_NE z 0 false.
(** [sqrt], [<] and [partial_cmp] of [f64]. *)
Definition Fnum : Num := mkNum binary64 f_zero (fun n => f_of_Z (Z.of_nat n)) f_add f_sub f_mul f_div (fun x => Bopp x) (fun x => Bsqrt mode_NE x)
  (fun x y => Bltb x y) (fun x y => Bcompare x y).
